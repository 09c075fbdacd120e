(* How often a read calls its reader. *)
From Verif Require Export Keep Host.

(** A reader that counts the calls made to it: reads, peeks, borrows, skips and
    allocations.  (`can_read_at_least` is asked at most once before each of them and is
    not counted.)  No counterpart in the code. *)
Definition tick {St A} (m : M St A) : M (N * St) A :=
  fun ns => let (r, s) := m (snd ns) in (r, (fst ns + 1, s)).
Definition counting {St} (R : reader St) : reader (N * St) :=
  {| rd_endian := rd_endian R;
     rd_read n := tick (rd_read R n); rd_read_ptr n := tick (rd_read_ptr R n);
     rd_peek n := tick (rd_peek R n); rd_peek_ptr n := tick (rd_peek_ptr R n);
     rd_skip n := tick (rd_skip R n);
     rd_can n ns := rd_can R n (snd ns);
     rd_borrow := option_map (fun b n => tick (b n)) (rd_borrow R);
     rd_borrow_r := option_map (fun b n => tick (b n)) (rd_borrow_r R);
     rd_borrow_eof := option_map tick (rd_borrow_eof R);
     rd_alloc n size min := tick (rd_alloc R n size min);
     rd_fuel ns := rd_fuel R (snd ns) |}.

(** Types of which every value takes at least one byte. *)
Definition field_takes (tk : bool) (a : fattrs) (t : ty) : bool :=
  negb (f_skip a) && negb (f_eof a)
  && (negb (match f_prefix a with [] => true | _ => false end)
      || if f_opaque a then tk else
         match t with
         | TOption _ => true
         | TStr (KString | KCowStr | KRefStr) | TSeq (KVec | KCow | KRef) _
         | TSet (CBTree | CHash) _ | TMap (CBTree | CHash) _ _ =>
           match f_len a with LEof | LExpr _ => false | _ => true end
         | _ => tk
         end).
Fixpoint takes (h : host) (t : ty) : bool :=
  match t with
  | TScalar SUnit => false
  | TScalar (SGlam _ n) => negb (Nat.eqb n 0)
  | TScalar _ | TStr _ | TSeq _ _ | TOption _ | TResult _ _ | TSet _ _ | TMap _ _ _ => true
  | TArr t' n => negb (Nat.eqb n 0) && (0 <? h_size h t') && takes h t'
  | TRefArr t' n => negb (Nat.eqb n 0) && (0 <? h_size h t')
  | TTuple ts => existsb (takes h) ts
  | TRange _ t' | TBox t' => takes h t'
  | TStruct _ fs => existsb (fun f => field_takes (takes h (snd f)) (fst f) (snd f)) fs
  | TEnum d vs =>
    negb (e_peek d)
    || forallb (fun v : N * fields =>
         existsb (fun f => field_takes (takes h (snd f)) (fst f) (snd f)) (snd v)) vs
  | TBot => true
  end.

(** Types in which whatever is repeated takes at least one byte each time. *)
Fixpoint fed (h : host) (t : ty) : bool :=
  match t with
  | TScalar _ | TStr _ | TSeq KRef _ | TRefArr _ _ | TBot => true
  | TSeq _ t' | TSet _ t' => takes h t' && fed h t'
  | TMap _ tk tv => (takes h tk || takes h tv) && fed h tk && fed h tv
  | TArr t' _ | TOption t' | TRange _ t' | TBox t' => fed h t'
  | TResult t1 t2 => fed h t1 && fed h t2
  | TTuple ts => forallb (fed h) ts
  | TStruct _ fs => forallb (fun f => f_skip (fst f) || fed h (snd f)) fs
  | TEnum _ vs => forallb (fun v : N * fields => forallb (fun f => f_skip (fst f) || fed h (snd f)) (snd v)) vs
  end.

(** The bound: [steps] calls, and [rate] calls for every byte. *)
Fixpoint steps (t : ty) : N :=
  let field (f : fattrs * ty) :=
    if f_skip (fst f) then 0
    else (match f_prefix (fst f) with [] => 0 | _ => 2 end) + steps (snd f) in
  match t with
  | TScalar (SGlam _ n) => N.of_nat n
  | TScalar _ => 2
  | TStr _ => 4
  | TSeq _ t' | TSet _ t' => 4 + steps t'
  | TArr t' n => 1 + N.of_nat n * steps t'
  | TRefArr _ _ => 1
  | TOption t' => 1 + steps t'
  | TResult t1 t2 => 1 + N.max (steps t1) (steps t2)
  | TTuple ts => nsum (map steps ts)
  | TRange _ t' => 2 * steps t'
  | TMap _ tk tv => 4 + steps tk + steps tv
  | TBox t' => steps t'
  | TStruct _ fs => nsum (map field fs)
  | TEnum _ vs => 2 + fold_right N.max 0 (map (fun v : N * fields => nsum (map field (snd v))) vs)
  | TBot => 0
  end.
Fixpoint rate (t : ty) : N :=
  let field (f : fattrs * ty) := if f_skip (fst f) then 0 else rate (snd f) in
  let most := fold_right N.max 0 in
  match t with
  | TScalar _ | TRefArr _ _ | TBot => 0
  | TStr _ => 1
  | TSeq _ t' | TSet _ t' => steps t' + rate t'
  | TArr t' _ | TOption t' | TRange _ t' | TBox t' => rate t'
  | TResult t1 t2 => N.max (rate t1) (rate t2)
  | TTuple ts => most (map rate ts)
  | TMap _ tk tv => steps tk + steps tv + N.max (rate tk) (rate tv)
  | TStruct _ fs => most (map field fs)
  | TEnum _ vs => most (map (fun v : N * fields => most (map field (snd v))) vs)
  end.

(* ------------------------------------------------------------------ *)
(** * What reading takes *)

Section Drops.
  Context {St : Type} (P : St -> Prop) (left : St -> N).

  (** [left] does not grow, whatever the outcome; a success takes [n] of it. *)
  Definition drops {A} (n : N) (m : M St A) : Prop := forall s, P s ->
    P (snd (m s)) /\ left (snd (m s)) <= left s
    /\ forall x, fst (m s) = Ok x -> left (snd (m s)) + n <= left s.

  Lemma drops_weak {A} n n' (m : M St A) : n' <= n -> drops n m -> drops n' m.
  Proof. intros Hn H s Hs. destruct (H s Hs) as (H1 & H2 & H3). repeat split; auto. intros x E. specialize (H3 x E). lia. Qed.
  Lemma drops_ret {A} (a : A) : drops 0 (ret a).
  Proof. intros s Hs. cbn. split; [exact Hs|]. split; [lia|]. intros; lia. Qed.
  Lemma drops_fail {A} n er : drops (A := A) n (fail er).
  Proof. intros s Hs. cbn. split; [exact Hs|]. split; [lia|]. intros; discriminate. Qed.
  Lemma drops_crash {A} n f : drops (A := A) n (crash f).
  Proof. intros s Hs. cbn. split; [exact Hs|]. split; [lia|]. intros; discriminate. Qed.
  Lemma drops_lift {A} (r : res A) : drops 0 (lift r).
  Proof. intros s Hs. cbn. split; [exact Hs|]. split; [lia|]. intros; lia. Qed.
  Lemma drops_bind {A B} n1 n2 (m : M St A) (f : A -> M St B) :
    drops n1 m -> (forall a, drops n2 (f a)) -> drops (n1 + n2) (bind m f).
  Proof.
    intros Hm Hf s Hs. unfold bind. destruct (Hm s Hs) as (H1 & H2 & H3).
    destruct (m s) as [[a|er|x] s']; cbn [fst snd] in *.
    - destruct (Hf a s' H1) as (G1 & G2 & G3). specialize (H3 a eq_refl). split; [exact G1|]. split; [lia|].
      intros x E. specialize (G3 x E). lia.
    - repeat split; auto. discriminate.
    - repeat split; auto. discriminate.
  Qed.
  Lemma drops_first {A B} n (m : M St A) (f : A -> M St B) : drops n m -> (forall a, drops 0 (f a)) -> drops n (bind m f).
  Proof. intros Hm Hf. rewrite <- (N.add_0_r n). apply drops_bind; assumption. Qed.
  Lemma drops_then {A B} n (m : M St A) (f : A -> M St B) : drops 0 m -> (forall a, drops n (f a)) -> drops n (bind m f).
  Proof. intros Hm Hf. rewrite <- (N.add_0_l n). apply drops_bind; assumption. Qed.
  Lemma drops_map {A B} n (g : A -> B) (m : M St A) : drops n m -> drops n (mmap g m).
  Proof. intros Hm. apply drops_first; [exact Hm|]. intros a. apply drops_ret. Qed.
  Lemma drops_repeat {A} (m : M St A) n : drops 0 m -> drops 0 (repeatM m n).
  Proof.
    intros Hm. induction n as [|n IH]; cbn [repeatM]; [apply drops_ret|].
    apply drops_then; [exact Hm|]. intros a. apply drops_then; [exact IH|]. intros l. apply drops_ret.
  Qed.
  Lemma drops_repeat1 {A} (m : M St A) n : n <> 0%nat -> drops 1 m -> drops 1 (repeatM m n).
  Proof.
    intros Hn Hm. destruct n as [|n]; [contradiction|]. cbn [repeatM]. apply drops_first; [exact Hm|].
    intros a. apply drops_then; [apply drops_repeat, (drops_weak 1); [lia|exact Hm]|]. intros l. apply drops_ret.
  Qed.
  Lemma drops_catch {A} (d : A) m : drops 0 m -> drops 0 (catch_eof d m).
  Proof.
    intros Hm s Hs. unfold catch_eof. specialize (Hm s Hs). destruct (m s) as [[a|er|x] s']; cbn [fst snd] in *; auto.
    destruct (is_eof er); cbn [fst snd] in *; destruct Hm as (H1 & H2 & _); split; auto; split; auto; intros; try discriminate; lia.
  Qed.
  Lemma drops_until (m : M St val) k : drops 0 m -> drops 0 (until_eof_loop m k).
  Proof.
    intros Hm. induction k as [|k IH]; cbn [until_eof_loop]; [apply drops_crash|].
    intros s Hs. destruct (Hm s Hs) as (H1 & H2 & H3). destruct (m s) as [[a|er|x] s']; cbn [fst snd] in *.
    - destruct (drops_map 0 (cons a) _ IH s' H1) as (G1 & G2 & G3). split; [exact G1|]. split; [lia|]. intros x E. lia.
    - destruct (is_eof er); cbn [fst snd]; split; auto; split; auto; intros; try discriminate; lia.
    - split; auto. split; auto. intros; discriminate.
  Qed.

  Context (h : host) (VH : valid_host h) (R : reader St).

  Record meter : Prop := {
    mt_read : forall n, drops n (rd_read R n);
    mt_read_ptr : forall n, drops n (rd_read_ptr R n);
    mt_peek : forall n, n <= 16 -> drops 0 (rd_peek R n);
    mt_peek_ptr : forall n, n <= 16 -> drops 0 (rd_peek_ptr R n);
    mt_borrow : forall b, rd_borrow R = Some b -> forall n, drops n (b n);
    mt_borrow_r : forall b, rd_borrow_r R = Some b -> forall n, drops n (b n);
    mt_borrow_eof : forall b, rd_borrow_eof R = Some b -> drops 0 b;
    mt_alloc : forall n size min, drops 0 (rd_alloc R n size min)
  }.
  Context (K : meter).

  Lemma drops0 {A} n (m : M St A) : drops n m -> drops 0 m.
  Proof. apply drops_weak. lia. Qed.

  Lemma drops_require n : drops 0 (require R n).
  Proof. intros s Hs. unfold require. destruct (rd_can R n s) as [[]|]; cbn; repeat split; auto; try lia; intros; lia. Qed.
  Lemma drops_alloc n size min : drops 0 (alloc h R n size min).
  Proof. unfold alloc. destruct (_ <? _); [apply drops_crash|apply (mt_alloc K)]. Qed.
  Hint Resolve drops_ret drops_fail drops_crash drops_lift drops_require drops_alloc : drops.

  Ltac zero := intros; repeat match goal with
    | |- drops 0 (bind _ _) => apply drops_then; [|intros ?]
    | |- drops 0 (mmap _ _) => apply drops_map
    | |- drops 0 (repeatM _ _) => apply drops_repeat
    | |- drops 0 (if ?b then _ else _) => destruct b
    | |- drops 0 (catch_eof _ _) => apply drops_catch
    | |- drops 0 (rd_read _ _) => eapply drops0, (mt_read K)
    | |- drops 0 (rd_read_ptr _ _) => eapply drops0, (mt_read_ptr K)
    | |- drops 0 (match ?x with _ => _ end) => destruct x
    end; auto with drops.

  Lemma drops_u8 : drops 1 (read_u8 R).
  Proof. apply drops_then; [zero|]. intros _. apply drops_first; [apply (mt_read_ptr K)|zero]. Qed.
  Lemma drops_uint w : drops (N.of_nat w) (read_uint h R w).
  Proof. apply drops_then; [zero|]. intros _. apply drops_first; [apply (mt_read_ptr K)|zero]. Qed.
  Lemma drops_uint1 w : (0 < w)%nat -> drops 1 (read_uint h R w).
  Proof. intros Hw. eapply drops_weak; [|apply drops_uint]. lia. Qed.
  Lemma drops_prim p : drops 1 (read_prim h R p).
  Proof.
    apply drops_first; [|zero]. destruct p; first [apply drops_u8 | apply drops_uint1; cbn; lia].
  Qed.
  Lemma drops_varint : drops 1 (read_varint h R).
  Proof. apply drops_first; [apply drops_u8|]. intros b. zero. Qed.
  Lemma drops_length b : drops 1 (read_length h R b).
  Proof.
    destruct b; cbn [read_length];
      repeat first [apply drops_u8 | apply drops_varint | apply drops_uint1; lia | apply drops_first; [|zero]].
  Qed.
  Hint Resolve drops_u8 drops_prim drops_varint drops_length : drops.
  Hint Extern 2 (drops 0 (read_u8 _)) => apply (drops0 1) : drops.
  Hint Extern 2 (drops 0 (read_varint _ _)) => apply (drops0 1) : drops.
  Hint Extern 2 (drops 0 (read_prim _ _ _)) => apply (drops0 1) : drops.
  Hint Extern 2 (drops 0 (read_length _ _ _)) => apply (drops0 1) : drops.
  Hint Extern 2 (drops 0 (read_uint _ _ _)) => eapply drops0, drops_uint : drops.

  Lemma drops_peek_u8 : drops 0 (peek_u8 R).
  Proof. unfold peek_u8. zero. apply (mt_peek_ptr K). lia. Qed.
  Lemma drops_peek_uint w : (w <= 16)%nat -> drops 0 (peek_uint h R w).
  Proof. intros Hw. unfold peek_uint. zero. apply (mt_peek_ptr K). lia. Qed.
  Hint Extern 1 (drops 0 (peek_uint _ _ _)) => apply drops_peek_uint; lia : drops.
  Hint Resolve drops_peek_u8 : drops.
  Lemma drops_peek_varint : drops 0 (peek_varint h R).
  Proof.
    unfold peek_varint, vi_impl. apply drops_then; [zero|]. intros b. apply drops_then; [|intros ?; zero].
    apply (mt_peek K). unfold vi_length, leading_zeros. lia.
  Qed.
  Hint Resolve drops_peek_varint : drops.

  Lemma drops_vec t rd n : drops 0 rd -> drops 0 (read_vec h R t rd n).
  Proof. intros Hrd. unfold read_vec. zero. Qed.
  Hint Resolve drops_vec : drops.

  Lemma drops_cow t rd n : drops 0 rd -> drops 0 (read_cow h R t rd n).
  Proof.
    intros Hrd. unfold read_cow. destruct (if is_prim h t && no_conv h R t then rd_borrow R else None) as [b|] eqn:Eb; [|zero].
    assert (Hb : rd_borrow R = Some b) by (destruct (is_prim h t && no_conv h R t); [exact Eb|discriminate]).
    apply drops_then; [zero|]. intros _. apply drops_then; [eapply drops0, (mt_borrow K _ Hb)|]. intros [addr bs]. zero.
  Qed.
  Hint Resolve drops_cow : drops.

  Lemma drops_borrowed n : drops n (borrowed R n).
  Proof. unfold borrowed. destruct (rd_borrow R) eqn:E; [apply (mt_borrow K _ E)|apply drops_fail]. Qed.
  Hint Extern 2 (drops 0 (borrowed _ _)) => eapply drops0, drops_borrowed : drops.

  Lemma drops_eof : drops 0 (match rd_borrow_eof R with Some b => b | None => fail Unsized end).
  Proof. destruct (rd_borrow_eof R) eqn:E; [apply (mt_borrow_eof K _ E)|zero]. Qed.

  Lemma drops_raw k key t n bs : drops 0 (raw_collect (St := St) h k key t n bs).
  Proof. unfold raw_collect. zero. Qed.
  Hint Resolve drops_raw : drops.

  Lemma drops_collection k key t rd n : drops 0 rd -> drops 0 (read_collection h R k key t rd n).
  Proof.
    intros Hrd. unfold read_collection. destruct (rd_borrow_r R) eqn:E.
    - pose proof (fun n => drops0 _ _ (mt_borrow_r K _ E n)) as Hb. zero.
    - zero.
  Qed.
  Hint Resolve drops_collection : drops.

  Lemma drops_pair rk rv : drops 0 rk -> drops 0 rv -> drops 0 (read_pair rk rv).
  Proof. intros H1 H2. unfold read_pair. zero. Qed.
  Hint Resolve drops_pair : drops.

  Lemma drops_kv k tk tv rk rv n : drops 0 rk -> drops 0 rv -> drops 0 (read_kv h R k tk tv rk rv n).
  Proof.
    intros H1 H2. unfold read_kv. destruct (rd_borrow_r R) eqn:E.
    - pose proof (fun n => drops0 _ _ (mt_borrow_r K _ E n)) as Hb. zero.
    - zero.
  Qed.
  Hint Resolve drops_kv : drops.

  Lemma drops_read_map k tk tv rk rv n : drops 0 rk -> drops 0 rv -> drops 0 (read_map h R k tk tv rk rv n).
  Proof. intros H1 H2. unfold read_map. zero. Qed.
  Hint Resolve drops_read_map : drops.

  Lemma drops_ipv4 : drops 1 (read_ipv4 h R).
  Proof. apply drops_first; [apply drops_uint1; lia|zero]. Qed.
  Lemma drops_ipv6 : drops 1 (read_ipv6 h R).
  Proof. apply drops_first; [apply (drops_weak 16); [lia|apply (mt_read K)]|zero]. Qed.
  Lemma drops_duration : drops 1 (read_duration h R).
  Proof. apply drops_first; [apply drops_uint1; lia|zero]. Qed.
  Hint Extern 2 (drops 0 (read_ipv4 _ _)) => apply (drops0 1), drops_ipv4 : drops.
  Hint Extern 2 (drops 0 (read_ipv6 _ _)) => apply (drops0 1), drops_ipv6 : drops.
  Hint Extern 2 (drops 0 (read_duration _ _)) => apply (drops0 1), drops_duration : drops.

  Lemma drops_scalar0 s : drops 0 (read_scalar h R s).
  Proof. destruct s; cbn [read_scalar]; zero. Qed.
  Lemma drops_scalar s : takes h (TScalar s) = true -> drops 1 (read_scalar h R s).
  Proof.
    destruct s; cbn [takes read_scalar]; intros Ht; try discriminate;
      try (apply drops_map, drops_repeat1; [destruct n; [discriminate|lia]|]);
      repeat first [apply drops_u8 | apply drops_varint | apply drops_prim | apply drops_ipv4 | apply drops_ipv6
        | apply drops_duration | apply drops_uint1; lia | apply (drops_weak 16); [lia|apply (mt_read K)] | apply drops_first; [|intros; zero]].
  Qed.

  Lemma drops_to_str bs : drops 0 (to_str (St := St) bs). Proof. unfold to_str. zero. Qed.
  Lemma drops_elem_u8 : drops 1 (read_elem_u8 h R). Proof. apply drops_first; [zero|zero]. Qed.
  Hint Resolve drops_to_str : drops.
  Hint Extern 2 (drops 0 (read_elem_u8 _ _)) => apply (drops0 1), drops_elem_u8 : drops.
  Lemma drops_vec_u8 n : drops 0 (read_vec_u8 h R n). Proof. unfold read_vec_u8. zero. Qed.
  Lemma drops_cow_u8 n : drops 0 (read_cow_u8 h R n). Proof. unfold read_cow_u8. zero. Qed.
  Hint Resolve drops_vec_u8 drops_cow_u8 : drops.
  Lemma drops_constant c : drops (nlen c) (read_constant h R c).
  Proof.
    unfold read_constant. apply drops_first; [|zero]. destruct (rd_borrow R) eqn:E; [apply drops_map, (mt_borrow K _ E)|].
    unfold read_vec_u8, read_vec. apply drops_map. pose proof (vh_prim h VH U8) as H8. cbn [psize] in H8.
    assert (Hs : h_size h TU8 = 1) by exact H8.
    apply drops_then; [zero|]. intros _. apply drops_then; [zero|]. intros _. cbn [is_prim]. 
    apply drops_first; [|zero]. rewrite Hs, (vh_capacity h VH) by lia.
    apply (drops_weak (nlen c * 1)); [lia|apply (mt_read_ptr K)].
  Qed.
  Hint Extern 2 (drops 0 (read_constant _ _ _)) => eapply drops0, drops_constant : drops.
  Lemma drops_cast t n b : drops 0 (cast_slice (St := St) h t n b). Proof. unfold cast_slice. zero. Qed.
  Lemma drops_guard t : drops 0 (endianness_guard h R t). Proof. unfold endianness_guard. zero. Qed.
  Hint Resolve drops_cast drops_guard : drops.
  Lemma drops_ref_slice t n : drops 0 (read_ref_slice h R t n). Proof. unfold read_ref_slice. zero. Qed.
  Hint Resolve drops_ref_slice : drops.

  Lemma drops_until_eof rd : drops 0 rd -> drops 0 (read_until_eof R rd).
  Proof. intros H s Hs. apply drops_until; assumption. Qed.
  Hint Resolve drops_until_eof : drops.

  Lemma drops_with_length prev a k u : (forall n, drops 0 (k n)) -> drops 0 u -> drops 0 (with_length h R prev a k u).
  Proof. intros Hk Hu. unfold with_length. zero. Qed.
  Lemma drops_with_length1 prev a k u : (forall n, drops 0 (k n)) -> f_eof a = false ->
    match f_len a with LEof | LExpr _ => false | _ => true end = true -> drops 1 (with_length h R prev a k u).
  Proof.
    intros Hk He Hl. unfold with_length. rewrite He. destruct (f_len a); try discriminate; (apply drops_first; [apply drops_length|exact Hk]).
  Qed.

  Lemma drops_inner prev a v t : drops 0 (read h R t) ->
    (forall t', match t with
                | TSeq _ t1 | TArr t1 _ | TSet _ t1 => t' = t1
                | TMap _ t1 t2 => t' = t1 \/ t' = t2
                | _ => False
                end -> drops 0 (read h R t')) ->
    drops 0 (read_field_inner h R (read h R) prev a v t).
  Proof.
    intros Ht Hs. pose proof drops_eof as He.
    destruct t as [[]|[]|[]| | | | | | |[]|[]| | | |]; cbn [read_field_inner]; auto;
      try (destruct v; [zero|exact Ht]);
      try (pose proof (Hs _ eq_refl)); try (pose proof (Hs _ (or_introl eq_refl))); try (pose proof (Hs _ (or_intror eq_refl)));
      zero; apply drops_with_length; intros; zero; try exact He; zero.
  Qed.

  Definition reads (t : ty) : Prop :=
    drops 0 (read h R t) /\ (takes h t = true -> drops 1 (read h R t)) /\ 
    forall t', below t t' -> drops 0 (read h R t') /\ (takes h t' = true -> drops 1 (read h R t')).

  Lemma drops_body0 prev a t : reads t ->
    drops 0 (if f_opaque a then read h R t else
             match t with
             | TOption t' =>
               flag <- read_u8 R ;;
               if flag =? 0 then ret VNone else mmap VSome (read_field_inner h R (read h R) prev a false t')
             | _ => read_field_inner h R (read h R) prev a (f_varint a) t
             end).
  Proof.
    intros (Ht & _ & Hb). destruct (f_opaque a); [exact Ht|].
    destruct t; try (apply drops_inner; [exact Ht|intros t' H'; apply Hb; cbn [below]; tauto]).
    apply drops_then; [zero|]. intros x. destruct (x =? 0); [zero|]. apply drops_map, drops_inner.
    - apply Hb. cbn [below]. auto.
    - intros t' H'. apply Hb. cbn [below]. auto.
  Qed.

  Lemma drops_field0 prev a t : reads t -> drops 0 (read_field h R (read h R) prev a t).
  Proof.
    intros Hr. pose proof (drops_body0 prev a t Hr) as Hb. unfold read_field.
    assert (Hp : drops 0 (match f_prefix a with [] => ret tt | p => read_constant h R p end)) by zero.
    pose proof (drops_then 0 _ _ Hp (fun _ => Hb)) as H.
    destruct (f_eof a); [apply drops_catch|]; exact H.
  Qed.

  Lemma drops_inner1 prev a v t : reads t -> f_eof a = false ->
    match t with
    | TOption _ => true
    | TStr (KString | KCowStr | KRefStr) | TSeq (KVec | KCow | KRef) _
    | TSet (CBTree | CHash) _ | TMap (CBTree | CHash) _ _ =>
      match f_len a with LEof | LExpr _ => false | _ => true end
    | _ => takes h t
    end = true -> drops 1 (read_field_inner h R (read h R) prev a v t).
  Proof.
    intros (H0 & H1 & Hb) He Ht.
    destruct t as [[]|[]|[]|t n| | | | | |[]|[]| | | |]; cbn [read_field_inner]; auto;
      try match goal with |- drops 1 (if v then _ else _) => destruct v; [apply drops_first; [zero|zero]|auto] end;
      try (destruct (Hb _ eq_refl) as [G0 G1]); try (destruct (Hb _ (or_introl eq_refl)) as [G0 G1]);
      try (destruct (Hb _ (or_intror eq_refl)) as [G2 G3]);
      try (apply drops_with_length1; [|assumption|assumption]; zero);
      try (apply drops_then; [zero|]; intros _; apply drops_with_length1; [|assumption|assumption]; zero).
    cbn [takes] in Ht. apply andb_true_iff in Ht as [Ht1 Ht2]. apply andb_true_iff in Ht1 as [Hn Hsz].
    apply drops_map, drops_repeat1; [destruct n; [discriminate|lia]|]. apply G1, Ht2.
  Qed.

  Lemma drops_field1 prev a t : reads t -> field_takes (takes h t) a t = true ->
    f_skip a = false /\ drops 1 (read_field h R (read h R) prev a t).
  Proof.
    intros Hr Hf. pose proof Hr as (H0 & H1 & Hb). unfold field_takes in Hf. apply andb_true_iff in Hf as [Hf Hx]. apply andb_true_iff in Hf as [Hs He].
    apply negb_true_iff in Hs, He. split; [exact Hs|]. unfold read_field. rewrite He. destruct (f_prefix a) as [|p q] eqn:Ep.
    - apply drops_then; [zero|]. intros _. destruct (f_opaque a); [auto|].
      destruct t; try (apply drops_inner1; assumption). apply drops_first; [zero|]. intros x. destruct (x =? 0); [zero|].
      apply drops_map, drops_inner.
      + apply Hb. cbn [below]. auto.
      + intros t' H'. apply Hb. cbn [below]. auto.
    - apply drops_first; [eapply drops_weak; [|apply drops_constant]; cbn [nlen length]; unfold nlen; cbn [length]; lia|].
      intros _. apply drops_body0, Hr.
  Qed.

  Lemma drops_fields0 fs : Forall (fun f => reads (snd f)) fs -> forall prev, drops 0 (read_fields h R (read h R) prev fs).
  Proof.
    induction 1 as [|f r Hf Hr IH]; intros prev; cbn [read_fields]; [zero|].
    destruct (f_skip (fst f)); [apply drops_map, IH|]. apply drops_then; [apply drops_field0; assumption|].
    intros v. apply drops_then; [apply IH|]. intros vs. zero.
  Qed.
  Lemma drops_fields1 fs : Forall (fun f => reads (snd f)) fs ->
    existsb (fun f => field_takes (takes h (snd f)) (fst f) (snd f)) fs = true ->
    forall prev, drops 1 (read_fields h R (read h R) prev fs).
  Proof.
    induction 1 as [|f r Hf Hr IH]; cbn [existsb]; intros Hx prev; [discriminate|]. cbn [read_fields].
    destruct (field_takes (takes h (snd f)) (fst f) (snd f)) eqn:Ef.
    - destruct (drops_field1 prev _ _ Hf Ef) as [-> H1]. apply drops_first; [exact H1|]. intros v.
      apply drops_then; [apply drops_fields0, Hr|]. zero.
    - destruct (f_skip (fst f)); [apply drops_map, IH, Hx|]. apply drops_then; [apply drops_field0; assumption|].
      intros v. apply drops_first; [apply IH, Hx|]. zero.
  Qed.

  Theorem drops_read t : reads t.
  Proof.
    unfold reads. 
    induction t as [s|k|k t IH|t n IH|t n IH|t IH|t1 t2 IH1 IH2|ts IH|i t IH|k t IH|k tk tv IHk IHv|t IH|d fs IH|d vs IH|]
      using ty_ind'; (split; [cbn [read]|split; [intros Ht; cbn [read]|intros t' Hb; cbn [below] in Hb]]); try contradiction.
    - apply drops_scalar0.
    - apply drops_scalar, Ht.
    - unfold read_str. zero.
    - unfold read_str. apply drops_first; [zero|]. zero.
    - destruct IH as [IH _]. unfold read_seq. zero.
    - destruct IH as [IH _]. unfold read_seq. destruct k; try solve [apply drops_first; [zero|]; zero].
      apply drops_then; [zero|]. intros _. apply drops_first; [zero|]. zero.
    - subst. exact (conj (proj1 IH) (proj1 (proj2 IH))).
    - destruct IH as [IH _]. unfold read_array. zero.
    - cbn [takes] in Ht. apply andb_true_iff in Ht as [Ht1 Ht2]. apply andb_true_iff in Ht1 as [Hn Hsz]. apply N.ltb_lt in Hsz.
      assert (Hn' : n <> 0%nat) by (destruct n; [discriminate|lia]).
      unfold read_array. destruct (is_prim h t); [|apply drops_map, drops_repeat1; [exact Hn'|exact (proj1 (proj2 IH) Ht2)]].
      apply drops_first; [|zero]. eapply drops_weak; [|apply (mt_read_ptr K)]. nia.
    - subst. exact (conj (proj1 IH) (proj1 (proj2 IH))).
    - unfold read_ref_array. zero.
    - cbn [takes] in Ht. apply andb_true_iff in Ht as [Hn Hsz]. apply N.ltb_lt in Hsz.
      assert (Hn' : n <> 0%nat) by (destruct n; [discriminate|lia]).
      unfold read_ref_array. apply drops_then; [zero|]. intros _. apply drops_first; [|zero].
      eapply drops_weak; [|apply drops_borrowed]. nia.
    - destruct IH as [IH _]. zero.
    - destruct IH as [IH _]. apply drops_first; zero.
    - destruct IH as (IH1 & IH2 & IH3). destruct Hb as [->|Hb]; [auto|]. apply IH3.
      destruct t; try contradiction; cbn [below]; exact Hb.
    - destruct IH1 as [IH1 _]. destruct IH2 as [IH2 _]. zero.
    - destruct IH1 as [IH1 _]. destruct IH2 as [IH2 _]. apply drops_first; zero.
    - apply drops_map. clear - IH K. induction IH as [|t r [IHt _] IHr IHl]; cbn [read_tuple]; zero.
    - apply drops_map. cbn [takes] in Ht.
      assert (Hz : forall r, Forall reads r -> drops 0 (read_tuple (read h R) r)).
      { intros r Hr. induction Hr as [|t r (Hr0 & _) _ IHl]; cbn [read_tuple]; zero. }
      induction IH as [|t r (IHt & IHt1 & _) IHr IHl]; cbn [existsb] in Ht; [discriminate|]. cbn [read_tuple].
      destruct (takes h t).
      + apply drops_first; [auto|]. intros v. apply drops_then; [apply Hz, IHr|]. zero.
      + apply drops_then; [exact IHt|]. intros v. apply drops_first; [auto|]. zero.
    - destruct IH as [IH _]. zero.
    - destruct IH as (IH & IH1 & _). cbn [takes] in Ht. apply drops_first; [auto|]. zero.
    - destruct IH as [IH _]. zero.
    - destruct IH as [IH _]. apply drops_first; [zero|]. zero.
    - subst. exact (conj (proj1 IH) (proj1 (proj2 IH))).
    - destruct IHk as [IHk _]. destruct IHv as [IHv _]. zero.
    - destruct IHk as [IHk _]. destruct IHv as [IHv _]. apply drops_first; [zero|]. zero.
    - destruct Hb as [->| ->]; [exact (conj (proj1 IHk) (proj1 (proj2 IHk)))|exact (conj (proj1 IHv) (proj1 (proj2 IHv)))].
    - exact (proj1 IH).
    - exact (proj1 (proj2 IH) Ht).
    - apply drops_map, drops_fields0, IH.
    - apply drops_map, drops_fields1; [exact IH|exact Ht].
    - apply drops_then; [unfold read_tag; zero|]. intros tag. generalize 0%nat.
      induction IH as [|v r IHv IHr IHl]; intros i; cbn [read_variant]; [zero|].
      destruct (fst v =? tag); [|apply IHl]. apply drops_map, drops_fields0, IHv.
    - cbn [takes] in Ht.
      assert (Hz : forall tag i, drops 0 (read_variant h R (read h R) tag i vs)).
      { intros tag. clear Ht. induction IH as [|v r IHv IHr IHl]; intros i; cbn [read_variant]; [zero|].
        destruct (fst v =? tag); [|apply IHl]. apply drops_map, drops_fields0, IHv. }
      destruct (e_peek d) eqn:Ep; cbn [negb orb] in Ht.
      + apply drops_then; [unfold read_tag; zero|]. intros tag. clear Hz. generalize 0%nat.
        induction IH as [|v r IHv IHr IHl]; intros i; cbn [read_variant]; [zero|]. cbn [forallb] in Ht.
        apply andb_true_iff in Ht as [Ht1 Ht2].
        destruct (fst v =? tag); [|apply IHl, Ht2]. apply drops_map, drops_fields1; assumption.
      + apply drops_first; [|auto]. unfold read_tag. rewrite Ep.
        destruct (e_tag d); first [apply drops_u8|apply drops_varint|apply drops_uint1; lia].
    - zero.
    - zero.
  Qed.
End Drops.

(* ------------------------------------------------------------------ *)
(** * What reading costs *)

Section Tally.
  Context {St : Type} (P : St -> Prop) (left : St -> N).

  (** The counting program does as the plain one does, and counts at most [a] and
      [b] for every byte taken. *)
  Definition tally {A} (a b : N) (m1 : M (N * St) A) (m2 : M St A) : Prop := forall n s, P s ->
    fst (m1 (n, s)) = fst (m2 s) /\ snd (snd (m1 (n, s))) = snd (m2 s) /\ P (snd (m2 s))
    /\ fst (snd (m1 (n, s))) + b * left (snd (m2 s)) <= n + a + b * left s.

  Lemma tally_le {A} a a' b (m1 : M (N * St) A) m2 : a' <= a -> tally a' b m1 m2 -> tally a b m1 m2.
  Proof. intros Ha H n s Hs. destruct (H n s Hs) as (H1 & H2 & H3 & H4). repeat split; auto. lia. Qed.
  Lemma tally_ret {A} a b (x : A) : tally a b (ret x) (ret x).
  Proof. intros n s Hs. cbn. repeat split; auto. lia. Qed.
  Lemma tally_fail {A} a b er : tally (A := A) a b (fail er) (fail er).
  Proof. intros n s Hs. cbn. repeat split; auto. lia. Qed.
  Lemma tally_crash {A} a b f : tally (A := A) a b (crash f) (crash f).
  Proof. intros n s Hs. cbn. repeat split; auto. lia. Qed.
  Lemma tally_lift {A} a b (r : res A) : tally a b (lift r) (lift r).
  Proof. intros n s Hs. cbn. repeat split; auto. lia. Qed.

  Lemma tally_bind {A B} a1 a2 a b (m1 : M (N * St) A) m2 (f1 : A -> M (N * St) B) f2 :
    a1 + a2 <= a -> tally a1 b m1 m2 -> (forall x, tally a2 b (f1 x) (f2 x)) -> tally a b (bind m1 f1) (bind m2 f2).
  Proof.
    intros Ha Hm Hf n s Hs. unfold bind. destruct (Hm n s Hs) as (H1 & H2 & H3 & H4).
    destruct (m1 (n, s)) as [r1 [n1 s1]], (m2 s) as [r2 s2]. cbn [fst snd] in *. subst r1 s1.
    destruct r2 as [x|er|f]; cbn [fst snd].
    - destruct (Hf x n1 s2 H3) as (G1 & G2 & G3 & G4). repeat split; auto. lia.
    - repeat split; auto. lia.
    - repeat split; auto. lia.
  Qed.
  Lemma tally_first {A B} a b (m1 : M (N * St) A) m2 (f1 : A -> M (N * St) B) f2 :
    tally a b m1 m2 -> (forall x, tally 0 b (f1 x) (f2 x)) -> tally a b (bind m1 f1) (bind m2 f2).
  Proof. apply tally_bind. lia. Qed.
  Lemma tally_then {A B} a b (m1 : M (N * St) A) m2 (f1 : A -> M (N * St) B) f2 :
    tally 0 b m1 m2 -> (forall x, tally a b (f1 x) (f2 x)) -> tally a b (bind m1 f1) (bind m2 f2).
  Proof. apply tally_bind. lia. Qed.
  Lemma tally_map {A B} a b (g : A -> B) (m1 : M (N * St) A) m2 : tally a b m1 m2 -> tally a b (mmap g m1) (mmap g m2).
  Proof. intros H. apply tally_first; [exact H|]. intros x. apply tally_ret. Qed.

  (** So many times. *)
  Lemma tally_times {A} a b (m1 : M (N * St) A) m2 k : tally a b m1 m2 -> tally (N.of_nat k * a) b (repeatM m1 k) (repeatM m2 k).
  Proof.
    intros H. induction k as [|k IH]; cbn [repeatM]; [apply tally_ret|].
    apply (tally_bind a (N.of_nat k * a)); [lia|exact H|]. intros x.
    apply tally_first; [exact IH|]. intros l. apply tally_ret.
  Qed.

  (** However often, when each takes something. *)
  Lemma tally_more {A B} a b (m1 : M (N * St) A) m2 (f1 : A -> M (N * St) B) f2 : a <= b -> tally a (b - a) m1 m2 -> drops P left 1 m2 ->
    (forall x, tally a b (f1 x) (f2 x)) -> tally a b (bind m1 f1) (bind m2 f2).
  Proof.
    intros Hab Hm Hd Hf n s Hs. unfold bind. destruct (Hm n s Hs) as (H1 & H2 & H3 & H4). destruct (Hd s Hs) as (_ & D2 & D3).
    destruct (m1 (n, s)) as [r1 [n1 s1]], (m2 s) as [r2 s2]. cbn [fst snd] in *. subst r1 s1.
    assert (Hle : (b - a) * left s + a * left s2 <= b * left s).
    { rewrite (N.mul_sub_distr_r b a (left s)). pose proof (N.mul_le_mono_l _ _ a D2). pose proof (N.mul_le_mono_r _ _ (left s) Hab). lia. }
    assert (He : b * left s2 = (b - a) * left s2 + a * left s2) by (rewrite <- N.mul_add_distr_r; f_equal; lia).
    destruct r2 as [x|er|f]; cbn [fst snd].
    - specialize (D3 x eq_refl). destruct (Hf x n1 s2 H3) as (G1 & G2 & G3 & G4).
      repeat split; auto.
      assert (Hx : (b - a) * left s + a * (left s2 + 1) <= b * left s).
      { rewrite (N.mul_sub_distr_r b a (left s)). pose proof (N.mul_le_mono_l _ _ a D3). pose proof (N.mul_le_mono_r _ _ (left s) Hab). lia. }
      lia.
    - repeat split; auto. lia.
    - repeat split; auto. lia.
  Qed.
  Lemma tally_loop {A} a b (m1 : M (N * St) A) m2 k : a <= b -> tally a (b - a) m1 m2 -> drops P left 1 m2 ->
    tally a b (repeatM m1 k) (repeatM m2 k).
  Proof.
    intros Hab Hm Hd. induction k as [|k IH]; cbn [repeatM]; [apply tally_ret|].
    apply tally_more; auto. intros x. apply tally_map, IH.
  Qed.

  Lemma tally_until a b (m1 : M (N * St) val) m2 k : a <= b -> tally a (b - a) m1 m2 -> drops P left 1 m2 ->
    tally a b (until_eof_loop m1 k) (until_eof_loop m2 k).
  Proof.
    intros Hab Hm Hd. induction k as [|k IH]; cbn [until_eof_loop]; [apply tally_crash|].
    intros n s Hs. destruct (Hm n s Hs) as (H1 & H2 & H3 & H4). destruct (Hd s Hs) as (_ & D2 & D3).
    destruct (m1 (n, s)) as [r1 [n1 s1]], (m2 s) as [r2 s2]. cbn [fst snd] in *. subst r1 s1.
    assert (Hle : (b - a) * left s + a * left s2 <= b * left s).
    { rewrite (N.mul_sub_distr_r b a (left s)). pose proof (N.mul_le_mono_l _ _ a D2). pose proof (N.mul_le_mono_r _ _ (left s) Hab). lia. }
    assert (He : b * left s2 = (b - a) * left s2 + a * left s2) by (rewrite <- N.mul_add_distr_r; f_equal; lia).
    destruct r2 as [x|er|f]; cbn [fst snd].
    - specialize (D3 x eq_refl). destruct (tally_map a b (cons x) _ _ IH n1 s2 H3) as (G1 & G2 & G3 & G4).
      repeat split; auto.
      assert (Hx : (b - a) * left s + a * (left s2 + 1) <= b * left s).
      { rewrite (N.mul_sub_distr_r b a (left s)). pose proof (N.mul_le_mono_l _ _ a D3). pose proof (N.mul_le_mono_r _ _ (left s) Hab). lia. }
      lia.
    - destruct (is_eof er); cbn [fst snd]; repeat split; auto; lia.
    - repeat split; auto. lia.
  Qed.

  Lemma tally_catch {A} a b (d : A) m1 m2 : tally a b m1 m2 -> tally a b (catch_eof d m1) (catch_eof d m2).
  Proof.
    intros H n s Hs. unfold catch_eof. destruct (H n s Hs) as (H1 & H2 & H3 & H4).
    destruct (m1 (n, s)) as [r1 [n1 s1]], (m2 s) as [r2 s2]. cbn [fst snd] in *. subst r1 s1.
    destruct r2 as [x|er|f]; cbn [fst snd]; [|destruct (is_eof er); cbn [fst snd]|]; repeat split; auto.
  Qed.

  Lemma tally_tick {A} n b (m : M St A) : drops P left n m -> tally 1 b (tick m) m.
  Proof.
    intros H c s Hs. destruct (H s Hs) as (H1 & H2 & _). unfold tick. cbn [fst snd].
    destruct (m s) as [r s']. cbn [fst snd] in *. repeat split; auto. pose proof (N.mul_le_mono_l _ _ b H2). lia.
  Qed.

  Context (h : host) (VH : valid_host h) (R : reader St) (K : meter P left R).
  Notation C := (counting R).

  Lemma tally_require a b n : tally a b (require C n) (require R n).
  Proof. intros c s Hs. unfold require. cbn [counting rd_can snd]. destruct (rd_can R n s) as [[]|]; cbn; repeat split; auto; lia. Qed.
  Lemma tally_alloc b n size min : tally 1 b (alloc h C n size min) (alloc h R n size min).
  Proof. unfold alloc. destruct (_ <? _); [apply tally_crash|]. apply (tally_tick 0), (mt_alloc _ _ _ K). Qed.
  Lemma tally_rd b n : tally 1 b (rd_read C n) (rd_read R n).
  Proof. apply (tally_tick n), (mt_read _ _ _ K). Qed.
  Lemma tally_ptr b n : tally 1 b (rd_read_ptr C n) (rd_read_ptr R n).
  Proof. apply (tally_tick n), (mt_read_ptr _ _ _ K). Qed.

  Lemma tally_u8 b : tally 1 b (read_u8 C) (read_u8 R).
  Proof. apply tally_then; [apply tally_require|]. intros _. apply tally_first; [apply tally_ptr|]. intros. apply tally_ret. Qed.
  Lemma tally_uint b w : tally 1 b (read_uint h C w) (read_uint h R w).
  Proof. apply tally_then; [apply tally_require|]. intros _. apply tally_first; [apply tally_ptr|]. intros. apply tally_ret. Qed.
  Lemma tally_peek_u8 b : tally 1 b (peek_u8 C) (peek_u8 R).
  Proof.
    apply tally_then; [apply tally_require|]. intros _. apply tally_first; [|intros; apply tally_ret].
    apply (tally_tick 0), (mt_peek_ptr _ _ _ K). lia.
  Qed.
  Lemma tally_peek_uint b w : (w <= 16)%nat -> tally 1 b (peek_uint h C w) (peek_uint h R w).
  Proof.
    intros Hw. apply tally_then; [apply tally_require|]. intros _. apply tally_first; [|intros; apply tally_ret].
    apply (tally_tick 0), (mt_peek_ptr _ _ _ K). lia.
  Qed.
  Lemma tally_prim b p : tally 1 b (read_prim h C p) (read_prim h R p).
  Proof. apply tally_first; [|intros; apply tally_ret]. destruct p; first [apply tally_u8|apply tally_uint]. Qed.
  Lemma tally_varint b : tally 2 b (read_varint h C) (read_varint h R).
  Proof.
    apply (tally_bind 1 1); [lia|apply tally_u8|]. intros f. apply tally_first; [apply tally_rd|]. intros. apply tally_ret.
  Qed.
  Lemma tally_peek_varint b : tally 2 b (peek_varint h C) (peek_varint h R).
  Proof.
    apply (tally_bind 1 1); [lia|apply tally_peek_u8|]. intros f. apply tally_first; [|intros; apply tally_ret].
    apply (tally_tick 0), (mt_peek _ _ _ K). unfold vi_length, leading_zeros. lia.
  Qed.

  Ltac leaf := repeat match goal with
    | |- forall _, _ => intros ?
    | |- tally _ _ (if ?b then _ else _) _ => destruct b
    | |- tally _ _ (match ?x with _ => _ end) _ => destruct x
    end; auto using (@tally_ret), (@tally_fail), (@tally_crash), (@tally_lift), tally_require.

  Lemma tally_length b k : tally 2 b (read_length h C k) (read_length h R k).
  Proof.
    destruct k; cbn [read_length];
      repeat first [apply tally_varint | apply (tally_le 2 1); [lia|first [apply tally_u8|apply tally_uint]] | apply tally_first; [|leaf]].
  Qed.

  Lemma tally_vec t rd1 rd2 n a b : a <= b -> tally a (b - a) rd1 rd2 -> drops P left 1 rd2 ->
    tally (2 + a) b (read_vec h C t rd1 n) (read_vec h R t rd2 n).
  Proof.
    intros Hab Hm Hd. unfold read_vec. apply tally_then; [destruct (_ <? _); leaf|]. intros _.
    apply (tally_bind 1 (1 + a)); [lia|apply tally_alloc|]. intros _. destruct (is_prim h t).
    - apply (tally_le _ 1); [lia|]. apply tally_first; [apply tally_ptr|leaf].
    - destruct (_ =? 0); [leaf|]. apply (tally_le _ a); [lia|]. apply tally_loop; assumption.
  Qed.

  Lemma tally_borrow_if (c : bool) {A} b a (k1 : (N -> M (N * St) (N * bytes)) -> M (N * St) A) k2 d1 d2 :
    (forall f, rd_borrow R = Some f -> tally a b (k1 (fun n => tick (f n))) (k2 f)) -> tally a b d1 d2 ->
    tally a b (match (if c then rd_borrow C else None) with Some f => k1 f | None => d1 end)
              (match (if c then rd_borrow R else None) with Some f => k2 f | None => d2 end).
  Proof.
    intros Hk Hd. cbn [counting rd_borrow]. destruct c; [|exact Hd]. destruct (rd_borrow R) as [f|]; cbn [option_map]; [|exact Hd].
    apply Hk. reflexivity.
  Qed.

  Lemma tally_cow t rd1 rd2 n a b : a <= b -> tally a (b - a) rd1 rd2 -> drops P left 1 rd2 ->
    tally (2 + a) b (read_cow h C t rd1 n) (read_cow h R t rd2 n).
  Proof.
    intros Hab Hm Hd. unfold read_cow. change (no_conv h C t) with (no_conv h R t).
    apply (tally_borrow_if _ b (2 + a)
             (fun f => (if (usize_max h <? n * h_size h t) && h_overflow_checks h then crash PanicOverflow else ret tt) ;;;
                b <- f (n * h_size h t mod (usize_max h + 1)) ;;
                (let (addr, bs) := b in
                 if (h_align h t =? 1) || (addr mod h_align h t =? 0) then
                   x <- lift (slice_count h t (nlen bs)) ;;
                   ret (map (mem_read h t) (chunks (N.to_nat (h_size h t)) (N.to_nat x) bs))
                 else alloc h C n (h_size h t) (h_size h t) ;;;
                      ret (map (mem_read h t) (chunks (N.to_nat (h_size h t)) (N.to_nat n) bs))))
             (fun f => (if (usize_max h <? n * h_size h t) && h_overflow_checks h then crash PanicOverflow else ret tt) ;;;
                b <- f (n * h_size h t mod (usize_max h + 1)) ;;
                (let (addr, bs) := b in
                 if (h_align h t =? 1) || (addr mod h_align h t =? 0) then
                   x <- lift (slice_count h t (nlen bs)) ;;
                   ret (map (mem_read h t) (chunks (N.to_nat (h_size h t)) (N.to_nat x) bs))
                 else alloc h R n (h_size h t) (h_size h t) ;;;
                      ret (map (mem_read h t) (chunks (N.to_nat (h_size h t)) (N.to_nat n) bs))))).
    - intros f Hf. apply tally_then; [leaf|]. intros _.
      apply (tally_bind 1 1); [lia|eapply tally_tick, (mt_borrow _ _ _ K _ Hf)|]. intros [addr bs].
      destruct (_ || _).
      + apply tally_then; [leaf|]. leaf.
      + apply tally_first; [apply tally_alloc|]. leaf.
    - apply tally_vec; assumption.
  Qed.

  Lemma tally_borrowed b n : tally 1 b (borrowed C n) (borrowed R n).
  Proof.
    unfold borrowed. cbn [counting rd_borrow]. destruct (rd_borrow R) as [f|] eqn:E; cbn [option_map]; [|leaf].
    eapply tally_tick, (mt_borrow _ _ _ K _ E).
  Qed.
  Lemma tally_eof b : tally 1 b (match rd_borrow_eof C with Some b => b | None => fail Unsized end)
                               (match rd_borrow_eof R with Some b => b | None => fail Unsized end).
  Proof.
    cbn [counting rd_borrow_eof]. destruct (rd_borrow_eof R) as [f|] eqn:E; cbn [option_map]; [|leaf].
    eapply tally_tick, (mt_borrow_eof _ _ _ K _ E).
  Qed.

  Lemma tally_raw a b k key t n bs : tally a b (raw_collect h k key t n bs) (raw_collect h k key t n bs).
  Proof. unfold raw_collect. leaf. Qed.

  Lemma tally_collection k key t rd1 rd2 n a b : a <= b -> tally a (b - a) rd1 rd2 -> drops P left 1 rd2 ->
    tally (2 + a) b (read_collection h C k key t rd1 n) (read_collection h R k key t rd2 n).
  Proof.
    intros Hab Hm Hd. unfold read_collection. change (no_conv h C t) with (no_conv h R t).
    assert (Hslow : tally (2 + a) b (xs <- repeatM rd1 (N.to_nat n) ;; ret (VSeq (collect k key xs)))
                                   (xs <- repeatM rd2 (N.to_nat n) ;; ret (VSeq (collect k key xs)))).
    { apply (tally_le _ a); [lia|]. apply tally_first; [apply tally_loop; assumption|leaf]. }
    destruct (is_prim h t && no_conv h R t); [|exact Hslow]. destruct (_ <? _); [leaf|].
    cbn [counting rd_borrow_r]. destruct (rd_borrow_r R) as [f|] eqn:E; cbn [option_map]; [|exact Hslow].
    apply (tally_le _ 1); [lia|]. apply tally_first; [eapply tally_tick, (mt_borrow_r _ _ _ K _ E)|]. intros bs. apply tally_raw.
  Qed.

  Lemma tally_kv k tk tv rk1 rk2 rv1 rv2 n a b : a <= b ->
    tally a (b - a) (read_pair rk1 rv1) (read_pair rk2 rv2) -> drops P left 1 (read_pair rk2 rv2) ->
    tally (2 + a) b (read_kv h C k tk tv rk1 rv1 n) (read_kv h R k tk tv rk2 rv2 n).
  Proof.
    intros Hab Hm Hd. unfold read_kv. change (rd_endian C) with (rd_endian R).
    assert (Hslow : tally (2 + a) b (xs <- repeatM (read_pair rk1 rv1) (N.to_nat n) ;; ret (VSeq (collect k pair_key xs)))
                                   (xs <- repeatM (read_pair rk2 rv2) (N.to_nat n) ;; ret (VSeq (collect k pair_key xs)))).
    { apply (tally_le _ a); [lia|]. apply tally_first; [apply tally_loop; assumption|leaf]. }
    destruct (is_prim h tk && is_prim h tv && _); [|exact Hslow]. destruct (_ <? _); [leaf|].
    cbn [counting rd_borrow_r]. destruct (rd_borrow_r R) as [f|] eqn:E; cbn [option_map]; [|exact Hslow].
    apply (tally_le _ 1); [lia|]. apply tally_first; [eapply tally_tick, (mt_borrow_r _ _ _ K _ E)|]. intros bs. apply tally_raw.
  Qed.

  Lemma tally_read_map k tk tv rk1 rk2 rv1 rv2 n a b : a <= b ->
    tally a (b - a) (read_pair rk1 rv1) (read_pair rk2 rv2) -> drops P left 1 (read_pair rk2 rv2) ->
    tally (2 + a) b (read_map h C k tk tv rk1 rv1 n) (read_map h R k tk tv rk2 rv2 n).
  Proof.
    intros Hab Hm Hd. unfold read_map. destruct k; try (apply tally_kv; assumption).
    apply (tally_le _ a); [lia|]. apply tally_first; [apply tally_loop; assumption|leaf].
  Qed.

  Lemma tally_pair a1 a2 b rk1 rk2 rv1 rv2 : tally a1 b rk1 rk2 -> tally a2 b rv1 rv2 ->
    tally (a1 + a2) b (read_pair rk1 rv1) (read_pair rk2 rv2).
  Proof.
    intros H1 H2. unfold read_pair. apply (tally_bind a1 a2); [lia|exact H1|]. intros x.
    apply tally_first; [exact H2|]. leaf.
  Qed.

  Lemma tally_ipv4 b : tally 1 b (read_ipv4 h C) (read_ipv4 h R).
  Proof. apply tally_first; [apply tally_uint|leaf]. Qed.
  Lemma tally_ipv6 b : tally 1 b (read_ipv6 h C) (read_ipv6 h R).
  Proof. apply tally_first; [apply tally_rd|leaf]. Qed.
  Lemma tally_duration b : tally 2 b (read_duration h C) (read_duration h R).
  Proof. apply (tally_bind 1 1); [lia|apply tally_uint|]. intros x. apply tally_first; [apply tally_uint|leaf]. Qed.

  Lemma tally_scalar b s : tally (steps (TScalar s)) b (read_scalar h C s) (read_scalar h R s).
  Proof.
    destruct s; cbn [steps read_scalar];
      try (apply (tally_le _ 1); [lia|]; apply tally_first; [first [apply tally_prim|apply tally_u8|apply tally_uint|apply tally_rd]|leaf]; fail).
    - leaf.
    - apply tally_first; [apply tally_varint|leaf].
    - apply (tally_bind 1 1); [lia|apply tally_u8|]. intros x. destruct (x =? 0); [apply tally_first; [apply tally_ipv4|leaf]|].
      destruct (x =? 1); [apply tally_first; [apply tally_ipv6|leaf]|leaf].
    - apply tally_duration.
    - apply tally_first; [apply tally_duration|leaf].
    - apply (tally_bind 1 1); [lia|apply tally_prim|]. intros x. apply tally_first; [apply tally_uint|leaf].
    - apply tally_map. rewrite <- (N.mul_1_r (N.of_nat n)). apply tally_times. apply tally_first; [apply tally_prim|leaf].
  Qed.

  Lemma tally_elem_u8 b : tally 1 b (read_elem_u8 h C) (read_elem_u8 h R).
  Proof. apply tally_first; [apply tally_prim|leaf]. Qed.
  Lemma tally_to_str a b bs : tally a b (to_str bs) (to_str bs).
  Proof. unfold to_str. leaf. Qed.
  Lemma tally_vec_u8 b n : tally 2 b (read_vec_u8 h C n) (read_vec_u8 h R n).
  Proof.
    apply tally_map. unfold read_vec. apply tally_then; [destruct (_ <? _); leaf|]. intros _.
    apply (tally_bind 1 1); [lia|apply tally_alloc|]. intros _. cbn [is_prim]. apply tally_first; [apply tally_ptr|leaf].
  Qed.
  Lemma tally_cow_u8 b n : tally 2 b (read_cow_u8 h C n) (read_cow_u8 h R n).
  Proof.
    apply tally_map. unfold read_cow. change (no_conv h C TU8) with (no_conv h R TU8).
    destruct (is_prim h TU8 && no_conv h R TU8); cbn [counting rd_borrow];
      [destruct (rd_borrow R) as [f|] eqn:E; cbn [option_map]|].
    - apply tally_then; [leaf|]. intros _.
      apply (tally_bind 1 1); [lia|eapply tally_tick, (mt_borrow _ _ _ K _ E)|]. intros [addr bs].
      destruct (_ || _).
      + apply tally_then; [leaf|]. leaf.
      + apply tally_first; [apply tally_alloc|]. leaf.
    - unfold read_vec. apply tally_then; [destruct (_ <? _); leaf|]. intros _.
      apply (tally_bind 1 1); [lia|apply tally_alloc|]. intros _. cbn [is_prim]. apply tally_first; [apply tally_ptr|leaf].
    - unfold read_vec. apply tally_then; [destruct (_ <? _); leaf|]. intros _.
      apply (tally_bind 1 1); [lia|apply tally_alloc|]. intros _. cbn [is_prim]. apply tally_first; [apply tally_ptr|leaf].
  Qed.
  Lemma tally_constant b c : tally 2 b (read_constant h C c) (read_constant h R c).
  Proof.
    apply tally_first; [|leaf]. cbn [counting rd_borrow]. destruct (rd_borrow R) as [f|] eqn:E; cbn [option_map]; [|apply tally_vec_u8].
    apply (tally_le _ 1); [lia|]. apply tally_map. eapply tally_tick, (mt_borrow _ _ _ K _ E).
  Qed.
  Lemma tally_cast a b t n p : tally a b (cast_slice h t n p) (cast_slice h t n p).
  Proof. unfold cast_slice. leaf. Qed.
  Lemma tally_guard a b t : tally a b (endianness_guard h C t) (endianness_guard h R t).
  Proof. unfold endianness_guard. change (rd_endian C) with (rd_endian R). leaf. Qed.
  Lemma tally_ref_slice b t n : tally 1 b (read_ref_slice h C t n) (read_ref_slice h R t n).
  Proof.
    unfold read_ref_slice. destruct (_ <? _); [leaf|]. apply tally_first; [apply tally_borrowed|]. intros p. apply tally_cast.
  Qed.

  Lemma tally_until_eof a b rd1 rd2 : a <= b -> tally a (b - a) rd1 rd2 -> drops P left 1 rd2 ->
    tally a b (read_until_eof C rd1) (read_until_eof R rd2).
  Proof. intros Hab Hm Hd n s Hs. unfold read_until_eof. cbn [counting rd_fuel snd]. apply tally_until; assumption. Qed.

  Lemma tally_with_length a b prev f k1 k2 u1 u2 : (forall n, tally a b (k1 n) (k2 n)) -> tally (2 + a) b u1 u2 ->
    tally (2 + a) b (with_length h C prev f k1 u1) (with_length h R prev f k2 u2).
  Proof.
    intros Hk Hu. unfold with_length.
    assert (Hl : forall l, tally (2 + a) b
      (n <- (if f_eof f then catch_eof 0 (read_length h C l) else read_length h C l) ;; k1 n)
      (n <- (if f_eof f then catch_eof 0 (read_length h R l) else read_length h R l) ;; k2 n)).
    { intros l. apply (tally_bind 2 a); [lia| |exact Hk]. destruct (f_eof f); [apply tally_catch|]; apply tally_length. }
    destruct (f_len f) as [|l|g|]; try apply Hl; [|exact Hu].
    destruct (g prev) as [n|]; [|leaf]. apply (tally_le _ a); [lia|]. apply Hk.
  Qed.

  Definition costs (t : ty) : Prop := fed h t = true -> forall b, rate t <= b -> tally (steps t) b (read h C t) (read h R t).

  Lemma takes_drops t : takes h t = true -> drops P left 1 (read h R t).
  Proof. exact (proj1 (proj2 (drops_read P left h VH R K t))). Qed.
  Lemma any_drops t : drops P left 0 (read h R t).
  Proof. exact (proj1 (drops_read P left h VH R K t)). Qed.
  Lemma pair_drops tk tv : takes h tk || takes h tv = true -> drops P left 1 (read_pair (read h R tk) (read h R tv)).
  Proof.
    intros H. unfold read_pair. apply orb_true_iff in H as [H|H].
    - apply drops_first; [apply takes_drops, H|]. intros x. apply drops_then; [apply any_drops|]. intros y. apply drops_ret.
    - apply drops_then; [apply any_drops|]. intros x. apply drops_first; [apply takes_drops, H|]. intros y. apply drops_ret.
  Qed.

  Lemma costs_inner prev a v t : costs t ->
    (forall t', match t with
                | TSeq _ t1 | TArr t1 _ | TSet _ t1 => t' = t1
                | TMap _ t1 t2 => t' = t1 \/ t' = t2
                | _ => False
                end -> costs t') ->
    fed h t = true -> forall b, rate t <= b ->
    tally (steps t) b (read_field_inner h C (read h C) prev a v t) (read_field_inner h R (read h R) prev a v t).
  Proof.
    intros Ht Hs Hf b Hb. specialize (Ht Hf b Hb).
    assert (Hloop : forall t', takes h t' && fed h t' = true -> costs t' -> steps t' + rate t' <= b ->
      steps t' <= b /\ tally (steps t') (b - steps t') (read h C t') (read h R t') /\ drops P left 1 (read h R t')).
    { intros t' Hx Hc Hr. apply andb_true_iff in Hx as [Hx1 Hx2]. split; [lia|]. split; [|apply takes_drops, Hx1].
      apply Hc; [exact Hx2|lia]. }
    assert (Hpair : forall tk tv, (takes h tk || takes h tv) && fed h tk && fed h tv = true -> costs tk -> costs tv ->
      steps tk + steps tv + N.max (rate tk) (rate tv) <= b ->
      let p1 := read_pair (read h C tk) (read h C tv) in let p2 := read_pair (read h R tk) (read h R tv) in
      steps tk + steps tv <= b /\ tally (steps tk + steps tv) (b - (steps tk + steps tv)) p1 p2 /\ drops P left 1 p2).
    { intros tk tv Hx Hk Hv Hr p1 p2. apply andb_true_iff in Hx as [Hx Hx3]. apply andb_true_iff in Hx as [Hx1 Hx2].
      split; [lia|]. split; [|apply pair_drops, Hx1]. apply tally_pair; [apply Hk|apply Hv]; auto; lia. }
    destruct t as [[]|[]|[]|t n| | | | | |[] t|[] t1 t2| | | |]; cbn [read_field_inner]; try exact Ht; cbn [fed steps rate] in *;
      try (destruct v; [apply tally_first; [apply tally_varint|leaf]|exact Ht]);
      try (destruct (Hloop _ Hf (Hs _ eq_refl) Hb) as (L1 & L2 & L3));
      try (destruct (Hpair _ _ Hf (Hs _ (or_introl eq_refl)) (Hs _ (or_intror eq_refl)) Hb) as (L1 & L2 & L3)).
    - apply (tally_with_length 2).
      + intros n. apply tally_first; [apply tally_vec_u8|]. intros. apply tally_to_str.
      + apply (tally_le _ 1); [lia|]. apply tally_first; [|intros; apply tally_to_str].
        apply tally_until_eof; [exact Hb|apply tally_elem_u8|apply drops_elem_u8, K].
    - apply (tally_with_length 2).
      + intros n. apply tally_first; [apply tally_cow_u8|]. intros. apply tally_to_str.
      + apply (tally_le _ 1); [lia|]. apply tally_first; [|intros; apply tally_to_str].
        apply tally_until_eof; [exact Hb|apply tally_elem_u8|apply drops_elem_u8, K].
    - apply (tally_with_length 2).
      + intros n. apply (tally_le _ 1); [lia|]. apply tally_first; [apply tally_borrowed|]. intros. apply tally_to_str.
      + apply (tally_le _ 1); [lia|]. apply tally_first; [apply tally_eof|intros; apply tally_to_str].
    - apply (tally_le _ (2 + (2 + steps t))); [lia|]. apply tally_with_length.
      + intros n. apply tally_map, tally_vec; assumption.
      + apply (tally_le _ (steps t)); [lia|]. apply tally_map, tally_until_eof; assumption.
    - apply (tally_le _ (2 + (2 + steps t))); [lia|]. apply tally_with_length.
      + intros n. apply tally_map, tally_cow; assumption.
      + apply (tally_le _ (steps t)); [lia|]. apply tally_map, tally_until_eof; assumption.
    - apply (tally_le _ (2 + 1)); [lia|]. apply tally_then; [apply tally_guard|]. intros _. apply tally_with_length.
      + intros n. apply tally_ref_slice.
      + apply (tally_le _ 1); [lia|]. apply tally_first; [apply tally_eof|]. intros p. destruct (_ =? 0); [leaf|apply tally_cast].
    - apply (tally_le _ (N.of_nat n * steps t)); [lia|]. apply tally_map, tally_times. apply (Hs _ eq_refl); assumption.
    - apply (tally_le _ (2 + (2 + steps t))); [lia|]. apply tally_with_length.
      + intros n. apply tally_collection; assumption.
      + apply (tally_le _ (steps t)); [lia|]. apply tally_first; [apply tally_until_eof; assumption|leaf].
    - apply (tally_le _ (2 + (2 + steps t))); [lia|]. apply tally_with_length.
      + intros n. apply tally_collection; assumption.
      + apply (tally_le _ (steps t)); [lia|]. apply tally_first; [apply tally_until_eof; assumption|leaf].
    - apply (tally_le _ (2 + (2 + (steps t1 + steps t2)))); [lia|]. apply tally_with_length.
      + intros n. apply tally_kv; assumption.
      + apply (tally_le _ (steps t1 + steps t2)); [lia|]. apply tally_first; [apply tally_until_eof; assumption|leaf].
    - apply (tally_le _ (2 + (2 + (steps t1 + steps t2)))); [lia|]. apply tally_with_length.
      + intros n. apply tally_kv; assumption.
      + apply (tally_le _ (steps t1 + steps t2)); [lia|]. apply tally_first; [apply tally_until_eof; assumption|leaf].
  Qed.

  Definition field_steps (f : fattrs * ty) : N :=
    if f_skip (fst f) then 0 else (match f_prefix (fst f) with [] => 0 | _ => 2 end) + steps (snd f).
  Definition field_rate (f : fattrs * ty) : N := if f_skip (fst f) then 0 else rate (snd f).

  Lemma costs_field prev a t : costs t -> (forall t', below t t' -> costs t') -> fed h t = true -> forall b, rate t <= b ->
    tally ((match f_prefix a with [] => 0 | _ => 2 end) + steps t) b
          (read_field h C (read h C) prev a t) (read_field h R (read h R) prev a t).
  Proof.
    intros Ht Hb Hf b Hr.
    assert (Hp : tally (match f_prefix a with [] => 0 | _ => 2 end) b
      (match f_prefix a with [] => ret tt | p => read_constant h C p end)
      (match f_prefix a with [] => ret tt | p => read_constant h R p end)).
    { destruct (f_prefix a); [leaf|apply tally_constant]. }
    assert (Hq : tally (steps t) b
      (if f_opaque a then read h C t else
       match t with
       | TOption t' => flag <- read_u8 C ;;
           if flag =? 0 then ret VNone else mmap VSome (read_field_inner h C (read h C) prev a false t')
       | _ => read_field_inner h C (read h C) prev a (f_varint a) t
       end)
      (if f_opaque a then read h R t else
       match t with
       | TOption t' => flag <- read_u8 R ;;
           if flag =? 0 then ret VNone else mmap VSome (read_field_inner h R (read h R) prev a false t')
       | _ => read_field_inner h R (read h R) prev a (f_varint a) t
       end)).
    { destruct (f_opaque a); [apply Ht; assumption|].
      destruct t; try (apply costs_inner; [exact Ht|intros t' H'; apply Hb; cbn [below]; tauto|exact Hf|exact Hr]).
      cbn [steps fed rate] in *. apply (tally_bind 1 (steps t)); [lia|apply tally_u8|]. intros x. destruct (x =? 0); [leaf|].
      apply tally_map, costs_inner; auto.
      - apply Hb. cbn [below]. auto.
      - intros t' H'. apply Hb. cbn [below]. auto. }
    pose proof (tally_bind _ _ _ b _ _ _ _ (N.le_refl _) Hp (fun _ => Hq)) as H.
    unfold read_field. destruct (f_eof a); [apply tally_catch|]; exact H.
  Qed.

  Lemma costs_fields fs : Forall (fun f => costs (snd f) /\ forall t', below (snd f) t' -> costs t') fs ->
    forallb (fun f => f_skip (fst f) || fed h (snd f)) fs = true -> forall b, fold_right N.max 0 (map field_rate fs) <= b ->
    forall prev, tally (nsum (map field_steps fs)) b (read_fields h C (read h C) prev fs) (read_fields h R (read h R) prev fs).
  Proof.
    induction 1 as [|f r [Hf Hb] Hr IH]; cbn [forallb map fold_right]; intros Hx b Hm prev; cbn [read_fields]; [leaf|].
    apply andb_true_iff in Hx as [Hx1 Hx2]. specialize (IH Hx2 b ltac:(lia)).
    change (nsum (field_steps f :: map field_steps r)) with (field_steps f + nsum (map field_steps r)).
    unfold field_steps at 1. unfold field_rate at 1 in Hm. destruct (f_skip (fst f)); [apply tally_map, IH|].
    eapply tally_bind; [apply N.le_refl|apply costs_field; auto; lia|]. intros v. apply tally_first; [apply IH|]. leaf.
  Qed.

  (** Reading with a counter is reading, and the count is bounded. *)
  Theorem costs_read t : costs t /\ forall t', below t t' -> costs t'.
  Proof.
    assert (Hloop : forall t' b, takes h t' && fed h t' = true -> costs t' -> steps t' + rate t' <= b ->
      steps t' <= b /\ tally (steps t') (b - steps t') (read h C t') (read h R t') /\ drops P left 1 (read h R t')).
    { intros t' b Hx Hc Hr. apply andb_true_iff in Hx as [Hx1 Hx2]. split; [lia|]. split; [|apply takes_drops, Hx1].
      apply Hc; [exact Hx2|lia]. }
    induction t as [s|k|k t IH|t n IH|t n IH|t IH|t1 t2 IH1 IH2|ts IH|i t IH|k t IH|k tk tv IHk IHv|t IH|d fs IH|d vs IH|]
      using ty_ind'; (split; [intros Hf b Hb; cbn [read]|intros t' Hl; cbn [below] in Hl]); try contradiction.
    - apply tally_scalar.
    - cbn [steps]. unfold read_str. apply (tally_bind 2 2); [lia|apply tally_length|]. intros n.
      destruct k; first [apply tally_first; [first [apply tally_vec_u8|apply tally_cow_u8]|intros; apply tally_to_str]
        | apply (tally_le _ 1); [lia|]; apply tally_first; [apply tally_borrowed|intros; apply tally_to_str]
        | idtac].
      apply tally_first; [apply tally_cow_u8|]. intros x. apply tally_first; [apply tally_to_str|leaf].
    - destruct IH as [IH _]. cbn [steps rate] in *. unfold read_seq. destruct k; cbn [fed] in Hf;
        try (destruct (Hloop t b Hf IH Hb) as (L1 & L2 & L3); apply (tally_bind 2 (2 + steps t)); [lia|apply tally_length|];
             intros n; apply tally_map; first [apply tally_vec|apply tally_cow]; assumption).
      apply tally_then; [apply tally_guard|]. intros _. apply (tally_bind 2 1); [lia|apply tally_length|]. intros n. apply tally_ref_slice.
    - subst. exact (proj1 IH).
    - destruct IH as [IH _]. cbn [steps rate fed] in *. unfold read_array. destruct (is_prim h t).
      + apply (tally_le _ 1); [lia|]. apply tally_first; [apply tally_ptr|]. intros x. apply tally_map. leaf.
      + apply (tally_le _ (N.of_nat n * steps t)); [lia|]. apply tally_map, tally_times, IH; assumption.
    - subst. exact (proj1 IH).
    - unfold read_ref_array. apply tally_then; [apply tally_guard|]. intros _. apply tally_first; [apply tally_borrowed|].
      intros x. apply tally_cast.
    - destruct IH as [IH _]. cbn [steps rate fed] in *. apply (tally_bind 1 (steps t)); [lia|apply tally_u8|]. intros x.
      destruct (x =? 0); [leaf|]. apply tally_map, IH; assumption.
    - destruct IH as [IH1 IH2]. destruct Hl as [->|Hl]; [exact IH1|]. apply IH2.
      destruct t; try contradiction; cbn [below]; exact Hl.
    - destruct IH1 as [IH1 _]. destruct IH2 as [IH2 _]. cbn [steps rate fed] in *. apply andb_true_iff in Hf as [Hf1 Hf2].
      apply (tally_bind 1 (N.max (steps t1) (steps t2))); [lia|apply tally_u8|]. intros x. destruct (x =? 0).
      + apply (tally_le _ (steps t2)); [lia|]. apply tally_map, IH2; auto. lia.
      + apply (tally_le _ (steps t1)); [lia|]. apply tally_map, IH1; auto. lia.
    - cbn [steps rate fed] in *. apply tally_map.
      induction IH as [|t r [IHt _] IHr IHl]; cbn [forallb map fold_right] in *; cbn [read_tuple]; [leaf|].
      apply andb_true_iff in Hf as [Hf1 Hf2]. change (nsum (steps t :: map steps r)) with (steps t + nsum (map steps r)).
      eapply tally_bind; [apply N.le_refl|apply IHt; [exact Hf1|lia]|]. intros x. apply tally_first; [apply IHl; [exact Hf2|lia]|leaf].
    - destruct IH as [IH _]. cbn [steps rate fed] in *. apply (tally_bind (steps t) (steps t)); [lia|apply IH; assumption|]. intros x.
      apply tally_first; [apply IH; assumption|leaf].
    - destruct IH as [IH _]. cbn [steps rate fed] in *. destruct (Hloop t b Hf IH Hb) as (L1 & L2 & L3).
      apply (tally_bind 2 (2 + steps t)); [lia|apply tally_length|]. intros n. apply tally_collection; assumption.
    - subst. exact (proj1 IH).
    - destruct IHk as [IHk _]. destruct IHv as [IHv _]. cbn [steps rate fed] in *.
      apply andb_true_iff in Hf as [Hf Hf3]. apply andb_true_iff in Hf as [Hf1 Hf2].
      apply (tally_bind 2 (2 + (steps tk + steps tv))); [lia|apply tally_length|]. intros n.
      apply tally_read_map; [lia| |apply pair_drops, Hf1]. apply tally_pair; [apply IHk|apply IHv]; auto; lia.
    - destruct Hl as [->| ->]; [exact (proj1 IHk)|exact (proj1 IHv)].
    - exact (proj1 IH Hf b Hb).
    - apply tally_map, costs_fields; assumption.
    - cbn [steps rate fed] in *.
      apply (tally_bind 2 (fold_right N.max 0 (map (fun v : N * fields => nsum (map field_steps (snd v))) vs))); [apply N.le_refl| |].
      { unfold read_tag. destruct (e_tag d), (e_peek d);
          first [apply tally_varint|apply tally_peek_varint
                |apply (tally_le _ 1); [lia|]; first [apply tally_u8|apply tally_uint|apply tally_peek_u8|apply tally_peek_uint; lia]]. }
      intros tag. generalize 0%nat.
      induction IH as [|v r IHv IHr IHl]; intros i; cbn [read_variant]; [leaf|]. cbn [forallb map fold_right] in *.
      apply andb_true_iff in Hf as [Hf1 Hf2]. destruct (fst v =? tag).
      + apply (tally_le _ (nsum (map field_steps (snd v)))); [lia|]. apply tally_map, costs_fields; auto.
        unfold field_rate. lia.
      + eapply tally_le; [|apply IHl; [exact Hf2|lia]]. lia.
    - leaf.
  Qed.
End Tally.
