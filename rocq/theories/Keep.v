(* Invariants of a reader hold after reading anything, whatever the outcome. *)
From Verif Require Export ReadFacts TyInd Api.

Section Keep.
  Context {St : Type} (P : St -> Prop).

  Definition keeps {A} (m : M St A) : Prop := forall s, P s -> P (snd (m s)).

  Lemma keeps_ret {A} (a : A) : keeps (ret a).
  Proof. intros s H. exact H. Qed.
  Lemma keeps_fail {A} er : keeps (A := A) (fail er).
  Proof. intros s H. exact H. Qed.
  Lemma keeps_crash {A} f : keeps (A := A) (crash f).
  Proof. intros s H. exact H. Qed.
  Lemma keeps_lift {A} (r : res A) : keeps (lift r).
  Proof. intros s H. exact H. Qed.

  Lemma keeps_bind {A B} (m : M St A) (f : A -> M St B) : keeps m -> (forall a, keeps (f a)) -> keeps (bind m f).
  Proof.
    intros Hm Hf s Hs. unfold bind. specialize (Hm s Hs). destruct (m s) as [[a|er|x] s']; cbn [snd] in *; auto.
    apply Hf, Hm.
  Qed.

  Lemma keeps_map {A B} (g : A -> B) (m : M St A) : keeps m -> keeps (mmap g m).
  Proof. intros Hm. apply keeps_bind; [exact Hm|]. intros a. apply keeps_ret. Qed.

  Lemma keeps_repeat {A} (m : M St A) n : keeps m -> keeps (repeatM m n).
  Proof.
    intros Hm. induction n as [|n IH]; cbn [repeatM]; [apply keeps_ret|].
    apply keeps_bind; [exact Hm|]. intros a. apply keeps_bind; [exact IH|]. intros l. apply keeps_ret.
  Qed.

  Lemma keeps_catch {A} (d : A) m : keeps m -> keeps (catch_eof d m).
  Proof.
    intros Hm s Hs. unfold catch_eof. specialize (Hm s Hs). destruct (m s) as [[a|er|x] s']; cbn [snd] in *; auto.
    destruct (is_eof er); exact Hm.
  Qed.

  Lemma keeps_until (m : M St val) k : keeps m -> keeps (until_eof_loop m k).
  Proof.
    intros Hm. induction k as [|k IH]; cbn [until_eof_loop]; [apply keeps_crash|].
    intros s Hs. specialize (Hm s Hs). destruct (m s) as [[a|er|x] s']; cbn [snd] in *; auto.
    - apply (keeps_map (cons a) _ IH), Hm.
    - destruct (is_eof er); exact Hm.
  Qed.

  Context (h : host) (R : reader St).

  (** The operations keep the invariant; allocations only where they are made. *)
  Record keep_reader : Prop := {
    kr_read : forall n, keeps (rd_read R n);
    kr_read_ptr : forall n, keeps (rd_read_ptr R n);
    kr_peek : forall n, n <= 8 -> keeps (rd_peek R n);
    kr_peek_ptr : forall n, n <= 8 -> keeps (rd_peek_ptr R n);
    kr_borrow : forall b, rd_borrow R = Some b -> forall n, keeps (b n);
    kr_borrow_r : forall b, rd_borrow_r R = Some b -> forall n, keeps (b n);
    kr_borrow_eof : forall b, rd_borrow_eof R = Some b -> keeps b;
    kr_vec : forall n t,
      keeps ((if usize_max h <? min_bytes h t * n then fail UnexpectedEndOfInput else require R (min_bytes h t * n)) ;;;
             alloc h R n (h_size h t) (min_bytes h t));
    kr_copy : forall b, rd_borrow R = Some b -> forall n t s p s', P s ->
      b (n * h_size h t mod (usize_max h + 1)) s = (Ok p, s') -> P (snd (alloc h R n (h_size h t) (h_size h t) s'))
  }.
  Context (K : keep_reader).

  Hint Resolve keeps_ret keeps_fail keeps_crash keeps_lift kr_read kr_read_ptr : keep.

  Lemma keeps_require n : keeps (require R n).
  Proof. intros s Hs. unfold require. destruct (rd_can R n s) as [[]|]; exact Hs. Qed.
  Hint Resolve keeps_require : keep.

  Ltac keep := repeat match goal with
    | |- keeps (bind _ _) => apply keeps_bind; [|intros ?]
    | |- keeps (mmap _ _) => apply keeps_map
    | |- keeps (repeatM _ _) => apply keeps_repeat
    | |- keeps (if ?b then _ else _) => destruct b
    | |- keeps (catch_eof _ _) => apply keeps_catch
    | |- keeps (match ?x with _ => _ end) => destruct x
    end; auto with keep.

  Lemma keeps_u8 : keeps (read_u8 R). Proof. unfold read_u8. keep. Qed.
  Lemma keeps_peek_u8 : keeps (peek_u8 R). Proof. unfold peek_u8. keep. apply (kr_peek_ptr K). lia. Qed.
  Lemma keeps_uint w : keeps (read_uint h R w). Proof. unfold read_uint. keep. Qed.
  Lemma keeps_peek_uint w : (w <= 8)%nat -> keeps (peek_uint h R w).
  Proof. intros Hw. unfold peek_uint. keep. apply (kr_peek_ptr K). lia. Qed.
  Hint Resolve keeps_u8 keeps_peek_u8 keeps_uint : keep.
  Hint Extern 1 (keeps (peek_uint _ _ _)) => apply keeps_peek_uint; lia : keep.
  Lemma keeps_prim p : keeps (read_prim h R p). Proof. unfold read_prim. keep. Qed.
  Lemma keeps_varint : keeps (read_varint h R). Proof. unfold read_varint, vi_impl. keep. Qed.
  Lemma keeps_peek_varint : keeps (peek_varint h R). 
  Proof.
    unfold peek_varint, vi_impl. apply keeps_bind; [keep|]. intros b. apply keeps_bind; [|intros ?; keep].
    apply (kr_peek K). unfold vi_length, leading_zeros. lia.
  Qed.
  Hint Resolve keeps_prim keeps_varint keeps_peek_varint : keep.
  Lemma keeps_length b : keeps (read_length h R b). Proof. unfold read_length. keep. Qed.
  Hint Resolve keeps_length : keep.

  Lemma keeps_assoc {A B C} (m : M St A) (f : A -> M St B) (g : B -> M St C) :
    keeps (bind (bind m f) g) -> keeps (bind m (fun a => bind (f a) g)).
  Proof.
    intros H s Hs. specialize (H s Hs). unfold bind in *. destruct (m s) as [[a|er|x] s']; exact H.
  Qed.

  Lemma keeps_vec t rd n : keeps rd -> keeps (read_vec h R t rd n).
  Proof.
    intros Hrd. unfold read_vec.
    apply (keeps_assoc (if usize_max h <? min_bytes h t * n then fail UnexpectedEndOfInput
                        else require R (min_bytes h t * n)) (fun _ => alloc h R n (h_size h t) (min_bytes h t))).
    apply keeps_bind; [apply (kr_vec K)|]. intros _. keep.
  Qed.
  Hint Resolve keeps_vec : keep.

  Lemma keeps_cow t rd n : keeps rd -> keeps (read_cow h R t rd n).
  Proof.
    intros Hrd. unfold read_cow. destruct (if is_prim h t && no_conv h R t then rd_borrow R else None) as [b|] eqn:Eb; [|keep].
    assert (Hb : rd_borrow R = Some b) by (destruct (is_prim h t && no_conv h R t); [exact Eb|discriminate]).
    apply keeps_bind; [keep|]. intros _ s Hs.
    pose proof (kr_borrow K b Hb (n * h_size h t mod (usize_max h + 1)) s Hs) as H1.
    pose proof (fun p s' => kr_copy K b Hb n t s p s' Hs) as H2.
    unfold bind at 1. destruct (b (n * h_size h t mod (usize_max h + 1)) s) as [[[addr bs]|er|x] s']; cbn [snd] in H1; auto.
    specialize (H2 _ _ eq_refl). destruct ((h_align h t =? 1) || (addr mod h_align h t =? 0)).
    - revert H1. generalize s'. apply keeps_bind; [keep|]. intros ?. keep.
    - unfold bind. destruct (alloc h R n (h_size h t) (h_size h t) s') as [[] s2]; exact H2.
  Qed.
  Hint Resolve keeps_cow : keep.

  Lemma keeps_borrowed n : keeps (borrowed R n).
  Proof. unfold borrowed. destruct (rd_borrow R) eqn:E; [apply (kr_borrow K _ E)|keep]. Qed.
  Hint Resolve keeps_borrowed : keep.

  Lemma keeps_eof : keeps (match rd_borrow_eof R with Some b => b | None => fail Unsized end).
  Proof. destruct (rd_borrow_eof R) eqn:E; [apply (kr_borrow_eof K _ E)|keep]. Qed.

  Lemma keeps_raw k key t n bs : keeps (raw_collect (St := St) h k key t n bs).
  Proof. unfold raw_collect. keep. Qed.
  Hint Resolve keeps_raw : keep.

  Lemma keeps_collection k key t rd n : keeps rd -> keeps (read_collection h R k key t rd n).
  Proof.
    intros Hrd. unfold read_collection. destruct (rd_borrow_r R) eqn:E.
    - pose proof (kr_borrow_r K _ E) as Hb. keep.
    - keep.
  Qed.
  Hint Resolve keeps_collection : keep.

  Lemma keeps_pair rk rv : keeps rk -> keeps rv -> keeps (read_pair rk rv).
  Proof. intros H1 H2. unfold read_pair. keep. Qed.
  Hint Resolve keeps_pair : keep.

  Lemma keeps_kv k tk tv rk rv n : keeps rk -> keeps rv -> keeps (read_kv h R k tk tv rk rv n).
  Proof.
    intros H1 H2. unfold read_kv. destruct (rd_borrow_r R) eqn:E.
    - pose proof (kr_borrow_r K _ E) as Hb. keep.
    - keep.
  Qed.
  Hint Resolve keeps_kv : keep.

  Lemma keeps_read_map k tk tv rk rv n : keeps rk -> keeps rv -> keeps (read_map h R k tk tv rk rv n).
  Proof. intros H1 H2. unfold read_map. keep. Qed.
  Hint Resolve keeps_read_map : keep.

  Lemma keeps_ipv4 : keeps (read_ipv4 h R). Proof. unfold read_ipv4. keep. Qed.
  Lemma keeps_ipv6 : keeps (read_ipv6 h R). Proof. unfold read_ipv6. keep. Qed.
  Lemma keeps_duration : keeps (read_duration h R). Proof. unfold read_duration. keep. Qed.
  Hint Resolve keeps_ipv4 keeps_ipv6 keeps_duration : keep.
  Lemma keeps_scalar s : keeps (read_scalar h R s).
  Proof. destruct s; cbn [read_scalar]; keep. Qed.

  Lemma keeps_to_str bs : keeps (to_str (St := St) bs). Proof. unfold to_str. keep. Qed.
  Lemma keeps_elem_u8 : keeps (read_elem_u8 h R). Proof. unfold read_elem_u8. keep. Qed.
  Hint Resolve keeps_to_str keeps_elem_u8 : keep.
  Lemma keeps_vec_u8 n : keeps (read_vec_u8 h R n). Proof. unfold read_vec_u8. keep. Qed.
  Lemma keeps_cow_u8 n : keeps (read_cow_u8 h R n). Proof. unfold read_cow_u8. keep. Qed.
  Hint Resolve keeps_vec_u8 keeps_cow_u8 : keep.
  Lemma keeps_constant c : keeps (read_constant h R c).
  Proof.
    unfold read_constant. destruct (rd_borrow R) eqn:E; [pose proof (kr_borrow K _ E)|]; keep.
  Qed.
  Hint Resolve keeps_constant : keep.
  Lemma keeps_cast t n b : keeps (cast_slice (St := St) h t n b). Proof. unfold cast_slice. keep. Qed.
  Lemma keeps_guard t : keeps (endianness_guard h R t). Proof. unfold endianness_guard. keep. Qed.
  Hint Resolve keeps_cast keeps_guard : keep.
  Lemma keeps_ref_slice t n : keeps (read_ref_slice h R t n). Proof. unfold read_ref_slice. keep. Qed.
  Hint Resolve keeps_ref_slice : keep.

  Lemma keeps_until_eof rd : keeps rd -> keeps (read_until_eof R rd).
  Proof. intros H s Hs. apply keeps_until; assumption. Qed.
  Hint Resolve keeps_until_eof : keep.

  Lemma keeps_with_length prev a k u : (forall n, keeps (k n)) -> keeps u -> keeps (with_length h R prev a k u).
  Proof. intros Hk Hu. unfold with_length. keep. Qed.

  Lemma keeps_inner prev a v t : keeps (read h R t) ->
    (forall t', match t with
                | TSeq _ t1 | TArr t1 _ | TSet _ t1 => t' = t1
                | TMap _ t1 t2 => t' = t1 \/ t' = t2
                | _ => False
                end -> keeps (read h R t')) ->
    keeps (read_field_inner h R (read h R) prev a v t).
  Proof.
    intros Ht Hs. pose proof keeps_eof as He.
    destruct t as [[]|[]|[]| | | | | | |[]|[]| | | |]; cbn [read_field_inner]; auto;
      try (destruct v; [keep|exact Ht]);
      try (pose proof (Hs _ eq_refl)); try (pose proof (Hs _ (or_introl eq_refl))); try (pose proof (Hs _ (or_intror eq_refl)));
      keep; apply keeps_with_length; intros; keep; try exact He; keep.
  Qed.

  Definition below (t t' : ty) : Prop :=
    match t with
    | TSeq _ t1 | TArr t1 _ | TSet _ t1 => t' = t1
    | TMap _ t1 t2 => t' = t1 \/ t' = t2
    | TOption t1 => t' = t1 \/ match t1 with
                               | TSeq _ t2 | TArr t2 _ | TSet _ t2 => t' = t2
                               | TMap _ t2 t3 => t' = t2 \/ t' = t3
                               | _ => False
                               end
    | _ => False
    end.

  (** Reading keeps the invariant. *)
  Theorem keeps_read : forall t, keeps (read h R t) /\ forall t', below t t' -> keeps (read h R t').
  Proof.
    assert (Hfield : forall prev a t, keeps (read h R t) -> (forall t', below t t' -> keeps (read h R t')) ->
                     keeps (read_field h R (read h R) prev a t)).
    { intros prev a t Ht Hb. unfold read_field.
      assert (Hbody : keeps ((match f_prefix a with [] => ret tt | p => read_constant h R p end) ;;;
        (if f_opaque a then read h R t else
        match t with
        | TOption t' =>
          flag <- read_u8 R ;;
          if flag =? 0 then ret VNone else mmap VSome (read_field_inner h R (read h R) prev a false t')
        | _ => read_field_inner h R (read h R) prev a (f_varint a) t
        end))).
      { apply keeps_bind; [keep|]. intros _. destruct (f_opaque a); [exact Ht|].
        destruct t; try (apply keeps_inner; [exact Ht|intros t' H'; apply Hb; cbn [below]; tauto]).
        apply keeps_bind; [keep|]. intros x. destruct (x =? 0); [keep|]. apply keeps_map, keeps_inner.
        - apply Hb. cbn [below]. auto.
        - intros t' H'. apply Hb. cbn [below]. auto. }
      destruct (f_eof a); [apply keeps_catch|]; exact Hbody. }
    assert (Hfields : forall fs, Forall (fun f => keeps (read h R (snd f)) /\ forall t', below (snd f) t' -> keeps (read h R t')) fs ->
                      forall prev, keeps (read_fields h R (read h R) prev fs)).
    { induction 1 as [|f r [Hf Hb] Hr IH]; intros prev; cbn [read_fields]; [keep|].
      destruct (f_skip (fst f)); [apply keeps_map, IH|]. apply keeps_bind; [apply Hfield; assumption|].
      intros v. apply keeps_bind; [apply IH|]. intros vs. keep. }
    induction t as [s|k|k t IH|t n IH|t n IH|t IH|t1 t2 IH1 IH2|ts IH|i t IH|k t IH|k tk tv IHk IHv|t IH|d fs IH|d vs IH|]
      using ty_ind'; (split; [cbn [read]|intros t' Hb; cbn [below] in Hb]); try contradiction.
    - apply keeps_scalar.
    - unfold read_str. keep.
    - destruct IH as [IH _]. unfold read_seq. keep.
    - subst. apply (proj1 IH).
    - destruct IH as [IH _]. unfold read_array. keep.
    - subst. apply (proj1 IH).
    - unfold read_ref_array. keep.
    - destruct IH as [IH _]. keep.
    - destruct IH as [IH1 IH2]. destruct Hb as [->|Hb]; [exact IH1|]. apply IH2.
      destruct t; try contradiction; cbn [below]; exact Hb.
    - destruct IH1 as [IH1 _]. destruct IH2 as [IH2 _]. keep.
    - apply keeps_map. induction IH as [|t r [IHt _] IHr IHl]; cbn [read_tuple]; keep.
    - destruct IH as [IH _]. keep.
    - destruct IH as [IH _]. keep.
    - subst. apply (proj1 IH).
    - destruct IHk as [IHk _]. destruct IHv as [IHv _]. keep.
    - destruct Hb as [->| ->]; [apply (proj1 IHk)|apply (proj1 IHv)].
    - apply (proj1 IH).
    - apply keeps_map, Hfields, IH.
    - apply keeps_bind; [unfold read_tag; keep|]. intros tag. generalize 0%nat.
      induction IH as [|v r IHv IHr IHl]; intros i; cbn [read_variant]; [keep|].
      destruct (fst v =? tag); [|apply IHl]. apply keeps_map, Hfields, IHv.
    - keep.
  Qed.
End Keep.
