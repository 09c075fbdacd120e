(* Reading a recursive type nests no deeper than the input is long. *)
From Verif Require Export Recursive SafeReaders.

(** No hole. *)
Fixpoint closed (t : ty) : bool :=
  match t with
  | TScalar _ | TStr _ => true
  | TSeq _ t' | TArr t' _ | TRefArr t' _ | TOption t' | TRange _ t' | TSet _ t' | TBox t' => closed t'
  | TResult t1 t2 | TMap _ t1 t2 => closed t1 && closed t2
  | TTuple ts => forallb closed ts
  | TStruct _ fs => forallb (fun f => closed (snd f)) fs
  | TEnum _ vs => forallb (fun v => forallb (fun f => closed (snd f)) (snd v)) vs
  | TBot => false
  end.

Lemma closed_plug x t : closed t = true -> plug x t = t.
Proof.
  induction t as [s|k|k t IH|t n IH|t n IH|t IH|t1 t2 IH1 IH2|ts IH|i t IH|k t IH|k tk tv IHk IHv|t IH|d fs IH|d vs IH|]
    using ty_ind'; cbn [closed plug]; intros H; try reflexivity; try (rewrite IH by exact H; reflexivity).
  - apply andb_prop in H as [H1 H2]. rewrite IH1, IH2 by assumption. reflexivity.
  - f_equal. induction IH as [|t ts Ht _ IH]; [reflexivity|]. cbn [forallb map] in *. apply andb_prop in H as [H1 H2].
    rewrite Ht, IH by assumption. reflexivity.
  - apply andb_prop in H as [H1 H2]. rewrite IHk, IHv by assumption. reflexivity.
  - f_equal. induction IH as [|f fs Hf _ IH]; [reflexivity|]. cbn [forallb map] in *. apply andb_prop in H as [H1 H2].
    rewrite Hf, IH by assumption. destruct f; reflexivity.
  - f_equal. induction IH as [|v vs Hv _ IH]; [reflexivity|]. cbn [forallb map] in *. apply andb_prop in H as [H1 H2].
    rewrite IH by assumption. f_equal. destruct v as [g fs]. cbn [fst snd] in *. f_equal. clear - Hv H1.
    induction Hv as [|f fs Hf _ IH]; [reflexivity|]. cbn [forallb map] in *. apply andb_prop in H1 as [H1 H2].
    rewrite Hf, IH by assumption. destruct f; reflexivity.
  - discriminate.
Qed.

(* ------------------------------------------------------------------ *)
(** * Where the hole may be *)

(** Elements are read one by one, or contain no hole. *)
Definition elem_fine (h : host) (t : ty) : Prop := closed t = true \/ (is_prim h t = false /\ h_size h t <> 0).

(** A length in front. *)
Definition has_length (a : fattrs) : bool := match f_len a with LDefault | LType _ => true | _ => false end.

Section Guarded.
  Context (h : host).

  Definition guarded_inner (guarded : bool -> ty -> Prop) (free : bool) (a : fattrs) (t : ty) : Prop :=
    match t with
    | TSeq k t' => k <> KRef /\ elem_fine h t' /\ guarded (free || has_length a) t'
    | TSet _ t' => elem_fine h t' /\ guarded (free || has_length a) t'
    | TMap _ tk tv => elem_fine h tk /\ elem_fine h tv /\ guarded (free || has_length a) tk /\ guarded (free || has_length a) tv
    | TArr t' _ => elem_fine h t' /\ guarded free t'
    | _ => guarded free t
    end.

  Definition guarded_field (guarded : bool -> ty -> Prop) (free : bool) (a : fattrs) (t : ty) : Prop :=
    f_skip a = true \/ closed t = true
    \/ if f_opaque a then guarded free t
       else match t with
            | TOption t' => closed t' = true \/ guarded_inner guarded true a t'
            | _ => guarded_inner guarded free a t
            end.

  (** Something is read before every hole: a length, the flag of an `Option` or a
      `Result`, the tag of an enum.  [free]: something has been read already. *)
  Fixpoint guarded (free : bool) (t : ty) : Prop :=
    closed t = true \/
    match t with
    | TScalar _ | TStr _ => True
    | TSeq k t' => k <> KRef /\ elem_fine h t' /\ guarded true t'
    | TArr t' _ => elem_fine h t' /\ guarded free t'
    | TRefArr _ _ => False
    | TOption t' => guarded true t'
    | TResult t1 t2 => guarded true t1 /\ guarded true t2
    | TTuple ts => all_tys (guarded free) ts
    | TRange _ t' | TBox t' => guarded free t'
    | TSet _ t' => elem_fine h t' /\ guarded true t'
    | TMap _ tk tv => elem_fine h tk /\ elem_fine h tv /\ guarded true tk /\ guarded true tv
    | TStruct _ fs => all_fields (guarded_field guarded free) fs
    | TEnum d vs => all_variants (all_fields (guarded_field guarded (free || negb (e_peek d)))) vs
    | TBot => free = true
    end.
End Guarded.

(* ------------------------------------------------------------------ *)
(** * Reading never gives bytes back *)

Section Flow.
  Context {St : Type} (h : host) (VH : valid_host h) (R : reader St).
  Context (inv : St -> N -> Prop) (L : N) (vec_ok : N -> N -> N -> Prop).
  Context (SF : safe_reader h R inv (fun _ => True) L vec_ok).

  Notation tri := (tri inv (fun _ => True)).
  Definition flows {A} (m : M St A) : Prop := tri 0 m (fun _ => True).

  Lemma flows_tri {A} k (m : M St A) Q : tri k m Q -> flows m.
  Proof. intros H. eapply tri_weaken; [exact H|lia|auto]. Qed.

  Lemma flows_ret {A} (a : A) : flows (ret a).
  Proof. apply tri_ret. exact I. Qed.
  Lemma flows_fail {A} er : flows (A := A) (fail er).
  Proof. apply tri_fail. Qed.
  Lemma flows_crash {A} f : flows (A := A) (crash f).
  Proof. apply tri_crash. exact I. Qed.
  Lemma flows_lift {A} (r : res A) : flows (lift r).
  Proof. apply tri_lift. destruct r; exact I. Qed.
  Lemma flows_bind {A B} (m : M St A) (f : A -> M St B) : flows m -> (forall a, flows (f a)) -> flows (bind m f).
  Proof. intros Hm Hf. eapply tri_then; [exact Hm|]. intros a _. apply Hf. Qed.
  Lemma flows_map {A B} (g : A -> B) (m : M St A) : flows m -> flows (mmap g m).
  Proof. intros Hm. eapply tri_map; [exact Hm|auto]. Qed.
  Lemma flows_catch {A} (d : A) (m : M St A) : flows m -> flows (catch_eof d m).
  Proof. intros Hm. eapply tri_catch; [exact Hm|exact I]. Qed.
  Lemma flows_repeat {A} (m : M St A) n : flows m -> flows (repeatM m n).
  Proof. intros Hm. eapply flows_tri. apply (tri_repeat inv (fun _ => True) 0 m (fun _ => True) n Hm). Qed.
  Lemma flows_require n : flows (require R n).
  Proof. intros s m Hs. unfold require. destruct (rd_can R n s) as [[]|]; try (split; [exact I|]); try intros _; exists m; split; auto; lia. Qed.
  Lemma flows_until rd : flows rd -> flows (read_until_eof R rd).
  Proof.
    intros H. eapply flows_tri. apply (tri_until h R inv (fun _ => True) L vec_ok SF 0 rd (fun _ => True) H). left. exact I.
  Qed.

  Lemma flows_at {A} (m : M St A) s n n' : flows m -> inv s n -> n <= n' ->
    match m s with
    | (Ok a, s') => True /\ exists k, inv s' k /\ k + 0 <= n'
    | (Err er, s') => is_eof er = true -> exists k, inv s' k /\ k <= n'
    | (Fault f, s') => True
    end.
  Proof.
    intros H Hs Hn. specialize (H s n Hs). destruct (m s) as [[a|er|f] s'].
    - destruct H as [_ (k & Hk & Hl)]. split; [exact I|]. exists k. split; [exact Hk|lia].
    - intros He. destruct (H He) as (k & Hk & Hl). exists k. split; [exact Hk|lia].
    - exact I.
  Qed.

  Ltac step :=
    lazymatch goal with
    | |- flows (ret _) => apply flows_ret
    | |- flows (fail _) => apply flows_fail
    | |- flows (crash _) => apply flows_crash
    | |- flows (lift _) => apply flows_lift
    | |- flows (mmap _ _) => apply flows_map
    | |- flows (catch_eof _ _) => apply flows_catch
    | |- flows (repeatM _ _) => apply flows_repeat
    | |- flows (read_until_eof _ _) => apply flows_until
    | |- flows (bind _ _) => apply flows_bind; [|intros]
    end.

  Lemma flows_u8 : flows (read_u8 R).
  Proof. eapply flows_tri, (tri_u8 h R inv (fun _ => True) L vec_ok SF). Qed.
  Lemma flows_uint w : flows (read_uint h R w).
  Proof. eapply flows_tri, (tri_uint h R inv (fun _ => True) L vec_ok SF). Qed.
  Lemma flows_prim p : flows (read_prim h R p).
  Proof. eapply flows_tri, (tri_prim h R inv (fun _ => True) L vec_ok SF). Qed.
  Lemma flows_varint : flows (read_varint h R).
  Proof. eapply flows_tri, (tri_varint h R inv (fun _ => True) L vec_ok SF). Qed.
  Lemma flows_length b : flows (read_length h R b).
  Proof. eapply flows_tri, (tri_length h VH R inv (fun _ => True) L vec_ok SF). Qed.
  Lemma flows_tag d : flows (read_tag h R d).
  Proof. eapply flows_tri, (tri_tag h R inv (fun _ => True) L vec_ok SF). Qed.
  Lemma flows_read n : flows (rd_read R n).
  Proof. eapply flows_tri, (sf_read _ _ _ _ _ _ SF). Qed.
  Lemma flows_read_ptr n : flows (rd_read_ptr R n).
  Proof. eapply flows_tri, (sf_read_ptr _ _ _ _ _ _ SF). Qed.
  Lemma flows_borrowed n : flows (borrowed R n).
  Proof. eapply flows_tri, (tri_borrowed h R inv (fun _ => True) L vec_ok SF). Qed.
  Lemma flows_borrowed_eof : flows (match rd_borrow_eof R with Some b => b | None => fail Unsized end).
  Proof. eapply flows_tri, (tri_borrowed_eof h R inv (fun _ => True) L vec_ok SF). Qed.
  Lemma flows_borrow_r b n : rd_borrow_r R = Some b -> flows (b n).
  Proof. intros E. eapply flows_tri, (sf_borrow_r _ _ _ _ _ _ SF _ E). Qed.

  Lemma flows_vec t rd n : flows rd -> flows (read_vec h R t rd n).
  Proof.
    intros Hrd. unfold read_vec.
    assert (E : forall A (k : M St A) a b, flows ((a : M St unit) ;;; b ;;; k) <-> flows ((a ;;; (b : M St unit)) ;;; k)).
    { intros A k a b. split; intros H s m Hs; specialize (H s m Hs); unfold bind in *; destruct (a s) as [[]]; exact H. }
    apply E. apply flows_bind.
    - eapply flows_tri, (sf_vec _ _ _ _ _ _ SF). left. exact I.
    - intros _. destruct (is_prim h t).
      + apply flows_bind; [apply flows_read_ptr|]. intros. apply flows_lift.
      + destruct (_ =? 0); [apply flows_ret|apply flows_repeat, Hrd].
  Qed.

  Lemma flows_cow t rd n : flows rd -> flows (read_cow h R t rd n).
  Proof.
    intros Hrd. unfold read_cow. destruct (if is_prim h t && no_conv h R t then rd_borrow R else None) as [b|] eqn:E; [|apply flows_vec, Hrd].
    assert (Hb : rd_borrow R = Some b) by (destruct (is_prim h t && no_conv h R t); congruence). clear E.
    apply flows_bind; [destruct (_ && _); [apply flows_crash|apply flows_ret]|]. intros _.
    set (p := n * h_size h t).
    intros s m Hs. unfold bind. pose proof (sf_borrow _ _ _ _ _ _ SF b Hb (p mod (usize_max h + 1)) s m Hs) as Hn.
    destruct (b (p mod (usize_max h + 1)) s) as [[[addr bs]|er|f] s1] eqn:Es; [|exact Hn|exact I].
    destruct Hn as [_ (m1 & Hm1 & Hl1)].
    destruct ((h_align h t =? 1) || (addr mod h_align h t =? 0)).
    - refine (flows_at (n0 <- lift (slice_count h t (nlen bs)) ;;
                        ret (map (mem_read h t) (chunks (N.to_nat (h_size h t)) (N.to_nat n0) bs))) s1 m1 m _ Hm1 ltac:(lia)).
      apply flows_bind; [apply flows_lift|]. intros. apply flows_ret.
    - unfold alloc. destruct (N.ltb_spec (h_alloc_max h) (n * h_size h t)) as [Ho|Ho]; [exact I|].
      assert (Hp : p <= usize_max h) by (pose proof (vh_alloc h VH); unfold usize_max, p in *; lia).
      rewrite N.mod_small in Es by lia.
      pose proof (sf_copy _ _ _ _ _ _ SF b Hb n (h_size h t) s m Hs) as Hc. unfold bind, alloc in Hc. fold p in Hc.
      rewrite Es in Hc. destruct (N.ltb_spec (h_alloc_max h) p) as [Ho'|_]; [unfold p in Ho'; lia|].
      destruct (rd_alloc R n (h_size h t) (h_size h t) s1) as [[[]|er|f] s2]; [| |exact I].
      + destruct Hc as [_ (m2 & Hm2 & Hl2)]. split; [exact I|]. exists m2. split; [exact Hm2|lia].
      + intros He. destruct (Hc He) as (m2 & Hm2 & Hl2). exists m2. split; [exact Hm2|lia].
  Qed.

  Lemma flows_raw_collect k key t n bs : flows (raw_collect h k key t n bs).
  Proof. unfold raw_collect. destruct (_ =? 0); [destruct k|]; step. Qed.

  Lemma flows_collection k key t rd n : flows rd -> flows (read_collection h R k key t rd n).
  Proof.
    intros H. unfold read_collection. destruct (_ && _); [|repeat step; exact H]. destruct (_ <? _); [step|].
    destruct (rd_borrow_r R) as [b|] eqn:E; [|repeat step; exact H].
    step; [apply (flows_borrow_r b _ E)|apply flows_raw_collect].
  Qed.

  Lemma flows_pair rk rv : flows rk -> flows rv -> flows (read_pair rk rv).
  Proof. intros Hk Hv. unfold read_pair. repeat step; assumption. Qed.

  Lemma flows_kv k tk tv rk rv n : flows rk -> flows rv -> flows (read_kv h R k tk tv rk rv n).
  Proof.
    intros Hk Hv. pose proof (flows_pair _ _ Hk Hv) as H. unfold read_kv. destruct (_ && _); [|repeat step; assumption]. destruct (_ <? _); [step|].
    destruct (rd_borrow_r R) as [b|] eqn:E; [|repeat step; assumption].
    step; [apply (flows_borrow_r b _ E)|apply flows_raw_collect].
  Qed.

  Lemma flows_map_impl k tk tv rk rv n : flows rk -> flows rv -> flows (read_map h R k tk tv rk rv n).
  Proof. intros Hk Hv. unfold read_map. destruct k; try (apply flows_kv; assumption). repeat step; apply flows_pair; assumption. Qed.

  Lemma flows_ipv4 : flows (read_ipv4 h R).
  Proof. unfold read_ipv4. step; [apply flows_uint|step]. Qed.
  Lemma flows_ipv6 : flows (read_ipv6 h R).
  Proof. unfold read_ipv6. step; [apply flows_read|step]. Qed.
  Lemma flows_duration : flows (read_duration h R).
  Proof. unfold read_duration. step; [apply flows_uint|]. step; [apply flows_uint|]. step. Qed.

  Lemma flows_scalar s : flows (read_scalar h R s).
  Proof.
    destruct s; cbn [read_scalar];
      try (apply flows_ipv4); try (apply flows_ipv6); try (apply flows_duration); try step;
      try (apply flows_u8); try (apply flows_uint); try (apply flows_prim); try (apply flows_varint); try (apply flows_duration);
      try (apply flows_read);
      repeat match goal with
             | |- flows (if ?b then _ else _) => destruct b
             | |- flows (match ?v with _ => _ end) => destruct v
             | |- flows (ret _) => step | |- flows (fail _) => step | |- flows (crash _) => step
             | |- flows (bind (read_uint _ _ _) _) => apply flows_bind; [apply flows_uint|intros]
             | |- flows (bind (read_ipv4 _ _) _) => apply flows_bind; [apply flows_ipv4|intros]
             | |- flows (bind (read_ipv6 _ _) _) => apply flows_bind; [apply flows_ipv6|intros]
             | |- flows (repeatM _ _) => step; step; [apply flows_prim|step]
             end.
  Qed.

  Lemma flows_to_str b : flows (to_str b).
  Proof. unfold to_str. destruct (utf8_valid b); step. Qed.

  Lemma flows_elem_u8 : flows (read_elem_u8 h R).
  Proof. unfold read_elem_u8. step; [apply flows_prim|step]. Qed.
  Lemma flows_vec_u8 n : flows (read_vec_u8 h R n).
  Proof. unfold read_vec_u8. step. apply flows_vec, flows_elem_u8. Qed.
  Lemma flows_cow_u8 n : flows (read_cow_u8 h R n).
  Proof. unfold read_cow_u8. step. apply flows_cow, flows_elem_u8. Qed.

  Lemma flows_constant c : flows (read_constant h R c).
  Proof.
    unfold read_constant. step.
    - destruct (rd_borrow R) as [b|] eqn:E; [|apply flows_vec_u8]. step. eapply flows_tri, (sf_borrow _ _ _ _ _ _ SF b E).
    - destruct (list_eq_dec _ _ _); step.
  Qed.

  Lemma flows_cast t n b : flows (cast_slice h t n b).
  Proof. unfold cast_slice. destruct (_ =? 0); [destruct (forallb _ _)|]; step. Qed.
  Lemma flows_guard t : flows (endianness_guard h R t).
  Proof. unfold endianness_guard. destruct (_ && _); step. Qed.
  Lemma flows_ref_slice t n : flows (read_ref_slice h R t n).
  Proof. unfold read_ref_slice. destruct (_ <? _); [step|]. step; [apply flows_borrowed|apply flows_cast]. Qed.

  Lemma flows_with_length prev a k u : (forall n, flows (k n)) -> flows u -> flows (with_length h R prev a k u).
  Proof.
    intros Hk Hu. unfold with_length.
    assert (E : forall b, flows (if f_eof a then catch_eof 0 (read_length h R b) else read_length h R b))
      by (intros b; destruct (f_eof a); [apply flows_catch|]; apply flows_length).
    destruct (f_len a) as [| |f|]; [step; [apply E|apply Hk]..| |exact Hu]. destruct (f prev); [apply Hk|step].
  Qed.

  Definition flows_ty (t : ty) : Prop :=
    flows (read h R t) /\ (forall prev a varint, flows (read_field_inner h R (read h R) prev a varint t)).

  Definition flows_type (t : ty) : Prop :=
    flows_ty t /\ match t with TOption t' => flows_ty t' | _ => True end.

  Lemma flows_field prev a t : flows_type t -> flows (read_field h R (read h R) prev a t).
  Proof.
    intros [[H1 H2] H3]. unfold read_field.
    assert (E : flows ((match f_prefix a with [] => ret tt | p => read_constant h R p end) ;;;
      (if f_opaque a then read h R t else
       match t with
       | TOption t' => flag <- read_u8 R ;; if flag =? 0 then ret VNone
                       else mmap VSome (read_field_inner h R (read h R) prev a false t')
       | _ => read_field_inner h R (read h R) prev a (f_varint a) t
       end))).
    { step; [destruct (f_prefix a); [step|apply flows_constant]|]. destruct (f_opaque a); [exact H1|].
      destruct t; try apply H2. step; [apply flows_u8|]. destruct (_ =? 0); [step|]. step. apply H3. }
    destruct (f_eof a); [step|]; exact E.
  Qed.

  Lemma flows_fields fs : Forall (fun f => flows_type (snd f)) fs -> forall prev, flows (read_fields h R (read h R) prev fs).
  Proof.
    induction 1 as [|f fs Hf _ IH]; intros prev; cbn [read_fields]; [step|].
    destruct (f_skip (fst f)); [step; apply IH|]. step; [apply flows_field, Hf|]. step; [apply IH|step].
  Qed.

  Lemma flows_plain t : (is_container t = false \/ (match t with TSeq (KBoxSlice | KSmallVec) _ | TSet CIndex _ | TMap CIndex _ _ | TStr (KBoxStr | KRegex) => True | _ => False end)) ->
    (forall t' n, t <> TArr t' n) -> flows (read h R t) -> flows_ty t.
  Proof.
    intros Hc Ha H. split; [exact H|]. intros prev a varint.
    destruct t as [s|k|k t|t n|t n|t|t1 t2|ts|i t|k t|k tk tv|t|d fs|d vs|]; cbn [read_field_inner]; try exact H;
      try (destruct k; cbn in Hc; try exact H; destruct Hc as [Hc|[]]; discriminate Hc).
    - destruct s; try exact H. destruct varint; [|exact H]. step; [apply flows_varint|step].
    - contradiction (Ha t n eq_refl).
  Qed.

  Theorem flows_all t : flows_type t.
  Proof.
    induction t as [s|k|k t IH|t n IH|t n IH|t IH|t1 t2 IH1 IH2|ts IH|i t IH|k t IH|k tk tv IHk IHv|t IH|d fs IH|d vs IH|]
      using ty_ind'; (split; [|try exact I; try apply IH]).
    - apply flows_plain; [left; reflexivity|discriminate|]. apply flows_scalar.
    - assert (Hr : flows (read h R (TStr k))).
      { cbn [read read_str]. unfold read_str. step; [apply flows_length|].
        destruct k; [step; [apply flows_vec_u8|apply flows_to_str]|step; [apply flows_vec_u8|apply flows_to_str]
          |step; [apply flows_cow_u8|apply flows_to_str]|step; [apply flows_borrowed|apply flows_to_str]|].
        step; [apply flows_cow_u8|]. step; [apply flows_to_str|]. destruct (l_regex_ok _ _); step. }
      split; [exact Hr|]. intros prev a varint. cbn [read_field_inner].
      destruct k; try exact Hr; apply flows_with_length; intros;
        [step; [apply flows_vec_u8|apply flows_to_str]|step; [step; apply flows_elem_u8|apply flows_to_str]
        |step; [apply flows_cow_u8|apply flows_to_str]|step; [step; apply flows_elem_u8|apply flows_to_str]
        |step; [apply flows_borrowed|apply flows_to_str]|step; [apply flows_borrowed_eof|apply flows_to_str]].
    - destruct IH as [[IH _] _].
      assert (Hr : flows (read h R (TSeq k t))).
      { cbn [read]. unfold read_seq. destruct k; try (step; [apply flows_length|]; step; apply flows_vec, IH).
        - step; [apply flows_length|]. step. apply flows_cow, IH.
        - step; [apply flows_guard|]. step; [apply flows_length|]. apply flows_ref_slice. }
      split; [exact Hr|]. intros prev a varint. cbn [read_field_inner]. destruct k; try exact Hr.
      + apply flows_with_length; intros; step; [apply flows_vec|apply flows_until]; apply IH.
      + apply flows_with_length; intros; step; [apply flows_cow|apply flows_until]; apply IH.
      + step; [apply flows_guard|]. apply flows_with_length; intros; [apply flows_ref_slice|]. step; [apply flows_borrowed_eof|].
        destruct (_ =? 0); [step|apply flows_cast].
    - destruct IH as [[IH _] _]. split.
      + cbn [read]. unfold read_array. destruct (is_prim h t); [|repeat step; exact IH]. step; [apply flows_read_ptr|]. repeat step.
      + intros prev a varint. cbn [read_field_inner]. repeat step. exact IH.
    - apply flows_plain; [left; reflexivity|discriminate|]. cbn [read]. unfold read_ref_array.
      step; [apply flows_guard|]. step; [apply flows_borrowed|apply flows_cast].
    - apply flows_plain; [left; reflexivity|discriminate|]. cbn [read]. step; [apply flows_u8|]. destruct (_ =? 0); step. apply IH.
    - apply flows_plain; [left; reflexivity|discriminate|]. cbn [read]. step; [apply flows_u8|]. destruct (_ =? 0); step; [apply IH2|apply IH1].
    - apply flows_plain; [left; reflexivity|discriminate|]. cbn [read]. step. induction IH as [|t ts Ht _ IH]; cbn [read_tuple]; [step|].
      step; [apply Ht|]. step; [exact IH|step].
    - apply flows_plain; [left; reflexivity|discriminate|]. cbn [read]. repeat step; apply IH.
    - destruct IH as [[IH _] _].
      assert (Hr : flows (read h R (TSet k t))) by (cbn [read]; step; [apply flows_length|apply flows_collection, IH]).
      split; [exact Hr|]. intros prev a varint. cbn [read_field_inner].
      destruct k; try exact Hr; (apply flows_with_length; intros; [apply flows_collection, IH|repeat step; apply IH]).
    - destruct IHk as [[IHk _] _], IHv as [[IHv _] _].
      assert (Hr : flows (read h R (TMap k tk tv))) by (cbn [read]; step; [apply flows_length|apply flows_map_impl; assumption]).
      split; [exact Hr|]. intros prev a varint. cbn [read_field_inner].
      destruct k; try exact Hr; (apply flows_with_length; intros; [apply flows_kv; assumption|repeat step; apply flows_pair; assumption]).
    - apply flows_plain; [left; reflexivity|discriminate|]. apply IH.
    - apply flows_plain; [left; reflexivity|discriminate|]. cbn [read]. step. apply flows_fields, IH.
    - apply flows_plain; [left; reflexivity|discriminate|]. cbn [read]. step; [apply flows_tag|]. generalize 0%nat.
      match goal with |- forall i, flows (read_variant _ _ _ ?tg _ _) => generalize tg end.
      intros tag. induction IH as [|v vs Hv _ IH]; intros i; cbn [read_variant]; [step|].
      destruct (_ =? _); [step; apply flows_fields, Hv|apply IH].
    - apply flows_plain; [left; reflexivity|discriminate|]. apply flows_crash.
  Qed.

  (* ---------------------------------------------------------------- *)
  (** ** Readers that cannot be told apart with less than [K] bytes left *)

  Definition agree {A} (K : N) (m m' : M St A) : Prop := forall s n, inv s n -> n < K -> m s = m' s.

  Lemma agree_refl {A} K (m : M St A) : agree K m m.
  Proof. intros s n _ _. reflexivity. Qed.
  Lemma agree_eq {A} K (m m' : M St A) : m = m' -> agree K m m'.
  Proof. intros ->. apply agree_refl. Qed.
  Lemma agree_le {A} K K' (m m' : M St A) : K' <= K -> agree K m m' -> agree K' m m'.
  Proof. intros HK H s n Hs Hn. apply (H s n Hs). lia. Qed.

  Lemma agree_bind {A B} K (m m' : M St A) (k k' : A -> M St B) : flows m -> agree K m m' ->
    (forall a, agree K (k a) (k' a)) -> agree K (bind m k) (bind m' k').
  Proof.
    intros F Hm Hk s n Hs Hn. unfold bind. rewrite <- (Hm s n Hs Hn). specialize (F s n Hs).
    destruct (m s) as [[a|er|f] s']; try reflexivity. destruct F as [_ (n' & Hn' & Hle)]. apply (Hk a s' n' Hn'). lia.
  Qed.

  Lemma agree_then {A B} K (m : M St A) (k k' : A -> M St B) : flows m -> (forall a, agree K (k a) (k' a)) ->
    agree K (bind m k) (bind m k').
  Proof. intros F. apply agree_bind; [exact F|apply agree_refl]. Qed.

  (** One byte read is one byte more that does not matter. *)
  Lemma agree_strict {A B} K j (m : M St A) Q (k k' : A -> M St B) : tri j m Q -> 1 <= j ->
    (forall a, agree K (k a) (k' a)) -> agree (K + 1) (bind m k) (bind m k').
  Proof.
    intros F Hj Hk s n Hs Hn. unfold bind. specialize (F s n Hs).
    destruct (m s) as [[a|er|f] s']; try reflexivity. destruct F as [_ (n' & Hn' & Hle)]. apply (Hk a s' n' Hn'). lia.
  Qed.

  Lemma agree_map {A B} K (g : A -> B) (m m' : M St A) : agree K m m' -> agree K (mmap g m) (mmap g m').
  Proof. intros H s n Hs Hn. unfold mmap, bind. rewrite (H s n Hs Hn). reflexivity. Qed.
  Lemma agree_catch {A} K (d : A) (m m' : M St A) : agree K m m' -> agree K (catch_eof d m) (catch_eof d m').
  Proof. intros H s n Hs Hn. unfold catch_eof. rewrite (H s n Hs Hn). reflexivity. Qed.

  Lemma agree_repeat {A} K (m m' : M St A) j : flows m -> agree K m m' -> agree K (repeatM m j) (repeatM m' j).
  Proof.
    intros F H. induction j as [|j IH]; [apply agree_refl|]. cbn [repeatM]. apply agree_bind; [exact F|exact H|].
    intros a. apply agree_bind; [apply flows_repeat, F|exact IH|]. intros. apply agree_refl.
  Qed.

  Lemma agree_until_loop K m m' : flows m -> agree K m m' -> forall k, agree K (until_eof_loop m k) (until_eof_loop m' k).
  Proof.
    intros F H. induction k as [|k IH]; [apply agree_refl|]. intros s n Hs Hn. cbn [until_eof_loop].
    rewrite <- (H s n Hs Hn). specialize (F s n Hs). destruct (m s) as [[a|er|f] s']; try reflexivity.
    destruct F as [_ (n' & Hn' & Hle)]. apply (agree_map K (cons a) _ _ IH s' n' Hn'). lia.
  Qed.

  Lemma agree_until K m m' : flows m -> agree K m m' -> agree K (read_until_eof R m) (read_until_eof R m').
  Proof. intros F H s n Hs Hn. apply (agree_until_loop K m m' F H _ s n Hs Hn). Qed.

  Lemma agree_pair K rk rk' rv rv' : flows rk -> flows rv -> agree K rk rk' -> agree K rv rv' ->
    agree K (read_pair rk rv) (read_pair rk' rv').
  Proof.
    intros Fk Fv Hk Hv. unfold read_pair. apply agree_bind; [exact Fk|exact Hk|]. intros.
    apply agree_bind; [exact Fv|exact Hv|]. intros. apply agree_refl.
  Qed.

  Lemma length_strict b : exists j Q, tri j (read_length h R b) Q /\ 1 <= j.
  Proof. do 2 eexists. split; [apply (tri_length h VH R inv (fun _ => True) L vec_ok SF)|]. destruct b; cbn; lia. Qed.

  Lemma agree_with_length K K' prev a k k' u u' : K <= K' -> K' <= K + 1 ->
    (forall n, agree (if has_length a then K else K') (k n) (k' n)) -> agree K' (k 0) (k' 0) -> agree K' u u' ->
    agree K' (with_length h R prev a k u) (with_length h R prev a k' u').
  Proof.
    intros HK HK' Hk H0 Hu. unfold with_length, has_length in *.
    assert (E : forall b, (forall n, agree K (k n) (k' n)) ->
      agree K' (n <- (if f_eof a then catch_eof 0 (read_length h R b) else read_length h R b) ;; k n)
               (n <- (if f_eof a then catch_eof 0 (read_length h R b) else read_length h R b) ;; k' n)).
    { intros b Hb. destruct (length_strict b) as (j & Q & F & Hj).
      destruct (f_eof a); [|apply (agree_le (K + 1)); [exact HK'|]; eapply agree_strict; eassumption].
      intros s n Hs Hn. unfold bind, catch_eof. specialize (F s n Hs).
      destruct (read_length h R b s) as [[l|er|f] s']; try reflexivity.
      - destruct F as [_ (n' & Hn' & Hle)]. apply (Hb l s' n' Hn'). lia.
      - destruct (is_eof er); [|reflexivity]. destruct (F eq_refl) as (n' & Hn' & Hle). apply (H0 s' n' Hn'). lia. }
    destruct (f_len a) as [|b|f|]; [apply E, Hk|apply E, Hk| |exact Hu].
    destruct (f prev); [apply Hk|apply agree_refl].
  Qed.

  (* ---------------------------------------------------------------- *)
  (** ** Two types in the place of the hole *)

  Context (x y : ty) (Nx : nominal x) (Ny : nominal y).
  Context (Px : forall t, is_prim h (plug x t) = is_prim h t) (Py : forall t, is_prim h (plug y t) = is_prim h t).
  Context (Sx : forall t, h_size h (plug x t) = h_size h t) (Sy : forall t, h_size h (plug y t) = h_size h t).
  Context (Mn : forall t, min_bytes h (plug x t) = min_bytes h (plug y t)).
  Context (K : N) (Hxy : agree K (read h R x) (read h R y)).

  (** What may be left when something has been read, and when not. *)
  Definition level (free : bool) : N := if free then K else K + 1.

  Lemma level_le free : K <= level free /\ level free <= K + 1.
  Proof. destruct free; cbn; lia. Qed.

  Notation rx t := (read h R (plug x t)).
  Notation ry t := (read h R (plug y t)).

  Lemma agree_some {A} J (m m' : M St A) n : flows m -> n = 0 \/ agree J m m' ->
    agree J (repeatM m (N.to_nat n)) (repeatM m' (N.to_nat n)).
  Proof. intros F [->|H]; [apply agree_refl|apply agree_repeat; assumption]. Qed.

  Lemma flows_read_ty t : flows (read h R t).
  Proof. apply flows_all. Qed.

  Lemma agree_vec J t n : elem_fine h t -> n = 0 \/ agree J (rx t) (ry t) ->
    agree J (read_vec h R (plug x t) (rx t) n) (read_vec h R (plug y t) (ry t) n).
  Proof.
    intros [Hc|[Hp Hs]] H; [rewrite !closed_plug by exact Hc; apply agree_refl|].
    unfold read_vec. rewrite Mn, !Sx, !Sy, Px, Py, Hp. destruct (N.eqb_spec (h_size h t) 0) as [E|_]; [contradiction|].
    set (a := if usize_max h <? min_bytes h (plug y t) * n then fail UnexpectedEndOfInput else require R (min_bytes h (plug y t) * n)).
    set (b := alloc h R n (h_size h t) (min_bytes h (plug y t))).
    assert (F : flows (a ;;; b)) by (eapply flows_tri, (sf_vec _ _ _ _ _ _ SF); left; exact I).
    intros s m Hs' Hm. pose proof (agree_then J (a ;;; b) (fun _ => repeatM (rx t) (N.to_nat n)) (fun _ => repeatM (ry t) (N.to_nat n)) F
      (fun _ => agree_some J _ _ n (flows_read_ty _) H) s m Hs' Hm) as G.
    unfold bind in *. destruct (a s) as [[[]|er|f] s1]; [|reflexivity|reflexivity]. exact G.
  Qed.

  Lemma agree_cow J t n : elem_fine h t -> n = 0 \/ agree J (rx t) (ry t) ->
    agree J (read_cow h R (plug x t) (rx t) n) (read_cow h R (plug y t) (ry t) n).
  Proof.
    intros E H. destruct E as [Hc|[Hp Hs]]; [rewrite !closed_plug by exact Hc; apply agree_refl|].
    unfold read_cow. rewrite Px, Py, Hp. cbn [andb]. apply agree_vec; [right; auto|exact H].
  Qed.

  Lemma agree_collection J k key t n : elem_fine h t -> n = 0 \/ agree J (rx t) (ry t) ->
    agree J (read_collection h R k key (plug x t) (rx t) n) (read_collection h R k key (plug y t) (ry t) n).
  Proof.
    intros E H. destruct E as [Hc|[Hp Hs]]; [rewrite !closed_plug by exact Hc; apply agree_refl|].
    unfold read_collection. rewrite Px, Py, Hp. cbn [andb].
    apply agree_bind; [apply flows_repeat, flows_read_ty|apply agree_some; [apply flows_read_ty|exact H]|intros; apply agree_refl].
  Qed.

  Lemma agree_slow J k tk tv n : n = 0 \/ agree J (rx tk) (ry tk) -> n = 0 \/ agree J (rx tv) (ry tv) ->
    agree J (xs <- repeatM (read_pair (rx tk) (rx tv)) (N.to_nat n) ;; ret (VSeq (collect k pair_key xs)))
            (xs <- repeatM (read_pair (ry tk) (ry tv)) (N.to_nat n) ;; ret (VSeq (collect k pair_key xs))).
  Proof.
    intros Hk Hv. pose proof (flows_pair _ _ (flows_read_ty (plug x tk)) (flows_read_ty (plug x tv))) as F.
    apply agree_bind; [apply flows_repeat, F|apply agree_some; [exact F|]|intros; apply agree_refl].
    destruct Hk as [->|Hk]; [left; reflexivity|]. destruct Hv as [->|Hv]; [left; reflexivity|]. right.
    apply agree_pair; auto using flows_read_ty.
  Qed.

  Lemma agree_kv J k tk tv n : elem_fine h tk -> elem_fine h tv ->
    n = 0 \/ agree J (rx tk) (ry tk) -> n = 0 \/ agree J (rx tv) (ry tv) ->
    agree J (read_kv h R k (plug x tk) (plug x tv) (rx tk) (rx tv) n) (read_kv h R k (plug y tk) (plug y tv) (ry tk) (ry tv) n).
  Proof.
    intros Ek Ev Hk Hv.
    assert (E : (closed tk = true /\ closed tv = true) \/ (is_prim h tk && is_prim h tv)%bool = false).
    { destruct Ek as [Ek|[Ek _]]; [|right; rewrite Ek; reflexivity]. destruct Ev as [Ev|[Ev _]]; [left; auto|].
      right. rewrite Ev. apply Bool.andb_false_r. }
    destruct E as [[E1 E2]|E]; [rewrite !closed_plug by assumption; apply agree_refl|].
    unfold read_kv. rewrite !Px, !Py, E. cbn [andb]. apply agree_slow; assumption.
  Qed.

  Lemma agree_map_impl J k tk tv n : elem_fine h tk -> elem_fine h tv ->
    n = 0 \/ agree J (rx tk) (ry tk) -> n = 0 \/ agree J (rx tv) (ry tv) ->
    agree J (read_map h R k (plug x tk) (plug x tv) (rx tk) (rx tv) n) (read_map h R k (plug y tk) (plug y tv) (ry tk) (ry tv) n).
  Proof. intros Ek Ev Hk Hv. unfold read_map. destruct k; try (apply agree_kv; assumption). apply agree_slow; assumption. Qed.

  (** A length of four bytes in front. *)
  Lemma agree_after_length free {B} (k k' : N -> M St B) : (forall n, agree K (k n) (k' n)) ->
    agree (level free) (n <- read_length h R BU32 ;; k n) (n <- read_length h R BU32 ;; k' n).
  Proof.
    intros H. destruct (length_strict BU32) as (j & Q & F & Hj). apply (agree_le (K + 1)); [apply level_le|].
    eapply agree_strict; eassumption.
  Qed.

  Lemma agree_after_u8 free {B} (k k' : N -> M St B) : (forall n, agree K (k n) (k' n)) ->
    agree (level free) (n <- read_u8 R ;; k n) (n <- read_u8 R ;; k' n).
  Proof.
    intros H. apply (agree_le (K + 1)); [apply level_le|].
    eapply (agree_strict K 1); [apply (tri_u8 h R inv (fun _ => True) L vec_ok SF)|lia|exact H].
  Qed.

  Definition same (t : ty) : Prop := forall free, guarded h free t -> agree (level free) (rx t) (ry t).
  Definition same_inner (t : ty) : Prop := forall free a prev varint, guarded_inner h (guarded h) free a t ->
    agree (level free) (read_field_inner h R (read h R) prev a varint (plug x t))
                       (read_field_inner h R (read h R) prev a varint (plug y t)).

  Definition same_ty (t : ty) : Prop := same t /\ same_inner t.
  Definition same_type (t : ty) : Prop := same_ty t /\ match t with TOption t' => same_ty t' | _ => True end.

  Lemma same_low t free : same t -> guarded h free t -> agree K (rx t) (ry t).
  Proof. intros H G. apply (agree_le (level free)); [apply level_le|apply H, G]. Qed.

  Lemma read_inner_nominal z prev a varint : nominal z -> read_field_inner h R (read h R) prev a varint z = read h R z.
  Proof. destruct z; cbn; tauto. Qed.

  Lemma agree_field free a t prev : same_type t -> guarded_field h (guarded h) free a t -> f_skip a = false ->
    agree (level free) (read_field h R (read h R) prev a (plug x t)) (read_field h R (read h R) prev a (plug y t)).
  Proof.
    intros [[H1 H2] H3] G Hs. destruct G as [G|[G|G]]; [congruence|rewrite !closed_plug by exact G; apply agree_refl|].
    unfold read_field.
    assert (E : agree (level free)
      ((match f_prefix a with [] => ret tt | p => read_constant h R p end) ;;;
       (if f_opaque a then rx t else
        match plug x t with
        | TOption t' => flag <- read_u8 R ;; if flag =? 0 then ret VNone
                        else mmap VSome (read_field_inner h R (read h R) prev a false t')
        | _ => read_field_inner h R (read h R) prev a (f_varint a) (plug x t)
        end))
      ((match f_prefix a with [] => ret tt | p => read_constant h R p end) ;;;
       (if f_opaque a then ry t else
        match plug y t with
        | TOption t' => flag <- read_u8 R ;; if flag =? 0 then ret VNone
                        else mmap VSome (read_field_inner h R (read h R) prev a false t')
        | _ => read_field_inner h R (read h R) prev a (f_varint a) (plug y t)
        end))).
    { apply agree_then; [destruct (f_prefix a); [apply flows_ret|apply flows_constant]|]. intros _.
      destruct (f_opaque a); [apply H1, G|].
      assert (Hn : match t with TOption _ => False | _ => True end ->
        agree (level free) (read_field_inner h R (read h R) prev a (f_varint a) (plug x t))
                           (read_field_inner h R (read h R) prev a (f_varint a) (plug y t)))
        by (intros Ht; apply H2; destruct t; try exact G; contradiction).
      destruct t; try (apply Hn; exact I).
      - cbn [plug]. apply agree_after_u8. intros n. destruct (n =? 0); [apply agree_refl|]. apply agree_map.
        destruct G as [G|G]; [rewrite !closed_plug by exact G; apply agree_refl|]. apply (proj2 H3 true), G.
      - specialize (Hn I). cbn [plug] in *. destruct x, y; cbn in Nx, Ny; try contradiction; exact Hn. }
    destruct (f_eof a); [apply agree_catch|]; exact E.
  Qed.

  Lemma agree_fields free fs : Forall (fun f => same_type (snd f)) fs -> all_fields (guarded_field h (guarded h) free) fs ->
    forall prev, agree (level free) (read_fields h R (read h R) prev (plug_fields x fs)) (read_fields h R (read h R) prev (plug_fields y fs)).
  Proof.
    induction 1 as [|[a t] fs Hf _ IH]; intros G prev; [apply agree_refl|]. destruct G as [G1 G2].
    unfold plug_fields, plug_field in *. cbn [map read_fields fst snd] in *.
    destruct (f_skip a) eqn:Es; [apply agree_map, IH, G2|].
    apply agree_bind; [apply flows_field, flows_all|apply agree_field; assumption|]. intros v.
    apply agree_bind; [apply flows_fields; apply Forall_forall; intros; apply flows_all|apply IH, G2|]. intros. apply agree_refl.
  Qed.

  Lemma same_plain t : is_container t = false -> (forall t' n, t <> TArr t' n) ->
    match t with TSeq _ _ | TSet _ _ | TMap _ _ _ => False | _ => True end -> same t -> same_ty t.
  Proof.
    intros Hc Ha Hs H. split; [exact H|]. intros free a prev varint G.
    destruct t as [s|k|k t|t n|t n|t|t1 t2|ts|i t|k t|k tk tv|t|d fs|d vs|]; try contradiction;
      try (apply H; exact G); try (rewrite !closed_plug by reflexivity; apply agree_refl).
    - contradiction (Ha t n eq_refl).
    - cbn [plug]. rewrite !read_inner_nominal by assumption. apply (H free). exact G.
  Qed.

  Lemma length_level free a : (if has_length a then K else level free) <= level (free || has_length a).
  Proof. destruct free, (has_length a); cbn; lia. Qed.

  (** A container whose length may be an attribute's. *)
  Lemma agree_sized free a prev k k' u u' :
    (forall n J, n = 0 \/ J <= level (free || has_length a) -> agree J (k n) (k' n)) ->
    (has_length a = false -> agree (level free) u u') ->
    agree (level free) (with_length h R prev a k u) (with_length h R prev a k' u').
  Proof.
    intros Hk Hu. destruct (has_length a) eqn:Ea.
    - pose proof (agree_with_length K (level free) prev a k k' u u (proj1 (level_le free)) (proj2 (level_le free))) as H.
      rewrite Ea in H.
      assert (E : with_length h R prev a k' u = with_length h R prev a k' u')
        by (unfold with_length, has_length in *; destruct (f_len a); [reflexivity|reflexivity|discriminate|discriminate]).
      rewrite <- E. apply H; [|apply Hk; left; reflexivity|apply agree_refl].
      intros n. apply Hk. right. destruct free; cbn; lia.
    - apply (agree_with_length K); [apply level_le|apply level_le| |apply Hk; left; reflexivity|apply Hu; reflexivity].
      rewrite Ea. intros n. apply Hk. right. destruct free; cbn; lia.
  Qed.

  Theorem same_all t : same_type t.
  Proof.
    induction t as [s|k|k t IH|t n IH|t n IH|t IH|t1 t2 IH1 IH2|ts IH|i t IH|k t IH|k tk tv IHk IHv|t IH|d fs IH|d vs IH|]
      using ty_ind'; (split; [|try exact I; try apply IH]).
    - apply same_plain; [reflexivity|discriminate|exact I|]. intros free _. apply agree_refl.
    - split; [intros free _; apply agree_refl|]. intros free a prev varint _. apply agree_refl.
    - destruct IH as [[IH _] _].
      assert (Hr : forall free, k <> KRef -> elem_fine h t -> agree K (rx t) (ry t) ->
                   agree (level free) (rx (TSeq k t)) (ry (TSeq k t))).
      { intros free Hk He Hag. cbn [plug read]. unfold read_seq.
        destruct k; try contradiction; apply agree_after_length; intros; apply agree_map;
          first [apply agree_vec | apply agree_cow]; auto. }
      split.
      + intros free [G|(Hk & He & G)]; [rewrite !closed_plug by exact G; apply agree_refl|].
        apply Hr; auto. apply (same_low t true); assumption.
      + intros free a prev varint (Hk & He & G). pose proof (same_low t _ IH G) as Hl. specialize (IH _ G).
        destruct k; try contradiction; try (apply Hr; assumption); cbn [plug read_field_inner]; apply agree_sized.
        * intros n J HJ. apply agree_map, agree_vec; [exact He|]. destruct HJ as [HJ|HJ]; [left; exact HJ|right].
          apply (agree_le _ _ _ _ HJ IH).
        * intros Ha. rewrite Ha, Bool.orb_false_r in IH. apply agree_map, agree_until; [apply flows_read_ty|exact IH].
        * intros n J HJ. apply agree_map, agree_cow; [exact He|]. destruct HJ as [HJ|HJ]; [left; exact HJ|right].
          apply (agree_le _ _ _ _ HJ IH).
        * intros Ha. rewrite Ha, Bool.orb_false_r in IH. apply agree_map, agree_until; [apply flows_read_ty|exact IH].
    - destruct IH as [[IH _] _].
      assert (Hr : forall free, guarded h free t -> agree (level free) (mmap VSeq (repeatM (rx t) n)) (mmap VSeq (repeatM (ry t) n)))
        by (intros free G; apply agree_map, agree_repeat; [apply flows_read_ty|apply IH, G]).
      split.
      + intros free [G|[He G]]; [rewrite !closed_plug by exact G; apply agree_refl|].
        destruct He as [He|[Hp _]]; [rewrite !closed_plug by exact He; apply agree_refl|].
        cbn [plug read]. unfold read_array. rewrite Px, Py, Hp. apply Hr, G.
      + intros free a prev varint [_ G]. cbn [plug read_field_inner]. apply Hr, G.
    - apply same_plain; [reflexivity|discriminate|exact I|].
      intros free [G|[]]. rewrite !closed_plug by exact G. apply agree_refl.
    - apply same_plain; [reflexivity|discriminate|exact I|].
      intros free [G|G]; [rewrite !closed_plug by exact G; apply agree_refl|]. cbn [plug read]. apply agree_after_u8.
      intros m. destruct (m =? 0); [apply agree_refl|]. apply agree_map. apply (same_low t true); [apply IH|exact G].
    - apply same_plain; [reflexivity|discriminate|exact I|].
      intros free [G|[G1 G2]]; [rewrite !closed_plug by exact G; apply agree_refl|]. cbn [plug read]. apply agree_after_u8.
      intros m. destruct (m =? 0); apply agree_map.
      + apply (same_low t2 true); [apply IH2|exact G2].
      + apply (same_low t1 true); [apply IH1|exact G1].
    - apply same_plain; [reflexivity|discriminate|exact I|].
      intros free [G|G]; [rewrite !closed_plug by exact G; apply agree_refl|]. cbn [plug read]. apply agree_map.
      induction IH as [|t ts Ht _ IH]; [apply agree_refl|]. destruct G as [G1 G2]. cbn [map read_tuple].
      apply agree_bind; [apply flows_read_ty|apply Ht, G1|]. intros.
      apply agree_bind; [|apply IH, G2|intros; apply agree_refl].
      clear - SF VH. induction ts as [|t ts IH]; cbn [map read_tuple]; [apply flows_ret|].
      apply flows_bind; [apply flows_read_ty|]. intros. apply flows_bind; [exact IH|]. intros. apply flows_ret.
    - apply same_plain; [reflexivity|discriminate|exact I|].
      intros free [G|G]; [rewrite !closed_plug by exact G; apply agree_refl|]. cbn [plug read].
      apply agree_bind; [apply flows_read_ty|apply IH, G|]. intros.
      apply agree_bind; [apply flows_read_ty|apply IH, G|]. intros. apply agree_refl.
    - destruct IH as [[IH _] _].
      assert (Hr : forall free, elem_fine h t -> agree K (rx t) (ry t) -> agree (level free) (rx (TSet k t)) (ry (TSet k t))).
      { intros free He Hag. cbn [plug read]. apply agree_after_length. intros. apply agree_collection; auto. }
      split.
      + intros free [G|(He & G)]; [rewrite !closed_plug by exact G; apply agree_refl|].
        apply Hr; auto. apply (same_low t true); assumption.
      + intros free a prev varint (He & G). pose proof (same_low t _ IH G) as Hl. specialize (IH _ G).
        destruct k; try (apply Hr; assumption); cbn [plug read_field_inner]; apply agree_sized;
          try (intros n J HJ; apply agree_collection; [exact He|]; destruct HJ as [HJ|HJ]; [left; exact HJ|right];
               apply (agree_le _ _ _ _ HJ IH));
          (intros Ha; rewrite Ha, Bool.orb_false_r in IH; apply agree_bind;
             [apply flows_until, flows_read_ty|apply agree_until; [apply flows_read_ty|exact IH]|intros; apply agree_refl]).
    - destruct IHk as [[IHk _] _], IHv as [[IHv _] _].
      assert (Hr : forall free, elem_fine h tk -> elem_fine h tv -> agree K (rx tk) (ry tk) -> agree K (rx tv) (ry tv) ->
                   agree (level free) (rx (TMap k tk tv)) (ry (TMap k tk tv))).
      { intros free Ek Ev Hk Hv. cbn [plug read]. apply agree_after_length. intros. apply agree_map_impl; auto. }
      split.
      + intros free [G|(Ek & Ev & Gk & Gv)]; [rewrite !closed_plug by exact G; apply agree_refl|].
        apply Hr; auto; [apply (same_low tk true)|apply (same_low tv true)]; assumption.
      + intros free a prev varint (Ek & Ev & Gk & Gv).
        pose proof (same_low tk _ IHk Gk) as Hlk. pose proof (same_low tv _ IHv Gv) as Hlv. specialize (IHk _ Gk). specialize (IHv _ Gv).
        destruct k; try (apply Hr; assumption); cbn [plug read_field_inner]; apply agree_sized;
          try (intros n J HJ; apply agree_kv; [exact Ek|exact Ev|destruct HJ as [HJ|HJ]; [left; exact HJ|right]..];
               [apply (agree_le _ _ _ _ HJ IHk)|apply (agree_le _ _ _ _ HJ IHv)]);
          (intros Ha; rewrite Ha, Bool.orb_false_r in IHk, IHv; apply agree_bind;
             [apply flows_until, flows_pair; apply flows_read_ty
             |apply agree_until; [apply flows_pair; apply flows_read_ty|apply agree_pair; auto using flows_read_ty]
             |intros; apply agree_refl]).
    - apply same_plain; [reflexivity|discriminate|exact I|].
      intros free [G|G]; [rewrite !closed_plug by exact G; apply agree_refl|]. apply IH, G.
    - apply same_plain; [reflexivity|discriminate|exact I|].
      intros free [G|G]; [rewrite !closed_plug by exact G; apply agree_refl|]. rewrite !plug_struct. cbn [read].
      apply agree_map, agree_fields; assumption.
    - apply same_plain; [reflexivity|discriminate|exact I|].
      intros free [G|G]; [rewrite !closed_plug by exact G; apply agree_refl|]. rewrite !plug_enum. cbn [read].
      assert (Hv : forall tag i, agree (level (free || negb (e_peek d)))
        (read_variant h R (read h R) tag i (map (fun v => (fst v, plug_fields x (snd v))) vs))
        (read_variant h R (read h R) tag i (map (fun v => (fst v, plug_fields y (snd v))) vs))).
      { intros tag. induction IH as [|v vs Hv _ IH]; intros i; [apply agree_refl|]. destruct G as [G1 G2].
        cbn [map read_variant fst snd]. destruct (_ =? _); [apply agree_map, agree_fields; assumption|apply IH, G2]. }
      destruct (e_peek d) eqn:Ed; cbn [negb] in Hv; rewrite ?Bool.orb_false_r, ?Bool.orb_true_r in Hv.
      + apply agree_then; [apply flows_tag|]. intros. apply Hv.
      + apply (agree_le (K + 1)); [apply level_le|].
        eapply agree_strict; [apply (tri_tag h R inv (fun _ => True) L vec_ok SF)| |intros; apply Hv].
        rewrite Ed. destruct (e_tag d); cbn; lia.
    - apply same_plain; [reflexivity|discriminate|exact I|].
      intros free [G|G]; [discriminate G|]. cbn in G. subst free. exact Hxy.
  Qed.
End Flow.

(* ------------------------------------------------------------------ *)
(** * Unrollings *)

(** [d] in itself, [n] times, with [z] at the bottom. *)
Fixpoint fill (z d : ty) (n : nat) : ty :=
  match n with O => z | S n' => plug (fill z d n') d end.

Lemma fill_unroll d k n : fill (unroll d k) d n = unroll d (n + k).
Proof. induction n as [|n IH]; [reflexivity|]. cbn [fill Nat.add unroll]. rewrite IH. reflexivity. Qed.

(** What a host takes for the recursive type itself: neither is plain data, and
    both have the layout of the hole. *)
Record filler (h : host) (z : ty) : Prop := {
  fi_nominal : nominal z;
  fi_layout : same_layout h TBot z;
  fi_prim : is_prim h z = false
}.

Lemma plug_bot t : plug TBot t = t.
Proof.
  induction t as [s|c|c t IH|t n IH|t n IH|t IH|t1 t2 IH1 IH2|ts IH|i t IH|c t IH|c tk tv IHk IHv|t IH|e fs IH|e vs IH|]
    using ty_ind'; cbn [plug]; try congruence.
  - f_equal. induction IH as [|t ts Ht _ IH]; [reflexivity|]. cbn [map]. congruence.
  - f_equal. induction IH as [|[a t] fs Hf _ IH]; [reflexivity|]. cbn [map fst snd] in *. congruence.
  - f_equal. induction IH as [|[g fs] vs Hv _ IH]; [reflexivity|]. cbn [map fst snd] in *. rewrite IH. do 2 f_equal.
    clear - Hv. induction Hv as [|[a t] fs Hf _ IH]; [reflexivity|]. cbn [map fst snd] in *. congruence.
Qed.

Lemma plug_fields_bot fs : plug_fields TBot fs = fs.
Proof. unfold plug_fields, plug_field. induction fs as [|[a t] fs IH]; cbn; rewrite ?IH, ?plug_bot; reflexivity. Qed.

Section Unrollings.
  Context (h : host) (VH : valid_host h).

  Lemma filler_bot : filler h TBot.
  Proof. constructor; [exact I|constructor; reflexivity|reflexivity]. Qed.

  Lemma filler_size z t : filler h z -> h_size h (plug z t) = h_size h t.
  Proof. intros F. rewrite <- (sl_size _ _ _ (fi_layout _ _ F)), plug_bot. reflexivity. Qed.

  Lemma filler_prim z t : filler h z -> is_prim h (plug z t) = is_prim h t.
  Proof.
    intros F. rewrite <- (prim_plug h TBot z (fi_layout _ _ F) I (fi_nominal _ _ F)); [rewrite plug_bot; reflexivity|].
    symmetry. apply (fi_prim _ _ F).
  Qed.

  Lemma filler_plug z d : filler h z -> filler h d -> filler h (plug z d).
  Proof.
    intros Fz Fd. constructor.
    - apply nominal_plug; [apply (fi_nominal _ _ Fd)|apply (fi_nominal _ _ Fz)].
    - destruct (fi_layout _ _ Fz) as [z1 z2 z3], (fi_layout _ _ Fd) as [d1 d2 d3]. constructor; intros.
      + rewrite <- plug_plug, <- z1, (plug_bot (plug d t)). apply d1.
      + rewrite <- plug_plug, <- z2, (plug_bot (plug d t)). apply d2.
      + replace (plug_fields (plug z d) fs) with (plug_fields z (plug_fields d fs)).
        * rewrite <- z3, (plug_fields_bot (plug_fields d fs)). apply d3.
        * unfold plug_fields. rewrite map_map. apply map_ext. intros f. unfold plug_field. cbn. rewrite plug_plug. reflexivity.
    - rewrite filler_prim by exact Fz. apply (fi_prim _ _ Fd).
  Qed.

  Lemma filler_fill z d n : filler h z -> filler h d -> filler h (fill z d n).
  Proof. intros Fz Fd. induction n as [|n IH]; [exact Fz|]. apply filler_plug; assumption. Qed.

  Lemma filler_min z z' t : filler h z -> filler h z' -> min_bytes h z = min_bytes h z' ->
    min_bytes h (plug z t) = min_bytes h (plug z' t).
  Proof.
    intros F F' E.
    assert (G : forall a b, filler h a -> filler h b -> same_layout h a b).
    { intros a b [_ [a1 a2 a3] _] [_ [b1 b2 b3] _]. constructor; intros; [rewrite <- a1; apply b1|rewrite <- a2; apply b2|rewrite <- a3; apply b3]. }
    apply N.le_antisymm.
    - apply (min_plug h z z' (G _ _ F F') (fi_nominal _ _ F) (fi_nominal _ _ F') t). lia.
    - apply (min_plug h z' z (G _ _ F' F) (fi_nominal _ _ F') (fi_nominal _ _ F) t). lia.
  Qed.

  Lemma fill_min z z' d n : filler h z -> filler h z' -> filler h d -> min_bytes h z = min_bytes h z' ->
    min_bytes h (fill z d n) = min_bytes h (fill z' d n).
  Proof. intros F F' Fd E. induction n as [|n IH]; [exact E|]. cbn [fill]. apply filler_min; auto using filler_fill. Qed.

  Context {St : Type} (R : reader St) (inv : St -> N -> Prop) (L : N) (vec_ok : N -> N -> N -> Prop).
  Context (SF : safe_reader h R inv (fun _ => True) L vec_ok).

  (** With less than [n] bytes left, what is below depth [n] does not matter. *)
  Theorem fill_agree z z' d n : filler h z -> filler h z' -> filler h d -> min_bytes h z = min_bytes h z' ->
    guarded h false d -> agree inv (N.of_nat n) (read h R (fill z d n)) (read h R (fill z' d n)).
  Proof.
    intros F F' Fd E G. induction n as [|n IH]; [intros s m _ Hm; lia|].
    replace (N.of_nat (S n)) with (N.of_nat n + 1) by lia.
    exact (proj1 (proj1 (same_all h VH R inv L vec_ok SF (fill z d n) (fill z' d n)
      (fi_nominal _ _ (filler_fill z d n F Fd)) (fi_nominal _ _ (filler_fill z' d n F' Fd))
      (fun t => filler_prim _ t (filler_fill z d n F Fd)) (fun t => filler_prim _ t (filler_fill z' d n F' Fd))
      (fun t => filler_size _ t (filler_fill z d n F Fd)) (fun t => filler_size _ t (filler_fill z' d n F' Fd))
      (fun t => filler_min _ _ t (filler_fill z d n F Fd) (filler_fill z' d n F' Fd) (fill_min z z' d n F F' Fd E))
      (N.of_nat n) IH d)) false G).
  Qed.
End Unrollings.
