(* Undefined behaviour when reading: borrowed slices are its only source. *)
From Verif Require Export Safe Keep.

Definition ub (f : fault) : bool :=
  match f with UbMisaligned | UbInvalid | UbUnreachable => true | _ => false end.

(** The elements of every borrowed slice and array in [t] satisfy [P]; fields that
    are skipped do not count. *)
Fixpoint views (P : ty -> Prop) (t : ty) {struct t} : Prop :=
  match t with
  | TScalar _ | TStr _ | TBot => True
  | TSeq k t' => match k with KRef => P t' | _ => views P t' end
  | TRefArr t' _ => P t'
  | TArr t' _ | TOption t' | TRange _ t' | TSet _ t' | TBox t' => views P t'
  | TResult t1 t2 | TMap _ t1 t2 => views P t1 /\ views P t2
  | TTuple ts => all_tys (views P) ts
  | TStruct _ fs => all_fields (fun a t' => f_skip a = true \/ views P t') fs
  | TEnum _ vs => all_variants (all_fields (fun a t' => f_skip a = true \/ views P t')) vs
  end.

(* ------------------------------------------------------------------ *)
(** * Conversion *)

Section Convert.
  Context (h : host).

  Definition tame {A} (r : res A) : Prop := match r with Fault f => ub f = false | _ => True end.

  Lemma tame_rmap {A B} (g : A -> B) r : tame r -> tame (rmap g r).
  Proof. destruct r; exact (fun H => H). Qed.
  Lemma tame_rbind {A B} r (g : A -> res B) : tame r -> (forall a, tame (g a)) -> tame (rbind r g).
  Proof. destruct r; cbn; auto. Qed.
  Lemma tame_rmapM {A B} (g : A -> res B) l : (forall a, tame (g a)) -> tame (rmapM g l).
  Proof.
    intros Hg. induction l as [|a l IH]; [exact I|]. cbn [rmapM]. apply tame_rbind; [apply Hg|].
    intros b. apply tame_rbind; [exact IH|]. intros bs. exact I.
  Qed.

  Lemma flip_tame t v : tame (flip h t v).
  Proof.
    revert v. induction t as [s| | | | | | | | | | | |d fs IH| |] using ty_ind'; intros v; try reflexivity.
    - destruct s, v; reflexivity.
    - destruct v as [| | | |vs| | | | |]; try reflexivity. cbn [flip].
      destruct (is_transparent d fs); [reflexivity|]. destruct (potentially_primitive d fs); [|reflexivity].
      apply tame_rmap. revert vs. induction IH as [|f r IHf IH IHl]; intros [|u us]; try reflexivity; try exact I.
      apply tame_rbind; [apply IHf|]. intros u'. apply tame_rmap, IHl.
  Qed.

  Lemma conv_tame e t v : tame (conv h e t v).
  Proof.
    revert v. induction t as [s| | | | | | | | | | | |d fs IH| |] using ty_ind'; intros v; try reflexivity.
    - destruct s, v; try reflexivity. cbn [conv]. destruct (conversion_necessary _ _); exact I.
    - destruct v as [| | | |vs| | | | |]; try reflexivity. cbn [conv].
      destruct (is_transparent d fs).
      + destruct IH as [|f [|g r] IHf IH]; [reflexivity| |reflexivity]. destruct vs as [|u [|w vs]]; try reflexivity.
        apply tame_rmap, IHf.
      + destruct (potentially_primitive d fs); [|reflexivity].
        destruct (conversion_necessary _ _); [apply flip_tame|exact I].
  Qed.

  Lemma count_tame t n : tame (slice_count h t n).
  Proof.
    induction t as [s| | | | | | | | | | | |d fs IH| |] using ty_ind'; try reflexivity.
    - destruct s; reflexivity || exact I.
    - cbn [slice_count]. destruct (is_transparent d fs).
      + destruct IH as [|f [|g r] IHf IH]; [reflexivity|apply IHf|reflexivity].
      + destruct (potentially_primitive d fs); [|reflexivity]. destruct (_ =? _); reflexivity || exact I.
  Qed.
End Convert.

(* ------------------------------------------------------------------ *)
(** * Reading *)

Create HintDb only.

Section Only.
  Context {St : Type} (h : host) (VH : valid_host h) (R : reader St).
  Context (inv : St -> N -> Prop) (f0 : fault) (Hf0 : ub f0 = true) (L : N) (vec_ok : N -> N -> N -> Prop).
  Definition but (f : fault) : Prop := f <> f0.
  Context (SF : safe_reader h R inv but L vec_ok).

  Definition only {A} (m : M St A) : Prop := tri inv but 0 m (fun _ => True).

  Lemma but_tame f : ub f = false -> but f.
  Proof. intros H ->. congruence. Qed.

  Lemma only_tri {A} k (m : M St A) Q : tri inv but k m Q -> only m.
  Proof. intros H. eapply tri_weaken; [exact H|apply N.le_0_l|auto]. Qed.
  Lemma only_ret {A} (a : A) : only (ret a).
  Proof. apply tri_ret. exact I. Qed.
  Lemma only_fail {A} er : only (A := A) (fail er).
  Proof. apply tri_fail. Qed.
  Lemma only_crash {A} f : ub f = false -> only (A := A) (crash f).
  Proof. intros H. apply tri_crash, but_tame, H. Qed.
  Lemma only_lift {A} (r : res A) : tame r -> only (lift r).
  Proof. intros H. apply tri_lift. destruct r; auto. apply but_tame, H. Qed.
  Lemma only_bind {A B} (m : M St A) (f : A -> M St B) : only m -> (forall a, only (f a)) -> only (bind m f).
  Proof. intros Hm Hf. eapply tri_then; [exact Hm|]. intros a _. apply Hf. Qed.
  Lemma only_map {A B} (g : A -> B) (m : M St A) : only m -> only (mmap g m).
  Proof. intros Hm. apply only_bind; [exact Hm|]. intros a. apply only_ret. Qed.
  Lemma only_repeat {A} (m : M St A) n : only m -> only (repeatM m n).
  Proof.
    intros Hm. induction n as [|n IH]; cbn [repeatM]; [apply only_ret|].
    apply only_bind; [exact Hm|]. intros a. apply only_bind; [exact IH|]. intros l. apply only_ret.
  Qed.
  Lemma only_catch {A} (d : A) m : only m -> only (catch_eof d m).
  Proof. intros Hm. eapply tri_catch; [exact Hm|exact I]. Qed.
  Lemma only_until rd : only rd -> only (read_until_eof R rd).
  Proof.
    intros Hm. eapply only_tri. eapply (tri_until h R inv but L vec_ok SF); [exact Hm|].
    left. apply but_tame. reflexivity.
  Qed.
  Lemma only_require n : only (require R n).
  Proof.
    intros s m Hs. unfold require. destruct (rd_can R n s) as [[]|]; cbn; try (split; [exact I|]); try intros _;
      exists m; (split; [exact Hs|lia]).
  Qed.

  Lemma only_read n : only (rd_read R n). Proof. eapply only_tri, SF. Qed.
  Lemma only_read_ptr n : only (rd_read_ptr R n). Proof. eapply only_tri, SF. Qed.

  Hint Resolve only_ret only_fail only_require only_read only_read_ptr : only.
  Hint Extern 1 (only (crash _)) => apply only_crash; reflexivity : only.

  Ltac step := repeat match goal with
    | |- only (bind _ _) => apply only_bind; [|intros ?]
    | |- only (mmap _ _) => apply only_map
    | |- only (repeatM _ _) => apply only_repeat
    | |- only (if ?b then _ else _) => destruct b
    | |- only (catch_eof _ _) => apply only_catch
    | |- only (match ?x with _ => _ end) => destruct x
    end; auto with only.

  Lemma only_peek_ptr n : n <= 16 -> only (rd_peek_ptr R n). Proof. intros H. eapply only_tri, SF, H. Qed.

  Lemma only_u8 : only (read_u8 R). Proof. unfold read_u8. step. Qed.
  Lemma only_peek_u8 : only (peek_u8 R). Proof. eapply only_tri, (tri_peek_u8 h R inv but L vec_ok SF). Qed.
  Lemma only_uint w : only (read_uint h R w). Proof. unfold read_uint. step. Qed.
  Lemma only_peek_uint w : (w <= 16)%nat -> only (peek_uint h R w).
  Proof. intros H. eapply only_tri, (tri_peek_uint h R inv but L vec_ok SF), H. Qed.
  Hint Resolve only_u8 only_peek_u8 only_uint : only.
  Lemma only_prim p : only (read_prim h R p). Proof. unfold read_prim. step. Qed.
  Lemma only_varint : only (read_varint h R). Proof. unfold read_varint, vi_impl. step. Qed.
  Lemma only_peek_varint : only (peek_varint h R).
  Proof. eapply only_tri, (tri_peek_varint h R inv but L vec_ok SF). Qed.
  Hint Resolve only_prim only_varint only_peek_varint : only.
  Lemma only_length b : only (read_length h R b). Proof. unfold read_length. step. Qed.
  Hint Resolve only_length : only.

  Lemma only_vec t rd n : only rd -> only (read_vec h R t rd n).
  Proof.
    intros Hrd. unfold read_vec. apply tri_assoc. eapply tri_after.
    - apply SF. left. apply but_tame. reflexivity.
    - cbn beta. intros _ _. change (only (if is_prim h t
        then bs <- rd_read_ptr R (h_capacity h n (h_size h t) * h_size h t) ;;
             lift (rmapM (conv h (rd_endian R) t) (map (mem_read h t) (chunks (N.to_nat (h_size h t)) (N.to_nat n) bs)))
        else if h_size h t =? 0 then ret (repeat (zst_val t) (N.to_nat n)) else repeatM rd (N.to_nat n))).
      step. apply only_lift, tame_rmapM. intros v. apply conv_tame.
  Qed.
  Hint Resolve only_vec : only.

  Lemma only_cow t rd n : only rd -> only (read_cow h R t rd n).
  Proof.
    intros Hrd. unfold read_cow.
    destruct (if is_prim h t && no_conv h R t then rd_borrow R else None)%bool as [b|] eqn:Eb; [|step].
    assert (Hb : rd_borrow R = Some b) by (destruct (is_prim h t && no_conv h R t)%bool; [exact Eb|discriminate]).
    assert (Hcount : forall bs, only (n0 <- lift (slice_count h t (nlen bs)) ;;
      ret (map (mem_read h t) (chunks (N.to_nat (h_size h t)) (N.to_nat n0) bs)))).
    { intros bs. apply only_bind; [apply only_lift, count_tame|]. intros n0. step. }
    pose proof (vh_alloc h VH) as Hau. unfold usize_max.
    destruct (N.ltb_spec (l_usize_max (h_lim h)) (n * h_size h t)) as [Hov|Hov]; cbn [andb].
    - destruct (h_overflow_checks h); [apply only_crash; reflexivity|].
      apply only_bind; [step|]. intros _. apply only_bind; [eapply only_tri, SF, Hb|]. intros [addr bs].
      destruct ((h_align h t =? 1) || (addr mod h_align h t =? 0))%bool; [apply Hcount|].
      unfold alloc. destruct (N.ltb_spec (h_alloc_max h) (n * h_size h t)); [|lia]. apply only_crash. reflexivity.
    - rewrite N.mod_small by lia. apply only_bind; [step|]. intros _.
      intros s m Hs. pose proof (sf_borrow _ _ _ _ _ _ SF b Hb (n * h_size h t) s m Hs) as H1.
      pose proof (sf_copy _ _ _ _ _ _ SF b Hb n (h_size h t) s m Hs) as H2.
      unfold bind at 1. unfold bind, ret in H2.
      destruct (b (n * h_size h t) s) as [[[addr bs]|er|f] s1]; [|exact H1|exact H1].
      destruct H1 as [_ (m1 & Hm1 & Hle)].
      destruct ((h_align h t =? 1) || (addr mod h_align h t =? 0))%bool.
      + pose proof (Hcount bs s1 m1 Hm1) as H. destruct (bind _ _ s1) as [[a|er|f] s2]; [|intros E|exact H].
        * destruct H as [_ (m2 & Hm2 & Hl2)]. split; [exact I|]. exists m2. split; [exact Hm2|lia].
        * destruct (H E) as (m2 & Hm2 & Hl2). exists m2. split; [exact Hm2|lia].
      + unfold bind, ret. destruct (alloc h R n (h_size h t) (h_size h t) s1) as [[[]|er|f] s2]; [|exact H2|exact H2].
        destruct H2 as [_ (m2 & Hm2 & Hle2)]. split; [exact I|]. exists m2. split; [exact Hm2|lia].
  Qed.
  Hint Resolve only_cow : only.

  Lemma only_borrowed n : only (borrowed R n).
  Proof. unfold borrowed. destruct (rd_borrow R) eqn:E; [eapply only_tri, SF, E|step]. Qed.
  Hint Resolve only_borrowed : only.

  Lemma only_eof : only (match rd_borrow_eof R with Some b => b | None => fail Unsized end).
  Proof. destruct (rd_borrow_eof R) eqn:E; [eapply only_tri, SF, E|step]. Qed.

  Lemma only_raw k key t n bs : only (raw_collect (St := St) h k key t n bs).
  Proof. unfold raw_collect. step. Qed.
  Hint Resolve only_raw : only.

  Lemma only_collection k key t rd n : only rd -> only (read_collection h R k key t rd n).
  Proof.
    intros Hrd. unfold read_collection. destruct (rd_borrow_r R) eqn:E; [|step].
    assert (Hb : forall n, only (m n)) by (intros n'; eapply only_tri, SF, E). step.
  Qed.
  Hint Resolve only_collection : only.

  Lemma only_pair rk rv : only rk -> only rv -> only (read_pair rk rv).
  Proof. intros H1 H2. unfold read_pair. step. Qed.
  Hint Resolve only_pair : only.

  Lemma only_kv k tk tv rk rv n : only rk -> only rv -> only (read_kv h R k tk tv rk rv n).
  Proof.
    intros H1 H2. unfold read_kv. destruct (rd_borrow_r R) eqn:E; [|step].
    assert (Hb : forall n, only (m n)) by (intros n'; eapply only_tri, SF, E). step.
  Qed.
  Hint Resolve only_kv : only.

  Lemma only_read_map k tk tv rk rv n : only rk -> only rv -> only (read_map h R k tk tv rk rv n).
  Proof. intros H1 H2. unfold read_map. step. Qed.
  Hint Resolve only_read_map : only.

  Lemma only_ipv4 : only (read_ipv4 h R). Proof. unfold read_ipv4. step. Qed.
  Lemma only_ipv6 : only (read_ipv6 h R). Proof. unfold read_ipv6. step. Qed.
  Lemma only_duration : only (read_duration h R).
  Proof. unfold read_duration. step. apply only_lift. unfold duration_new. destruct (_ <? _); reflexivity || exact I. Qed.
  Hint Resolve only_ipv4 only_ipv6 only_duration : only.
  Lemma only_scalar s : only (read_scalar h R s).
  Proof. destruct s; cbn [read_scalar]; step. Qed.

  Lemma only_to_str bs : only (to_str (St := St) bs). Proof. unfold to_str. step. Qed.
  Lemma only_elem_u8 : only (read_elem_u8 h R). Proof. unfold read_elem_u8. step. Qed.
  Hint Resolve only_to_str only_elem_u8 : only.
  Lemma only_vec_u8 n : only (read_vec_u8 h R n). Proof. unfold read_vec_u8. step. Qed.
  Lemma only_cow_u8 n : only (read_cow_u8 h R n). Proof. unfold read_cow_u8. step. Qed.
  Hint Resolve only_vec_u8 only_cow_u8 : only.
  Lemma only_constant c : only (read_constant h R c).
  Proof.
    unfold read_constant. apply only_bind; [|intros; step].
    destruct (rd_borrow R) eqn:E; [apply only_map; eapply only_tri, SF, E|step].
  Qed.
  Hint Resolve only_constant : only.
  Lemma only_guard t : only (endianness_guard h R t). Proof. unfold endianness_guard. step. Qed.
  Hint Resolve only_guard only_until : only.

  Lemma only_with_length prev a k u : (forall n, only (k n)) -> only u -> only (with_length h R prev a k u).
  Proof. intros Hk Hu. unfold with_length. step. Qed.

  (* ---------------------------------------------------------------- *)
  (** ** Types *)

  Context (P : ty -> Prop).
  Context (Hview : forall t n p, P t -> rd_borrow R <> None \/ rd_borrow_eof R <> None ->
                   only (cast_slice (St := St) h t n p)).

  Lemma only_unsized {A B} (f : A -> M St B) : only (bind (fail Unsized) f).
  Proof. intros s m Hs. discriminate. Qed.

  Lemma only_ref_slice t n : P t -> only (read_ref_slice h R t n).
  Proof.
    intros Ht. unfold read_ref_slice. destruct (_ <? _); [step|]. unfold borrowed.
    destruct (rd_borrow R) eqn:E; [|apply only_unsized].
    apply only_bind; [eapply only_tri, SF, E|]. intros p. apply Hview; [exact Ht|left; congruence].
  Qed.
  Lemma only_ref_array t n : P t -> only (read_ref_array h R t n).
  Proof.
    intros Ht. unfold read_ref_array. apply only_bind; [step|]. intros _. unfold borrowed.
    destruct (rd_borrow R) eqn:E; [|apply only_unsized].
    apply only_bind; [eapply only_tri, SF, E|]. intros p. apply Hview; [exact Ht|left; congruence].
  Qed.
  Lemma only_ref_rest t : P t ->
    only (b <- match rd_borrow_eof R with Some b => b | None => fail Unsized end ;;
          if h_size h t =? 0 then crash PanicDivZero else cast_slice h t (nlen (snd b) / h_size h t) b).
  Proof.
    intros Ht. destruct (rd_borrow_eof R) eqn:E; [|apply only_unsized].
    apply only_bind; [eapply only_tri, SF, E|]. intros p. destruct (_ =? _); [step|].
    apply Hview; [exact Ht|right; congruence].
  Qed.
  Hint Resolve only_ref_slice only_ref_array : only.

  Notation views := (views P).
  Notation fine t := (views t -> only (read h R t)).

  Lemma only_inner prev a v t : views t -> fine t ->
    (forall t', match t with
                | TSeq _ t1 | TArr t1 _ | TSet _ t1 => t' = t1
                | TMap _ t1 t2 => t' = t1 \/ t' = t2
                | _ => False
                end -> fine t') ->
    only (read_field_inner h R (read h R) prev a v t).
  Proof.
    intros Hv Ht Hs. pose proof only_eof as He. pose proof only_ref_rest as Hr.
    destruct t as [[]|[]|[]| | | | | | |[]|[]| | | |]; cbn [read_field_inner]; auto;
      try (destruct v; [step|apply Ht, Hv]); cbn [Undefined.views] in Hv;
      try (pose proof (Hs _ eq_refl Hv));
      try (pose proof (Hs _ (or_introl eq_refl) (proj1 Hv))); try (pose proof (Hs _ (or_intror eq_refl) (proj2 Hv)));
      step; apply only_with_length; intros; try (apply Hr, Hv); step; try exact He; step.
  Qed.

  Lemma only_field prev a t : views t -> fine t -> (forall t', below t t' -> fine t') ->
    only (read_field h R (read h R) prev a t).
  Proof.
    intros Hv Ht Hs. unfold read_field.
    assert (Hbody : only ((match f_prefix a with [] => ret tt | p => read_constant h R p end) ;;;
      (if f_opaque a then read h R t else
      match t with
      | TOption t' =>
        flag <- read_u8 R ;;
        if flag =? 0 then ret VNone else mmap VSome (read_field_inner h R (read h R) prev a false t')
      | _ => read_field_inner h R (read h R) prev a (f_varint a) t
      end))).
    { apply only_bind; [step|]. intros _. destruct (f_opaque a); [apply Ht, Hv|].
      destruct t; try (apply only_inner; [exact Hv|exact Ht|intros t' H'; apply Hs; cbn [below]; tauto]).
      apply only_bind; [step|]. intros x. destruct (x =? 0); [step|]. apply only_map, only_inner.
      - exact Hv.
      - apply Hs. cbn [below]. auto.
      - intros t' H'. apply Hs. cbn [below]. auto. }
    destruct (f_eof a); [apply only_catch|]; exact Hbody.
  Qed.

  Lemma only_fields fs : Forall (fun f => fine (snd f) /\ forall t', below (snd f) t' -> fine t') fs ->
    all_fields (fun a t => f_skip a = true \/ views t) fs -> forall prev, only (read_fields h R (read h R) prev fs).
  Proof.
    induction 1 as [|f r [Hf Hb] Hr IH]; intros Hv prev; cbn [read_fields]; [step|]. destruct Hv as [Hv Hvr].
    destruct (f_skip (fst f)); [apply only_map, IH, Hvr|]. destruct Hv as [Hv|Hv]; [discriminate|].
    apply only_bind; [apply only_field; assumption|].
    intros v. apply only_bind; [apply IH, Hvr|]. intros vs. step.
  Qed.

  (** Reading [t] gives any fault but [f0]. *)
  Theorem only_read_type : forall t, fine t /\ forall t', below t t' -> fine t'.
  Proof.
    induction t as [s|k|k t IH|t n IH|t n IH|t IH|t1 t2 IH1 IH2|ts IH|i t IH|k t IH|k tk tv IHk IHv|t IH|d fs IH|d vs IH|]
      using ty_ind'; (split; [cbn [read Undefined.views]; intros Hv|intros t' Hb; cbn [below] in Hb]); try contradiction.
    - apply only_scalar.
    - unfold read_str. step.
    - destruct IH as [IH _]. destruct k; cbn [read_seq]; step.
    - subst. apply (proj1 IH).
    - destruct IH as [IH _]. unfold read_array. step. apply only_lift, tame_rmapM. intros v. apply conv_tame.
    - subst. apply (proj1 IH).
    - step.
    - destruct IH as [IH _]. step.
    - destruct IH as [IH1 IH2]. destruct Hb as [->|Hb]; [exact IH1|]. apply IH2.
      destruct t; try contradiction; cbn [below]; exact Hb.
    - destruct IH1 as [IH1 _]. destruct IH2 as [IH2 _]. destruct Hv as [Hv1 Hv2]. step.
    - apply only_map. induction IH as [|t r [IHt _] IHr IHl]; cbn [read_tuple]; [step|]. destruct Hv as [Hv Hvr]. step.
    - destruct IH as [IH _]. step.
    - destruct IH as [IH _]. step.
    - subst. apply (proj1 IH).
    - destruct IHk as [IHk _]. destruct IHv as [IHv _]. destruct Hv as [Hv1 Hv2]. step.
    - destruct Hb as [->| ->]; [apply (proj1 IHk)|apply (proj1 IHv)].
    - apply (proj1 IH), Hv.
    - apply only_map, only_fields; assumption.
    - apply only_bind.
      { unfold read_tag. destruct (e_tag d), (e_peek d); auto with only; apply only_peek_uint; lia. }
      intros tag. generalize 0%nat.
      induction IH as [|v r IHv IHr IHl]; intros i; cbn [read_variant]; [step|]. destruct Hv as [Hv Hvr].
      destruct (fst v =? tag); [|apply IHl, Hvr]. apply only_map, only_fields; assumption.
    - step.
  Qed.
End Only.
