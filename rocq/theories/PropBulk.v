(* Property C36: containers of plain data, which are copied as one block of
   memory, are coded like their elements one by one. *)
From Verif Require Import Samples Entry EncFacts PropRoundTrip PropPlain.

(** Reading or writing [n] values one after the other, each by its own
    implementation: a tuple of [n] components, which has no fast path. *)
Definition separately (n : nat) (t : ty) : ty := TTuple (repeat t n).

(** Both succeed with the same value, or both fail with an error. *)
Definition same_outcome (r1 r2 : res val) : Prop :=
  (exists v, r1 = Ok v /\ r2 = Ok v) \/ (exists er1 er2, r1 = Err er1 /\ r2 = Err er2).

Section Bulk.
  Context (h : host) (VH : valid_host h) (e : endian).
  Notation e6 := (ipv6_order h e).
  Notation decode := (decode (h_lim h) e e6).
  Notation decl := (decl (h_lim h) e e6).
  Notation pval := (pval h e).

  Lemma plain_supported bw pk lm t : plain_data h t -> supported h e bw pk lm t.
  Proof.
    revert lm. induction t as [s| | | | | | | | | | | |d fs IH| |] using ty_ind'; intros lm; cbn [plain_data]; try contradiction.
    - intros _. exact I.
    - intros (Hf & _ & _). cbn [supported]. apply all_fields_forall. apply all_fields_forall in Hf.
      rewrite Forall_forall in *. intros f Hin. specialize (IH f Hin). destruct (Hf f Hin) as [Ha Hp].
      destruct (prim_attrs _ Ha) as (_ & _ & _ & Hv & Hx). right. rewrite Hv, Hx.
      split; [discriminate|]. split; [rewrite nlen_nil; lia|]. apply IH, Hp.
  Qed.

  Lemma plain_wsup t : plain_data h t -> wsup h t.
  Proof.
    induction t as [s| | | | | | | | | | | |d fs IH| |] using ty_ind'; cbn [plain_data]; try contradiction.
    - intros _. exact I.
    - intros (Hf & _ & _). cbn [wsup]. apply all_fields_forall. apply all_fields_forall in Hf.
      rewrite Forall_forall in *. intros f Hin. specialize (IH f Hin). destruct (Hf f Hin) as [Ha Hp].
      destruct (prim_attrs _ Ha) as (_ & _ & _ & Hv & _). right. rewrite Hv. split; [discriminate|]. apply IH, Hp.
  Qed.

  (* ---------------------------------------------------------------- *)
  (** ** Writing *)

  Section Writing.
    Context (mem : N -> bytes) (Hmem : forall n, n <= nlen (mem n)).
    Notation enc := (enc (h_iter h) e e6).

    (** What is written for each value on its own. *)
    Definition written_each (t : ty) (vs : list val) (bs : list bytes) : Prop :=
      Forall2 (fun v b => write_to_vec h mem e t v = Ok b) vs bs.

    Lemma enc_each t vs b : wsup h t -> Forall (valid (h_lim h) t) vs ->
      enc_all (enc len0 t) vs = Ok b <-> exists bs, written_each t vs bs /\ b = concat bs.
    Proof.
      intros Hs Hv. revert b. induction Hv as [|v vs Hv _ IH]; intros b.
      - split.
        + intros H. injection H as <-. exists []. split; [constructor|reflexivity].
        + intros (bs & H & ->). inversion H; subst. reflexivity.
      - rewrite enc_all_cons. split.
        + intros H. apply rapp_ok in H as (b1 & b2 & E1 & E2 & ->). apply IH in E2 as (bs & Hbs & ->).
          exists (b1 :: bs). split; [|reflexivity]. constructor; [|exact Hbs]. apply (write_to_vec_ok h VH); assumption.
        + intros (bs & H & ->). inversion H as [|? b1 ? bs' H1 H2]; subst.
          apply (write_to_vec_err h VH) in H1; [|assumption..].
          assert (E2 : enc_all (enc len0 t) vs = Ok (concat bs')) by (apply IH; eauto).
          rewrite H1, E2. reflexivity.
    Qed.

    (** C36: slices, vectors, boxed slices, small vectors and `Cow`s are written as
        their length and what is written for each element.  (For every element
        type; plain data is where the fast path is taken.) *)
    Theorem C36_write_seq_partial k t vs b : wsup h (TSeq k t) -> valid (h_lim h) (TSeq k t) (VSeq vs) ->
      write_to_vec h mem e (TSeq k t) (VSeq vs) = Ok b
      <-> nlen vs < 2 ^ 32 /\ exists bs, written_each t vs bs /\ b = word e 4 (nlen vs) ++ concat bs.
    Proof.
      intros Hs Hv. pose proof Hs as [_ Ht]. pose proof Hv as [Hvs _].
      assert (E : write_to_vec h mem e (TSeq k t) (VSeq vs) = Ok b <-> enc len0 (TSeq k t) (VSeq vs) = Ok b).
      { split; [apply (write_to_vec_err h VH)|apply (write_to_vec_ok h VH)]; assumption. }
      rewrite E. cbn [Spec.enc enc_len len0 basic_max]. num_pow. destruct (N.leb_spec (nlen vs) (4294967296 - 1)) as [Hl|Hl].
      - split.
        + intros H. split; [lia|]. apply rapp_ok in H as (b1 & b2 & E1 & E2 & ->). injection E1 as <-.
          apply (enc_each t vs _ Ht Hvs) in E2 as (bs & Hbs & ->). eauto.
        + intros (_ & bs & Hbs & ->). assert (E2 : enc_all (enc len0 t) vs = Ok (concat bs)) by (apply enc_each; eauto).
          rewrite E2. reflexivity.
      - split; [discriminate|]. intros [? _]. lia.
    Qed.

    (** Arrays, with and without the fast path (a field of a derived type has it, an
        array on its own does not). *)
    Theorem C36_write_array_partial t n vs b : wsup h (TArr t n) -> valid (h_lim h) (TArr t n) (VSeq vs) ->
      write_to_vec h mem e (TArr t n) (VSeq vs) = Ok b <-> exists bs, written_each t vs bs /\ b = concat bs.
    Proof.
      intros Hs Hv. pose proof Hs as [_ Ht]. pose proof Hv as [Hvs _].
      assert (E : write_to_vec h mem e (TArr t n) (VSeq vs) = Ok b <-> enc len0 (TArr t n) (VSeq vs) = Ok b).
      { split; [apply (write_to_vec_err h VH)|apply (write_to_vec_ok h VH)]; assumption. }
      rewrite E. apply enc_each; assumption.
    Qed.

    Theorem C36_write_array_field_partial d t n vs b : wsup h (TStruct d [(plain, TArr t n)]) ->
      valid (h_lim h) (TArr t n) (VSeq vs) ->
      write_to_vec h mem e (TStruct d [(plain, TArr t n)]) (VSeq [VSeq vs]) = Ok b
      <-> exists bs, written_each t vs bs /\ b = concat bs.
    Proof.
      intros Hs Hv. pose proof Hs as [[Hs1|[_ [_ Ht]]] _]; [discriminate|]. pose proof Hv as [Hvs _].
      assert (E : write_to_vec h mem e (TStruct d [(plain, TArr t n)]) (VSeq [VSeq vs]) = Ok b
              <-> enc len0 (TStruct d [(plain, TArr t n)]) (VSeq [VSeq vs]) = Ok b).
      { split; [apply (write_to_vec_err h VH)|apply (write_to_vec_ok h VH)]; try assumption; exact (conj Hv I). }
      rewrite E. rewrite <- enc_each by assumption. cbn [Spec.enc]. rewrite enc_fields_plain by (split; [reflexivity|exact I]).
      cbn [map snd enc_tuple Spec.enc]. unfold rapp, rbind, rmap.
      destruct (enc_all (enc len0 t) vs) as [b1|er|f]; [rewrite app_nil_r|..]; reflexivity.
    Qed.

    (** Sets and maps, in the order their iterator walks them. *)
    Theorem C36_write_set_partial k t vs b : wsup h t -> valid (h_lim h) (TSet k t) (VSeq vs) ->
      write_to_vec h mem e (TSet k t) (VSeq vs) = Ok b
      <-> nlen vs < 2 ^ 32 /\ exists bs, written_each t (iter_order (h_iter h) k vs) bs
                                         /\ b = word e 4 (nlen vs) ++ concat bs.
    Proof.
      intros Hs Hv. pose proof Hv as [Hvs _].
      assert (Hvi : Forall (valid (h_lim h) t) (iter_order (h_iter h) k vs)).
      { destruct k; cbn; try exact Hvs. rewrite Forall_forall in *. intros x Hx. apply Hvs.
        apply (Permutation_in _ (vh_iter h VH vs)), Hx. }
      assert (E : write_to_vec h mem e (TSet k t) (VSeq vs) = Ok b <-> enc len0 (TSet k t) (VSeq vs) = Ok b).
      { split; [apply (write_to_vec_err h VH)|apply (write_to_vec_ok h VH)]; assumption. }
      rewrite E. cbn [Spec.enc enc_len len0 basic_max]. num_pow. destruct (N.leb_spec (nlen vs) (4294967296 - 1)) as [Hl|Hl].
      - split.
        + intros H. split; [lia|]. apply rapp_ok in H as (b1 & b2 & E1 & E2 & ->). injection E1 as <-.
          apply (enc_each t _ _ Hs Hvi) in E2 as (bs & Hbs & ->). eauto.
        + intros (_ & bs & Hbs & ->).
          assert (E2 : enc_all (enc len0 t) (iter_order (h_iter h) k vs) = Ok (concat bs)) by (apply enc_each; eauto).
          rewrite E2. reflexivity.
      - split; [discriminate|]. intros [? _]. lia.
    Qed.

    Theorem C36_write_map_partial k tk tv vs b : wsup h tk -> wsup h tv -> valid (h_lim h) (TMap k tk tv) (VSeq vs) ->
      write_to_vec h mem e (TMap k tk tv) (VSeq vs) = Ok b
      <-> nlen vs < 2 ^ 32 /\ exists bs, written_each (TTuple [tk; tv]) (iter_order (h_iter h) k vs) bs
                                         /\ b = word e 4 (nlen vs) ++ concat bs.
    Proof.
      intros Hsk Hsv Hv. pose proof Hv as [Hvs _].
      assert (Hvp : Forall (valid (h_lim h) (TTuple [tk; tv])) vs).
      { revert Hvs. apply Forall_impl. intros [| | | |[|a [|b0 [|]]]| | | | |]; cbn; tauto. }
      assert (Hvi : Forall (valid (h_lim h) (TTuple [tk; tv])) (iter_order (h_iter h) k vs)).
      { destruct k; cbn; try exact Hvp. rewrite Forall_forall in *. intros x Hx. apply Hvp.
        apply (Permutation_in _ (vh_iter h VH vs)), Hx. }
      assert (Hs : wsup h (TTuple [tk; tv])) by (cbn; auto).
      assert (E : write_to_vec h mem e (TMap k tk tv) (VSeq vs) = Ok b <-> enc len0 (TMap k tk tv) (VSeq vs) = Ok b).
      { split; [apply (write_to_vec_err h VH)|apply (write_to_vec_ok h VH)]; try assumption; split; assumption. }
      assert (Ep : enc_all (enc_pair (enc len0 tk) (enc len0 tv)) (iter_order (h_iter h) k vs)
                   = enc_all (enc len0 (TTuple [tk; tv])) (iter_order (h_iter h) k vs)).
      { apply enc_all_ext. revert Hvi. apply Forall_impl. intros x Hvi.
        destruct x as [| | | |[|a [|b0 [|]]]| | | | |]; cbn in Hvi; try tauto. cbn [enc_pair Spec.enc enc_tuple].
        unfold rapp, rbind, rmap. destruct (enc len0 tk a); try reflexivity.
        destruct (enc len0 tv b0); [rewrite app_nil_r|..]; reflexivity. }
      rewrite E. cbn [Spec.enc enc_len len0 basic_max]. rewrite Ep.
      num_pow. destruct (N.leb_spec (nlen vs) (4294967296 - 1)) as [Hl|Hl].
      - split.
        + intros H. split; [lia|]. apply rapp_ok in H as (b1 & b2 & E1 & E2 & ->). injection E1 as <-.
          apply (enc_each _ _ _ Hs Hvi) in E2 as (bs & Hbs & ->). eauto.
        + intros (_ & bs & Hbs & ->).
          assert (E2 : enc_all (enc len0 (TTuple [tk; tv])) (iter_order (h_iter h) k vs) = Ok (concat bs)) by (apply enc_each; eauto).
          rewrite E2. reflexivity.
      - split; [discriminate|]. intros [? _]. lia.
    Qed.
  End Writing.

  (* ---------------------------------------------------------------- *)
  (** ** Reading *)

  Lemma dtuple_repeat (d : ty -> dec val) t n o : dtuple d (repeat t n) o = drepeat (d t) n o.
  Proof.
    revert o. induction n as [|n IH]; intros o; [reflexivity|]. cbn [repeat drepeat dtuple].
    apply dbind_ext; [reflexivity|]. intros. apply dbind_ext; [apply IH|reflexivity].
  Qed.

  Lemma all_tys_repeat (P : ty -> Prop) t n : P t -> all_tys P (repeat t n).
  Proof. intros H. induction n; cbn; auto. Qed.

  (** Plain data one by one. *)
  Lemma separate_plain n t body bw r : plain_data h t -> reading h e (separately n t) body bw r ->
    if N.of_nat n * h_size h t <=? nlen body
    then r = Ok (VSeq (map (pval t) (chunks (N.to_nat (h_size h t)) n (ntake (N.of_nat n * h_size h t) body))))
    else exists er, r = Err er.
  Proof.
    intros Hp Hr.
    assert (Hs : supported h e bw true LDefault (separately n t)) by (apply all_tys_repeat, plain_supported, Hp).
    assert (Hmin : min_bytes h (separately n t) = N.of_nat n * h_size h t).
    { cbn [separately min_bytes]. rewrite <- (plain_min h VH t Hp). clear. induction n as [|n IH]; [reflexivity|].
      cbn [repeat map]. unfold nsum in *. cbn [fold_right]. rewrite IH. lia. }
    destruct (reading_agrees h VH e _ body bw r Hs Hr) as [[Hl ->]|Ha].
    - rewrite Hmin in Hl. destruct (N.leb_spec (N.of_nat n * h_size h t) (nlen body)); [lia|eauto].
    - unfold Spec.decode in Ha. cbn [separately Spec.decl] in Ha. unfold dmap at 1, dbind in Ha.
      rewrite dtuple_repeat, (drepeat_plain h VH) in Ha by exact Hp. unfold dmap, dbind, dread in Ha.
      destruct (N.leb_spec (N.of_nat n * h_size h t) (nlen body)) as [Hl|Hl];
        destruct (N.eqb_spec (N.of_nat n * h_size h t) 0) as [E0|E0]; try lia; cbn in Ha.
      + rewrite Ha, E0, take_0. reflexivity.
      + exact Ha.
      + destruct Ha as (er & -> & _). eauto.
  Qed.

  (** A prefix that gives the length. *)
  Lemma length_first n body : n < 2 ^ 32 ->
    dprefix (h_lim h) e BU32 (Some (word e 4 n ++ body)) = DOk n (Some body).
  Proof.
    intros Hn. apply (dprefix_rt (h_lim h) e BU32); [cbn; num_pow; lia|]. unfold small.
    pose proof (vh_usize_lo h VH). num_pow. lia.
  Qed.

  Lemma prefix_long n (body : bytes) : 4 <= nlen (word e 4 n ++ body).
  Proof. rewrite nlen_app, nlen_word. lia. Qed.

  (** C36: vectors, boxed slices, small vectors, `Cow`s and borrowed slices of plain
      data, from every reader.  The elements have to fit into an allocation. *)
  Theorem C36_read_seq_partial k t n body bw bw' r r' : n < 2 ^ 32 -> N.of_nat (N.to_nat n) * h_size h t <= h_alloc_max h ->
    is_prim h t = true -> honest h t -> seq_elem h e bw LDefault k t ->
    reading h e (TSeq k t) (word e 4 n ++ body) bw r -> reading h e (separately (N.to_nat n) t) body bw' r' ->
    same_outcome r r'.
  Proof.
    intros Hn Hfit Hprim Hh Hk Hr Hr'. pose proof (prim_plain h VH _ Hh Hprim) as Hp.
    assert (Hs : supported h e bw true LDefault (TSeq k t)) by (split; [exact Hk|apply plain_supported, Hp]).
    pose proof (separate_plain _ t body bw' r' Hp Hr') as Hsep. rewrite N2Nat.id in *.
    destruct (reading_agrees h VH e _ _ bw r Hs Hr) as [[Hl _]|Ha].
    { pose proof (prefix_long n body). cbn [min_bytes] in Hl. lia. }
    unfold Spec.decode in Ha. cbn [Spec.decl dlen len0] in Ha. unfold dmap at 1, dbind in Ha.
    rewrite length_first in Ha by exact Hn. unfold dsized in Ha.
    rewrite (vh_fits h VH) in Ha. destruct (N.leb_spec (n * h_size h t) (h_alloc_max h)) as [_|]; [|lia].
    unfold dunsure in Ha. rewrite (drepeat_plain h VH), N2Nat.id in Ha by exact Hp.
    unfold dmap, dbind, dread in Ha.
    destruct (N.leb_spec (n * h_size h t) (nlen body)) as [Hl|Hl];
      destruct (N.eqb_spec (n * h_size h t) 0) as [E0|E0]; try lia; cbn in Ha.
    - left. eexists. split; [exact Ha|]. rewrite Hsep, E0, take_0. reflexivity.
    - left. eexists. split; [exact Ha|exact Hsep].
    - right. destruct Ha as (er & -> & _), Hsep as (er' & ->). eauto.
  Qed.

  (** Arrays. *)
  Theorem C36_read_array_partial t n body bw bw' r r' :
    is_prim h t = true -> vec_elem h e t ->
    reading h e (TArr t n) body bw r -> reading h e (separately n t) body bw' r' ->
    same_outcome r r'.
  Proof.
    intros Hprim Hve Hr Hr'. pose proof Hve as Hh. unfold vec_elem in Hh. rewrite Hprim in Hh. destruct Hh as [Hh _].
    pose proof (prim_plain h VH _ Hh Hprim) as Hp.
    assert (Hs : supported h e bw true LDefault (TArr t n)) by (split; [intros _; exact Hve|apply plain_supported, Hp]).
    pose proof (separate_plain _ t body bw' r' Hp Hr') as Hsep.
    assert (Hmin : min_bytes h (TArr t n) = N.of_nat n * h_size h t).
    { cbn [min_bytes]. rewrite (plain_min h VH t Hp). lia. }
    destruct (reading_agrees h VH e _ _ bw r Hs Hr) as [[Hl ->]|Ha].
    { rewrite Hmin in Hl. destruct (N.leb_spec (N.of_nat n * h_size h t) (nlen body)); [lia|].
      destruct Hsep as (er & ->). right. eauto. }
    unfold Spec.decode in Ha. cbn [Spec.decl] in Ha. unfold dmap at 1, dbind in Ha.
    rewrite (drepeat_plain h VH) in Ha by exact Hp. unfold dmap, dbind, dread in Ha.
    destruct (N.leb_spec (N.of_nat n * h_size h t) (nlen body)) as [Hl|Hl];
      destruct (N.eqb_spec (N.of_nat n * h_size h t) 0) as [E0|E0]; try lia; cbn in Ha.
    - left. eexists. split; [exact Ha|]. rewrite Hsep, E0, take_0. reflexivity.
    - left. eexists. split; [exact Ha|exact Hsep].
    - right. destruct Ha as (er & -> & _), Hsep as (er' & ->). eauto.
  Qed.

  (** Sets: the elements read one by one, inserted in turn. *)
  Theorem C36_read_set_partial k t n body bw bw' r r' : n < 2 ^ 32 ->
    is_prim h t = true -> copy_elem h LDefault t ->
    reading h e (TSet k t) (word e 4 n ++ body) bw r -> reading h e (separately (N.to_nat n) t) body bw' r' ->
    (exists xs, r' = Ok (VSeq xs) /\ r = Ok (VSeq (collect k id xs)))
    \/ (exists er er', r = Err er /\ r' = Err er').
  Proof.
    intros Hn Hprim Hc Hr Hr'. destruct (Hc Hprim) as (Hh & _ & _). pose proof (prim_plain h VH _ Hh Hprim) as Hp.
    assert (Hs : supported h e bw true LDefault (TSet k t)) by (split; [exact Hc|apply plain_supported, Hp]).
    pose proof (separate_plain _ t body bw' r' Hp Hr') as Hsep. rewrite N2Nat.id in *.
    destruct (reading_agrees h VH e _ _ bw r Hs Hr) as [[Hl _]|Ha].
    { pose proof (prefix_long n body). cbn [min_bytes] in Hl. lia. }
    unfold Spec.decode in Ha. cbn [Spec.decl dlen len0] in Ha. unfold dbind at 1, dbind in Ha.
    rewrite length_first in Ha by exact Hn.
    rewrite (drepeat_plain h VH), N2Nat.id in Ha by exact Hp. unfold dmap, dbind, dread in Ha.
    destruct (N.leb_spec (n * h_size h t) (nlen body)) as [Hl|Hl];
      destruct (N.eqb_spec (n * h_size h t) 0) as [E0|E0]; try lia; cbn in Ha.
    - left. eexists. split; [exact Hsep|]. rewrite E0, take_0. exact Ha.
    - left. eexists. split; [exact Hsep|exact Ha].
    - right. destruct Ha as (er & -> & _), Hsep as (er' & ->). eauto.
  Qed.

  (** Maps: pairs of a key and a value. *)
  Lemma pair_decl_eq tk tv o : decl len0 (TTuple [tk; tv]) o = dpair (decl len0 tk) (decl len0 tv) o.
  Proof.
    cbn [Spec.decl dtuple]. unfold dmap, dpair, dbind, dret. destruct (decl len0 tk o) as [a o1| | | |]; try reflexivity.
    destruct (decl len0 tv o1); reflexivity.
  Qed.

  Lemma dpair_plain tk tv o : plain_data h tk -> plain_data h tv ->
    dpair (decl len0 tk) (decl len0 tv) o
    = dmap (fun bs => VSeq [pval tk (ntake (h_size h tk) bs); pval tv (ndrop (h_size h tk) bs)])
           (dread (h_size h tk + h_size h tv)) o.
  Proof.
    intros Hk Hv. unfold dpair.
    transitivity (dbind (dread (h_size h tk)) (fun x => dbind (dread (h_size h tv)) (fun y => dret (VSeq [pval tk x; pval tv y]))) o).
    - unfold dbind. rewrite (decl_plain h VH) by exact Hk. unfold dmap, dbind.
      destruct (dread (h_size h tk) o) as [a o1| | | |]; try reflexivity. cbn [dret].
      rewrite (decl_plain h VH) by exact Hv. unfold dmap, dbind. destruct (dread (h_size h tv) o1); reflexivity.
    - rewrite dread_add. reflexivity.
  Qed.

  Theorem C36_read_map_partial k tk tv n body bw bw' r r' : n < 2 ^ 32 ->
    is_prim h tk = true -> is_prim h tv = true -> pair_elem h LDefault tk tv ->
    reading h e (TMap k tk tv) (word e 4 n ++ body) bw r ->
    reading h e (separately (N.to_nat n) (TTuple [tk; tv])) body bw' r' ->
    (exists xs, r' = Ok (VSeq xs) /\ r = Ok (VSeq (collect k pair_key xs)))
    \/ (exists er er', r = Err er /\ r' = Err er').
  Proof.
    intros Hn Hpk Hpv Hc Hr Hr'. destruct (Hc Hpk Hpv) as (Hhk & Hhv & _).
    pose proof (prim_plain h VH _ Hhk Hpk) as Hk. pose proof (prim_plain h VH _ Hhv Hpv) as Hv.
    assert (Hs : supported h e bw true LDefault (TMap k tk tv))
      by (split; [exact Hc|split; apply plain_supported; assumption]).
    assert (Hs' : supported h e bw' true LDefault (separately (N.to_nat n) (TTuple [tk; tv]))).
    { apply all_tys_repeat. cbn. repeat split; apply plain_supported; assumption. }
    assert (Hmin : min_bytes h (separately (N.to_nat n) (TTuple [tk; tv])) = n * (h_size h tk + h_size h tv)).
    { cbn [separately min_bytes]. rewrite <- (plain_min h VH tk Hk), <- (plain_min h VH tv Hv).
      rewrite <- (N2Nat.id n) at 2. generalize (N.to_nat n). clear. induction n as [|n IH]; [reflexivity|].
      cbn [repeat map min_bytes]. unfold nsum in *. cbn [fold_right] in *. rewrite IH. lia. }
    pose proof (reading_agrees h VH e _ _ bw' r' Hs' Hr') as Hsep.
    destruct (reading_agrees h VH e _ _ bw r Hs Hr) as [[Hl _]|Ha].
    { pose proof (prefix_long n body). cbn [min_bytes] in Hl. lia. }
    unfold Spec.decode in Ha. cbn [Spec.decl dlen len0] in Ha. unfold dbind at 1, dbind in Ha.
    rewrite length_first in Ha by exact Hn.
    rewrite (drepeat_ext _ _ _ _ (fun o => dpair_plain tk tv o Hk Hv)), drepeat_dread, N2Nat.id in Ha.
    assert (Hd : decode (separately (N.to_nat n) (TTuple [tk; tv])) body
      = dmap VSeq (dmap (fun bs => map (fun bs => VSeq [pval tk (ntake (h_size h tk) bs); pval tv (ndrop (h_size h tk) bs)])
          (chunks (N.to_nat (h_size h tk + h_size h tv)) (N.to_nat n) bs)) (dread (n * (h_size h tk + h_size h tv)))) (Some body)).
    { unfold Spec.decode. cbn [separately Spec.decl]. unfold dmap at 1, dbind. rewrite dtuple_repeat.
      rewrite (drepeat_ext _ _ _ _ (fun o => eq_trans (pair_decl_eq tk tv o) (dpair_plain tk tv o Hk Hv))), drepeat_dread, N2Nat.id.
      reflexivity. }
    rewrite Hd in Hsep. clear Hd.
    unfold dmap, dbind, dread in Ha, Hsep.
    destruct (N.leb_spec (n * (h_size h tk + h_size h tv)) (nlen body)) as [Hl|Hl];
      destruct (N.eqb_spec (n * (h_size h tk + h_size h tv)) 0) as [E0|E0]; try lia; cbn in Ha, Hsep.
    - destruct Hsep as [[Hx _]|Hsep]; [rewrite Hmin in Hx; lia|]. left. eauto.
    - destruct Hsep as [[Hx _]|Hsep]; [rewrite Hmin in Hx; lia|]. left. eauto.
    - right. destruct Ha as (er & -> & _). exists er. destruct Hsep as [[_ ->]|(er' & -> & _)]; eauto.
  Qed.
End Bulk.

Print Assumptions C36_write_seq_partial.
Print Assumptions C36_write_array_partial.
Print Assumptions C36_write_array_field_partial.
Print Assumptions C36_write_set_partial.
Print Assumptions C36_write_map_partial.
Print Assumptions C36_read_seq_partial.
Print Assumptions C36_read_array_partial.
Print Assumptions C36_read_set_partial.
Print Assumptions C36_read_map_partial.

(* ------------------------------------------------------------------ *)
(** * Examples *)

(** Two points, written to a vector and one by one. *)
Definition two_points : list val := [VSeq [VInt 1; VInt (-2)]; VSeq [VInt 515; VInt 4]].

Example points_written :
  write_to_vec host64 dirty BE (TSeq KVec point) (VSeq two_points)
  = Ok (word BE 4 2 ++ concat [[x00; x01; xff; xfe]; [x02; x03; x00; x04]]).
Proof.
  refine (proj2 (C36_write_seq_partial host64 host64_valid BE dirty dirty_enough KVec point two_points _ _ _) _).
  - apply wsupb_sound. vm_compute. reflexivity.
  - apply validb_sound. vm_compute. reflexivity.
  - split; [reflexivity|]. exists [[x00; x01; xff; xfe]; [x02; x03; x00; x04]]. split; [|reflexivity].
    repeat constructor; vm_compute; reflexivity.
Qed.

(** And read back, converted (BE on a LE host), by the fast path of the buffer
    reader and one by one by the copying reader. *)
Definition points_body : bytes := [x00; x01; xff; xfe; x02; x03; x00; x04].
Example points_read r r' :
  r = read_from_buffer host64 BE (TSeq KVec point) 0 (word BE 4 2 ++ points_body) ->
  r' = read_from_buffer_copying host64 BE (separately 2 point) points_body ->
  same_outcome r r' /\ r' = Ok (VSeq two_points).
Proof.
  intros -> ->. split; [|vm_compute; reflexivity].
  refine (C36_read_seq_partial host64 host64_valid BE KVec point 2 points_body true false _ _ _ _ _ _ _ _ _).
  - reflexivity.
  - vm_compute. discriminate.
  - vm_compute. reflexivity.
  - cbn. repeat split; discriminate.
  - cbn. split; [|intros _]; cbn; repeat split; discriminate.
  - apply from_buffer. vm_compute. discriminate.
  - apply from_copied_buffer. vm_compute. discriminate.
Qed.

(* ------------------------------------------------------------------ *)
(** * Where it fails *)

(* #[repr(transparent)] struct Id(#[speedy(varint)] u64) *)
Definition varint_id : ty := TStruct (sd 54 RTransparent) [(with_varint, TP U64)].

(** A `repr(transparent)` struct with an attribute on its field is copied as memory
    inside of containers but coded with the attribute on its own. *)
Theorem C36_transparent_write_refuted : exists h t v b b1, valid_host h
  /\ write_to_vec h dirty LE (TSeq KVec t) (VSeq [v]) = Ok (word LE 4 1 ++ b)
  /\ write_to_vec h dirty LE t v = Ok b1 /\ b <> b1.
Proof.
  exists host64, varint_id, (VSeq [VInt 5]), [x05; x00; x00; x00; x00; x00; x00; x00], [x05].
  split; [apply host64_valid|]. split; [vm_compute; reflexivity|]. split; [vm_compute; reflexivity|]. discriminate.
Qed.

Theorem C36_transparent_read_refuted : exists h t body v, valid_host h
  /\ read_from_buffer h LE (separately 1 t) 0 body = Ok v
  /\ forall w, read_from_buffer h LE (TSeq KVec t) 0 (word LE 4 1 ++ body) <> Ok w.
Proof.
  exists host64, varint_id, [x05], (VSeq [VSeq [VInt 5]]).
  split; [apply host64_valid|]. split; [vm_compute; reflexivity|]. intros w. vm_compute. discriminate.
Qed.

(** Structs of `repr(transparent)` wrappers cannot be converted in place: reading
    the vector panics, reading the elements does not. *)
Definition wrapping : ty := TStruct (sd 55 RRust) [(plain, TStruct (sd 56 RTransparent) [(plain, TP U8)])].
Theorem C36_conversion_refuted : exists h t body v, valid_host h
  /\ read_from_buffer h BE (separately 1 t) 0 body = Ok v
  /\ read_from_buffer h BE (TSeq KVec t) 0 (word BE 4 1 ++ body) = Fault PanicExplicit.
Proof.
  exists host64, wrapping, [x07], (VSeq [VSeq [VSeq [VInt 7]]]).
  split; [apply host64_valid|]. split; vm_compute; reflexivity.
Qed.

(** The key-value pairs of a map are read through a `repr(packed)` struct, whose
    field order is the compiler's choice: on a host that packs backwards, keys and
    values are mixed up. *)
Theorem C36_map_refuted : exists h tk tv body v w, valid_host h
  /\ read_from_buffer h LE (separately 1 (TTuple [tk; tv])) 0 body = Ok (VSeq [v])
  /\ read_from_buffer h LE (TMap CBTree tk tv) 0 (word LE 4 1 ++ body) = Ok (VSeq [w]) /\ v <> w.
Proof.
  exists packs_backwards, (TP U8), (TP U16), [x01; x02; x03], (VSeq [VInt 1; VInt 770]), (VSeq [VInt 3; VInt 513]).
  split; [apply packs_backwards_valid|]. split; [vm_compute; reflexivity|]. split; [vm_compute; reflexivity|]. discriminate.
Qed.

(** Empty structs are plain data of size zero: a set of them is read as empty. *)
Theorem C36_empty_refuted : exists h t v, valid_host h
  /\ read_from_buffer h LE (separately 1 t) 0 [] = Ok (VSeq [v])
  /\ read_from_buffer h LE (TSet CBTree t) 0 (word LE 4 1) = Ok (VSeq []).
Proof.
  exists host64, (TStruct (sd 1 RRust) []), (VSeq []).
  split; [apply host64_valid|]. split; vm_compute; reflexivity.
Qed.

(** Borrowed slices have to be aligned, their elements do not. *)
Theorem C36_alignment_refuted : exists h t body v, valid_host h
  /\ read_from_buffer h LE (separately 1 t) 5 body = Ok v
  /\ read_from_buffer h LE (TSeq KRef t) 1 (word LE 4 1 ++ body) = Fault UbMisaligned.
Proof.
  exists host64, (TP U16), [x07; x00], (VSeq [VInt 7]).
  split; [apply host64_valid|]. split; vm_compute; reflexivity.
Qed.

Print Assumptions C36_transparent_write_refuted.
Print Assumptions C36_transparent_read_refuted.
Print Assumptions C36_conversion_refuted.
Print Assumptions C36_map_refuted.
Print Assumptions C36_empty_refuted.
Print Assumptions C36_alignment_refuted.
