(* Facts about encodings, and the memory image of plain data as its encoding. *)
From Verif Require Export LayoutFacts DecodeFacts.

Lemma rapp_ok a b x : rapp a b = Ok x -> exists y z, a = Ok y /\ b = Ok z /\ x = y ++ z.
Proof.
  unfold rapp. intros H. apply rbind_ok in H as (y & -> & H).
  apply rmap_ok in H as (z & -> & ->). eauto.
Qed.

Lemma rapp_nil_l a : rapp (Ok []) a = a.
Proof. destruct a; reflexivity. Qed.

Lemma rapp_nil_r a : rapp a (Ok []) = a.
Proof. destruct a; cbn; rewrite ?app_nil_r; reflexivity. Qed.

Lemma rapp_assoc a b c : rapp (rapp a b) c = rapp a (rapp b c).
Proof. destruct a; cbn; auto. destruct b; cbn; auto. destruct c; cbn; auto. rewrite app_assoc. reflexivity. Qed.

Lemma rmap_app x (r : res bytes) : rmap (app x) r = rapp (Ok x) r.
Proof. reflexivity. Qed.

Lemma enc_all_nil en : enc_all en [] = Ok [].
Proof. reflexivity. Qed.

Lemma enc_all_cons en v vs : enc_all en (v :: vs) = rapp (en v) (enc_all en vs).
Proof.
  unfold enc_all. cbn [rmapM]. destruct (en v); cbn; try reflexivity.
  destruct (rmapM en vs); reflexivity.
Qed.

Lemma enc_all_ok en vs b : enc_all en vs = Ok b ->
  exists bs, Forall2 (fun v x => en v = Ok x) vs bs /\ b = concat bs.
Proof.
  revert b. induction vs as [|v vs IH]; intros b H.
  - injection H as <-. exists []. split; [constructor|reflexivity].
  - rewrite enc_all_cons in H. apply rapp_ok in H as (y & z & H1 & H2 & ->).
    apply IH in H2 as (bs & HF & ->). exists (y :: bs). split; [constructor; assumption|reflexivity].
Qed.

Lemma enc_all_ext en en' vs : Forall (fun v => en v = en' v) vs -> enc_all en vs = enc_all en' vs.
Proof.
  induction 1 as [|v vs H _ IH]; [reflexivity|]. rewrite !enc_all_cons, H, IH. reflexivity.
Qed.

Lemma valid_fields_length va fs vs : valid_fields va fs vs -> length vs = length fs.
Proof.
  revert vs. induction fs as [|f fs IH]; intros [|v vs]; cbn; try contradiction; auto.
  intros [_ H]. f_equal. auto.
Qed.

Section Plain.
  Context (h : host) (VH : valid_host h) (it : list val -> list val).
  Notation enc := (enc it).
  Notation valid := (valid (h_lim h)).

  Lemma enc_field_plain e e6 prev a t v : can_be_primitive a = true ->
    enc_field e e6 (enc e e6) prev a t v = enc e e6 len0 t v.
  Proof.
    intros Ha. apply prim_attrs in Ha as (_ & H2 & _ & H4 & H5). unfold enc_field.
    rewrite H4, H5, field_len_default by assumption.
    destruct (enc e e6 len0 t v); reflexivity.
  Qed.

  Lemma enc_fields_plain e e6 prev fs vs :
    all_fields (fun a _ => can_be_primitive a = true) fs ->
    enc_fields e e6 (enc e e6) prev fs vs = enc_tuple (enc e e6 len0) (map snd fs) vs.
  Proof.
    revert prev vs. induction fs as [|[a t] fs IH]; intros prev [|v vs] Ha; cbn [enc_fields enc_tuple map]; auto.
    cbn [fst snd]. destruct Ha as [Ha Hr].
    pose proof Ha as Ha'. apply prim_attrs in Ha' as (_ & _ & H3 & _). cbn [fst] in *. rewrite H3.
    rewrite enc_field_plain by assumption. rewrite IH by assumption. reflexivity.
  Qed.

  (** Plain data always has an encoding, of the size it has in memory. *)
  Lemma plain_enc e e6 t v : plain_data h t -> valid t v ->
    exists b, enc e e6 len0 t v = Ok b /\ nlen b = h_size h t.
  Proof.
    revert v. induction t as [s| | | | | | | | | | | |d fs IH| |] using ty_ind';
      cbn [plain_data]; intros v Hp Hv; try contradiction.
    - destruct s as [p| | | | | | | | | | | | | | | | |]; try contradiction.
      destruct v as [| |z| | | | | | |]; try contradiction. cbn.
      eexists. split; [reflexivity|]. unfold enc_prim. rewrite nlen_word. symmetry. apply (vh_prim h VH).
    - destruct Hp as (Hf & Hs & _). destruct v as [| | | |vs| | | | |]; try contradiction.
      cbn [Spec.enc Spec.valid] in *. rewrite enc_fields_plain by (apply (all_fields_impl _ _ _ (fun a t H => proj1 H) Hf)).
      rewrite <- Hs. clear Hs. revert vs Hv.
      induction fs as [|[a t] fs IHl]; intros [|v vs] Hv; cbn [valid_fields] in Hv; try contradiction.
      + exists []. split; reflexivity.
      + destruct Hf as [[_ Hp] Hf]. destruct Hv as [Hv Hvs].
        inversion IH as [|? ? IH1 IH2]; subst. cbn [fst snd map] in *.
        destruct (IH1 v Hp Hv) as (b1 & E1 & L1). destruct (IHl IH2 Hf vs Hvs) as (b2 & E2 & L2).
        exists (b1 ++ b2). cbn [enc_tuple]. rewrite E1, E2. split; [reflexivity|].
        rewrite nlen_app, L1, L2. reflexivity.
  Qed.

  (** Byte order does not matter for data of at most one byte. *)
  Lemma plain_enc_small e e' e6 e6' t v : plain_data h t -> valid t v -> h_size h t <= 1 ->
    enc e e6 len0 t v = enc e' e6' len0 t v.
  Proof.
    revert v. induction t as [s| | | | | | | | | | | |d fs IH| |] using ty_ind';
      cbn [plain_data]; intros v Hp Hv H1; try contradiction.
    - destruct s as [p| | | | | | | | | | | | | | | | |]; try contradiction.
      destruct v as [| |z| | | | | | |]; try contradiction. cbn. unfold enc_prim.
      pose proof (vh_prim h VH p) as Hs. unfold TP in Hs. rewrite Hs in H1.
      assert (E : psize p = 1%nat) by (destruct p; cbn in *; lia).
      rewrite E, !word1. reflexivity.
    - destruct Hp as (Hf & Hs & _). destruct v as [| | | |vs| | | | |]; try contradiction.
      cbn [Spec.enc Spec.valid] in *.
      rewrite !enc_fields_plain by (apply (all_fields_impl _ _ _ (fun a t H => proj1 H) Hf)).
      rewrite <- Hs in H1. clear Hs. revert vs Hv.
      induction fs as [|[a t] fs IHl]; intros [|v vs] Hv; cbn [valid_fields] in Hv; try contradiction; auto.
      destruct Hf as [[_ Hp] Hf]. destruct Hv as [Hv Hvs].
      inversion IH as [|? ? IH1 IH2]; subst. cbn [fst snd map sizes nsum fold_right] in *.
      cbn [enc_tuple]. rewrite (IH1 v Hp Hv) by lia. rewrite IHl; auto.
      unfold nsum, sizes. lia.
  Qed.

  Lemma overlay_zero img off : overlay img off [] = img.
  Proof. unfold overlay. rewrite nlen_nil, N.add_0_r. cbn. apply take_drop. Qed.

  (** In memory, plain data is its encoding in the host's byte order. *)
  Lemma mem_write_enc e6 t v : plain_data h t -> valid t v ->
    enc (h_native h) e6 len0 t v = Ok (mem_write h t v).
  Proof.
    revert v. induction t as [s| | | | | | | | | | | |d fs IH| |] using ty_ind';
      cbn [plain_data]; intros v Hp Hv; try contradiction.
    - destruct s as [p| | | | | | | | | | | | | | | | |]; try contradiction.
      destruct v as [| |z| | | | | | |]; try contradiction. cbn.
      unfold enc_prim, word, to_ne. reflexivity.
    - destruct Hp as (Hf & Hs & Ht). destruct v as [| | | |vs| | | | |]; try contradiction.
      cbn [Spec.enc Spec.valid] in *.
      rewrite enc_fields_plain by (apply (all_fields_impl _ _ _ (fun a t H => proj1 H) Hf)).
      cbn [mem_write].
      assert (Hgen : forall l i base us img b, tight h d fs i base l ->
        all_fields (fun a t => can_be_primitive a = true /\ plain_data h t) l ->
        Forall (fun f => forall v, plain_data h (snd f) -> valid (snd f) v ->
                         enc (h_native h) e6 len0 (snd f) v = Ok (mem_write h (snd f) v)) l ->
        valid_fields valid l us -> base + nsum (sizes h l) = nlen img ->
        enc_tuple (enc (h_native h) e6 len0) (map snd l) us = Ok b ->
        (fix go (i : nat) (l : fields) (us : list val) (img : bytes) : bytes :=
           match l, us with
           | f :: r, u :: ur =>
             go (S i) r ur (overlay img (h_offset h d fs i) (mem_write h (snd f) u))
           | _, _ => img
           end) i l us img = ntake base img ++ b).
      { clear - VH. induction l as [|[a t] l IHl]; intros i base us img b Ht Hf IH Hv Hl Hb.
        - destruct us; [|contradiction]. cbn in Hb. injection Hb as <-.
          rewrite app_nil_r. rewrite take_all; [reflexivity|]. cbn in Hl. lia.
        - destruct us as [|u us]; [contradiction|].
          cbn [tight] in Ht. destruct Ht as [H1 H2]. destruct Hf as [[_ Hpd] Hf].
          destruct Hv as [Hv Hvs]. inversion IH as [|? ? IHf IHr]; subst. cbn [fst snd map] in *.
          cbn [sizes map nsum fold_right snd] in Hl. fold (sizes h l) in Hl. fold (nsum (sizes h l)) in Hl.
          cbn [enc_tuple] in Hb. apply rapp_ok in Hb as (b1 & b2 & E1 & E2 & ->).
          pose proof (plain_enc (h_native h) e6 t u Hpd Hv) as (b1' & E1' & L1).
          rewrite E1 in E1'. injection E1' as <-.
          rewrite IHf in E1 by assumption. injection E1 as E1. rewrite E1.
          assert (Hov : overlay img (h_offset h d fs i) b1 = ntake base img ++ b1 ++ ndrop (base + nlen b1) img).
          { destruct H1 as [H1|H1].
            - rewrite H1 in L1. apply nlen_0 in L1. rewrite L1, overlay_zero.
              rewrite nlen_nil, N.add_0_r. cbn. symmetry. apply take_drop.
            - rewrite H1. reflexivity. }
          rewrite Hov.
          assert (Hll : nlen (ntake base img ++ b1 ++ ndrop (base + nlen b1) img) = nlen img).
          { rewrite !nlen_app, nlen_take, nlen_drop. lia. }
          rewrite (IHl (S i) (base + h_size h t) us _ b2 H2 Hf IHr Hvs) by (try assumption; lia).
          rewrite app_assoc. rewrite take_app_exact.
          + rewrite <- app_assoc. reflexivity.
          + rewrite nlen_app, nlen_take. lia. }
      destruct (plain_enc (h_native h) e6 (TStruct d fs) (VSeq vs)) as (b & E & L).
      { cbn [plain_data]. auto. }
      { exact Hv. }
      cbn [Spec.enc] in E.
      rewrite enc_fields_plain in E by (apply (all_fields_impl _ _ _ (fun a t H => proj1 H) Hf)).
      rewrite E. f_equal.
      rewrite (Hgen fs 0%nat 0 vs _ b Ht Hf IH Hv); [rewrite take_0; reflexivity| |assumption].
      rewrite nlen_repeat, N2Nat.id, Hs. reflexivity.
  Qed.

  Lemma mem_write_all e6 t vs : plain_data h t -> Forall (valid t) vs ->
    enc_all (enc (h_native h) e6 len0 t) vs = Ok (concat (map (mem_write h t) vs)).
  Proof.
    intros Hp. induction 1 as [|v vs H _ IH]; [reflexivity|].
    rewrite enc_all_cons, IH, mem_write_enc by assumption. reflexivity.
  Qed.
End Plain.
