(* An encoding is at least as long as minimum_bytes_needed says. *)
From Verif Require Export ReadApi EncFacts.

Section EncMin.
  Context (h : host) (VH : valid_host h) (it : list val -> list val) (e e6 : endian) (bw pk : bool).
  Notation enc := (enc it e e6).
  Notation valid := (valid (h_lim h)).
  Notation tagged := (tagged it e e6).
  Notation min := (min_bytes h).
  Notation supported := (supported h e bw pk).

  Lemma basic_min b n : basic_size b <= nlen (enc_basic e b n).
  Proof. destruct b; cbn [enc_basic basic_size]; rewrite ?nlen_word, ?nlen_vi_enc; lia. Qed.

  Lemma scalar_min_ok s v b : valid_scalar (h_lim h) s v -> enc_scalar e e6 s v = Ok b ->
    scalar_min s <= nlen b.
  Proof.
    assert (Ho : forall o b, nlen (octets o b) = nlen b)
      by (intros [] b0; unfold octets, nlen; rewrite ?rev_length; reflexivity).
    destruct s, v as [|x|z|bs|vs| | | | |i us]; cbn [valid_scalar enc_scalar scalar_min]; try contradiction;
      intros Hv E; try discriminate;
      try (injection E as <-; unfold enc_prim; rewrite ?Ho, ?nlen_word, ?nlen_vi_enc; unfold nlen; cbn [length] in *; lia).
    - destruct us; [|discriminate]. injection E as <-. unfold nlen. cbn [length]. lia.
    - destruct i as [|[|i]]; try contradiction; destruct us as [|[] [|? ?]]; try contradiction;
        injection E as <-; rewrite nlen_cons, Ho; unfold nlen; lia.
    - destruct vs as [|[] [|[] [|]]]; try contradiction. injection E as <-.
      unfold enc_prim. rewrite nlen_app, !nlen_word. cbn. lia.
    - destruct vs as [|[] [|[] [|]]]; try contradiction. destruct (_ <? 0)%Z; [discriminate|]. injection E as <-.
      unfold enc_prim. rewrite nlen_app, !nlen_word. cbn. lia.
    - destruct vs as [|[] [|[] [|]]]; try contradiction. injection E as <-.
      unfold enc_prim. rewrite nlen_app, !nlen_word. cbn. lia.
    - destruct Hv as [Hl Hf]. subst n.
      revert b E. induction vs as [|v vs IH]; intros b E; [cbn; lia|].
      inversion Hf as [|? ? Hv Hr]; subst. destruct v; try contradiction. specialize (IH Hr).
      cbn [rmapM rbind] in E.
      destruct (rmapM _ vs) as [bs| |] eqn:Eb; cbn [rmap rbind] in *; try discriminate.
      injection E as <-. specialize (IH _ eq_refl). cbn [concat length].
      rewrite nlen_app. unfold enc_prim at 1. rewrite nlen_word. lia.
  Qed.

  Definition long (t : ty) : Prop := forall v b, supported LDefault t -> valid t v -> tagged t v ->
    enc len0 t v = Ok b -> min t <= nlen b.

  Lemma all_min t vs b : Forall (fun v => forall b, enc len0 t v = Ok b -> min t <= nlen b) vs ->
    enc_all (enc len0 t) vs = Ok b -> min t * nlen vs <= nlen b.
  Proof.
    intros H. revert b. induction H as [|v vs Hv _ IH]; intros b E.
    - rewrite nlen_nil. lia.
    - rewrite enc_all_cons in E. apply rapp_ok in E as (b1 & b2 & E1 & E2 & ->).
      rewrite nlen_app, nlen_cons. specialize (Hv _ E1). specialize (IH _ E2). lia.
  Qed.

  Lemma elems_min t vs b : long t -> supported LDefault t -> Forall (valid t) vs -> Forall (tagged t) vs ->
    enc_all (enc len0 t) vs = Ok b -> min t * nlen vs <= nlen b.
  Proof.
    intros Hl Hs Hv Ht. apply all_min. rewrite Forall_forall in *. intros v Hin b' E. apply (Hl v); auto.
  Qed.

  Lemma container_min t b x v bs : is_container t = true -> enc (LenPrefix b x) t v = Ok bs ->
    basic_size b <= nlen bs.
  Proof.
    assert (Hl : forall n y z, enc_len e (LenPrefix b x) n = Ok y -> basic_size b <= nlen (y ++ z)).
    { intros n y z E. cbn [enc_len] in E. destruct (n <=? basic_max b); [|discriminate]. injection E as <-.
      rewrite nlen_app. pose proof (basic_min b n). lia. }
    destruct t; try discriminate; destruct v; intros _ E; try discriminate; cbn [Spec.enc] in E;
      apply rapp_ok in E as (y & z & E1 & _ & ->); eapply Hl; eassumption.
  Qed.

  Lemma option_min l t v bs : enc l (TOption t) v = Ok bs -> 1 <= nlen bs.
  Proof.
    destruct v; cbn [Spec.enc]; try discriminate.
    - intros E. injection E as <-. unfold nlen; cbn [length]; lia.
    - intros E. apply rapp_ok in E as (y & z & E1 & _ & ->). injection E1 as <-. rewrite nlen_app. unfold nlen at 1; cbn [length]; lia.
  Qed.

  Lemma field_min_ok prev a t v b : long t -> (forall t' n, t = TArr t' n -> long t') ->
    f_skip a = false -> sup_field h supported a t -> valid t v -> tagged t v ->
    enc_field e e6 enc prev a t v = Ok b -> field_min min (a, t) <= nlen b.
  Proof.
    intros Hl Harr Hk Hs Hv Ht E. unfold field_min. cbn [fst snd]. rewrite Hk, orb_false_r.
    destruct (f_eof a) eqn:Ee; cbn [orb]; [lia|].
    destruct (match f_len a with LDefault | LType _ => true | _ => false end) eqn:El; cbn [negb]; [|lia].
    unfold enc_field in E. apply rmap_ok in E as (b' & E & ->). rewrite nlen_app, N.add_comm.
    apply N.add_le_mono_l. destruct Hs as [Hs|(Hvi & _ & Hs)]; [congruence|].
    destruct (f_varint a) eqn:Ev.
    { destruct (Hvi eq_refl) as [-> Hx]. destruct t as [[]| | | | | | | | | | | | | |]; try contradiction.
      cbn [is_container]. destruct v; try discriminate. injection E as <-. rewrite nlen_vi_enc. lia. }
    unfold field_len, sized_field in *. destruct (f_opaque a) eqn:Eo; cbn [negb andb] in *; [apply (Hl v); auto|].
    assert (Hc : is_container t = true -> enc (resolve false prev (f_len a)) t v = Ok b' ->
      basic_size (length_type (f_len a)) <= nlen b').
    { intros Hc. destruct (f_len a); try discriminate; cbn [resolve length_type]; apply container_min, Hc. }
    destruct t; cbn [is_container] in *; try (eapply option_min, E); try (apply (Hl v); assumption);
      try (destruct k; solve [auto | apply (Hl v); assumption]).
    all: pose proof (Hl v b' Hs Hv Ht E) as Hx; exact Hx.
  Qed.

  Definition long2 (t : ty) : Prop := long t /\ (forall t' n, t = TArr t' n -> long t').

  Lemma fields_min_ok fs : Forall (fun f => long2 (snd f)) fs -> all_fields (sup_field h supported) fs ->
    forall prev vs b, valid_fields valid fs vs -> tagged_fields tagged fs vs ->
    enc_fields e e6 enc prev fs vs = Ok b -> nsum (map (field_min min) fs) <= nlen b.
  Proof.
    induction 1 as [|[a t] fs [Hf1 Hf2] _ IH]; intros Hs prev [|v vs] b Hv Ht E; cbn [valid_fields] in Hv; try contradiction.
    - injection E as <-. cbn. lia.
    - cbn [enc_fields tagged_fields fst snd] in *. destruct Hs as [Hs1 Hs], Hv as [Hv1 Hv], Ht as [Ht1 Ht].
      cbn [map nsum fold_right]. fold (nsum (map (field_min min) fs)). cbn [fst snd] in *.
      destruct (f_skip a) eqn:Hk.
      + specialize (IH Hs prev vs b Hv Ht E). unfold field_min at 1. cbn [fst]. rewrite Hk, orb_true_r. lia.
      + apply rapp_ok in E as (b1 & b2 & E1 & E2 & ->). rewrite nlen_app.
        specialize (IH Hs _ vs b2 Hv Ht E2). destruct Ht1 as [?|Ht1]; [congruence|].
        pose proof (field_min_ok prev a t v b1 Hf1 Hf2 Hk Hs1 Hv1 Ht1 E1). lia.
  Qed.

  Lemma enc_min_all t : long2 t.
  Proof.
    induction t as [s|k|k t IH|t n IH|t n IH|t IH|t1 t2 IH1 IH2|ts IH|i t IH|k t IH|k tk tv IHk IHv|t IH|d fs IH|d vs IH|]
      using ty_ind'; (split; [|try (intros; discriminate)]).
    - intros v b _ Hv _ E. cbn [Spec.enc] in E. apply scalar_min_ok with (v := v); [|destruct v; assumption].
      destruct v; exact Hv.
    - intros v b _ Hv _ E. destruct v; try discriminate. cbn [Spec.enc] in E.
      apply rapp_ok in E as (b1 & b2 & E1 & E2 & ->). cbn [min_bytes enc_len len0] in *.
      destruct (_ <=? _); [|discriminate]. injection E1 as <-. rewrite nlen_app.
      cbn [enc_basic]. rewrite nlen_word. lia.
    - intros v b _ Hv _ E. destruct v; try discriminate. cbn [Spec.enc] in E.
      apply rapp_ok in E as (b1 & b2 & E1 & E2 & ->). cbn [min_bytes enc_len len0] in *.
      destruct (_ <=? _); [|discriminate]. injection E1 as <-. rewrite nlen_app.
      cbn [enc_basic]. rewrite nlen_word. lia.
    - intros v b [_ Hs] Hv Ht E. destruct v; try contradiction. destruct Hv as [Hv <-]. cbn [Spec.enc min_bytes] in *.
      apply (elems_min t vs b (proj1 IH) Hs Hv Ht E).
    - intros t' n' E. injection E as <- <-. apply IH.
    - intros v b [_ (Hp & Hh & _)] Hv Ht E. destruct v; try contradiction. destruct Hv as [Hv <-]. cbn [Spec.enc min_bytes] in *.
      assert (Hpl : plain_data h t) by (apply (prim_plain h VH); assumption).
      rewrite <- (plain_min h VH t Hpl). apply all_min; [|assumption].
      rewrite Forall_forall in *. intros v Hin b' E'. destruct (plain_enc h VH it e e6 t v Hpl (Hv v Hin)) as (b2 & E2 & L2).
      rewrite (plain_min h VH t Hpl). rewrite E2 in E'. injection E' as ->. lia.
    - intros v b _ _ _ E. eapply option_min, E.
    - intros v b _ Hv _ E. destruct v; try discriminate; cbn [Spec.enc min_bytes] in *;
        apply rapp_ok in E as (b1 & b2 & E1 & E2 & ->); injection E1 as <-; rewrite nlen_app; unfold nlen at 1; cbn [length]; lia.
    - intros v b Hs Hv Ht E. destruct v; try contradiction. cbn [Spec.enc min_bytes Supported.supported Spec.valid Wellformed.tagged] in *.
      revert vs b Hs Hv Ht E. induction IH as [|t ts Ht _ IHts]; intros [|v vs] b Hs Hv Htg E; cbn [valid_list enc_tuple] in *; try contradiction.
      + cbn. lia.
      + apply rapp_ok in E as (b1 & b2 & E1 & E2 & ->). cbn [map nsum fold_right]. fold (nsum (map min ts)).
        rewrite nlen_app. destruct Hs as [Hs1 Hs], Hv as [Hv1 Hv], Htg as [Ht1 Htg].
        specialize (IHts vs b2 Hs Hv Htg E2). pose proof (proj1 Ht v b1 Hs1 Hv1 Ht1 E1). lia.
    - intros v b Hs Hv Ht E. cbn [min_bytes Supported.supported] in *.
      assert (Hx : exists a c r, v = VSeq (a :: c :: r) /\ valid t a /\ valid t c).
      { destruct i, v as [| | | |[|x [|y [|[] [|]]]]| | | | |]; cbn in Hv; try contradiction;
          do 3 eexists; (split; [reflexivity|exact Hv]). }
      destruct Hx as (a & c & r & -> & Hva & Hvc). cbn [Spec.enc Wellformed.tagged] in *.
      apply rapp_ok in E as (b1 & b2 & E1 & E2 & ->). rewrite nlen_app. destruct Ht as [Hta Htc].
      pose proof (proj1 IH a b1 Hs Hva Hta E1). pose proof (proj1 IH c b2 Hs Hvc Htc E2). lia.
    - intros v b _ Hv _ E. destruct v; try discriminate. cbn [Spec.enc] in E.
      apply rapp_ok in E as (b1 & b2 & E1 & E2 & ->). cbn [min_bytes enc_len len0] in *.
      destruct (_ <=? _); [|discriminate]. injection E1 as <-. rewrite nlen_app.
      cbn [enc_basic]. rewrite nlen_word. lia.
    - intros v b _ Hv _ E. destruct v; try discriminate. cbn [Spec.enc] in E.
      apply rapp_ok in E as (b1 & b2 & E1 & E2 & ->). cbn [min_bytes enc_len len0] in *.
      destruct (_ <=? _); [|discriminate]. injection E1 as <-. rewrite nlen_app.
      cbn [enc_basic]. rewrite nlen_word. lia.
    - intros v b Hs Hv Ht E. cbn [min_bytes] in *. apply (proj1 IH v); [exact Hs|destruct v; exact Hv|destruct v; exact Ht|destruct v; exact E].
    - intros v b Hs Hv Ht E. destruct v; try contradiction. cbn [Spec.enc min_bytes] in *.
      eapply fields_min_ok; eauto.
    - intros v b Hs Hv Ht E. destruct v; try contradiction. cbn [Spec.enc min_bytes Supported.supported Spec.valid Wellformed.tagged] in *.
      rewrite fold_min_0. destruct Hs as [_ Hs].
      assert (Hx : basic_size (e_tag d) <= nlen b); [|destruct (e_peek d); lia].
      revert i Hv Ht E Hs. clear IH. induction vs as [|[g fs] vs IH]; intros i Hv Ht E Hs; [contradiction|].
      destruct i as [|i]; cbn [valid_variant tagged_variant enc_variant fst snd] in *.
      + apply rmap_ok in E as (b' & E & ->). destruct (e_peek d).
        * destruct Ht as [Ht _]. destruct (Ht eq_refl b' E) as (r & ->). cbn [app]. rewrite nlen_app.
          pose proof (basic_min (e_tag d) g). lia.
        * rewrite nlen_app. pose proof (basic_min (e_tag d) g). lia.
      + destruct Hs. eapply IH; eauto.
    - intros v b _ Hv. destruct v; contradiction.
  Qed.

  Theorem enc_min t v b : supported LDefault t -> valid t v -> tagged t v ->
    enc len0 t v = Ok b -> min t <= nlen b.
  Proof. apply enc_min_all. Qed.
End EncMin.
