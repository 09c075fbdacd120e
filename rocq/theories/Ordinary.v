(* A class of types that can be recognised from their declaration alone, and what
   is expected of a 64-bit host; the conditions of the property theorems follow. *)
From Verif Require Export Recursive Sane.

(** Types that take no memory. *)
Fixpoint hollow (t : ty) : Prop :=
  match t with
  | TScalar SUnit => True
  | TArr t' n => n = 0%nat \/ hollow t'
  | TTuple ts => all_tys hollow ts
  | TRange incl t' => incl = false /\ hollow t'
  | TStruct _ fs => all_fields (fun _ t' => hollow t') fs
  | _ => False
  end.

(** Length prefixes of at most 32 bits. *)
Definition short (lm : lenmode) : Prop :=
  match lm with
  | LDefault => True
  | LType (BU7 | BU8 | BU16 | BU32) => True
  | _ => False
  end.

(** Field attributes: `skip`, or any of `length_type`, `varint` on a `u64` and a
    constant prefix; but no `default_on_eof`, `length = ..` and no `length`
    expression. *)
Definition ordinary_field (ord : ty -> Prop) (a : fattrs) (t : ty) : Prop :=
  ord t
  /\ (f_skip a = true
      \/ f_eof a = false /\ short (f_len a) /\ nlen (f_prefix a) < 2 ^ 31
         /\ (f_varint a = true -> f_opaque a = false /\ t = TP U64)).

(** No references, no `repr(transparent)`, `repr(packed)` or
    `unsafe_is_primitive`, no `peek_tag`; enums have two variants or more, with
    distinct tags that fit the tag type; elements of slices without size have an
    empty encoding; elements of sets, keys of maps and elements of `Cow` slices
    take memory; elements of sets and keys of maps skip nothing and hold no
    inclusive ranges. *)
Fixpoint ordinary (t : ty) : Prop :=
  match t with
  | TScalar (SGlam _ n) => n <> 0%nat
  | TScalar (SBVec n) => (0 < n <= 8)%nat
  | TScalar _ => True
  | TStr k => k <> KRefStr
  | TSeq k t' =>
    match k with
    | KRef => False
    | KCow => ~ hollow t'
    | _ => hollow t' -> silent t'
    end /\ ordinary t'
  | TArr t' _ | TOption t' | TRange _ t' | TBox t' => ordinary t'
  | TRefArr _ _ | TBot => False
  | TResult t1 t2 => ordinary t1 /\ ordinary t2
  | TTuple ts => all_tys ordinary ts
  | TSet _ t' => ~ hollow t' /\ exact t' /\ ordinary t'
  | TMap _ tk tv => ~ hollow tk /\ exact tk /\ ordinary tk /\ ordinary tv
  | TStruct d fs =>
    sd_forced d = false /\ (sd_repr d = RRust \/ sd_repr d = RC) /\ all_fields (ordinary_field ordinary) fs
  | TEnum d vs =>
    e_peek d = false /\ (2 <= length vs)%nat /\ NoDup (map fst vs)
    /\ Forall (fun v => fst v <= basic_max (e_tag d)) vs
    /\ all_variants (all_fields (ordinary_field ordinary)) vs
  end.

(** Elements of slices, sets and maps take at most 2 GiB each. *)
Fixpoint compact (h : host) (t : ty) : Prop :=
  match t with
  | TSeq _ t' | TSet _ t' => h_size h t' <= 2 ^ 31 /\ compact h t'
  | TMap _ tk tv => h_size h tk + h_size h tv <= 2 ^ 31 /\ compact h tk /\ compact h tv
  | TArr t' _ | TRefArr t' _ | TOption t' | TRange _ t' | TBox t' => compact h t'
  | TResult t1 t2 => compact h t1 /\ compact h t2
  | TTuple ts => all_tys (compact h) ts
  | TStruct _ fs => all_fields (fun _ t' => compact h t') fs
  | TEnum _ vs => all_variants (all_fields (fun _ t' => compact h t')) vs
  | _ => True
  end.

(** The defaults of skipped fields are values of their types. *)
Fixpoint defaults_valid (lim : limits) (t : ty) : Prop :=
  match t with
  | TSeq _ t' | TArr t' _ | TRefArr t' _ | TOption t' | TRange _ t' | TSet _ t' | TBox t' => defaults_valid lim t'
  | TMap _ t1 t2 | TResult t1 t2 => defaults_valid lim t1 /\ defaults_valid lim t2
  | TTuple ts => all_tys (defaults_valid lim) ts
  | TStruct _ fs =>
    all_fields (fun a t' => (f_skip a = true -> valid lim t' (f_default a)) /\ defaults_valid lim t') fs
  | TEnum _ vs =>
    all_variants (all_fields (fun a t' => (f_skip a = true -> valid lim t' (f_default a)) /\ defaults_valid lim t')) vs
  | _ => True
  end.

(** No `Duration`, `SystemTime` or `DateTime`. *)
Fixpoint timeless (t : ty) : Prop :=
  match t with
  | TScalar (SDuration | SSystemTime | SDateTime) => False
  | TSeq _ t' | TArr t' _ | TRefArr t' _ | TOption t' | TRange _ t' | TSet _ t' | TBox t' => timeless t'
  | TMap _ t1 t2 | TResult t1 t2 => timeless t1 /\ timeless t2
  | TTuple ts => all_tys timeless ts
  | TStruct _ fs => all_fields (fun _ t' => timeless t') fs
  | TEnum _ vs => all_variants (all_fields (fun _ t' => timeless t')) vs
  | _ => True
  end.

(** A 64-bit host on which only what is made of nothing takes no memory, and whose
    compiler lays out `repr(packed)` pairs in the order of declaration (which
    maps of plain data rely on). *)
Record host_64 (h : host) : Prop := {
  h6_valid : valid_host h;
  h6_usize : l_usize_max (h_lim h) = 2 ^ 64 - 1;
  h6_alloc : h_alloc_max h = 2 ^ 63 - 1;
  h6_hollow : forall t, ordinary t -> h_size h t = 0 -> hollow t;
  h6_pair : forall tk tv, h_size h (pair_ty tk tv) = h_size h tk + h_size h tv
    /\ ascending (offsets h pair_decl [(plain, tk); (plain, tv)]) = true
}.

Section Ordinary.
  Context (h : host) (H6 : host_64 h).
  Notation VH := (h6_valid h H6).

  Lemma struct_kind d fs : sd_forced d = false -> sd_repr d = RRust \/ sd_repr d = RC ->
    (sd_forced d || is_transparent d fs || is_packed d)%bool = false.
  Proof. intros -> [E|E]; unfold is_transparent, is_packed; rewrite E; reflexivity. Qed.

  Lemma ordinary_honest t : ordinary t -> honest h t.
  Proof.
    induction t as [s|k|k t IH|t n IH|t n IH|t IH|t1 t2 IH1 IH2|ts IH|i t IH|k t IH|k tk tv IHk IHv|t IH|d fs IH|d vs IH|]
      using ty_ind'; try (intros; exact I).
    cbn [ordinary honest]. intros (H1 & H2 & H3). split.
    - intros E. rewrite struct_kind in E by assumption. discriminate.
    - revert H3. apply Recursive.all_fields_impl. revert IH. apply Forall_impl. intros [a t] IH [H _]. auto.
  Qed.

  Lemma ordinary_flips t : ordinary t -> flips t.
  Proof.
    induction t as [s|k|k t IH|t n IH|t n IH|t IH|t1 t2 IH1 IH2|ts IH|i t IH|k t IH|k tk tv IHk IHv|t IH|d fs IH|d vs IH|]
      using ty_ind'; try (intros; exact I).
    cbn [ordinary flips]. intros (H1 & H2 & H3). split.
    - unfold is_transparent. destruct H2 as [-> | ->]; reflexivity.
    - revert H3. apply Recursive.all_fields_impl. revert IH. apply Forall_impl. intros [a t] IH [H _]. auto.
  Qed.

  Lemma ordinary_convertible t : ordinary t -> convertible t.
  Proof.
    intros H. apply ordinary_flips in H. destruct t; try exact I. cbn [convertible flips] in *.
    destruct H as [-> H]. exact H.
  Qed.

  Lemma ordinary_unforced t : ordinary t -> unforced t.
  Proof.
    induction t as [s|k|k t IH|t n IH|t n IH|t IH|t1 t2 IH1 IH2|ts IH|i t IH|k t IH|k tk tv IHk IHv|t IH|d fs IH|d vs IH|]
      using ty_ind'; try (intros; exact I).
    cbn [ordinary unforced]. intros (H1 & H2 & H3). split; [exact H1|].
    revert H3. apply Recursive.all_fields_impl. revert IH. apply Forall_impl. intros [a t] IH [H _]. auto.
  Qed.

  Lemma ordinary_wsup t : ordinary t -> wsup h t.
  Proof.
    assert (Hf : forall a t, (ordinary t -> wsup h t) -> ordinary_field ordinary a t -> wsup_field (wsup h) a t).
    { intros a t' IH (H1 & [H2|(H2 & H3 & H4 & H5)]); [left; exact H2|right]. auto. }
    induction t as [s|k|k t IH|t n IH|t n IH|t IH|t1 t2 IH1 IH2|ts IH|i t IH|k t IH|k tk tv IHk IHv|t IH|d fs IH|d vs IH|]
      using ty_ind'; cbn [ordinary wsup]; try tauto.
    - intros [_ H]. split; [|auto]. intros _. apply ordinary_honest, H.
    - intros H. split; [|auto]. intros _. apply ordinary_honest, H.
    - apply all_tys_impl. exact IH.
    - intros (_ & _ & H). revert H. apply Recursive.all_fields_impl. revert IH. apply Forall_impl. intros [a t]. apply Hf.
    - intros (_ & _ & _ & H1 & H2). split; [exact H1|]. revert H2. apply all_variants_impl. revert IH. apply Forall_impl.
      intros v IH. apply Recursive.all_fields_impl. revert IH. apply Forall_impl. intros [a t]. apply Hf.
  Qed.

  Lemma field_closed a t : short (f_len a) -> field_eof a t = false.
  Proof. intros H. unfold field_eof. destruct (f_len a) as [|b|f|]; try apply andb_false_r; destruct H. Qed.

  Lemma ordinary_no_eof t : ordinary t -> no_eof false t.
  Proof.
    assert (Hf : forall a t, (ordinary t -> no_eof false t) -> ordinary_field ordinary a t ->
      f_skip a = true \/ (f_eof a = false /\ no_eof (field_eof a t) t)).
    { intros a t' IH (H1 & [H2|(H2 & H3 & H4 & H5)]); [left; exact H2|right]. split; [exact H2|].
      rewrite field_closed by exact H3. auto. }
    induction t as [s|k|k t IH|t n IH|t n IH|t IH|t1 t2 IH1 IH2|ts IH|i t IH|k t IH|k tk tv IHk IHv|t IH|d fs IH|d vs IH|]
      using ty_ind'; cbn [ordinary no_eof]; try tauto.
    - apply all_tys_impl. exact IH.
    - intros (_ & _ & H). revert H. apply Recursive.all_fields_impl. revert IH. apply Forall_impl. intros [a t]. apply Hf.
    - intros (_ & _ & _ & _ & H). revert H. apply all_variants_impl. revert IH. apply Forall_impl.
      intros v IH. apply Recursive.all_fields_impl. revert IH. apply Forall_impl. intros [a t]. apply Hf.
  Qed.

  Lemma ordinary_opens t : ordinary t -> opens false t = false.
  Proof. intros H. apply no_eof_closed, ordinary_no_eof, H. Qed.

  Lemma ordinary_no_peek t : ordinary t -> no_peek t.
  Proof.
    assert (Hf : forall a t, (ordinary t -> no_peek t) -> ordinary_field ordinary a t -> f_skip a = true \/ no_peek t).
    { intros a t' IH [H _]. auto. }
    induction t as [s|k|k t IH|t n IH|t n IH|t IH|t1 t2 IH1 IH2|ts IH|i t IH|k t IH|k tk tv IHk IHv|t IH|d fs IH|d vs IH|]
      using ty_ind'; cbn [ordinary no_peek]; try tauto.
    - apply all_tys_impl. exact IH.
    - intros (_ & _ & H). revert H. apply Recursive.all_fields_impl. revert IH. apply Forall_impl. intros [a t]. apply Hf.
    - intros (H1 & _ & _ & _ & H2). split; [exact H1|]. revert H2. apply all_variants_impl. revert IH. apply Forall_impl.
      intros v IH. apply Recursive.all_fields_impl. revert IH. apply Forall_impl. intros [a t]. apply Hf.
  Qed.

  Lemma ordinary_rtok lim e e6 t : ordinary t -> rtok lim e e6 false t.
  Proof.
    assert (Hfs : forall fs, Forall (fun f => ordinary (snd f) -> rtok lim e e6 false (snd f)) fs ->
      all_fields (ordinary_field ordinary) fs -> rt_fields (rtok lim e e6) fs).
    { induction 1 as [|[a t0] fs IH _ IHfs]; [auto|]. intros [H Hs]. split; [|apply IHfs, Hs]. cbn [fst snd] in *.
      destruct H as (H1 & [H2|(H2 & H3 & H4 & H5)]); [left; exact H2|right].
      rewrite field_closed by exact H3. split; [intros Hv; apply H5, Hv|]. split; [auto|]. rewrite ordinary_opens by exact H1. discriminate. }
    induction t as [s|k|k t IH|t n IH|t n IH|t IH|t1 t2 IH1 IH2|ts IH|i t IH|k t IH|k tk tv IHk IHv|t IH|d fs IH|d vs IH|]
      using ty_ind'; cbn [ordinary rtok]; try tauto.
    - destruct s; auto. lia.
    - intros [_ H]. split; [auto|]. split; [apply ordinary_opens, H|discriminate].
    - intros H. split; [auto|apply ordinary_opens, H].
    - induction IH as [|t ts IH _ IHts]; [auto|]. cbn. intros [H Hs]. split; [auto|].
      rewrite ordinary_opens by exact H. split; [discriminate|auto].
    - intros H. split; [auto|apply ordinary_opens, H].
    - intros (_ & H1 & H2). split; [auto|]. split; [apply ordinary_opens, H2|]. split; [exact H1|discriminate].
    - intros (_ & H1 & H2 & H3). repeat split; auto using ordinary_opens. discriminate.
    - intros (_ & _ & H). apply Hfs; assumption.
    - intros (_ & _ & H1 & H2 & H3). split; [exact H1|]. split; [exact H2|]. revert H3.
      apply all_variants_impl. revert IH. apply Forall_impl. intros v. apply Hfs.
  Qed.

  Lemma field_minok_ordinary (mok : ty -> Prop) a t : (ordinary t -> mok t) ->
    (forall t' n, t = TArr t' n -> ordinary t' -> mok t') ->
    ordinary_field ordinary a t -> field_minok mok a t.
  Proof.
    intros IH Harr (H1 & H2). unfold field_minok.
    destruct H2 as [H2|(H2 & H3 & H4 & H5)]; [rewrite H2, orb_true_r; exact I|].
    assert (Hc : match t with TOption _ => True | TArr t' _ => mok t' | _ => if is_container t then True else mok t end).
    { destruct t; try (destruct (is_container _)); auto. apply (Harr _ _ eq_refl). exact H1. }
    rewrite H2. destruct (f_len a) as [|b|f|]; try contradiction; cbn [negb orb]; (destruct (f_skip a); [exact I|]);
      (destruct (f_varint a); [destruct (H5 eq_refl) as [-> ->]; split; [reflexivity|exact I]|]);
      (destruct (f_opaque a); auto).
  Qed.

  Lemma ordinary_minok t : ordinary t -> minok h t.
  Proof.
    assert (Hf : forall a t, (ordinary t -> minok h t) -> ordinary_field ordinary a t -> field_minok (minok h) a t).
    { intros a t0 IH. apply field_minok_ordinary; [exact IH|]. intros t' n -> H. exact (IH H). }
    induction t as [s|k|k t IH|t n IH|t n IH|t IH|t1 t2 IH1 IH2|ts IH|i t IH|k t IH|k tk tv IHk IHv|t IH|d fs IH|d vs IH|]
      using ty_ind'; cbn [ordinary minok]; try tauto.
    - apply all_tys_impl. exact IH.
    - intros (_ & _ & H). revert H. apply Recursive.all_fields_impl. revert IH. apply Forall_impl. intros [a t]. apply Hf.
    - intros (-> & _). exact I.
  Qed.

  Lemma ordinary_plain_min t : ordinary t -> is_prim h t = true -> min_bytes h t = h_size h t.
  Proof. intros H Hp. apply (plain_min h VH). apply (prim_plain h VH); [apply ordinary_honest, H|exact Hp]. Qed.

  Lemma ordinary_least t : ordinary t -> least h t.
  Proof.
    assert (Hf : forall a t, (ordinary t -> least h t) -> ordinary_field ordinary a t -> field_minok (least h) a t).
    { intros a t0 IH. apply field_minok_ordinary; [exact IH|]. intros t' n -> H. apply (IH H). }
    induction t as [s|k|k t IH|t n IH|t n IH|t IH|t1 t2 IH1 IH2|ts IH|i t IH|k t IH|k tk tv IHk IHv|t IH|d fs IH|d vs IH|]
      using ty_ind'; cbn [ordinary least]; try tauto.
    - intros H. split; [|auto]. intros Hp. rewrite ordinary_plain_min by assumption. lia.
    - apply all_tys_impl. exact IH.
    - intros (_ & _ & H). revert H. apply Recursive.all_fields_impl. revert IH. apply Forall_impl. intros [a t]. apply Hf.
    - intros (-> & _). exact I.
  Qed.

  Lemma solid t : ordinary t -> ~ hollow t -> h_size h t <> 0.
  Proof. intros Ho Hh E. exact (Hh (h6_hollow h H6 t Ho E)). Qed.

  Lemma short_possible lm n : short lm -> possible_length h lm n -> n < 2 ^ 32.
  Proof.
    destruct lm as [|b|f|]; cbn [short possible_length]; try contradiction; [|destruct b; try contradiction];
      cbn [basic_max]; num_pow; lia.
  Qed.

  Lemma short_fits lm size : short lm -> size <= 2 ^ 31 -> fits h lm size.
  Proof.
    intros Hl Hs n Hn. apply short_possible in Hn; [|exact Hl]. rewrite (h6_usize h H6).
    apply N.le_trans with (2 ^ 32 * 2 ^ 31); [apply N.mul_le_mono; lia|vm_compute; discriminate].
  Qed.

  Lemma ordinary_vec_elem e t : ordinary t -> (hollow t -> silent t) -> vec_elem h e t.
  Proof.
    intros Ho Hs. unfold vec_elem. destruct (is_prim h t); split.
    - apply ordinary_honest, Ho.
    - intros _. apply ordinary_convertible, Ho.
    - destruct (N.eq_dec (h_size h t) 0) as [E|E]; [right; apply Hs, (h6_hollow h H6); assumption|left; exact E].
    - apply ordinary_minok, Ho.
  Qed.

  Lemma ordinary_copy_elem lm t : short lm -> ordinary t -> ~ hollow t -> h_size h t <= 2 ^ 31 -> copy_elem h lm t.
  Proof.
    intros Hl Ho Hh Hs _. split; [apply ordinary_honest, Ho|]. split; [apply solid; assumption|apply short_fits; assumption].
  Qed.

  Lemma ordinary_pair_elem lm tk tv : short lm -> ordinary tk -> ordinary tv -> ~ hollow tk ->
    h_size h tk + h_size h tv <= 2 ^ 31 -> pair_elem h lm tk tv.
  Proof.
    intros Hl Hk Hv Hh Hs _ _. destruct (h6_pair h H6 tk tv) as [E1 E2]. rewrite E1.
    pose proof (solid tk Hk Hh). repeat split; auto using ordinary_honest; [lia|apply short_fits; assumption].
  Qed.

  Lemma ordinary_prefix n : n < 2 ^ 31 -> n <= h_alloc_max h.
  Proof. rewrite (h6_alloc h H6). intros H. apply N.lt_le_incl, N.lt_trans with (2 ^ 31); [exact H|reflexivity]. Qed.

  Lemma field_mode a t : short (f_len a) -> short (if sized_field a t then f_len a else LDefault).
  Proof. intros H. destruct (sized_field a t); [exact H|exact I]. Qed.

  Lemma ordinary_supported e bw pk t : forall lm, short lm -> ordinary t -> compact h t -> supported h e bw pk lm t.
  Proof.
    assert (Hfs : forall fs, Forall (fun f => forall lm, short lm -> ordinary (snd f) -> compact h (snd f) -> supported h e bw pk lm (snd f)) fs ->
      all_fields (ordinary_field ordinary) fs -> all_fields (fun _ t => compact h t) fs ->
      all_fields (sup_field h (supported h e bw pk)) fs).
    { induction 1 as [|[a t0] fs IH _ IHfs]; [auto|]. intros [H Hs] [Hc Hcs]. split; [|apply IHfs; assumption]. cbn [fst snd] in *.
      destruct H as (H1 & [H2|(H2 & H3 & H4 & H5)]); [left; exact H2|right].
      split; [intros Hv; destruct (H5 Hv) as [-> ->]; split; [reflexivity|exact I]|].
      split; [apply ordinary_prefix, H4|]. apply IH; auto using field_mode. }
    induction t as [s|k|k t IH|t n IH|t n IH|t IH|t1 t2 IH1 IH2|ts IH|i t IH|k t IH|k tk tv IHk IHv|t IH|d fs IH|d vs IH|]
      using ty_ind'; intros lm Hl; cbn [ordinary compact supported]; try tauto.
    - intros Hk _. destruct k; auto; try (apply short_fits; [exact Hl|vm_compute; discriminate]).
    - intros [Hk Ho] [Hs Hc]. split; [|apply IH; auto; exact I].
      destruct k; cbn [seq_elem]; try contradiction; try (apply ordinary_vec_elem; assumption).
      split; [apply ordinary_vec_elem; tauto|apply ordinary_copy_elem; assumption].
    - intros Ho Hc. split; [|apply IH; auto; exact I]. intros Hp. unfold vec_elem. rewrite Hp.
      split; [apply ordinary_honest, Ho|intros _; apply ordinary_convertible, Ho].
    - intros Ho Hc. apply IH; assumption.
    - intros [H1 H2] [H3 H4]. split; [apply IH1|apply IH2]; auto; exact I.
    - intros Ho Hc. clear Hl lm. induction IH as [|t ts IH _ IHts]; [exact I|]. destruct Ho, Hc. split; [apply IH; auto; exact I|auto].
    - intros Ho Hc. apply IH; auto; exact I.
    - intros (H1 & H2 & H3) [H4 H5]. split; [apply ordinary_copy_elem; assumption|apply IH; auto; exact I].
    - intros (H1 & H2 & H3 & H4) (H5 & H6' & H7). split; [apply ordinary_pair_elem; assumption|].
      split; [apply IHk|apply IHv]; auto; exact I.
    - intros Ho Hc. apply IH; auto; exact I.
    - intros (_ & _ & H) Hc. apply Hfs; assumption.
    - intros (H1 & _ & _ & _ & H2) Hc. split; [congruence|]. clear H1 Hl lm.
      induction IH as [|v vs IH _ IHvs]; [exact I|]. destruct H2, Hc. split; [apply Hfs; assumption|auto].
  Qed.

  Theorem ordinary_covered e bw pk t : ordinary t -> compact h t -> covered h e bw pk t.
  Proof.
    intros Ho Hc. constructor; [apply ordinary_wsup, Ho|apply ordinary_supported; [exact I|assumption..]|apply ordinary_rtok, Ho].
  Qed.

  Lemma ordinary_owned e t : ordinary t -> compact h t -> owned h e t.
  Proof.
    intros Ho Hc. apply (supported_owned h VH e true). apply ordinary_supported; [exact I|assumption..].
  Qed.

  Lemma ordinary_image t : ordinary t -> is_prim h t = true -> image h t.
  Proof. intros Ho Hp. apply (unforced_image h); [apply ordinary_unforced, Ho|exact Hp]. Qed.

  Lemma silent_zst lim t : silent t -> valid lim t (zst_val t).
  Proof.
    induction t as [s|k|k t IH|t n IH|t n IH|t IH|t1 t2 IH1 IH2|ts IH|i t IH|k t IH|k tk tv IHk IHv|t IH|d fs IH|d vs IH|]
      using ty_ind'; cbn [silent]; try contradiction.
    - destruct s; try contradiction. intros _. exact I.
    - intros H. cbn [zst_val valid]. split; [|apply repeat_length].
      destruct H as [-> |H]; [constructor|]. apply Forall_forall. intros x Hx. apply repeat_spec in Hx. subst x. auto.
    - intros H. cbn [zst_val valid]. induction IH as [|t ts IH _ IHts]; [exact I|]. destruct H. cbn. auto.
    - intros H. cbn [zst_val valid]. induction IH as [|t ts IH _ IHts]; [exact I|]. destruct H as [[_ H] Hs]. cbn. auto.
  Qed.

  Lemma ordinary_elem t : ordinary t -> (hollow t -> silent t) -> is_prim h t = false ->
    h_size h t <> 0 \/ valid (h_lim h) t (zst_val t).
  Proof.
    intros Ho Hs Hp. destruct (N.eq_dec (h_size h t) 0) as [E|E]; [right|left; exact E].
    apply silent_zst, Hs, (h6_hollow h H6); assumption.
  Qed.

  Lemma short_room L buf lm size min n : short lm -> size <= 2 ^ 31 -> possible_length h lm n ->
    (if buf : bool then buffer_room h L else stream_room h) size min n.
  Proof.
    intros Hl Hs Hn. apply short_possible in Hn; [|exact Hl].
    assert (H : n * size <= h_alloc_max h).
    { rewrite (h6_alloc h H6). apply N.le_trans with ((2 ^ 32 - 1) * 2 ^ 31); [apply N.mul_le_mono; lia|vm_compute; discriminate]. }
    destruct buf; [left|]; exact H.
  Qed.

  Lemma ordinary_calm e allow L buf t : forall lm, short lm -> ordinary t -> compact h t ->
    defaults_valid (h_lim h) t -> allow PanicExplicit \/ timeless t ->
    calm h e allow L (if buf : bool then buffer_room h L else stream_room h) lm t.
  Proof.
    assert (Hfs : forall fs, Forall (fun f => forall lm, short lm -> ordinary (snd f) -> compact h (snd f) ->
        defaults_valid (h_lim h) (snd f) -> allow PanicExplicit \/ timeless (snd f) ->
        calm h e allow L (if buf : bool then buffer_room h L else stream_room h) lm (snd f)) fs ->
      all_fields (ordinary_field ordinary) fs -> all_fields (fun _ t => compact h t) fs ->
      all_fields (fun a t' => (f_skip a = true -> valid (h_lim h) t' (f_default a)) /\ defaults_valid (h_lim h) t') fs ->
      allow PanicExplicit \/ all_fields (fun _ t => timeless t) fs ->
      all_fields (calm_field h (calm h e allow L (if buf : bool then buffer_room h L else stream_room h))) fs).
    { induction 1 as [|[a t0] fs IH _ IHfs]; [auto|]. intros [H Hs] [Hc Hcs] [Hd Hds] Ht.
      split; [|apply IHfs; auto; destruct Ht as [Ht|[_ Ht]]; auto]. cbn [fst snd] in *.
      destruct Hd as [Hd1 Hd2]. destruct H as (H1 & [H2|(H2 & H3 & H4 & H5)]).
      - split; [intros _; apply Hd1, H2|left; exact H2].
      - split; [rewrite H2, orb_false_r; exact Hd1|right]. split; [intros Hv; apply H5, Hv|].
        split; [apply ordinary_prefix, H4|]. apply IH; auto using field_mode. destruct Ht as [Ht|[Ht _]]; auto. }
    assert (Hlen : forall lm, short lm -> len_ok h allow lm) by (intros [|b|f|]; cbn; tauto).
    assert (Hcount : forall lm t', short lm -> h_size h t' <= 2 ^ 31 ->
      counted h allow (if buf : bool then buffer_room h L else stream_room h) lm t').
    { intros lm t' Hl Hs. right. intros n Hn. eapply short_room; eassumption. }
    assert (Hel : forall t', ordinary t' -> (hollow t' -> silent t') -> elem_ok h e allow t').
    { intros t' Ho Hs. split; [|intros Hp; apply ordinary_elem; assumption].
      intros Hp. split; [apply ordinary_image; assumption|right; intros _; apply ordinary_convertible, Ho]. }
    induction t as [s|k|k t IH|t n IH|t n IH|t IH|t1 t2 IH1 IH2|ts IH|i t IH|k t IH|k tk tv IHk IHv|t IH|d fs IH|d vs IH|]
      using ty_ind'; intros lm Hl; cbn [ordinary compact calm defaults_valid timeless]; try tauto.
    - intros _ _ _ Ht. destruct s; auto; destruct Ht as [Ht|[]]; exact Ht.
    - intros Hk _ _ _. split; [auto|].
      assert (Hu : counted h allow (if buf then buffer_room h L else stream_room h) lm (TP U8)).
      { apply Hcount; [exact Hl|]. rewrite (vh_prim h VH U8). vm_compute. discriminate. }
      assert (Hne : lm = LEof -> L <= h_alloc_max h) by (intros ->; destruct Hl).
      assert (Hft : fits h lm 1) by (apply short_fits; [exact Hl|vm_compute; discriminate]).
      destruct k; auto.
    - intros [Hk Ho] [Hs Hc] Hd Ht. split; [auto|].
      assert (Hne : lm = LEof -> finishes h allow t /\ roomy h L t) by (intros ->; destruct Hl).
      assert (Hi : calm h e allow L (if buf then buffer_room h L else stream_room h) LDefault t)
        by (apply IH; auto; exact I).
      assert (Hv : k <> KRef -> elem_ok h e allow t).
      { intros Hk'. apply Hel; [exact Ho|]. destruct k; tauto. }
      assert (Hw : k = KCow -> cow_ok h allow lm t).
      { intros -> _. split; [right; apply solid; assumption|left; apply short_fits; assumption]. }
      assert (Hn : counted h allow (if buf then buffer_room h L else stream_room h) lm t) by (apply Hcount; assumption).
      destruct k; [..|contradiction]; (split; [apply Hv; discriminate|]); auto.
    - intros Ho Hc Hd Ht. split; [|apply IH; auto; exact I].
      intros Hp. split; [apply ordinary_image; assumption|right; intros _; apply ordinary_convertible, Ho].
    - intros Ho Hc Hd Ht. apply IH; assumption.
    - intros [H1 H2] [H3 H4] [H5 H6'] Ht. split; [apply IH1|apply IH2]; auto; try exact I; destruct Ht as [Ht|[Ht Ht']]; auto.
    - intros Ho Hc Hd Ht. clear Hl lm. induction IH as [|t ts IH _ IHts]; [exact I|]. destruct Ho, Hc, Hd.
      split; [apply IH|apply IHts]; auto; try exact I; destruct Ht as [Ht|[Ht Ht']]; auto.
    - intros Ho Hc Hd Ht. apply IH; auto; exact I.
    - intros (H1 & H2 & H3) [H4 H5] Hd Ht. split; [auto|]. split; [|split; [intros ->; destruct Hl|apply IH; auto; exact I]].
      intros Hp. split; [apply (image_numeric h), ordinary_image; assumption|right; right; apply solid; assumption].
    - intros (H1 & H2 & H3 & H4) (H5 & H6' & H7) [Hd1 Hd2] Ht. split; [auto|]. split; [|split; [intros ->; destruct Hl|]].
      + right. intros Hp1 Hp2. split; [apply (image_numeric h), ordinary_image; assumption|].
        split; [apply (image_numeric h), ordinary_image; assumption|]. right. right.
        destruct (h6_pair h H6 tk tv) as [-> _]. pose proof (solid tk H3 H1). lia.
      + split; [apply IHk|apply IHv]; auto; try exact I; destruct Ht as [Ht|[Ht Ht']]; auto.
    - intros Ho Hc Hd Ht. apply IH; auto; exact I.
    - intros (_ & _ & H) Hc Hd Ht. apply Hfs; assumption.
    - intros (H1 & _ & _ & _ & H2) Hc Hd Ht. clear H1 Hl lm.
      induction IH as [|v vs IH _ IHvs]; [exact I|]. destruct H2, Hc, Hd.
      split; [apply Hfs; auto|apply IHvs; auto]; destruct Ht as [Ht|[Ht Ht']]; auto.
  Qed.

  Lemma ordinary_sane L t : forall lm, short lm -> ordinary t -> defaults_valid (h_lim h) t -> sane h L lm t.
  Proof.
    assert (Hfs : forall fs, Forall (fun f => forall lm, short lm -> ordinary (snd f) ->
        defaults_valid (h_lim h) (snd f) -> sane h L lm (snd f)) fs ->
      all_fields (ordinary_field ordinary) fs ->
      all_fields (fun a t' => (f_skip a = true -> valid (h_lim h) t' (f_default a)) /\ defaults_valid (h_lim h) t') fs ->
      all_fields (sane_field h (sane h L)) fs).
    { induction 1 as [|[a t0] fs IH _ IHfs]; [auto|]. intros [H Hs] [Hd Hds].
      split; [|apply IHfs; auto]. cbn [fst snd] in *.
      destruct Hd as [Hd1 Hd2]. destruct H as (H1 & [H2|(H2 & H3 & H4 & H5)]).
      - split; [intros _; apply Hd1, H2|left; exact H2].
      - split; [rewrite H2, orb_false_r; exact Hd1|right]. split; [intros Hv; apply H5, Hv|].
        split; [apply ordinary_prefix, H4|]. apply IH; auto using field_mode. }
    assert (Hlen : forall lm, short lm -> len_typed h lm) by (intros [|b|f|]; cbn; tauto).
    induction t as [s|k|k t IH|t n IH|t n IH|t IH|t1 t2 IH1 IH2|ts IH|i t IH|k t IH|k tk tv IHk IHv|t IH|d fs IH|d vs IH|]
      using ty_ind'; intros lm Hl; cbn [ordinary sane defaults_valid]; try tauto.
    - intros _ _. split; [auto|intros ->; destruct Hl].
    - intros [Hk Ho] Hd.
      assert (H : len_typed h lm /\ sane_elem h t /\ (lm = LEof -> roomy h L t) /\ sane h L LDefault t).
      { split; [auto|]. split; [|split; [intros ->; destruct Hl|apply IH; auto; exact I]].
        unfold sane_elem. destruct (is_prim h t) eqn:Ep; [apply ordinary_image; assumption|].
        apply ordinary_elem; try assumption. destruct k; tauto. }
      destruct k; auto; contradiction.
    - intros Ho Hd. split; [intros Hp; apply ordinary_image; assumption|apply IH; auto; exact I].
    - intros Ho Hd. apply IH; assumption.
    - intros [H1 H2] [H3 H4]. split; [apply IH1|apply IH2]; auto; exact I.
    - intros Ho Hd. clear Hl lm. induction IH as [|t ts IH _ IHts]; [exact I|]. destruct Ho, Hd.
      split; [apply IH; auto; exact I|auto].
    - intros Ho Hd. apply IH; auto; exact I.
    - intros (H1 & H2 & H3) Hd. split; [auto|]. split; [|apply IH; auto; exact I].
      intros Hp. apply (image_numeric h), ordinary_image; assumption.
    - intros (H1 & H2 & H3 & H4) [Hd1 Hd2]. split; [auto|].
      split; [intros Hp; apply (image_numeric h), ordinary_image; assumption|].
      split; [intros Hp; apply (image_numeric h), ordinary_image; assumption|].
      split; [apply IHk|apply IHv]; auto; exact I.
    - intros Ho Hd. apply IH; auto; exact I.
    - intros (_ & _ & H) Hd. apply Hfs; assumption.
    - intros (_ & _ & _ & _ & H2) Hd. clear Hl lm.
      induction IH as [|v vs IH _ IHvs]; [exact I|]. destruct H2, Hd. split; [apply Hfs; auto|apply IHvs; auto].
  Qed.

  Lemma ordinary_value e t v : ordinary t -> valid (h_lim h) t v -> value_of h e t v.
  Proof. intros Ho. apply plain_value, ordinary_no_peek, Ho. Qed.
End Ordinary.
