(* Types that change between the versions of a program: new variants of enums, and new fields
   with `default_on_eof` at the end.  What the wire format says about them. *)
From Verif Require Import Entry Conditions PropDefault.

Section Widens.
  Context (lim : limits).

  (** Lengths of at most 32 bits. *)
  Definition short_mode (lm : lenmode) : bool :=
    match lm with LDefault | LEof => true | LType (BU7 | BU8 | BU16 | BU32) => true | _ => false end.

  (** As many elements of the one type fit into an allocation as of the other. *)
  Definition fits_alike (short : bool) (t1 t2 : ty) : Prop :=
    (forall n, l_fits lim t1 n = l_fits lim t2 n)
    \/ (short = true /\ forall n, n < 2 ^ 32 -> l_fits lim t1 n = true /\ l_fits lim t2 n = true).

  Definition wide_tys (w : ty -> ty -> Prop) : list ty -> list ty -> Prop :=
    fix go (l1 l2 : list ty) : Prop :=
      match l1, l2 with
      | [], [] => True
      | t1 :: r1, t2 :: r2 => w t1 t2 /\ go r1 r2
      | _, _ => False
      end.

  Definition wide_field (w : bool -> ty -> ty -> Prop) (f1 f2 : fattrs * ty) : Prop :=
    fst f1 = fst f2
    /\ (f_skip (fst f1) = true
        \/ w (short_mode (if sized_field (fst f1) (snd f1) then f_len (fst f1) else LDefault)) (snd f1) (snd f2)).

  Definition wide_fields (w : bool -> ty -> ty -> Prop) : fields -> fields -> Prop :=
    fix go (l1 l2 : fields) : Prop :=
      match l1, l2 with
      | [], [] => True
      | f1 :: r1, f2 :: r2 => wide_field w f1 f2 /\ go r1 r2
      | _, _ => False
      end.

  (** The old variants come first and keep their tags. *)
  Definition wide_variants (w : fields -> fields -> Prop) : list (N * fields) -> list (N * fields) -> Prop :=
    fix go (l1 l2 : list (N * fields)) : Prop :=
      match l1, l2 with
      | [], _ => True
      | v1 :: r1, v2 :: r2 => fst v1 = fst v2 /\ w (snd v1) (snd v2) /\ go r1 r2
      | _ :: _, [] => False
      end.

  (** [t2] is [t1] with more variants at the end of some of its enums. *)
  Fixpoint widens (short : bool) (t1 t2 : ty) {struct t1} : Prop :=
    match t1, t2 with
    | TScalar s1, TScalar s2 => s1 = s2
    | TStr k1, TStr k2 => k1 = k2
    | TSeq k1 u1, TSeq k2 u2 => k1 = k2 /\ widens true u1 u2 /\ fits_alike short u1 u2
    | TArr u1 n1, TArr u2 n2 => n1 = n2 /\ widens true u1 u2
    | TRefArr u1 n1, TRefArr u2 n2 => n1 = n2 /\ u1 = u2
    | TOption u1, TOption u2 => widens short u1 u2
    | TResult a1 b1, TResult a2 b2 => widens true a1 a2 /\ widens true b1 b2
    | TTuple l1, TTuple l2 => wide_tys (widens true) l1 l2
    | TRange i1 u1, TRange i2 u2 => i1 = i2 /\ widens true u1 u2
    | TSet k1 u1, TSet k2 u2 => k1 = k2 /\ widens true u1 u2
    | TMap k1 a1 b1, TMap k2 a2 b2 => k1 = k2 /\ widens true a1 a2 /\ widens true b1 b2
    | TBox u1, TBox u2 => widens true u1 u2
    | TStruct _ l1, TStruct _ l2 => wide_fields widens l1 l2
    | TEnum d1 l1, TEnum d2 l2 => d1 = d2 /\ wide_variants (wide_fields widens) l1 l2
    | TBot, TBot => True
    | _, _ => False
    end.
End Widens.

(* ------------------------------------------------------------------ *)
(** * Reading *)

(** An old program meets a variant that it does not know, possibly where an end of the input
    would be caught. *)
Definition odd {A} (r : dres A) : Prop := r = DUnspec \/ exists s, r = DBad InvalidEnumVariant s.

Definition upto {A} (m1 m2 : dec A) : Prop := forall o, m1 o = m2 o \/ odd (m1 o).

Lemma upto_refl {A} (m : dec A) : upto m m.
Proof. intros o. left. reflexivity. Qed.

Lemma upto_bind {A B} (m1 m2 : dec A) (k1 k2 : A -> dec B) : upto m1 m2 -> (forall a, upto (k1 a) (k2 a)) ->
  upto (dbind m1 k1) (dbind m2 k2).
Proof.
  intros Hm Hk o. unfold dbind. destruct (Hm o) as [E|[E|[s E]]]; rewrite E.
  - destruct (m2 o); auto. apply Hk.
  - right. left. reflexivity.
  - right. right. eauto.
Qed.

Lemma upto_map {A B} (f : A -> B) (m1 m2 : dec A) : upto m1 m2 -> upto (dmap f m1) (dmap f m2).
Proof. intros H. apply upto_bind; [exact H|]. intros a. apply upto_refl. Qed.

Lemma upto_repeat {A} (m1 m2 : dec A) n : upto m1 m2 -> upto (drepeat m1 n) (drepeat m2 n).
Proof.
  intros H. induction n as [|n IH]; cbn [drepeat]; [apply upto_refl|].
  apply upto_bind; [exact H|]. intros x. apply upto_bind; [exact IH|]. intros xs. apply upto_refl.
Qed.

Lemma upto_unsure {A} (m1 m2 : dec A) : upto m1 m2 -> upto (dunsure m1) (dunsure m2).
Proof.
  intros H o. unfold dunsure. destruct (H o) as [E|[E|[s E]]]; rewrite E; auto.
  - right. left. reflexivity.
  - right. right. eauto.
Qed.

Lemma upto_catch {A} (d : A) (m1 m2 : dec A) : upto m1 m2 -> upto (dcatch d m1) (dcatch d m2).
Proof.
  intros H o. unfold dcatch. destruct (H o) as [E|[E|[s E]]]; rewrite E; auto.
  - right. left. reflexivity.
  - destruct s; right; [right; eauto|left; reflexivity].
Qed.

Lemma upto_until {A} (m1 m2 : dec A) : upto m1 m2 -> upto (duntil m1) (duntil m2).
Proof.
  intros H o. unfold duntil. destruct o as [bs|]; [|auto].
  generalize (S (length bs)) as k. intros k. generalize (Some bs) as o. induction k as [|k IH]; intros o; cbn [duntil_loop].
  - left. reflexivity.
  - destruct (H o) as [E|[E|[s E]]]; rewrite E; auto.
    + destruct (m2 o) as [a o'| |er sure|f sure|]; auto. apply (upto_map _ _ _ IH).
    + right. left. reflexivity.
    + destruct s; right; [right; eauto|left; reflexivity].
Qed.

Section Reading.
  Context (lim : limits) (e e6 : endian).
  Notation decl := (decl lim e e6).
  Notation widens := (widens lim).

  (** Lengths of this kind are below 2^32. *)
  Definition short_spec (l : lenspec) : Prop :=
    match l with
    | LenPrefix (BU7 | BU8 | BU16 | BU32) _ | LenEof => True
    | _ => False
    end.

  Lemma word_lt w o n o' : dword e w o = DOk n o' -> n < 256 ^ N.of_nat w.
  Proof.
    unfold dword, dmap, dbind. destruct (dread _ o) eqn:E; try discriminate.
    cbn. intros H. injection H as <- _. apply dread_len in E. rewrite <- E. apply unword_lt.
  Qed.

  Lemma prefix_short b lenient o n o' : short_spec (LenPrefix b lenient) -> dprefix lim e b o = DOk n o' -> n < 2 ^ 32.
  Proof.
    intros Hb. unfold dprefix, dbind. destruct (dbasic e b o) as [m r| | | |] eqn:E; try discriminate.
    destruct (_ <=? _); [|discriminate]. intros H. injection H as <- _.
    destruct b; cbn in Hb; try contradiction; cbn [dbasic] in E; apply word_lt in E;
      (eapply N.lt_le_trans; [exact E|]); apply N.leb_le; reflexivity.
  Qed.

  Lemma upto_len {A} l (c1 c2 : N -> dec A) t1 t2 :
    (forall n, (short_spec l -> n < 2 ^ 32) -> upto (c1 n) (c2 n)) -> upto t1 t2 ->
    upto (dlen lim e l c1 t1) (dlen lim e l c2 t2).
  Proof.
    intros Hc Ht. destruct l as [b lenient|[n|]|]; cbn [dlen]; [|apply Hc; intros []|apply upto_refl|exact Ht].
    intros o. unfold dbind.
    assert (Hn : forall n o', (if lenient then dcatch 0 (dprefix lim e b) else dprefix lim e b) o = DOk n o' ->
      short_spec (LenPrefix b lenient) -> n < 2 ^ 32).
    { intros n o' E Hs. destruct lenient.
      - unfold dcatch in E. destruct (dprefix lim e b o) as [m r| |er []|f []|] eqn:Ep; try discriminate.
        + injection E as <- _. apply (prefix_short _ _ _ _ _ Hs Ep).
        + injection E as <- _. reflexivity.
      - apply (prefix_short _ _ _ _ _ Hs E). }
    destruct ((if lenient then dcatch 0 (dprefix lim e b) else dprefix lim e b) o) as [n o'| | | |]; auto.
    apply Hc. apply (Hn n o'). reflexivity.
  Qed.

  Lemma upto_sized {A} short l t1 t2 n (m1 m2 : dec A) : fits_alike lim short t1 t2 -> (short = true -> short_spec l) ->
    (short_spec l -> n < 2 ^ 32) -> upto m1 m2 -> upto (dsized lim t1 n m1) (dsized lim t2 n m2).
  Proof.
    intros Hf Hl Hn Hm. unfold dsized. destruct Hf as [Hf|[Hs Hf]].
    - rewrite <- Hf. destruct (l_fits lim t1 n); [apply upto_unsure, Hm|apply upto_refl].
    - destruct (Hf n (Hn (Hl Hs))) as [-> ->]. apply upto_unsure, Hm.
  Qed.

  Lemma widens_container short t1 t2 : widens short t1 t2 -> is_container t1 = is_container t2.
  Proof.
    destruct t1, t2; cbn [Evolve.widens]; try contradiction; try reflexivity.
    - intros <-. reflexivity.
    - intros [<- _]. reflexivity.
    - intros [<- _]. reflexivity.
    - intros [<- _]. reflexivity.
  Qed.

  Lemma widens_sized short a t1 t2 : widens short t1 t2 -> sized_field a t1 = sized_field a t2.
  Proof.
    intros H. unfold sized_field. f_equal. pose proof (widens_container _ _ _ H) as Hc.
    destruct t1, t2; cbn [Evolve.widens] in H; try contradiction; try exact Hc.
    apply widens_container in H. exact H.
  Qed.

  Lemma resolve_short lenient prev lm : short_mode lm = true -> short_spec (resolve lenient prev lm).
  Proof. destruct lm as [|b|f|]; cbn; try discriminate; auto. destruct b; try discriminate; auto. Qed.

  Lemma wide_tys_upto l1 : Forall (fun t1 => forall short t2 l, widens short t1 t2 -> (short = true -> short_spec l) ->
      upto (decl l t1) (decl l t2)) l1 ->
    forall l2, wide_tys (widens true) l1 l2 -> upto (dtuple (decl len0) l1) (dtuple (decl len0) l2).
  Proof.
    induction 1 as [|t1 r1 Ht Hr IH]; intros [|t2 r2] Hw; cbn [wide_tys] in Hw; try contradiction; cbn [dtuple].
    - apply upto_refl.
    - destruct Hw as [H1 H2]. apply upto_bind; [apply (Ht true); [exact H1|intros; exact I]|]. intros v.
      apply upto_bind; [apply IH, H2|]. intros vs. apply upto_refl.
  Qed.

  Definition held (t1 : ty) : Prop := forall short t2 l, widens short t1 t2 -> (short = true -> short_spec l) ->
    upto (decl l t1) (decl l t2).

  Lemma wide_field_upto f1 f2 prev : held (snd f1) -> wide_field widens f1 f2 -> f_skip (fst f1) = false ->
    upto (dfield lim e e6 decl prev (fst f1) (snd f1)) (dfield lim e e6 decl prev (fst f2) (snd f2)).
  Proof.
    intros Hh [<- [H|Hw]] Hs; [congruence|]. unfold dfield.
    assert (Hb : upto (dbind (dconst (f_prefix (fst f1))) (fun _ => if f_varint (fst f1) then dec_scalar lim e e6 SVarint
        else decl (field_len (f_eof (fst f1)) prev (fst f1) (snd f1)) (snd f1)))
      (dbind (dconst (f_prefix (fst f1))) (fun _ => if f_varint (fst f1) then dec_scalar lim e e6 SVarint
        else decl (field_len (f_eof (fst f1)) prev (fst f1) (snd f2)) (snd f2)))).
    { apply upto_bind; [apply upto_refl|]. intros _. destruct (f_varint _); [apply upto_refl|].
      unfold field_len. rewrite <- (widens_sized _ (fst f1) _ _ Hw). eapply Hh; [exact Hw|].
      destruct (sized_field _ _); [apply resolve_short|intros; exact I]. }
    destruct (f_eof (fst f1)); [apply upto_catch, Hb|exact Hb].
  Qed.

  Lemma wide_fields_upto l1 : Forall (fun f => held (snd f)) l1 ->
    forall l2 prev, wide_fields widens l1 l2 -> upto (dfields lim e e6 decl prev l1) (dfields lim e e6 decl prev l2).
  Proof.
    induction 1 as [|f1 r1 Hf Hr IH]; intros [|f2 r2] prev Hw; cbn [wide_fields] in Hw; try contradiction; cbn [dfields].
    - apply upto_refl.
    - destruct Hw as [H1 H2]. rewrite <- (proj1 H1). destruct (f_skip (fst f1)) eqn:Es.
      + apply upto_map, IH, H2.
      + apply upto_bind; [rewrite (proj1 H1) at 2; apply wide_field_upto; assumption|]. intros v.
        apply upto_bind; [apply IH, H2|]. intros vs. apply upto_refl.
  Qed.

  Lemma wide_variants_upto tag l1 : Forall (fun v => Forall (fun f => held (snd f)) (snd v)) l1 ->
    forall l2 i, wide_variants (wide_fields widens) l1 l2 ->
    upto (dvariant lim e e6 decl tag i l1) (dvariant lim e e6 decl tag i l2).
  Proof.
    induction 1 as [|v1 r1 Hv Hr IH]; intros [|v2 r2] i Hw; cbn [wide_variants] in Hw; try contradiction; cbn [dvariant].
    - apply upto_refl.
    - intros o. right. right. exists true. reflexivity.
    - destruct Hw as (H1 & H2 & H3). rewrite <- H1. destruct (fst v1 =? tag); [|apply IH, H3].
      apply upto_map, wide_fields_upto; assumption.
  Qed.

  (** The new type is read as the old one is, unless there is a variant that the old one does
      not have. *)
  Theorem widens_upto t1 : held t1.
  Proof.
    induction t1 as [s|k|k t IH|t n IH|t n IH|t IH|ta tb IHa IHb|ts IH|i t IH|k t IH|k ta tb IHa IHb|t IH|d fs IH|d vs IH|]
      using ty_ind'; intros short t2 l Hw Hl; destruct t2; cbn [Evolve.widens] in Hw; try contradiction; cbn [Spec.decl].
    - subst. apply upto_refl.
    - subst. apply upto_refl.
    - destruct Hw as (_ & H1 & H2). assert (Hu : upto (decl len0 t) (decl len0 t2)) by (apply (IH true); [exact H1|intros; exact I]).
      apply upto_map, upto_len; [|apply upto_until, Hu]. intros n Hn.
      eapply upto_sized; [exact H2|exact Hl|exact Hn|]. apply upto_repeat, Hu.
    - destruct Hw as [<- H1]. apply upto_map, upto_repeat. apply (IH true); [exact H1|intros; exact I].
    - destruct Hw as [<- <-]. apply upto_refl.
    - apply upto_bind; [apply upto_refl|]. intros x. destruct (x =? 0); [apply upto_refl|]. apply upto_map, (IH short); assumption.
    - destruct Hw as [H1 H2]. apply upto_bind; [apply upto_refl|]. intros x.
      destruct (x =? 0); apply upto_map; [apply (IHb true)|apply (IHa true)]; try assumption; intros; exact I.
    - apply upto_map, wide_tys_upto; assumption.
    - destruct Hw as [<- H1]. assert (Hu : upto (decl len0 t) (decl len0 t2)) by (apply (IH true); [exact H1|intros; exact I]).
      apply upto_bind; [exact Hu|]. intros a. apply upto_bind; [exact Hu|]. intros b. apply upto_refl.
    - destruct Hw as [<- H1]. assert (Hu : upto (decl len0 t) (decl len0 t2)) by (apply (IH true); [exact H1|intros; exact I]).
      apply upto_bind; [|intros; apply upto_refl]. apply upto_len; [|apply upto_until, Hu]. intros n _. apply upto_repeat, Hu.
    - destruct Hw as (<- & H1 & H2).
      assert (Hu : upto (dpair (decl len0 ta) (decl len0 tb)) (dpair (decl len0 t2_1) (decl len0 t2_2))).
      { apply upto_bind; [apply (IHa true); [exact H1|intros; exact I]|]. intros a.
        apply upto_bind; [apply (IHb true); [exact H2|intros; exact I]|]. intros b. apply upto_refl. }
      apply upto_bind; [|intros; apply upto_refl]. apply upto_len; [|apply upto_until, Hu]. intros n _. apply upto_repeat, Hu.
    - apply (IH true); [exact Hw|intros; exact I].
    - apply upto_map, wide_fields_upto; assumption.
    - destruct Hw as [<- Hw]. apply upto_bind; [apply upto_refl|]. intros tag. apply wide_variants_upto; assumption.
    - apply upto_refl.
  Qed.
End Reading.

(* ------------------------------------------------------------------ *)
(** * Writing *)

Section Writing.
  Context (lim : limits) (it : list val -> list val) (e e6 : endian) (Hit : forall l, Permutation (it l) l).
  Notation enc := (enc it e e6).
  Notation widens := (widens lim).
  Notation valid := (valid lim).

  Definition alike (t1 : ty) : Prop := forall short t2 v l, widens short t1 t2 -> valid t1 v -> enc l t1 v = enc l t2 v.

  Lemma wide_fields_alike l1 : Forall (fun f => alike (snd f)) l1 ->
    forall l2 vs prev, wide_fields widens l1 l2 -> valid_fields valid l1 vs ->
    enc_fields e e6 enc prev l1 vs = enc_fields e e6 enc prev l2 vs.
  Proof.
    induction 1 as [|f1 r1 Hf Hr IH]; intros [|f2 r2] [|v vs] prev Hw Hv; cbn [wide_fields valid_fields] in Hw, Hv;
      try contradiction; cbn [enc_fields]; [reflexivity|].
    destruct Hw as [[<- H1] H2], Hv as [V1 V2]. destruct (f_skip (fst f1)) eqn:Es; [apply IH; assumption|].
    destruct H1 as [H1|H1]; [congruence|]. rewrite (IH r2) by assumption. f_equal. unfold enc_field. f_equal.
    destruct (f_varint (fst f1)); [reflexivity|]. unfold field_len. rewrite <- (widens_sized lim _ (fst f1) _ _ H1).
    eapply Hf; eassumption.
  Qed.

  (** Both types are written alike as far as both have the value. *)
  Theorem widens_alike t1 : alike t1.
  Proof.
    induction t1 as [s|k|k t IH|t n IH|t n IH|t IH|ta tb IHa IHb|ts IH|i t IH|k t IH|k ta tb IHa IHb|t IH|d fs IH|d vs IH|]
      using ty_ind'; intros short t2 v l Hw Hv; destruct t2; cbn [Evolve.widens] in Hw; try contradiction; cbn [Spec.enc].
    - subst. reflexivity.
    - reflexivity.
    - destruct Hw as (_ & H1 & _). destruct v; try reflexivity. destruct Hv as [Hv _]. f_equal. apply enc_all_ext.
      revert Hv. apply Forall_impl. intros v Hv. apply (IH true); assumption.
    - destruct Hw as [<- H1]. destruct v; try reflexivity. destruct Hv as [Hv _]. apply enc_all_ext.
      revert Hv. apply Forall_impl. intros v Hv. apply (IH true); assumption.
    - destruct Hw as [<- <-]. reflexivity.
    - destruct v; try reflexivity. f_equal. apply (IH short); assumption.
    - destruct Hw as [H1 H2]. destruct v; try reflexivity; f_equal; [apply (IHa true)|apply (IHb true)]; assumption.
    - destruct v; try reflexivity. cbn [Spec.valid] in Hv. revert ts0 vs Hw Hv.
      induction IH as [|t1 r1 Ht Hr IHr]; intros [|t2 r2] [|v vs] Hw Hv; cbn [wide_tys valid_list] in Hw, Hv;
        try contradiction; cbn [enc_tuple]; [reflexivity|].
      destruct Hw as [H1 H2], Hv as [V1 V2]. f_equal; [apply (Ht true); assumption|apply IHr; assumption].
    - destruct Hw as [<- H1]. destruct v as [| | | |[|a [|b r]]| | | | |]; try reflexivity.
      assert (valid t a /\ valid t b) as [Ha Hb].
      { destruct i; cbn [Spec.valid] in Hv; destruct r as [|x r]; try contradiction.
        - destruct x; try contradiction. destruct r; [exact Hv|contradiction].
        - exact Hv. }
      f_equal; apply (IH true); assumption.
    - destruct Hw as [<- H1]. destruct v; try reflexivity. destruct Hv as [Hv _]. f_equal. apply enc_all_ext.
      eapply Permutation_Forall; [symmetry; apply iter_order_perm, Hit|].
      revert Hv. apply Forall_impl. intros v Hv. apply (IH true); assumption.
    - destruct Hw as (<- & H1 & H2). destruct v; try reflexivity. destruct Hv as [Hv _]. f_equal. apply enc_all_ext.
      eapply Permutation_Forall; [symmetry; apply iter_order_perm, Hit|].
      revert Hv. apply Forall_impl. intros v Hv. destruct v as [| | | |[|a [|b [|]]]| | | | |]; try contradiction.
      destruct Hv as [Va Vb]. cbn [enc_pair]. f_equal; [apply (IHa true)|apply (IHb true)]; assumption.
    - apply (IH true); [exact Hw|]. destruct v; exact Hv.
    - destruct v; try reflexivity. apply wide_fields_alike; [exact IH|exact Hw|exact Hv].
    - destruct Hw as [<- Hw]. destruct v as [| | | | | | | | |i us]; try reflexivity. cbn [Spec.valid] in Hv.
      revert vs0 i Hw Hv. induction IH as [|v1 r1 Hf Hr IHr]; intros [|v2 r2] i Hw Hv; cbn [wide_variants] in Hw; try contradiction.
      destruct Hw as (H1 & H2 & H3). destruct i as [|i]; cbn [valid_variant] in Hv; cbn [enc_variant].
      + rewrite H1. f_equal. apply wide_fields_alike; assumption.
      + apply IHr; assumption.
  Qed.
End Writing.

(* ------------------------------------------------------------------ *)
(** * New fields at the end *)

Definition in_some (f : val -> val) (v : val) : val := match v with VSome u => VSome (f u) | _ => v end.
Definition in_seq (f : list val -> list val) (v : val) : val := match v with VSeq vs => VSeq (f vs) | _ => v end.
Definition in_var (fs : list (list val -> list val)) (v : val) : val :=
  match v with VVar i us => VVar i (nth i fs (fun us => us) us) | _ => v end.
Definition keep_head (f : list val -> list val) (vs : list val) : list val :=
  match vs with v :: r => v :: f r | [] => [] end.

Section Extends.
  Context (lim : limits).
  Notation widens := (widens lim).

  (** Fields that have their defaults if the input has ended. *)
  Definition optional (gs : fields) : Prop := forall prev, all_fall_back lim prev gs.

  (** [extends t1 t2 up down]: a later version [t2] of the type [t1] has new variants, and
      new optional fields at the very end of what is read.  [up] gives a value of [t1] the defaults of
      the new fields, [down] forgets these fields. *)
  Inductive extends : ty -> ty -> (val -> val) -> (val -> val) -> Prop :=
  | ex_same t1 t2 : widens true t1 t2 -> extends t1 t2 (fun v => v) (fun v => v)
  | ex_box t1 t2 up down : extends t1 t2 up down -> extends (TBox t1) (TBox t2) up down
  | ex_option t1 t2 up down : extends t1 t2 up down -> extends (TOption t1) (TOption t2) (in_some up) (in_some down)
  | ex_struct d1 d2 fs1 fs2 up down : ext_fields fs1 fs2 up down ->
      extends (TStruct d1 fs1) (TStruct d2 fs2) (in_seq up) (in_seq down)
  | ex_enum d vs1 vs2 up down : ext_variants vs1 vs2 up down ->
      extends (TEnum d vs1) (TEnum d vs2) (in_var up) (in_var down)
  with ext_fields : fields -> fields -> (list val -> list val) -> (list val -> list val) -> Prop :=
  | ef_new gs : optional gs -> ext_fields [] gs (fun _ => defaults gs) (fun _ => [])
  | ef_next f1 f2 r1 r2 up down : wide_field widens f1 f2 -> ext_fields r1 r2 up down ->
      ext_fields (f1 :: r1) (f2 :: r2) (keep_head up) (keep_head down)
  | ef_last a t1 t2 gs up down : f_skip a = false -> f_eof a = false -> f_varint a = false ->
      sized_field a t1 = false -> sized_field a t2 = false -> extends t1 t2 up down -> optional gs ->
      ext_fields [(a, t1)] ((a, t2) :: gs)
        (fun vs => match vs with v :: _ => up v :: defaults gs | [] => [] end)
        (fun vs => match vs with v :: _ => [down v] | [] => [] end)
  with ext_variants : list (N * fields) -> list (N * fields) ->
      list (list val -> list val) -> list (list val -> list val) -> Prop :=
  | ev_new vs2 : ext_variants [] vs2 [] []
  | ev_next tag fs1 fs2 r1 r2 up down ups downs : ext_fields fs1 fs2 up down -> ext_variants r1 r2 ups downs ->
      ext_variants ((tag, fs1) :: r1) ((tag, fs2) :: r2) (up :: ups) (down :: downs).

  Scheme extends_min := Minimality for extends Sort Prop
    with ext_fields_min := Minimality for ext_fields Sort Prop
    with ext_variants_min := Minimality for ext_variants Sort Prop.
  Combined Scheme extends_mut from extends_min, ext_fields_min, ext_variants_min.

  Context (e e6 : endian) (Hfits0 : forall t, l_fits lim t 0 = true).
  Notation decl := (decl lim e e6).

  (** The new program reads what the old one read to the end. *)
  Theorem extends_forward :
    (forall t1 t2 up down, extends t1 t2 up down -> forall l o v, short_spec l ->
       decl l t1 o = DOk v (Some []) -> decl l t2 o = DOk (up v) (Some []))
    /\ (forall fs1 fs2 up down, ext_fields fs1 fs2 up down -> forall prev o vs,
       dfields lim e e6 decl prev fs1 o = DOk vs (Some []) -> dfields lim e e6 decl prev fs2 o = DOk (up vs) (Some []))
    /\ (forall vs1 vs2 ups downs, ext_variants vs1 vs2 ups downs -> forall tag k o v,
       dvariant lim e e6 decl tag k vs1 o = DOk v (Some []) ->
       exists i us, v = VVar (k + i) us
         /\ dvariant lim e e6 decl tag k vs2 o = DOk (VVar (k + i) (nth i ups (fun us => us) us)) (Some [])).
  Proof.
    apply extends_mut.
    - intros t1 t2 Hw l o v Hl E. destruct (widens_upto lim e e6 t1 true t2 l Hw (fun _ => Hl) o) as [E'|[E'|[s E']]].
      + rewrite <- E'. exact E.
      + rewrite E' in E. discriminate.
      + rewrite E' in E. discriminate.
    - intros t1 t2 up down _ IH l o v Hl E. cbn [Spec.decl] in *. apply IH; [exact I|exact E].
    - intros t1 t2 up down _ IH l o v Hl E. cbn [Spec.decl] in *. unfold dbind in *.
      destruct (dword e 1 o) as [n o'| | | |]; try discriminate. destruct (n =? 0); [injection E as <- ->; reflexivity|].
      unfold dmap, dbind in *. destruct (decl l t1 o') as [u o''| | | |] eqn:E1; try discriminate. injection E as <- ->.
      rewrite (IH _ _ _ Hl E1). reflexivity.
    - intros d1 d2 fs1 fs2 up down _ IH l o v Hl E. cbn [Spec.decl] in *. unfold dmap, dbind in *.
      destruct (dfields lim e e6 decl [] fs1 o) as [u o''| | | |] eqn:E1; try discriminate. injection E as <- ->.
      rewrite (IH _ _ _ E1). reflexivity.
    - intros d vs1 vs2 ups downs _ IH l o v Hl E. cbn [Spec.decl] in *. unfold dbind in *.
      destruct ((if e_peek d then dpeek (dbasic e (e_tag d)) else dbasic e (e_tag d)) o) as [n o'| | | |]; try discriminate.
      destruct (IH _ _ _ _ E) as (i & us & -> & E2). exact E2.
    - intros gs Hg prev o vs E. injection E as <- ->. apply all_fall_back_fields; [exact Hfits0|apply Hg].
    - intros f1 f2 r1 r2 up down Hf _ IH prev o vs E. cbn [dfields] in *. rewrite <- (proj1 Hf).
      destruct (f_skip (fst f1)) eqn:Es.
      + unfold dmap, dbind in *. destruct (dfields lim e e6 decl prev r1 o) as [u o''| | | |] eqn:E1; try discriminate.
        injection E as <- ->. rewrite (IH _ _ _ E1). reflexivity.
      + unfold dbind in *.
        destruct (wide_field_upto lim e e6 f1 f2 prev (widens_upto lim e e6 (snd f1)) Hf Es o) as [E'|[E'|[s E']]];
          [|rewrite E' in E; discriminate|rewrite E' in E; discriminate].
        rewrite (proj1 Hf) at 1. rewrite <- E'. destruct (dfield lim e e6 decl prev (fst f1) (snd f1) o) as [v o'| | | |]; try discriminate.
        destruct (dfields lim e e6 decl (prev ++ [proj v]) r1 o') as [u o''| | | |] eqn:E1; try discriminate.
        injection E as <- ->. rewrite (IH _ _ _ E1). reflexivity.
    - intros a t1 t2 gs up down Hs He Hv Hz1 Hz2 _ IH Hg prev o vs E. cbn [dfields fst snd] in *. rewrite Hs in *.
      unfold dfield in *. rewrite He, Hv in *. unfold field_len in *. rewrite Hz1 in E. rewrite Hz2. unfold dbind in *.
      destruct (dconst (f_prefix a) o) as [[] o'| | | |]; try discriminate.
      destruct (decl len0 t1 o') as [v o''| | | |] eqn:E1; try discriminate. injection E as <- ->.
      rewrite (IH len0 _ _ I E1). rewrite all_fall_back_fields; [reflexivity|exact Hfits0|apply Hg].
    - intros vs2 tag k o v E. discriminate.
    - intros tag' fs1 fs2 r1 r2 up down ups downs _ IHf _ IHv tag k o v E. cbn [dvariant fst snd] in *.
      destruct (tag' =? tag).
      + unfold dmap, dbind in *. destruct (dfields lim e e6 decl [] fs1 o) as [u o''| | | |] eqn:E1; try discriminate.
        injection E as <- ->. exists 0%nat, u. rewrite Nat.add_0_r. split; [reflexivity|]. rewrite (IHf _ _ _ E1). reflexivity.
      + destruct (IHv _ _ _ _ E) as (i & us & -> & E2). exists (S i), us. rewrite Nat.add_succ_r. split; [reflexivity|exact E2].
  Qed.

  (** The old program reads what the new one reads, without the new fields, or meets a new variant. *)
  Theorem extends_backward :
    (forall t1 t2 up down, extends t1 t2 up down -> forall l o v o', short_spec l ->
       decl l t2 o = DOk v o' -> (exists o1, decl l t1 o = DOk (down v) o1) \/ odd (decl l t1 o))
    /\ (forall fs1 fs2 up down, ext_fields fs1 fs2 up down -> forall prev o vs o',
       dfields lim e e6 decl prev fs2 o = DOk vs o' ->
       (exists o1, dfields lim e e6 decl prev fs1 o = DOk (down vs) o1) \/ odd (dfields lim e e6 decl prev fs1 o))
    /\ (forall vs1 vs2 ups downs, ext_variants vs1 vs2 ups downs -> forall tag k o v o',
       dvariant lim e e6 decl tag k vs2 o = DOk v o' ->
       (exists i us o1, v = VVar (k + i) us
         /\ dvariant lim e e6 decl tag k vs1 o = DOk (VVar (k + i) (nth i downs (fun us => us) us)) o1)
       \/ odd (dvariant lim e e6 decl tag k vs1 o)).
  Proof.
    apply extends_mut.
    - intros t1 t2 Hw l o v o' Hl E. destruct (widens_upto lim e e6 t1 true t2 l Hw (fun _ => Hl) o) as [E'|E'].
      + left. rewrite E'. eauto.
      + right. exact E'.
    - intros t1 t2 up down _ IH l o v o' Hl E. cbn [Spec.decl] in *. eapply IH; [exact I|exact E].
    - intros t1 t2 up down _ IH l o v o' Hl E. cbn [Spec.decl] in *. unfold dbind in *.
      destruct (dword e 1 o) as [n o1| | | |]; try discriminate. destruct (n =? 0); [injection E as <- ->; left; eexists; reflexivity|].
      unfold dmap, dbind in *. destruct (decl l t2 o1) as [u o2| | | |] eqn:E1; try discriminate. injection E as <- ->.
      destruct (IH _ _ _ _ Hl E1) as [[o3 ->]|[-> |[s ->]]]; [left; eexists; reflexivity|right; left; reflexivity|right; right; eauto].
    - intros d1 d2 fs1 fs2 up down _ IH l o v o' Hl E. cbn [Spec.decl] in *. unfold dmap, dbind in *.
      destruct (dfields lim e e6 decl [] fs2 o) as [u o2| | | |] eqn:E1; try discriminate. injection E as <- ->.
      destruct (IH _ _ _ _ E1) as [[o3 ->]|[-> |[s ->]]]; [left; eexists; reflexivity|right; left; reflexivity|right; right; eauto].
    - intros d vs1 vs2 ups downs _ IH l o v o' Hl E. cbn [Spec.decl] in *. unfold dbind in *.
      destruct ((if e_peek d then dpeek (dbasic e (e_tag d)) else dbasic e (e_tag d)) o) as [n o1| | | |]; try discriminate.
      destruct (IH _ _ _ _ _ E) as [(i & us & o3 & -> & E2)|H]; [left|right; exact H]. exists o3. exact E2.
    - intros gs Hg prev o vs o' E. left. eexists. reflexivity.
    - intros f1 f2 r1 r2 up down Hf _ IH prev o vs o' E. cbn [dfields] in *. rewrite <- (proj1 Hf) in E.
      destruct (f_skip (fst f1)) eqn:Es.
      + unfold dmap, dbind in *. destruct (dfields lim e e6 decl prev r2 o) as [u o2| | | |] eqn:E1; try discriminate.
        injection E as <- ->.
        destruct (IH _ _ _ _ E1) as [[o3 ->]|[-> |[s ->]]]; [left; eexists; reflexivity|right; left; reflexivity|right; right; eauto].
      + unfold dbind in *.
        destruct (wide_field_upto lim e e6 f1 f2 prev (widens_upto lim e e6 (snd f1)) Hf Es o) as [E'|[E'|[s E']]];
          rewrite E'; [|right; left; reflexivity|right; right; eauto].
        rewrite (proj1 Hf) in E at 1. destruct (dfield lim e e6 decl prev (fst f2) (snd f2) o) as [v o2| | | |]; try discriminate.
        destruct (dfields lim e e6 decl (prev ++ [proj v]) r2 o2) as [u o3| | | |] eqn:E1; try discriminate.
        injection E as <- ->.
        destruct (IH _ _ _ _ E1) as [[o4 ->]|[-> |[s ->]]]; [left; eexists; reflexivity|right; left; reflexivity|right; right; eauto].
    - intros a t1 t2 gs up down Hs He Hv Hz1 Hz2 _ IH Hg prev o vs o' E. cbn [dfields fst snd] in *. rewrite Hs in *.
      unfold dfield in *. rewrite He, Hv in *. unfold field_len in *. rewrite Hz2 in E. rewrite Hz1. unfold dbind in *.
      destruct (dconst (f_prefix a) o) as [[] o1| | | |]; try discriminate.
      destruct (decl len0 t2 o1) as [v o2| | | |] eqn:E1; try discriminate.
      destruct (dfields lim e e6 decl (prev ++ [proj v]) gs o2) as [u o3| | | |] eqn:E2; try discriminate. injection E as <- ->.
      destruct (IH len0 _ _ _ I E1) as [[o4 ->]|[-> |[s ->]]]; [left; eexists; reflexivity|right; left; reflexivity|right; right; eauto].
    - intros vs2 tag k o v o' E. right. right. exists true. reflexivity.
    - intros tag' fs1 fs2 r1 r2 up down ups downs _ IHf _ IHv tag k o v o' E. cbn [dvariant fst snd] in *.
      destruct (tag' =? tag).
      + unfold dmap, dbind in *. destruct (dfields lim e e6 decl [] fs2 o) as [u o2| | | |] eqn:E1; try discriminate.
        injection E as <- ->.
        destruct (IHf _ _ _ _ E1) as [[o4 ->]|[-> |[s ->]]]; [left|right; left; reflexivity|right; right; eauto].
        exists 0%nat, u, o4. rewrite Nat.add_0_r. split; reflexivity.
      + destruct (IHv _ _ _ _ _ E) as [(i & us & o1 & -> & E2)|H]; [left|right; exact H].
        exists (S i), us, o1. rewrite Nat.add_succ_r. split; [reflexivity|exact E2].
  Qed.

  (** What the new program writes begins with what the old one would write, if it has the variants. *)
  Context (it : list val -> list val) (Hit : forall l, Permutation (it l) l).
  Notation enc := (enc it e e6).
  Notation valid := (valid lim).

  Theorem extends_written :
    (forall t1 t2 up down, extends t1 t2 up down -> forall l v b,
       enc l t2 v = Ok b -> valid t1 (down v) -> exists b1 new, enc l t1 (down v) = Ok b1 /\ b = b1 ++ new)
    /\ (forall fs1 fs2 up down, ext_fields fs1 fs2 up down -> forall prev vs b,
       enc_fields e e6 enc prev fs2 vs = Ok b -> valid_fields valid fs1 (down vs) ->
       exists b1 new, enc_fields e e6 enc prev fs1 (down vs) = Ok b1 /\ b = b1 ++ new)
    /\ (forall vs1 vs2 ups downs, ext_variants vs1 vs2 ups downs -> forall d i us b,
       enc_variant e e6 d enc vs2 i us = Ok b -> valid_variant valid vs1 i (nth i downs (fun us => us) us) ->
       exists b1 new, enc_variant e e6 d enc vs1 i (nth i downs (fun us => us) us) = Ok b1 /\ b = b1 ++ new).
  Proof.
    apply extends_mut.
    - intros t1 t2 Hw l v b E Hv. exists b, []. rewrite app_nil_r. split; [|reflexivity].
      rewrite (widens_alike lim it e e6 Hit t1 true t2 v l Hw Hv). exact E.
    - intros t1 t2 up down _ IH l v b E Hv. cbn [Spec.enc] in *. apply (IH len0); [destruct v; exact E|].
      cbn [Spec.valid] in Hv. destruct (down v); exact Hv.
    - intros t1 t2 up down _ IH l v b E Hv. destruct v; try discriminate; cbn [in_some Spec.enc Spec.valid] in *.
      + exists b, []. rewrite app_nil_r. auto.
      + apply rapp_ok in E as (b0 & b2 & E0 & E2 & ->). injection E0 as <-.
        destruct (IH _ _ _ E2 Hv) as (b1 & new & -> & ->). exists ([x01] ++ b1), new. split; [reflexivity|]. apply app_assoc.
    - intros d1 d2 fs1 fs2 up down _ IH l v b E Hv. destruct v; try discriminate. cbn [in_seq Spec.enc Spec.valid] in *.
      apply IH; assumption.
    - intros d vs1 vs2 ups downs _ IH l v b E Hv. destruct v; try discriminate. cbn [in_var Spec.enc Spec.valid] in *.
      apply IH; assumption.
    - intros gs Hg prev vs b E _. exists [], b. split; reflexivity.
    - intros f1 f2 r1 r2 up down Hf _ IH prev vs b E Hv. destruct vs as [|v vs]; [discriminate|].
      cbn [keep_head enc_fields valid_fields] in *. destruct Hv as [V1 V2]. destruct Hf as [Ha Hf]. rewrite <- Ha in E.
      destruct (f_skip (fst f1)) eqn:Es; [apply IH; assumption|]. destruct Hf as [Hf|Hf]; [congruence|].
      apply rapp_ok in E as (b0 & b2 & E0 & E2 & ->). destruct (IH _ _ _ E2 V2) as (b1 & new & -> & ->).
      exists (b0 ++ b1), new. rewrite <- app_assoc. split; [|reflexivity].
      replace (enc_field e e6 enc prev (fst f1) (snd f1) v) with (Ok b0); [reflexivity|].
      rewrite <- E0. unfold enc_field. f_equal. destruct (f_varint (fst f1)); [reflexivity|].
      unfold field_len. rewrite (widens_sized lim _ (fst f1) _ _ Hf). symmetry.
      eapply (widens_alike lim it e e6 Hit); eassumption.
    - intros a t1 t2 gs up down Hs He Hv Hz1 Hz2 _ IH Hg prev vs b E Hval. destruct vs as [|v vs]; [discriminate|].
      cbn [enc_fields valid_fields fst snd] in *. destruct Hval as [V1 _]. rewrite Hs in *.
      apply rapp_ok in E as (b0 & b2 & E0 & E2 & ->). unfold enc_field in *. rewrite Hv in *. unfold field_len in *.
      rewrite Hz2 in E0. rewrite Hz1. destruct (enc len0 t2 v) as [bv|er|f] eqn:E1; try discriminate. injection E0 as <-.
      destruct (IH _ _ _ E1 V1) as (b1 & new & -> & ->). exists (f_prefix a ++ b1), (new ++ b2).
      cbn [rmap]. split; [unfold rapp, rbind, rmap; rewrite app_nil_r; reflexivity|]. rewrite <- !app_assoc. reflexivity.
    - intros vs2 d i us b _ [].
    - intros tag fs1 fs2 r1 r2 up down ups downs _ IHf _ IHv d i us b E Hv. destruct i as [|i]; cbn [nth enc_variant valid_variant fst snd] in *.
      + destruct (enc_fields e e6 enc [] fs2 us) as [bf|er|f] eqn:E1; try discriminate. injection E as <-.
        destruct (IHf _ _ _ E1 Hv) as (b1 & new & -> & ->). cbn [rmap]. eexists _, new. split; [reflexivity|].
        rewrite <- app_assoc. reflexivity.
      + apply IHv; assumption.
  Qed.
End Extends.
