(* C61: writing a value never panics, except in a length expression. *)
From Verif Require Import WriteApi StructFacts Hosts Samples PropWrite.

(** The length expressions of [t] have a value whatever the fields before them
    contain. *)
Section Total.
  Context (lim : limits).

  Definition total_len (pre : fields) (lm : lenmode) : Prop :=
    match lm with
    | LExpr g => forall us, valid_fields (valid lim) pre us -> g (visible pre us) <> None
    | _ => True
    end.

  Definition total_fields (tl : ty -> Prop) : fields -> fields -> Prop :=
    fix go (pre fs : fields) {struct fs} : Prop :=
      match fs with
      | [] => True
      | f :: r => (f_skip (fst f) = true \/ (total_len pre (f_len (fst f)) /\ tl (snd f))) /\ go (pre ++ [f]) r
      end.

  Fixpoint total_lens (t : ty) : Prop :=
    match t with
    | TScalar _ | TStr _ | TBot => True
    | TSeq _ t' | TArr t' _ | TRefArr t' _ | TOption t' | TRange _ t' | TSet _ t' | TBox t' => total_lens t'
    | TResult t1 t2 => total_lens t1 /\ total_lens t2
    | TMap _ t1 t2 => total_lens t1 /\ total_lens t2
    | TTuple ts => all_tys total_lens ts
    | TStruct _ fs => total_fields total_lens [] fs
    | TEnum _ vs => all_variants (total_fields total_lens []) vs
    end.
End Total.

(** No list in [v] is as long as what the crate takes for impossible. *)
Definition all_vals (P : val -> Prop) : list val -> Prop :=
  fix go (l : list val) : Prop := match l with [] => True | v :: r => P v /\ go r end.

Fixpoint modest (v : val) : Prop :=
  match v with
  | VBytes b => nlen b < 2 ^ 63 - 1
  | VSeq vs => nlen vs < 2 ^ 63 - 1 /\ all_vals modest vs
  | VSome u | VOk u | VErr u => modest u
  | VVar _ us => all_vals modest us
  | _ => True
  end.

Lemma all_vals_forall P vs : all_vals P vs <-> Forall P vs.
Proof.
  induction vs as [|v vs IH]; [split; constructor|]. cbn. rewrite IH. split; [intros []; constructor; auto|].
  intros H; inversion H; auto.
Qed.

(* ------------------------------------------------------------------ *)
(** * The wire format *)

Definition raises {A} (Q : fault -> Prop) (x : res A) : Prop := forall f, x = Fault f -> Q f.

Lemma raises_app Q x y : raises Q x -> raises Q y -> raises Q (rapp x y).
Proof.
  unfold raises. intros Hx Hy f. destruct x as [b|er|g]; cbn; [|discriminate|intros E; apply Hx; congruence].
  destruct y as [c|er|g]; cbn; [discriminate|discriminate|intros E; apply Hy; congruence].
Qed.

Lemma raises_ok {A} Q (x : A) : raises Q (Ok x).
Proof. intros f; discriminate. Qed.

Lemma raises_rmap {A B} Q (g : A -> B) x : raises Q x -> raises Q (rmap g x).
Proof. unfold raises. intros H f. destruct x; cbn; try discriminate. intros E; apply H; congruence. Qed.

Lemma raises_all {A} Q (g : val -> res A) vs : Forall (fun v => raises Q (g v)) vs -> raises Q (rmapM g vs).
Proof.
  induction 1 as [|v vs H _ IH]; [apply raises_ok|]. cbn [rmapM].
  intros f. unfold raises in *. destruct (g v) as [x|er|k]; cbn; [|discriminate|intros E; apply H; congruence].
  intros E. apply IH. destruct (rmapM g vs); cbn in E; congruence.
Qed.

Section Enc.
  Context (lim : limits) (it : list val -> list val) (e e6 : endian) (Q : fault -> Prop).
  Context (Hit : forall l, Permutation (it l) l).

  (** Either no length expression fails, or it may. *)
  Definition may (t : ty) : Prop := Q PanicOverflow \/ total_lens lim t.

  Lemma enc_scalar_raises s v : valid_scalar lim s v -> raises Q (enc_scalar e e6 s v).
  Proof.
    intros Hv f. destruct s; destruct v as [|bo|z|b|vs| | | | |i us]; try contradiction; cbn [enc_scalar] in *;
      try discriminate.
    - destruct us; [discriminate|contradiction].
    - destruct i as [|[|i]]; try contradiction; destruct us as [|[] [|]]; try contradiction; discriminate.
    - destruct vs as [|[] [|[] [|]]]; try contradiction. discriminate.
    - destruct vs as [|[] [|[] [|]]]; try contradiction. destruct (_ <? 0)%Z; discriminate.
    - destruct vs as [|[] [|[] [|]]]; try contradiction. discriminate.
    - destruct Hv as [_ Hv]. revert f. apply (raises_rmap Q). apply raises_all. revert Hv. apply Forall_impl.
      intros [] Hz; try contradiction. apply raises_ok.
  Qed.

  Definition fine_len (l : lenspec) : Prop := l = LenFixed None -> Q PanicOverflow.

  Lemma enc_len_raises l n : fine_len l -> raises Q (enc_len e l n).
  Proof.
    intros H f. destruct l as [b le|[m|]|]; cbn; try discriminate.
    - destruct (_ <=? _); discriminate.
    - destruct (_ =? _); discriminate.
    - intros E. injection E as <-. apply H. reflexivity.
  Qed.

  Lemma enc_all_raises g vs : Forall (fun v => raises Q (g v)) vs -> raises Q (enc_all g vs).
  Proof. intros H. apply raises_rmap, raises_all, H. Qed.

  Lemma iter_perm k vs : Permutation (iter_order it k vs) vs.
  Proof. destruct k; cbn; auto. Qed.

  Definition goal (t : ty) : Prop := forall l v, fine_len l -> may t -> valid lim t v -> raises Q (enc it e e6 l t v).

  Lemma fine0 : fine_len len0.
  Proof. discriminate. Qed.
  Hint Resolve fine0 : core.

  Lemma visible_snoc fs vs f v : length fs = length vs ->
    visible (fs ++ [f]) (vs ++ [v]) = visible fs vs ++ (if f_skip (fst f) then [] else [proj v]).
  Proof.
    revert vs. induction fs as [|g fs IH]; intros [|u vs] Hl; try discriminate; cbn [app visible].
    - rewrite app_nil_r. reflexivity.
    - rewrite IH by (injection Hl as Hl; exact Hl). rewrite app_assoc. reflexivity.
  Qed.

  Lemma valid_snoc fs vs f v : valid_fields (valid lim) fs vs -> valid lim (snd f) v ->
    length fs = length vs /\ valid_fields (valid lim) (fs ++ [f]) (vs ++ [v]).
  Proof.
    revert vs. induction fs as [|g fs IH]; intros [|u vs] Hl Hv; try contradiction; cbn [app valid_fields length] in *.
    - auto.
    - destruct Hl as [Hu Hl]. destruct (IH vs Hl Hv) as [E H]. auto.
  Qed.

  Lemma enc_fields_raises h fs : Forall (fun f => wsup h (snd f) -> goal (snd f)) fs ->
    all_fields (wsup_field (wsup h)) fs -> forall pre us vs,
    Q PanicOverflow \/ total_fields lim (total_lens lim) pre fs ->
    valid_fields (valid lim) pre us -> valid_fields (valid lim) fs vs ->
    raises Q (enc_fields e e6 (enc it e e6) (visible pre us) fs vs).
  Proof.
    induction 1 as [|[a t] fs Hf _ IH]; intros Hs pre us [|v vs] Hm Hu Hv; cbn [valid_fields] in Hv; try contradiction.
    - apply raises_ok.
    - destruct Hs as [Ha Hs]. destruct Hv as [Hv Hvs]. cbn [enc_fields fst snd] in *.
      assert (Hm' : Q PanicOverflow \/ total_fields lim (total_lens lim) (pre ++ [(a, t)]) fs) by (destruct Hm as [Hm|[_ Hm]]; auto).
      destruct (valid_snoc pre us (a, t) v Hu Hv) as [Hl Hu'].
      pose proof (visible_snoc pre us (a, t) v Hl) as Ev. cbn [fst snd] in *.
      specialize (IH Hs (pre ++ [(a, t)]) (us ++ [v]) vs Hm' Hu' Hvs). rewrite Ev in IH. clear Ev.
      destruct (f_skip a) eqn:Esk; [rewrite app_nil_r in IH; exact IH|]. apply raises_app; [|exact IH].
      unfold enc_field. apply raises_rmap. destruct (f_varint a) eqn:Ev.
      + destruct Ha as [Ha|[Ha _]]; [congruence|]. destruct (Ha Ev) as [_ Et]. rewrite Et in Hv.
        destruct v; try contradiction. apply raises_ok.
      + apply Hf; [destruct Ha as [Ha|[_ Ha]]; [congruence|exact Ha]| |destruct Hm as [Hm|[[Hm|[_ Hm]] _]]; [left; exact Hm|cbn in Hm; congruence|right; exact Hm]|exact Hv].
        intros E. unfold field_len in E. destruct (sized_field a t); [|discriminate].
        destruct Hm as [Hm|[[Hm|[Hm _]] _]]; [exact Hm|cbn in Hm; congruence|].
        cbn in Hm. unfold total_len in Hm. destruct (f_len a) as [| |g|]; cbn in E; try discriminate.
        exfalso. apply (Hm us Hu). congruence.
  Qed.

  Lemma enc_raises h t : wsup h t -> goal t.
  Proof.
    induction t as [s|k|k t IH|t n IH|t n IH|t IH|t1 t2 IH1 IH2|ts IH|i t IH|k t IH|k tk tv IHk IHv|t IH|d fs IH|d vs IH|]
      using ty_ind'; cbn [wsup]; intros Hs l v Hl Hm Hv; unfold may in Hm; cbn [total_lens] in Hm.
    - destruct v; apply enc_scalar_raises, Hv.
    - destruct v; try contradiction. cbn [enc]. apply raises_app; [apply enc_len_raises, Hl|apply raises_ok].
    - destruct v; try contradiction. destruct Hs as [_ Hs]. destruct Hv as [Hv _]. cbn [enc].
      apply raises_app; [apply enc_len_raises, Hl|]. apply enc_all_raises. revert Hv. apply Forall_impl.
      intros v Hv. apply IH; auto.
    - destruct v; try contradiction. destruct Hs as [_ Hs]. destruct Hv as [Hv _]. cbn [enc].
      apply enc_all_raises. revert Hv. apply Forall_impl. intros v Hv. apply IH; auto.
    - destruct v; try contradiction. destruct Hv as [Hv _]. cbn [enc].
      apply enc_all_raises. revert Hv. apply Forall_impl. intros v Hv. apply IH; auto.
    - destruct v; try contradiction; cbn [enc]; [apply raises_ok|]. apply raises_app; [apply raises_ok|]. apply IH; auto.
    - destruct Hs as [Hs1 Hs2].
      destruct v; try contradiction; cbn [enc]; (apply raises_app; [apply raises_ok|]); [apply IH1|apply IH2]; auto; unfold may; tauto.
    - destruct v; try contradiction. cbn [enc]. cbn [valid] in Hv. revert vs Hv.
      induction IH as [|t ts IHt _ IHts]; intros [|v vs] Hv; cbn [valid_list] in Hv; try contradiction; cbn [enc_tuple].
      + apply raises_ok.
      + destruct Hs as [Hs1 Hs2]. destruct Hv as [Hv1 Hv2].
        apply raises_app; [apply IHt; auto|apply IHts; auto]; destruct Hm as [Hm|Hm]; try (left; exact Hm); right; apply Hm.
    - destruct i; destruct v as [| | | |[|a [|b [|[] [|]]]]| | | | |]; try contradiction; cbn [enc];
        (apply raises_app; apply IH; auto; apply Hv).
    - destruct v; try contradiction. destruct Hv as (Hv & _). cbn [enc].
      apply raises_app; [apply enc_len_raises, Hl|]. apply enc_all_raises.
      eapply Permutation_Forall; [symmetry; apply iter_perm|]. revert Hv. apply Forall_impl. intros v Hv. apply IH; auto.
    - destruct v; try contradiction. destruct Hv as (Hv & _). destruct Hs as [Hs1 Hs2]. cbn [enc].
      apply raises_app; [apply enc_len_raises, Hl|]. apply enc_all_raises.
      eapply Permutation_Forall; [symmetry; apply iter_perm|]. revert Hv. apply Forall_impl.
      intros [| | | |[|a [|b [|]]]| | | | |] Hv; try contradiction. destruct Hv as [Hv1 Hv2]. cbn [enc_pair].
      apply raises_app; [apply IHk|apply IHv]; auto; unfold may; tauto.
    - cbn [enc]. destruct v; apply IH; auto.
    - destruct v; try contradiction. cbn [enc]. apply (enc_fields_raises h fs IH Hs [] []); auto; exact I.
    - destruct v as [| | | | | | | | |i us]; try contradiction. cbn [enc]. cbn [valid] in Hv. destruct Hs as [_ Hs].
      revert i Hv. induction IH as [|[tag fs] vs IHf _ IHvs]; intros [|i] Hv; cbn [valid_variant] in Hv; try contradiction;
        cbn [enc_variant]; destruct Hs as [Hs1 Hs2].
      + apply raises_rmap, (enc_fields_raises h fs IHf Hs1 [] []); [|exact I|exact Hv]. destruct Hm as [Hm|[Hm _]]; auto.
      + apply IHvs; auto. destruct Hm as [Hm|[_ Hm]]; auto.
    - destruct v; contradiction.
  Qed.
End Enc.

(* ------------------------------------------------------------------ *)
(** * The size beforehand *)

Section Needed.
  Context (h : host) (VH : valid_host h) (Q : fault -> Prop).
  Notation valid := (valid (h_lim h)).

  (** Either no list is too long, or that is allowed to be undefined behaviour. *)
  Definition countable (v : val) : Prop := Q UbUnreachable \/ modest v.

  Lemma is_length_raises n : Q UbUnreachable \/ n < 2 ^ 63 - 1 -> raises Q (is_length n).
  Proof.
    unfold is_length. intros H f. destruct (N.leb_spec 0x7FFFFFFFFFFFFFFF n) as [C|C]; [|discriminate].
    intros E. injection E as <-. destruct H as [H|H]; [exact H|]. exfalso. num_pow. lia.
  Qed.

  Lemma raises_rbind {A B} (x : res A) (g : A -> res B) :
    raises Q x -> (forall a, x = Ok a -> raises Q (g a)) -> raises Q (rbind x g).
  Proof.
    unfold raises. intros Hx Hg f. destruct x as [a|er|k]; cbn; [apply Hg; reflexivity|discriminate|].
    intros E. apply Hx. congruence.
  Qed.

  Lemma countable_seq vs : countable (VSeq vs) ->
    (Q UbUnreachable \/ nlen vs < 2 ^ 63 - 1) /\ Forall countable vs.
  Proof.
    intros [H|[H1 H2]]; [split; [auto|]; apply Forall_forall; intros; left; exact H|].
    split; [auto|]. apply all_vals_forall in H2. revert H2. apply Forall_impl. intros; right; assumption.
  Qed.

  Lemma bytes_needed_raises t v : wsup h t -> may (h_lim h) Q t -> countable v -> valid t v -> raises Q (bytes_needed h t v).
  Proof.
    assert (Hderived : forall t0 v0, wsup h t0 -> may (h_lim h) Q t0 -> valid t0 v0 ->
      raises Q (match write h (SizeCalculator h) t0 v0 0 with
                | (Ok _, n) => Ok n | (Err e, _) => Err e | (Fault f, _) => Fault f
                end : res N)).
    { intros t0 v0 Hs Hm Hv.
      pose proof (write_sim h VH (SizeCalculator h) _ _ _ (size_calculator_ok h) t0 v0 Hs Hv 0 [] eq_refl) as H.
      pose proof (enc_raises (h_lim h) (h_iter h) (h_native h) (ipv6_order h (h_native h)) Q (vh_iter h VH) h t0 Hs len0 v0
                    ltac:(discriminate) Hm Hv) as Hr.
      unfold wsim in H. cbn [SizeCalculator wr_endian] in *.
      destruct (write h (SizeCalculator h) t0 v0 0) as [[u|er|f] n]; cbn [fst snd] in H; intros g; try discriminate.
      intros E. injection E as <-. apply Hr.
      destruct (enc _ _ _ _ t0 v0) as [b|er|k]; cbn [wpost] in H.
      - destruct H as [[C _]|(er & b1 & b2 & _ & C & _)]; discriminate.
      - destruct H as (er' & y & C & _). discriminate.
      - destruct H as [H|(er' & C & _)]; [congruence|discriminate]. }
    revert v.
    induction t as [s|k|k t IH|t n IH|t n IH|t IH|t1 t2 IH1 IH2|ts IH|i t IH|k t IH|k tk tv IHk IHv|t IH|d fs IH|d vs IH|]
      using ty_ind'; intros v Hs Hm Hc Hv; cbn [wsup] in Hs; unfold may in Hm; cbn [total_lens] in Hm;
      try (apply Hderived; assumption).
    - cbn [bytes_needed]. intros f.
      destruct s; destruct v as [|bo|z|b|vs| | | | |j us]; try contradiction; cbn [scalar_bytes_needed] in *; try discriminate.
      destruct j as [|[|j]]; try contradiction; discriminate.
    - destruct v; try contradiction. cbn [bytes_needed]. apply raises_rbind; [|intros; apply raises_ok].
      apply is_length_raises. destruct Hc; auto.
    - destruct v as [| | | |vs| | | | |]; try contradiction. destruct Hv as [Hv _]. destruct Hs as [_ Hs].
      apply countable_seq in Hc as [Hc1 Hc2]. cbn [bytes_needed].
      apply raises_rbind; [apply is_length_raises, Hc1|]. intros _ _.
      destruct (is_prim h t); [apply raises_ok|]. unfold rsum. do 2 apply raises_rmap. apply raises_all.
      rewrite Forall_forall in *. intros v Hin. apply IH; auto.
    - destruct v as [| | | |vs| | | | |]; try contradiction. destruct Hv as [Hv _]. destruct Hs as [_ Hs].
      apply countable_seq in Hc as [_ Hc2]. cbn [bytes_needed]. unfold rsum. apply raises_rmap, raises_all.
      rewrite Forall_forall in *. intros v Hin. apply IH; auto.
    - destruct v as [| | | |vs| | | | |]; try contradiction. destruct Hv as [Hv _].
      apply countable_seq in Hc as [_ Hc2]. cbn [bytes_needed]. unfold rsum. apply raises_rmap, raises_all.
      rewrite Forall_forall in *. intros v Hin. apply IH; auto.
    - destruct v; try contradiction; cbn [bytes_needed]; [apply raises_ok|]. apply raises_rmap, IH; auto.
    - destruct Hs as [Hs1 Hs2].
      destruct v; try contradiction; cbn [bytes_needed]; apply raises_rmap; [apply IH1|apply IH2]; auto; unfold may; tauto.
    - destruct v as [| | | |vs| | | | |]; try contradiction. cbn [bytes_needed]. cbn [valid] in Hv.
      apply countable_seq in Hc as [_ Hc]. revert vs Hv Hc.
      induction IH as [|t ts IHt _ IHts]; intros [|v vs] Hv Hc; cbn [valid_list] in Hv; try contradiction; cbn [needed_tuple].
      + apply raises_ok.
      + destruct Hs as [Hs1 Hs2]. destruct Hv as [Hv1 Hv2]. inversion_clear Hc as [|? ? Hc1 Hc2].
        apply raises_rbind; [apply IHt; auto|intros; apply raises_rmap, IHts; auto];
          destruct Hm as [Hm|Hm]; try (left; exact Hm); right; apply Hm.
    - destruct v as [| | | |[|a [|b l]]| | | | |]; try (destruct i; contradiction).
      apply countable_seq in Hc as [_ Hc]. inversion_clear Hc as [|? ? Hc1 Hc2]. inversion_clear Hc2 as [|? ? Hc3 _].
      assert (Hab : valid t a /\ valid t b) by (destruct i; destruct l as [|[] [|]]; try contradiction; exact Hv).
      cbn [bytes_needed]. apply raises_rbind; [apply IH; auto; apply Hab|intros; apply raises_rmap, IH; auto; apply Hab].
    - destruct v as [| | | |vs| | | | |]; try contradiction. destruct Hv as (Hv & _).
      apply countable_seq in Hc as [Hc1 Hc2]. cbn [bytes_needed].
      apply raises_rbind; [apply is_length_raises, Hc1|]. intros _ _. unfold rsum. do 2 apply raises_rmap. apply raises_all.
      rewrite Forall_forall in *. intros v Hin. apply IH; auto.
    - destruct v as [| | | |vs| | | | |]; try contradiction. destruct Hv as (Hv & _). destruct Hs as [Hs1 Hs2].
      apply countable_seq in Hc as [Hc1 Hc2]. cbn [bytes_needed].
      apply raises_rbind; [apply is_length_raises, Hc1|]. intros _ _. unfold rsum. do 2 apply raises_rmap. apply raises_all.
      rewrite Forall_forall in *. intros v Hin. specialize (Hv v Hin). specialize (Hc2 v Hin).
      destruct v as [| | | |[|a [|b [|]]]| | | | |]; try contradiction. destruct Hv as [Hv1 Hv2].
      apply countable_seq in Hc2 as [_ Hc]. inversion_clear Hc as [|? ? Hc3 Hc4]. inversion_clear Hc4 as [|? ? Hc5 _].
      cbn [needed_pair]. apply raises_rbind; [apply IHk; auto|intros; apply raises_rmap, IHv; auto]; unfold may; tauto.
    - cbn [bytes_needed]. apply IH; auto.
    - destruct v; contradiction.
  Qed.
End Needed.

(* ------------------------------------------------------------------ *)
(** * C61 *)

Section C61.
  Context (h : host) (VH : valid_host h) (e : endian).

  Lemma written_raises Q t v : wsup h t -> may (h_lim h) Q t -> valid (h_lim h) t v ->
    raises Q (enc (h_iter h) e (ipv6_order h e) len0 t v).
  Proof. intros Hs Hm Hv. apply (enc_raises (h_lim h) _ e _ Q (vh_iter h VH) h t Hs); auto. discriminate. Qed.

  Lemma post_raises {St} (wrep : St -> bytes -> Prop) werr room out Q x r s :
    raises Q x -> wpost wrep werr room out x r s -> raises Q r.
  Proof.
    intros Hx H f ->. destruct x as [b|er|k]; cbn [wpost] in H.
    - destruct H as [[C _]|(er & b1 & b2 & _ & C & _)]; discriminate.
    - destruct H as (er' & y & C & _). discriminate.
    - destruct H as [H|(er' & C & _)]; [|discriminate]. apply Hx. congruence.
  Qed.

  (** Whatever a stream or a file does, writing to it panics only if a length
      expression of the type does; *)
  Theorem C61_stream t v o f o' : wsup h t -> valid (h_lim h) t v ->
    write_to_stream h e t v o = (Fault f, o') -> f = PanicOverflow /\ ~ total_lens (h_lim h) t.
  Proof.
    intros Hs Hv E. pose proof (write_to_stream_spec h VH e t v Hs Hv o) as H. rewrite E in H.
    split.
    - eapply (post_raises _ _ _ _ (eq PanicOverflow)) in H; [symmetry; apply H; reflexivity|].
      apply written_raises; auto. left; reflexivity.
    - intros Ht. eapply (post_raises _ _ _ _ (fun _ => False)) in H; [exact (H _ eq_refl)|].
      apply written_raises; auto. right; exact Ht.
  Qed.

  Theorem C61_file t v oserr sched f o' : wsup h t -> valid (h_lim h) t v ->
    write_to_file h oserr e t v sched = (Fault f, o') -> f = PanicOverflow /\ ~ total_lens (h_lim h) t.
  Proof.
    intros Hs Hv E. destruct oserr as [k|]; [discriminate|].
    pose proof (write_to_file_spec h VH e t v Hs Hv sched) as H. rewrite E in H. destruct H as (s & H & _).
    split.
    - eapply (post_raises _ _ _ _ (eq PanicOverflow)) in H; [symmetry; apply H; reflexivity|].
      apply written_raises; auto. left; reflexivity.
    - intros Ht. eapply (post_raises _ _ _ _ (fun _ => False)) in H; [exact (H _ eq_refl)|].
      apply written_raises; auto. right; exact Ht.
  Qed.

  Lemma vec_raises Q mem t v : (forall n, n <= nlen (mem n)) -> wsup h t -> may (h_lim h) Q t -> countable Q v ->
    valid (h_lim h) t v -> raises Q (write_to_vec h mem e t v).
  Proof.
    intros Hmem Hs Hm Hc Hv.
    pose proof (written_raises Q t v Hs Hm Hv) as He.
    destruct (enc (h_iter h) e (ipv6_order h e) len0 t v) as [b|er|k] eqn:Ee.
    - rewrite (write_to_vec_ok h VH e t v Hs Hv mem b Hmem Ee). apply raises_ok.
    - unfold write_to_vec. apply raises_rbind; [apply bytes_needed_raises; auto|]. intros n _.
      pose proof (write_buffer_sim h VH e t v Hs Hv (ntake n (mem n))) as H.
      destruct (write h (BufferCollector h e) t v _) as [r s]. rewrite Ee in H.
      destruct H as (er' & y & -> & _). intros f; discriminate.
    - unfold write_to_vec. apply raises_rbind; [apply bytes_needed_raises; auto|]. intros n _.
      pose proof (write_buffer_sim h VH e t v Hs Hv (ntake n (mem n))) as H.
      destruct (write h (BufferCollector h e) t v _) as [r s]. rewrite Ee in H. cbn [wpost] in H.
      destruct H as [->|(er' & -> & _)]; intros f E; [|discriminate]. apply He. exact E.
  Qed.

  (** ... and the same for a vector and a buffer if no list of the value has 2^63 - 1
      elements. *)
  Theorem C61_vec mem t v f : (forall n, n <= nlen (mem n)) -> wsup h t -> valid (h_lim h) t v ->
    modest v -> write_to_vec h mem e t v = Fault f -> f = PanicOverflow /\ ~ total_lens (h_lim h) t.
  Proof.
    intros Hmem Hs Hv Hc E. split.
    - symmetry. revert E. apply vec_raises; auto; [left; reflexivity|right; exact Hc].
    - intros Ht. revert E. apply (vec_raises (fun _ => False)); auto; right; assumption.
  Qed.

  Lemma buffer_raises Q t v buffer : wsup h t -> may (h_lim h) Q t -> countable Q v ->
    valid (h_lim h) t v -> raises Q (fst (write_to_buffer h e t v buffer)).
  Proof.
    intros Hs Hm Hc Hv. unfold write_to_buffer.
    pose proof (bytes_needed_raises h VH Q t v Hs Hm Hc Hv) as Hn.
    destruct (bytes_needed h t v) as [n|er|k]; [|intros f; discriminate|intros f E; apply Hn; cbn in E; congruence].
    destruct (n <=? nlen buffer); [|intros f; discriminate].
    pose proof (write_buffer_sim h VH e t v Hs Hv (ntake n buffer)) as H.
    destruct (write h (BufferCollector h e) t v _) as [r s]. cbn [fst].
    eapply post_raises; [|exact H]. apply written_raises; assumption.
  Qed.

  Theorem C61_buffer t v buffer f buffer' : wsup h t -> valid (h_lim h) t v -> modest v ->
    write_to_buffer h e t v buffer = (Fault f, buffer') -> f = PanicOverflow /\ ~ total_lens (h_lim h) t.
  Proof.
    intros Hs Hv Hc E. split.
    - symmetry. apply (buffer_raises (eq PanicOverflow) t v buffer Hs); auto; [left; reflexivity|right; exact Hc|].
      rewrite E. reflexivity.
    - intros Ht. apply (buffer_raises (fun _ => False) t v buffer Hs) with (f := f); auto; [right; assumption|right; assumption|].
      rewrite E. reflexivity.
  Qed.

  Theorem C61_bytes_needed t v f : wsup h t -> valid (h_lim h) t v -> modest v ->
    bytes_needed h t v = Fault f -> f = PanicOverflow /\ ~ total_lens (h_lim h) t.
  Proof.
    intros Hs Hv Hc E. split.
    - symmetry. revert E. apply bytes_needed_raises; auto; [left; reflexivity|right; exact Hc].
    - intros Ht. revert E. apply (bytes_needed_raises h VH (fun _ => False)); auto; right; assumption.
  Qed.
End C61.

(** The bound is needed: the crate declares longer lists unreachable, but a list
    of units of that length takes no memory at all.  Writing it to a stream is
    an error, as it should be; computing its size is undefined behaviour. *)
Theorem C61_units_refuted :
  exists h t v, valid_host h /\ wsup h t /\ valid (h_lim h) t v /\ total_lens (h_lim h) t
    /\ bytes_needed h t v = Fault UbUnreachable
    /\ (forall mem e, write_to_vec h mem e t v = Fault UbUnreachable)
    /\ (forall e buffer, fst (write_to_buffer h e t v buffer) = Fault UbUnreachable)
    /\ (forall e o, fst (write_to_stream h e t v o) = Err OutOfRangeLength).
Proof.
  set (n := N.to_nat (2 ^ 63)). assert (Hn : N.of_nat n = 2 ^ 63) by apply N2Nat.id.
  clearbody n.
  exists host64, (TSeq KVec (TScalar SUnit)), (VSeq (repeat VUnit n)).
  assert (Hl : nlen (repeat VUnit n) = 2 ^ 63) by (unfold nlen; rewrite repeat_length; exact Hn).
  assert (Hb : bytes_needed host64 (TSeq KVec (TScalar SUnit)) (VSeq (repeat VUnit n)) = Fault UbUnreachable).
  { cbn [bytes_needed]. rewrite Hl. reflexivity. }
  split; [exact host64_valid|]. split; [cbn; split; [intros C; discriminate C|exact I]|].
  split.
  { cbn [valid]. split; [apply Forall_forall; intros v Hv; apply repeat_spec in Hv; subst; exact I|].
    rewrite Hl. split; [vm_compute; discriminate|vm_compute; reflexivity]. }
  split; [exact I|]. split; [exact Hb|].
  split; [intros; unfold write_to_vec; rewrite Hb; reflexivity|].
  split; [intros; unfold write_to_buffer; rewrite Hb; reflexivity|].
  intros e o. unfold write_to_stream. cbn [write]. unfold write_seq, bind, write_length. rewrite Hl. reflexivity.
Qed.

(** A failing length expression does panic: the second field is announced to
    have one element less than the number in the first. *)
Definition count_minus_one (prev : list (option Z)) : option N :=
  match prev with Some z :: _ => if (z =? 0)%Z then None else Some (Z.to_N (z - 1)) | _ => None end.
Definition shorter : ty :=
  TStruct (sd 66 RRust) [(plain, TP U8); (with_len (LExpr count_minus_one), TSeq KVec (TP U8))].

Theorem C61_expression_refuted :
  exists v o, valid_host host64 /\ wsup host64 shorter /\ valid (h_lim host64) shorter v /\ modest v
    /\ fst (write_to_stream host64 LE shorter v o) = Fault PanicOverflow
    /\ write_to_vec host64 dirty LE shorter v = Fault PanicOverflow.
Proof.
  exists (VSeq [VInt 0; VSeq []]), {| os_out := []; os_sched := [] |}.
  split; [exact host64_valid|]. split; [apply wsupb_sound; vm_compute; reflexivity|].
  split; [apply validb_sound; vm_compute; reflexivity|]. split; [vm_compute; auto|].
  split; vm_compute; reflexivity.
Qed.

(** The sample of the round trip theorems: its length expression never fails. *)
Example sample_total : wsup host64 sample /\ valid (h_lim host64) sample sample_value
  /\ total_lens (h_lim host64) sample /\ modest sample_value.
Proof.
  split; [apply wsupb_sound; vm_compute; reflexivity|]. split; [apply sample_value64|]. split.
  - cbn. repeat split; try (right; repeat split; try exact I); auto.
    intros us Hu. destruct us as [|v us]; [contradiction|].
    destruct Hu as [Hv _]. destruct v; try contradiction. discriminate.
  - cbn. repeat split; reflexivity.
Qed.

Print Assumptions C61_stream.
Print Assumptions C61_file.
Print Assumptions C61_vec.
Print Assumptions C61_buffer.
Print Assumptions C61_bytes_needed.
Print Assumptions C61_units_refuted.
Print Assumptions C61_expression_refuted.
