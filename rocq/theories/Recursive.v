(* Recursive types as the family of their finite unrollings.

   A recursive declaration is a type with [TBot] in place of itself.  Its values
   of nesting depth less than [n] are the values of [unroll d n]. *)
From Verif Require Export Conditions Entry.

Fixpoint plug (x t : ty) : ty :=
  match t with
  | TScalar _ | TStr _ => t
  | TSeq k t' => TSeq k (plug x t')
  | TArr t' n => TArr (plug x t') n
  | TRefArr t' n => TRefArr (plug x t') n
  | TOption t' => TOption (plug x t')
  | TResult t1 t2 => TResult (plug x t1) (plug x t2)
  | TTuple ts => TTuple (map (plug x) ts)
  | TRange i t' => TRange i (plug x t')
  | TSet k t' => TSet k (plug x t')
  | TMap k tk tv => TMap k (plug x tk) (plug x tv)
  | TBox t' => TBox (plug x t')
  | TStruct d fs => TStruct d (map (fun f => (fst f, plug x (snd f))) fs)
  | TEnum d vs => TEnum d (map (fun v => (fst v, map (fun f => (fst f, plug x (snd f))) (snd v))) vs)
  | TBot => x
  end.

Definition plug_field (x : ty) (f : fattrs * ty) : fattrs * ty := (fst f, plug x (snd f)).
Definition plug_fields (x : ty) (fs : fields) : fields := map (plug_field x) fs.

Lemma plug_struct x d fs : plug x (TStruct d fs) = TStruct d (plug_fields x fs).
Proof. reflexivity. Qed.
Lemma plug_enum x d vs : plug x (TEnum d vs) = TEnum d (map (fun v => (fst v, plug_fields x (snd v))) vs).
Proof. reflexivity. Qed.

(** [unroll d n]: the declaration in itself, [n] times. *)
Fixpoint unroll (d : ty) (n : nat) : ty :=
  match n with O => TBot | S n' => plug (unroll d n') d end.

(** Structs and enums, or the hole. *)
Definition nominal (t : ty) : Prop :=
  match t with TStruct _ _ | TEnum _ _ | TBot => True | _ => False end.

(** A host cannot tell [y] from [x] inside another type. *)
Record same_layout (h : host) (y x : ty) : Prop := {
  sl_size : forall t, h_size h (plug y t) = h_size h (plug x t);
  sl_align : forall t, h_align h (plug y t) = h_align h (plug x t);
  sl_offset : forall d fs i, h_offset h d (plug_fields y fs) i = h_offset h d (plug_fields x fs) i
}.

Lemma nominal_plug x d : nominal d -> nominal x -> nominal (plug x d).
Proof. destruct d; cbn; auto. Qed.

Lemma unroll_nominal d n : nominal d -> nominal (unroll d n).
Proof. intros Hd. induction n as [|n IH]; [exact I|]. apply nominal_plug; assumption. Qed.

Lemma all_fields_plug P x fs : all_fields P (plug_fields x fs) <-> all_fields (fun a t => P a (plug x t)) fs.
Proof. induction fs as [|[a t] fs IH]; cbn; [tauto|]. unfold plug_fields in IH. rewrite IH. tauto. Qed.

Lemma all_fields_impl (P Q : fattrs -> ty -> Prop) fs :
  Forall (fun f => P (fst f) (snd f) -> Q (fst f) (snd f)) fs -> all_fields P fs -> all_fields Q fs.
Proof. induction 1; cbn; tauto. Qed.

Lemma all_tys_map P g ts : all_tys P (map g ts) <-> all_tys (fun t => P (g t)) ts.
Proof. induction ts as [|t ts IH]; cbn; [tauto|]. rewrite IH. tauto. Qed.

Lemma all_tys_impl (P Q : ty -> Prop) ts : Forall (fun t => P t -> Q t) ts -> all_tys P ts -> all_tys Q ts.
Proof. induction 1; cbn; tauto. Qed.

Lemma all_variants_plug P x vs :
  all_variants P (map (fun v : N * fields => (fst v, plug_fields x (snd v))) vs)
  <-> all_variants (fun fs => P (plug_fields x fs)) vs.
Proof. induction vs as [|v vs IH]; cbn; [tauto|]. rewrite IH. tauto. Qed.

Lemma all_variants_impl (P Q : fields -> Prop) vs :
  Forall (fun v : N * fields => P (snd v) -> Q (snd v)) vs -> all_variants P vs -> all_variants Q vs.
Proof. induction 1; cbn; tauto. Qed.

Section Plug.
  Context (h : host) (VH : valid_host h) (y x : ty).
  Context (SL : same_layout h y x) (Ny : nominal y) (Nx : nominal x).

  (** The shape of a type does not depend on what is plugged in. *)
  Lemma container_plug z t : nominal z -> is_container (plug z t) = is_container t.
  Proof. destruct t; cbn; auto. destruct z; cbn; tauto. Qed.

  Lemma sized_plug z a t : nominal z -> sized_field a (plug z t) = sized_field a t.
  Proof.
    intros Hz. unfold sized_field. f_equal. destruct t; try reflexivity.
    - cbn [plug]. apply container_plug. assumption.
    - cbn [plug]. destruct z; cbn in *; tauto.
  Qed.

  Lemma sizes_plug fs : sizes h (plug_fields y fs) = sizes h (plug_fields x fs).
  Proof.
    unfold sizes, plug_fields. rewrite !map_map. apply map_ext. intros f. apply (sl_size h y x SL).
  Qed.

  Lemma offsets_plug d fs : offsets h d (plug_fields y fs) = offsets h d (plug_fields x fs).
  Proof.
    unfold offsets, plug_fields. rewrite !map_length. apply map_ext. intros i. apply (sl_offset h y x SL).
  Qed.

  Lemma transparent_plug z d fs : is_transparent d (plug_fields z fs) = is_transparent d fs.
  Proof. unfold is_transparent, plug_fields. destruct (sd_repr d), fs as [|f [|g fs]]; reflexivity. Qed.

  Lemma simple_plug z f : nominal z -> is_simple (plug_field z f) = is_simple f.
  Proof.
    intros Hz. unfold is_simple. cbn. f_equal. destruct (snd f); try reflexivity. destruct z; cbn in *; tauto.
  Qed.

  Lemma potentially_plug z d fs : nominal z ->
    potentially_primitive d (plug_fields z fs) = potentially_primitive d fs.
  Proof.
    intros Hz. unfold potentially_primitive. rewrite transparent_plug. unfold plug_fields at 3. rewrite map_length.
    assert (E1 : forallb (fun f => can_be_primitive (fst f)) (plug_fields z fs)
               = forallb (fun f => can_be_primitive (fst f)) fs).
    { unfold plug_fields. induction fs as [|f fs IH]; [reflexivity|]. cbn. rewrite IH. reflexivity. }
    assert (E2 : forallb is_simple (plug_fields z fs) = forallb is_simple fs).
    { unfold plug_fields. clear E1. induction fs as [|f fs IH]; [reflexivity|]. cbn [map forallb]. rewrite IH, (simple_plug z f Hz). reflexivity. }
    rewrite E1, E2. reflexivity.
  Qed.

  Context (Ep : is_prim h y = is_prim h x).

  Lemma prim_plug t : is_prim h (plug y t) = is_prim h (plug x t).
  Proof.
    induction t as [s|k|k t IH|t n IH|t n IH|t IH|t1 t2 IH1 IH2|ts IH|i t IH|k t IH|k tk tv IHk IHv|t IH|d fs IH|d vs IH|]
      using ty_ind'; try reflexivity; [|exact Ep].
    assert (E : forallb (fun f => is_prim h (snd f)) (plug_fields y fs) = forallb (fun f => is_prim h (snd f)) (plug_fields x fs)).
    { unfold plug_fields. induction IH as [|f fs Hf _ IHfs]; [reflexivity|]. cbn. rewrite IHfs, Hf. reflexivity. }
    pose proof (sl_size h y x SL (TStruct d fs)) as Es. pose proof (sizes_plug fs) as Ess. pose proof (offsets_plug d fs) as Eo.
    rewrite !plug_struct in *.
    cbn [is_prim]. unfold sizes in Ess.
    rewrite !transparent_plug, !potentially_plug, E, Es, Ess, Eo by assumption.
    unfold check_order. rewrite !transparent_plug.
    destruct fs; reflexivity.
  Qed.

  (** Plain data contains no hole. *)
  Context (Py : is_prim h y = false).

  Lemma plain_closed t : is_prim h (plug y t) = true -> honest h (plug y t) -> plug x t = plug y t.
  Proof.
    induction t as [s|k|k t IH|t n IH|t n IH|t IH|t1 t2 IH1 IH2|ts IH|i t IH|k t IH|k tk tv IHk IHv|t IH|d fs IH|d vs IH|]
      using ty_ind'; try discriminate; try reflexivity; [|cbn [plug]; congruence].
    rewrite !plug_struct. intros Hp Hh. f_equal.
    assert (Ha : all_fields (fun _ t => is_prim h t = true) (plug_fields y fs)).
    { destruct Hh as [Hd _]. unfold declared_layout in Hd.
      destruct (sd_forced d || is_transparent d (plug_fields y fs) || is_packed d)%bool eqn:Ef.
      - destruct (Hd eq_refl Hp) as [Ha _]. revert Ha. apply all_fields_impl. apply Forall_forall. tauto.
      - apply orb_false_elim in Ef as [Ef _]. apply orb_false_elim in Ef as [Ef Et]. cbn [is_prim] in Hp. rewrite Et, Ef in Hp.
        destruct (potentially_primitive d (plug_fields y fs)); [|discriminate].
        destruct (plug_fields y fs) as [|f r]; [exact I|]. cbn [orb] in Hp.
        apply andb_prop in Hp as [Hp _]. apply andb_prop in Hp as [Hp _]. revert Hp.
        generalize (f :: r). clear. induction l as [|f l IH]; [intros; exact I|]. intros Hp. cbn in *.
        apply andb_prop in Hp as [H1 H2]. split; auto. }
    cbn [honest] in Hh. destruct Hh as [_ Hh]. rewrite !all_fields_plug in *.
    clear Hp. unfold plug_fields. induction IH as [|f fs Hf _ IHfs]; [reflexivity|]. cbn in *.
    destruct Ha as [Ha Has], Hh as [Hh Hhs]. unfold plug_field at 1 3. rewrite (Hf Ha Hh), IHfs by assumption. reflexivity.
  Qed.

  Lemma silent_plug t : (silent y -> silent x) -> silent (plug y t) -> silent (plug x t).
  Proof.
    intros Hyx.
    induction t as [s|k|k t IH|t n IH|t n IH|t IH|t1 t2 IH1 IH2|ts IH|i t IH|k t IH|k tk tv IHk IHv|t IH|d fs IH|d vs IH|]
      using ty_ind'; try rewrite !plug_struct; cbn [plug silent]; auto.
    - tauto.
    - rewrite !all_tys_map. apply all_tys_impl, IH.
    - rewrite !all_fields_plug. apply all_fields_impl. revert IH. apply Forall_impl. tauto.
  Qed.

  Lemma field_min_plug f : min_bytes h (plug y (snd f)) <= min_bytes h (plug x (snd f)) ->
    field_min (min_bytes h) (plug_field y f) <= field_min (min_bytes h) (plug_field x f).
  Proof.
    destruct f as [a t]. unfold field_min. cbn [plug_field fst snd]. intros Hm.
    destruct (f_eof a || _ || f_skip a)%bool; [lia|]. apply N.add_le_mono_r.
    destruct (f_opaque a); [exact Hm|].
    assert (Hc : forall z, nominal z ->
      match plug z t with
      | TOption _ => 1
      | TArr t' n => min_bytes h t' * N.of_nat n
      | _ => if is_container (plug z t) then basic_size (length_type (f_len a))
             else if f_varint a then 1 else min_bytes h (plug z t)
      end = match t with
      | TOption _ => 1
      | TArr t' n => min_bytes h (plug z t)
      | _ => if is_container t then basic_size (length_type (f_len a))
             else if f_varint a then 1 else min_bytes h (plug z t)
      end).
    { intros z Hz. destruct t; try reflexivity. cbn [plug is_container]. destruct z; cbn in Hz; try contradiction; reflexivity. }
    rewrite !Hc by assumption. destruct t; try exact Hm; try lia; destruct (is_container _); try lia; destruct (f_varint a); try lia.
  Qed.

  Lemma nsum_map_le {A} (g1 g2 : A -> N) l : Forall (fun a => g1 a <= g2 a) l -> nsum (map g1 l) <= nsum (map g2 l).
  Proof. unfold nsum. induction 1; cbn [map fold_right]; lia. Qed.

  Lemma fold_min_0 l : fold_left N.min l 0 = 0.
  Proof. induction l as [|a l IH]; [reflexivity|]. cbn [fold_left]. rewrite N.min_0_l. exact IH. Qed.

  Lemma min_plug t : min_bytes h y <= min_bytes h x -> min_bytes h (plug y t) <= min_bytes h (plug x t).
  Proof.
    intros Hyx.
    induction t as [s|k|k t IH|t n IH|t n IH|t IH|t1 t2 IH1 IH2|ts IH|i t IH|k t IH|k tk tv IHk IHv|t IH|d fs IH|d vs IH|]
      using ty_ind'; try rewrite !plug_struct; try rewrite !plug_enum; cbn [plug min_bytes]; try lia.
    - apply N.mul_le_mono_r, IH.
    - rewrite (sl_size h y x SL). lia.
    - rewrite !map_map. apply nsum_map_le, IH.
    - unfold plug_fields. rewrite !map_map. apply nsum_map_le. revert IH. apply Forall_impl. intros f. apply field_min_plug.
    - rewrite !fold_min_0. lia.
  Qed.

  Lemma field_minok_plug f : (minok h (plug y (snd f)) -> minok h (plug x (snd f))) ->
    field_minok (minok h) (fst f) (plug y (snd f)) -> field_minok (minok h) (fst f) (plug x (snd f)).
  Proof.
    destruct f as [a t]. cbn [fst snd]. intros Hm. unfold field_minok.
    destruct (f_eof a || _ || f_skip a)%bool; [auto|].
    destruct (f_varint a).
    { intros [Ho H]. split; [exact Ho|]. destruct t; cbn in *; try contradiction; try exact H. destruct y; cbn in *; contradiction. }
    destruct (f_opaque a); [exact Hm|].
    destruct t as [s|k|k t|t n|t n|t|t1 t2|ts|i t|k t|k tk tv|t|d fs|d vs|];
      try (destruct k); cbn [plug is_container] in *; try exact Hm; auto.
    destruct y, x; cbn in *; try contradiction; exact Hm.
  Qed.

  Lemma minok_plug t : (minok h y -> minok h x) -> min_bytes h y <= min_bytes h x ->
    minok h (plug y t) -> minok h (plug x t).
  Proof.
    intros Hyx Hm.
    induction t as [s|k|k t IH|t n IH|t n IH|t IH|t1 t2 IH1 IH2|ts IH|i t IH|k t IH|k tk tv IHk IHv|t IH|d fs IH|d vs IH|]
      using ty_ind'; try rewrite !plug_struct; try rewrite !plug_enum; cbn [plug minok]; auto.
    - intros [H1 H2]. rewrite (plain_closed t H1 H2). auto.
    - rewrite !all_tys_map. apply all_tys_impl, IH.
    - rewrite !all_fields_plug. apply all_fields_impl. revert IH. apply Forall_impl. intros f. apply field_minok_plug.
    - destruct (e_peek d); [|auto]. rewrite !all_variants_plug. apply all_variants_impl. revert IH. apply Forall_impl.
      intros [g fs] Hf. cbn [snd] in *. intros [H1 H2]. split.
      + revert H1. rewrite !all_fields_plug. apply all_fields_impl. revert Hf. apply Forall_impl. intros f. apply field_minok_plug.
      + eapply N.le_trans; [exact H2|]. unfold plug_fields. rewrite !map_map. apply nsum_map_le. apply Forall_forall.
        intros f _. apply field_min_plug, min_plug, Hm.
  Qed.

  (* ---------------------------------------------------------------- *)
  (** ** What is supported *)

  Context (Hsil : silent y -> silent x) (Hmin : min_bytes h y <= min_bytes h x) (Hmok : minok h y -> minok h x).
  Context (e : endian) (bw pk : bool).

  Lemma vec_elem_plug t : vec_elem h e (plug y t) -> vec_elem h e (plug x t).
  Proof.
    unfold vec_elem. rewrite <- prim_plug. destruct (is_prim h (plug y t)) eqn:E.
    - intros [H1 H2]. rewrite (plain_closed t E H1). auto.
    - intros [H1 H2]. rewrite <- (sl_size h y x SL). split; [|apply minok_plug; assumption].
      destruct H1; [left; assumption|right; apply silent_plug; assumption].
  Qed.

  Lemma view_elem_plug t : view_elem h e (plug y t) -> view_elem h e (plug x t).
  Proof. intros H. pose proof H as (H1 & H2 & _). rewrite (plain_closed t H1 H2). exact H. Qed.

  Lemma copy_elem_plug lm t : copy_elem h lm (plug y t) -> copy_elem h lm (plug x t).
  Proof.
    unfold copy_elem. rewrite <- prim_plug. intros H E. destruct (H E) as (H1 & H2 & H3).
    rewrite (plain_closed t E H1). auto.
  Qed.

  Lemma pair_elem_plug lm tk tv : pair_elem h lm (plug y tk) (plug y tv) -> pair_elem h lm (plug x tk) (plug x tv).
  Proof.
    unfold pair_elem. rewrite <- !prim_plug. intros H E1 E2. pose proof (H E1 E2) as (H1 & H2 & _).
    rewrite (plain_closed tk E1 H1), (plain_closed tv E2 H2). auto.
  Qed.

  Lemma seq_elem_plug lm k t : seq_elem h e bw lm k (plug y t) -> seq_elem h e bw lm k (plug x t).
  Proof.
    destruct k; cbn [seq_elem]; try apply vec_elem_plug.
    - intros [H1 H2]. split; [apply vec_elem_plug, H1|apply copy_elem_plug, H2].
    - rewrite (sl_size h y x SL). intros (H1 & H2 & H3). split; [exact H1|]. split; [apply view_elem_plug, H2|exact H3].
  Qed.

  Lemma prim_shape z t : nominal z ->
    match plug z t with TScalar (SPrim _) => True | _ => False end
    <-> match t with TScalar (SPrim _) => True | _ => False end.
  Proof. intros Hz. destruct t; cbn; try tauto. destruct z; cbn in *; tauto. Qed.

  Lemma sup_field_plug f :
    (forall lm, supported h e bw pk lm (plug y (snd f)) -> supported h e bw pk lm (plug x (snd f))) ->
    sup_field h (supported h e bw pk) (fst f) (plug y (snd f)) -> sup_field h (supported h e bw pk) (fst f) (plug x (snd f)).
  Proof.
    intros IH. unfold sup_field. rewrite !sized_plug by assumption. intros [H|(H1 & H2 & H3)]; [auto|right].
    rewrite prim_shape in H1 by exact Ny. rewrite prim_shape by exact Nx. auto.
  Qed.

  Lemma supported_plug t : (forall lm, supported h e bw pk lm y -> supported h e bw pk lm x) ->
    forall lm, supported h e bw pk lm (plug y t) -> supported h e bw pk lm (plug x t).
  Proof.
    intros Hyx.
    induction t as [s|k|k t IH|t n IH|t n IH|t IH|t1 t2 IH1 IH2|ts IH|i t IH|k t IH|k tk tv IHk IHv|t IH|d fs IH|d vs IH|]
      using ty_ind'; intros lm; try rewrite !plug_struct; try rewrite !plug_enum; cbn [plug supported]; auto.
    - intros [H1 H2]. split; [eapply seq_elem_plug, H1|auto].
    - rewrite <- prim_plug. intros [H1 H2]. split; [intros E; apply vec_elem_plug; auto|auto].
    - intros [H1 H2]. split; [exact H1|apply view_elem_plug, H2].
    - intros [H1 H2]. auto.
    - rewrite !all_tys_map. apply all_tys_impl. revert IH. apply Forall_impl. auto.
    - intros [H1 H2]. split; [apply copy_elem_plug, H1|auto].
    - intros (H1 & H2 & H3). split; [apply pair_elem_plug, H1|auto].
    - rewrite !all_fields_plug. apply all_fields_impl. revert IH. apply Forall_impl. intros f. apply sup_field_plug.
    - intros [H1 H2]. split; [exact H1|]. revert H2. rewrite !all_variants_plug. apply all_variants_impl. revert IH. apply Forall_impl.
      intros v Hf. rewrite !all_fields_plug. apply all_fields_impl. revert Hf. apply Forall_impl. intros f. apply sup_field_plug.
  Qed.

  Lemma wsup_field_plug f : (wsup h (plug y (snd f)) -> wsup h (plug x (snd f))) ->
    wsup_field (wsup h) (fst f) (plug y (snd f)) -> wsup_field (wsup h) (fst f) (plug x (snd f)).
  Proof.
    intros IH [H|[H1 H2]]; [left; exact H|right]. split; [|auto]. intros Hv. destruct (H1 Hv) as [Ho Et].
    split; [exact Ho|]. destruct (snd f); cbn [plug] in *; try discriminate; auto. subst y. contradiction.
  Qed.

  Lemma wsup_plug t : (wsup h y -> wsup h x) -> wsup h (plug y t) -> wsup h (plug x t).
  Proof.
    intros Hyx.
    assert (Hse : forall t, slice_elem h (plug y t) -> slice_elem h (plug x t)).
    { intros t'. unfold slice_elem. rewrite <- prim_plug. intros H E. rewrite (plain_closed t' E (H E)). auto. }
    induction t as [s|k|k t IH|t n IH|t n IH|t IH|t1 t2 IH1 IH2|ts IH|i t IH|k t IH|k tk tv IHk IHv|t IH|d fs IH|d vs IH|]
      using ty_ind'; try rewrite !plug_struct; try rewrite !plug_enum; cbn [plug wsup]; auto.
    - intros []. auto.
    - intros []. auto.
    - intros []. auto.
    - rewrite !all_tys_map. apply all_tys_impl, IH.
    - intros []. auto.
    - rewrite !all_fields_plug. apply all_fields_impl. revert IH. apply Forall_impl. intros f. apply wsup_field_plug.
    - intros [H1 H2]. split.
      + rewrite Forall_map in *. exact H1.
      + revert H2. rewrite !all_variants_plug. apply all_variants_impl. revert IH. apply Forall_impl.
        intros v Hf. rewrite !all_fields_plug. apply all_fields_impl. revert Hf. apply Forall_impl. intros f. apply wsup_field_plug.
  Qed.

  (* ---------------------------------------------------------------- *)
  (** ** The wire format *)

  Lemma field_eof_plug z a t : nominal z -> field_eof a (plug z t) = field_eof a t.
  Proof. intros Hz. unfold field_eof. rewrite sized_plug by exact Hz. reflexivity. Qed.

  Context (Hop : forall eof, opens eof y = opens eof x).

  Lemma fields_open_plug fs : Forall (fun f => forall eof, opens eof (plug y (snd f)) = opens eof (plug x (snd f))) fs ->
    fields_open opens (plug_fields y fs) = fields_open opens (plug_fields x fs).
  Proof.
    unfold plug_fields. induction 1 as [|[a t] fs Hf _ IH]; [reflexivity|]. cbn [map fields_open plug_field fst snd] in *.
    rewrite IH, !field_eof_plug, Hf by assumption. reflexivity.
  Qed.

  Lemma opens_plug t : forall eof, opens eof (plug y t) = opens eof (plug x t).
  Proof.
    induction t as [s|k|k t IH|t n IH|t n IH|t IH|t1 t2 IH1 IH2|ts IH|i t IH|k t IH|k tk tv IHk IHv|t IH|d fs IH|d vs IH|]
      using ty_ind'; intros eof; try rewrite !plug_struct; try rewrite !plug_enum; cbn [plug opens]; auto.
    - rewrite IH1, IH2. reflexivity.
    - induction IH as [|t ts Ht _ IHts]; [reflexivity|]. cbn [map existsb]. rewrite Ht, IHts. reflexivity.
    - apply fields_open_plug, IH.
    - induction IH as [|[g fs] vs Hf _ IHvs]; [reflexivity|]. cbn [map variants_open fst snd] in *.
      rewrite (fields_open_plug fs Hf), IHvs. reflexivity.
  Qed.
End Plug.

Lemma exact_plug y x t : (exact y -> exact x) -> exact (plug y t) -> exact (plug x t).
Proof.
  intros Hyx.
  induction t as [s|k|k t IH|t n IH|t n IH|t IH|t1 t2 IH1 IH2|ts IH|i t IH|k t IH|k tk tv IHk IHv|t IH|d fs IH|d vs IH|]
    using ty_ind'; try rewrite !plug_struct; try rewrite !plug_enum; cbn [plug exact]; auto; try tauto.
  - rewrite !all_tys_map. apply all_tys_impl, IH.
  - rewrite !all_fields_plug. apply all_fields_impl. revert IH. apply Forall_impl. tauto.
  - rewrite !all_variants_plug. apply all_variants_impl. revert IH. apply Forall_impl. intros v Hf.
    rewrite !all_fields_plug. apply all_fields_impl. revert Hf. apply Forall_impl. tauto.
Qed.

(* ------------------------------------------------------------------ *)
(** * Decoding what is known of a type *)

(** [r] ran into the hole or equals [r']. *)
Definition dle {A} (r r' : dres A) : Prop :=
  r = r' \/ r = DUnspec \/ exists sure, r = DPanic IllTyped sure.
Definition ddec {A} (m m' : dec A) : Prop := forall o, dle (m o) (m' o).

Lemma ddec_refl {A} (m : dec A) : ddec m m.
Proof. intros o. left. reflexivity. Qed.

Lemma dle_bottom {A} (r : dres A) : dle DUnspec r.
Proof. right. left. reflexivity. Qed.
Lemma dle_panic {A} s (r : dres A) : dle (DPanic IllTyped s) r.
Proof. right. right. exists s. reflexivity. Qed.

Lemma ddec_bind {A B} (m m' : dec A) (k k' : A -> dec B) : ddec m m' -> (forall a, ddec (k a) (k' a)) ->
  ddec (dbind m k) (dbind m' k').
Proof.
  intros Hm Hk o. unfold dbind. destruct (Hm o) as [->|[->|[s ->]]]; [|apply dle_bottom|apply dle_panic].
  destruct (m' o) as [a o'| | | |]; try (left; reflexivity). apply Hk.
Qed.

Lemma ddec_map {A B} (f : A -> B) (m m' : dec A) : ddec m m' -> ddec (dmap f m) (dmap f m').
Proof. intros H. apply ddec_bind; [exact H|]. intros a. apply ddec_refl. Qed.

Lemma ddec_repeat {A} (m m' : dec A) n : ddec m m' -> ddec (drepeat m n) (drepeat m' n).
Proof.
  intros H. induction n as [|n IH]; [apply ddec_refl|]. cbn [drepeat].
  apply ddec_bind; [exact H|]. intros a. apply ddec_bind; [exact IH|]. intros b. apply ddec_refl.
Qed.

Lemma ddec_unsure {A} (m m' : dec A) : ddec m m' -> ddec (dunsure m) (dunsure m').
Proof.
  intros H o. unfold dunsure. destruct (H o) as [->|[->|[s ->]]]; [left; reflexivity|apply dle_bottom|apply dle_panic].
Qed.

Lemma ddec_catch {A} (d : A) (m m' : dec A) : ddec m m' -> ddec (dcatch d m) (dcatch d m').
Proof.
  intros H o. unfold dcatch. destruct (H o) as [->|[->|[[|] ->]]]; [left; reflexivity|apply dle_bottom|apply dle_panic|apply dle_bottom].
Qed.

Lemma ddec_until {A} (m m' : dec A) : ddec m m' -> ddec (duntil m) (duntil m').
Proof.
  intros H [bs|]; [|left; reflexivity]. cbn [duntil]. generalize (S (length bs)) as k. intros k. generalize (Some bs) as o.
  clear bs. induction k as [|k IH]; intros o; [left; reflexivity|]. cbn [duntil_loop].
  destruct (H o) as [->|[->|[[|] ->]]]; [|apply dle_bottom|apply dle_panic|apply dle_bottom].
  destruct (m' o) as [a o'| |er [|]|f [|]|]; try (left; reflexivity). apply ddec_map. intros o1. apply IH.
Qed.

Section DecodePlug.
  Context (h : host) (VH : valid_host h) (y x : ty).
  Context (SL : same_layout h y x) (Ny : nominal y) (Nx : nominal x).
  Context (e e6 : endian).
  Notation lim := (h_lim h).
  Notation decl := (decl lim e e6).

  Lemma fits_plug t n : l_fits lim (plug y t) n = l_fits lim (plug x t) n.
  Proof. rewrite !(vh_fits h VH), (sl_size h y x SL). reflexivity. Qed.

  Lemma ddec_sized {A} t n (m m' : dec A) : ddec m m' -> ddec (dsized lim (plug y t) n m) (dsized lim (plug x t) n m').
  Proof. intros H. unfold dsized. rewrite fits_plug. destruct (l_fits _ _ _); [apply ddec_unsure, H|apply ddec_refl]. Qed.

  Lemma ddec_len {A} l (c c' : N -> dec A) m m' : (forall n, ddec (c n) (c' n)) -> ddec m m' ->
    ddec (dlen lim e l c m) (dlen lim e l c' m').
  Proof.
    intros Hc Hm. destruct l as [b len|[n|]|]; cbn [dlen]; auto.
    - apply ddec_bind; [apply ddec_refl|exact Hc].
    - apply ddec_refl.
  Qed.

  Lemma ddec_pair dk dk' dv dv' : ddec dk dk' -> ddec dv dv' -> ddec (dpair dk dv) (dpair dk' dv').
  Proof. intros H1 H2. apply ddec_bind; [exact H1|]. intros a. apply ddec_bind; [exact H2|]. intros b. apply ddec_refl. Qed.

  Lemma field_len_plug z len prev a t : nominal z -> field_len len prev a (plug z t) = field_len len prev a t.
  Proof. intros Hz. unfold field_len. rewrite sized_plug by exact Hz. reflexivity. Qed.

  Lemma ddec_fields fs : Forall (fun f => forall l, ddec (decl l (plug y (snd f))) (decl l (plug x (snd f)))) fs ->
    forall prev, ddec (dfields lim e e6 decl prev (plug_fields y fs)) (dfields lim e e6 decl prev (plug_fields x fs)).
  Proof.
    unfold plug_fields. induction 1 as [|[a t] fs Hf _ IH]; intros prev; [apply ddec_refl|].
    cbn [map dfields plug_field fst snd] in *. destruct (f_skip a); [apply ddec_map, IH|].
    apply ddec_bind; [|intros v; apply ddec_bind; [apply IH|intros; apply ddec_refl]].
    unfold dfield. rewrite !field_len_plug by assumption.
    assert (Hb : ddec
      (_ <-- dconst (f_prefix a);; (if f_varint a then dec_scalar lim e e6 SVarint else decl (field_len (f_eof a) prev a t) (plug y t)))
      (_ <-- dconst (f_prefix a);; (if f_varint a then dec_scalar lim e e6 SVarint else decl (field_len (f_eof a) prev a t) (plug x t)))).
    { apply ddec_bind; [apply ddec_refl|]. intros _. destruct (f_varint a); [apply ddec_refl|apply Hf]. }
    destruct (f_eof a); [apply ddec_catch, Hb|exact Hb].
  Qed.

  Lemma decl_plug t : (forall l, ddec (decl l y) (decl l x)) ->
    forall l, ddec (decl l (plug y t)) (decl l (plug x t)).
  Proof.
    intros Hyx.
    induction t as [s|k|k t IH|t n IH|t n IH|t IH|t1 t2 IH1 IH2|ts IH|i t IH|k t IH|k tk tv IHk IHv|t IH|d fs IH|d vs IH|]
      using ty_ind'; intros l; try rewrite !plug_struct; try rewrite !plug_enum; cbn [plug Spec.decl]; auto; try apply ddec_refl.
    - apply ddec_map, ddec_len; [|apply ddec_until, IH]. intros n. apply ddec_sized, ddec_repeat, IH.
    - apply ddec_map, ddec_repeat, IH.
    - apply ddec_map, ddec_repeat, IH.
    - apply ddec_bind; [apply ddec_refl|]. intros n. destruct (n =? 0); [apply ddec_refl|apply ddec_map, IH].
    - apply ddec_bind; [apply ddec_refl|]. intros n. destruct (n =? 0); [apply ddec_map, IH2|apply ddec_map, IH1].
    - apply ddec_map. induction IH as [|t ts Ht _ IHts]; [apply ddec_refl|]. cbn [map dtuple].
      apply ddec_bind; [apply Ht|]. intros v. apply ddec_bind; [exact IHts|]. intros; apply ddec_refl.
    - apply ddec_bind; [apply IH|]. intros a. apply ddec_bind; [apply IH|]. intros; apply ddec_refl.
    - apply ddec_bind; [|intros; apply ddec_refl]. apply ddec_len; [|apply ddec_until, IH]. intros n. apply ddec_repeat, IH.
    - apply ddec_bind; [|intros; apply ddec_refl].
      apply ddec_len; [|apply ddec_until, ddec_pair; auto]. intros n. apply ddec_repeat, ddec_pair; auto.
    - apply ddec_map, ddec_fields, IH.
    - apply ddec_bind; [apply ddec_refl|]. intros tag. generalize 0%nat as j.
      induction IH as [|[g fs] vs Hf _ IHvs]; intros j; [apply ddec_refl|]. cbn [map dvariant fst snd].
      destruct (g =? tag); [apply ddec_map, ddec_fields, Hf|apply IHvs].
  Qed.

  Lemma ends_mono {A} (m m' : dec A) : ddec m m' -> ends m -> ends m'.
  Proof. unfold ends. intros H E. destruct (H (Some [])) as [H'|[H'|[s H']]]; congruence. Qed.

  Context (Hdec : forall l, ddec (decl l y) (decl l x)).
  Context (Hop : forall eof, opens eof y = opens eof x) (Hex : exact y -> exact x).
  Notation rtok := (rtok lim e e6).

  Lemma rt_fields_plug fs : Forall (fun f => forall eof, rtok eof (plug y (snd f)) -> rtok eof (plug x (snd f))) fs ->
    rt_fields rtok (plug_fields y fs) -> rt_fields rtok (plug_fields x fs).
  Proof.
    unfold plug_fields. induction 1 as [|[a t] fs Hf _ IH]; [auto|]. cbn [map rt_fields plug_field fst snd] in *.
    rewrite !field_eof_plug by assumption. intros [H Hs]. split; [|auto].
    destruct H as [H|(H1 & H2 & H3)]; [auto|right]. split; [|split; [auto|]].
    - intros Hv. specialize (H1 Hv). destruct t; cbn [plug] in *; try discriminate; auto. subst y. contradiction.
    - rewrite <- (opens_plug y x Ny Nx Hop). intros Ho. specialize (H3 Ho). revert H3. clear.
      fold (plug_fields y fs) (plug_fields x fs). rewrite !all_fields_plug. auto.
  Qed.

  Lemma rtok_plug t : (forall eof, rtok eof y -> rtok eof x) -> forall eof, rtok eof (plug y t) -> rtok eof (plug x t).
  Proof.
    intros Hyx. pose proof (opens_plug y x Ny Nx Hop) as Ho. pose proof (fun t => decl_plug t Hdec) as Hd.
    induction t as [s|k|k t IH|t n IH|t n IH|t IH|t1 t2 IH1 IH2|ts IH|i t IH|k t IH|k tk tv IHk IHv|t IH|d fs IH|d vs IH|]
      using ty_ind'; intros eof; try rewrite !plug_struct; try rewrite !plug_enum; cbn [plug Wellformed.rtok]; auto.
    - rewrite <- Ho. intros (H1 & H2 & H3). split; [auto|]. split; [auto|]. intros Ee. eapply ends_mono; [apply Hd|auto].
    - rewrite <- Ho. intros []. auto.
    - rewrite <- Ho. intros []. auto.
    - intros []. auto.
    - induction IH as [|t ts Ht _ IHts]; [auto|]. cbn [map rt_tys]. rewrite <- Ho. intros (H1 & H2 & H3).
      split; [auto|]. split; [|auto]. intros E. specialize (H2 E). destruct ts; [reflexivity|discriminate].
    - rewrite <- Ho. intros []. auto.
    - rewrite <- Ho. intros (H1 & H2 & H3 & H4). split; [auto|]. split; [auto|]. split; [eapply exact_plug; eassumption|].
      intros Ee. eapply ends_mono; [apply Hd|auto].
    - rewrite <- !Ho. intros (H1 & H2 & H3 & H4 & H5 & H6). split; [auto|]. split; [auto|]. split; [eapply exact_plug; eassumption|].
      split; [auto|]. split; [auto|]. intros Ee. eapply ends_mono; [apply ddec_pair; apply Hd|auto].
    - apply rt_fields_plug, IH.
    - rewrite !map_map. intros (H1 & H2 & H3). split; [exact H1|]. split.
      + rewrite Forall_map in *. exact H2.
      + revert H3. rewrite !all_variants_plug. apply all_variants_impl. revert IH. apply Forall_impl.
        intros v Hf. apply rt_fields_plug, Hf.
  Qed.
End DecodePlug.

(* ------------------------------------------------------------------ *)
(** * Values of finite depth *)

Section ValuePlug.
  Context (h : host) (VH : valid_host h) (y x : ty).
  Context (SL : same_layout h y x) (Ny : nominal y) (Nx : nominal x).
  Context (e e6 : endian).
  Notation lim := (h_lim h).
  Notation valid := (valid lim).
  Notation enc := (enc (h_iter h) e e6).
  Notation tagged := (tagged (h_iter h) e e6).

  (** A value of [y] is the same value of [x]. *)
  Record embeds (t1 t2 : ty) : Prop := {
    em_valid : forall v, valid t1 v -> valid t2 v;
    em_enc : forall l v, valid t1 v -> enc l t1 v = enc l t2 v;
    em_norm : forall v, valid t1 v -> norm t1 v = norm t2 v;
    em_tagged : forall v, valid t1 v -> tagged t1 v -> tagged t2 v
  }.

  Definition embeds_fields (fs1 fs2 : fields) : Prop :=
    forall vs, valid_fields valid fs1 vs ->
      valid_fields valid fs2 vs
      /\ (forall prev, enc_fields e e6 enc prev fs1 vs = enc_fields e e6 enc prev fs2 vs)
      /\ norm_fields norm fs1 vs = norm_fields norm fs2 vs
      /\ (tagged_fields tagged fs1 vs -> tagged_fields tagged fs2 vs).

  Lemma embeds_plug_fields fs : Forall (fun f => embeds (plug y (snd f)) (plug x (snd f))) fs ->
    embeds_fields (plug_fields y fs) (plug_fields x fs).
  Proof.
    unfold plug_fields. induction 1 as [|[a t] fs Hf _ IH]; intros [|v vs] Hv; cbn in Hv; try contradiction.
    - cbn. auto.
    - destruct Hv as [Hv Hvs]. destruct (IH vs Hvs) as (H1 & H2 & H3 & H4). cbn [fst snd] in *.
      cbn [map valid_fields enc_fields norm_fields tagged_fields plug_field fst snd].
      split; [split; [apply Hf, Hv|exact H1]|]. split.
      { intros prev. destruct (f_skip a); [apply H2|]. rewrite H2. unfold enc_field.
        rewrite !field_len_plug by assumption. rewrite (em_enc _ _ Hf _ _ Hv). reflexivity. }
      split.
      { rewrite H3, (em_norm _ _ Hf _ Hv). reflexivity. }
      intros [[Ht|Ht] Hts]; (split; [|auto]); [left; exact Ht|right; apply (em_tagged _ _ Hf); assumption].
  Qed.

  Lemma enc_all_ext (P : val -> Prop) en en' vs : Forall P vs -> (forall v, P v -> en v = en' v) -> enc_all en vs = enc_all en' vs.
  Proof.
    intros H E. unfold enc_all. f_equal. induction H as [|v vs Hv _ IH]; [reflexivity|]. cbn. rewrite (E v Hv), IH. reflexivity.
  Qed.

  Lemma iter_Forall (P : val -> Prop) k vs : Forall P vs -> Forall P (iter_order (h_iter h) k vs).
  Proof.
    intros H. destruct k; cbn; auto. rewrite Forall_forall in *. intros v Hv. apply H.
    eapply Permutation_in; [apply (vh_iter h VH)|exact Hv].
  Qed.

  Lemma range_inv i t v : valid (TRange i t) v ->
    exists a b, (i = false /\ v = VSeq [a; b] \/ i = true /\ exists q, v = VSeq [a; b; VBool q])
      /\ valid t a /\ valid t b.
  Proof.
    destruct i, v as [| | | |[|a [|b [|c [|]]]]| | | | |]; cbn [Spec.valid]; try contradiction;
      try (destruct c; contradiction).
    - destruct c as [|q| | | | | | | |]; try contradiction. intros []. eauto 9.
    - intros []. eauto 9.
  Qed.

  Lemma embeds_plug t : embeds y x -> embeds (plug y t) (plug x t).
  Proof.
    intros Hyx.
    induction t as [s|k|k t IH|t n IH|t n IH|t IH|t1 t2 IH1 IH2|ts IH|i t IH|k t IH|k tk tv IHk IHv|t IH|d fs IH|d vs IH|]
      using ty_ind'; try exact Hyx.
    - constructor; auto.
    - constructor; auto.
    - constructor; cbn [plug]; intros.
      + destruct v; try contradiction. destruct H as [H [H1 H2]]. split; [|split; [exact H1|]].
        * revert H. apply Forall_impl, IH.
        * rewrite <- (fits_plug h VH y x SL). exact H2.
      + destruct v; try contradiction. destruct H as [H _]. cbn [Spec.enc]. f_equal. eapply enc_all_ext; [exact H|apply IH].
      + destruct v; try contradiction. destruct H as [H _]. cbn [norm]. f_equal. apply map_ext_in. intros v Hv.
        rewrite Forall_forall in H. apply IH, H, Hv.
      + destruct v; try contradiction. destruct H as [H _]. cbn [Wellformed.tagged] in *. rewrite Forall_forall in *.
        intros v Hv. apply IH; auto.
    - constructor; cbn [plug]; intros.
      + destruct v; try contradiction. destruct H as [H H1]. split; [|exact H1]. revert H. apply Forall_impl, IH.
      + destruct v; try contradiction. destruct H as [H _]. cbn [Spec.enc]. eapply enc_all_ext; [exact H|apply IH].
      + destruct v; try contradiction. destruct H as [H _]. cbn [norm]. f_equal. apply map_ext_in. intros v Hv.
        rewrite Forall_forall in H. apply IH, H, Hv.
      + destruct v; try contradiction. destruct H as [H _]. cbn [Wellformed.tagged] in *. rewrite Forall_forall in *.
        intros v Hv. apply IH; auto.
    - constructor; cbn [plug]; intros.
      + destruct v; try contradiction. destruct H as [H H1]. split; [|exact H1]. revert H. apply Forall_impl, IH.
      + destruct v; try contradiction. destruct H as [H _]. cbn [Spec.enc]. eapply enc_all_ext; [exact H|apply IH].
      + destruct v; try contradiction. destruct H as [H _]. cbn [norm]. f_equal. apply map_ext_in. intros v Hv.
        rewrite Forall_forall in H. apply IH, H, Hv.
      + destruct v; try contradiction. destruct H as [H _]. cbn [Wellformed.tagged] in *. rewrite Forall_forall in *.
        intros v Hv. apply IH; auto.
    - constructor; cbn [plug]; intros; destruct v; try contradiction; cbn [Spec.valid Spec.enc norm Wellformed.tagged] in *; auto.
      + apply IH, H.
      + f_equal. apply IH, H.
      + f_equal. apply IH, H.
      + apply IH; assumption.
    - constructor; cbn [plug]; intros; destruct v; try contradiction; cbn [Spec.valid Spec.enc norm Wellformed.tagged] in *;
        try (apply IH1; assumption); try (apply IH2; assumption); f_equal; try (apply IH1; assumption); try (apply IH2; assumption).
    - assert (Ht : forall vs, valid_list valid (map (plug y) ts) vs ->
        valid_list valid (map (plug x) ts) vs
        /\ enc_tuple (enc len0) (map (plug y) ts) vs = enc_tuple (enc len0) (map (plug x) ts) vs
        /\ norm_list norm (map (plug y) ts) vs = norm_list norm (map (plug x) ts) vs
        /\ (valid_list tagged (map (plug y) ts) vs -> valid_list tagged (map (plug x) ts) vs)).
      { induction IH as [|t ts Ht _ IHts]; intros [|v vs] Hv; cbn in Hv; try contradiction; [cbn; auto|].
        destruct Hv as [Hv Hvs]. destruct (IHts vs Hvs) as (H1 & H2 & H3 & H4).
        cbn [map valid_list enc_tuple norm_list]. rewrite <- (em_enc _ _ Ht _ _ Hv), <- (em_norm _ _ Ht _ Hv), H2, H3.
        repeat split; auto; [apply Ht, Hv|apply (em_tagged _ _ Ht); tauto|tauto]. }
      constructor; cbn [plug]; intros; destruct v; try contradiction; destruct (Ht _ H) as (H1 & H2 & H3 & H4);
        cbn [Spec.valid Spec.enc norm Wellformed.tagged] in *; auto. f_equal. exact H3.
    - constructor; cbn [plug]; intros.
      + apply range_inv in H as (a & b & [[-> ->]|(-> & q & ->)] & Ha & Hb); split; apply IH; assumption.
      + apply range_inv in H as (a & b & [[-> ->]|(-> & q & ->)] & Ha & Hb); cbn [Spec.enc]; f_equal; apply IH; assumption.
      + apply range_inv in H as (a & b & [[-> ->]|(-> & q & ->)] & Ha & Hb); cbn [norm];
          rewrite (em_norm _ _ IH _ Ha), (em_norm _ _ IH _ Hb); reflexivity.
      + destruct v as [| | | |[|a [|b r]]| | | | |]; try exact I. cbn [Wellformed.tagged] in *.
        apply range_inv in H as (a' & b' & [[-> E]|(-> & q & E)] & Ha & Hb); injection E as -> -> ->;
          destruct H0; split; apply IH; assumption.
    - constructor; cbn [plug]; intros.
      + destruct v; try contradiction. destruct H as [H H1]. split; [|exact H1]. revert H. apply Forall_impl, IH.
      + destruct v; try contradiction. destruct H as [H _]. cbn [Spec.enc]. f_equal.
        eapply enc_all_ext; [apply iter_Forall, H|apply IH].
      + destruct v; try contradiction. destruct H as [H _]. cbn [norm]. f_equal. apply map_ext_in. intros v Hv.
        rewrite Forall_forall in H. apply IH, H, Hv.
      + destruct v; try contradiction. destruct H as [H _]. cbn [Wellformed.tagged] in *. rewrite Forall_forall in *.
        intros v Hv. apply IH; auto.
    - constructor; cbn [plug]; intros.
      + destruct v; try contradiction. destruct H as [H H1]. split; [|exact H1]. revert H. apply Forall_impl.
        intros [| | | |[|a [|b [|]]]| | | | |]; cbn; try tauto. intros [Ha Hb]. split; [apply IHk, Ha|apply IHv, Hb].
      + destruct v; try contradiction. destruct H as [H _]. cbn [Spec.enc]. f_equal.
        eapply enc_all_ext; [apply iter_Forall, H|]. intros [| | | |[|a [|b [|]]]| | | | |]; cbn; try tauto.
        intros [Ha Hb]. f_equal; [apply IHk, Ha|apply IHv, Hb].
      + destruct v; try contradiction. destruct H as [H _]. cbn [norm]. f_equal. apply map_ext_in. intros v Hv.
        rewrite Forall_forall in H. specialize (H v Hv). destruct v as [| | | |[|a [|b [|]]]| | | | |]; try contradiction.
        destruct H. f_equal. f_equal; [|f_equal]; [apply IHk|apply IHv]; assumption.
      + destruct v; try contradiction. destruct H as [H _]. cbn [Wellformed.tagged] in *. rewrite Forall_forall in *.
        intros v Hv. specialize (H v Hv). specialize (H0 v Hv). destruct v as [| | | |[|a [|b [|]]]| | | | |]; try contradiction.
        destruct H, H0. split; [apply IHk|apply IHv]; assumption.
    - constructor; cbn [plug]; intros.
      + cbn [Spec.valid] in *. apply IH, H.
      + cbn [Spec.valid Spec.enc] in *. apply IH, H.
      + cbn [Spec.valid norm] in *. destruct v; apply IH, H.
      + cbn [Spec.valid Wellformed.tagged] in *. destruct v; apply IH; assumption.
    - pose proof (embeds_plug_fields fs IH) as Hf. rewrite !plug_struct.
      constructor; intros; destruct v; try contradiction; destruct (Hf _ H) as (H1 & H2 & H3 & H4);
        cbn [Spec.valid Spec.enc norm Wellformed.tagged] in *; auto. f_equal. exact H3.
    - assert (Hvs : forall i us, 
        valid_variant valid (map (fun v => (fst v, plug_fields y (snd v))) vs) i us ->
        valid_variant valid (map (fun v => (fst v, plug_fields x (snd v))) vs) i us
        /\ enc_variant e e6 d enc (map (fun v => (fst v, plug_fields y (snd v))) vs) i us
           = enc_variant e e6 d enc (map (fun v => (fst v, plug_fields x (snd v))) vs) i us
        /\ norm_variant norm (map (fun v => (fst v, plug_fields y (snd v))) vs) i us
           = norm_variant norm (map (fun v => (fst v, plug_fields x (snd v))) vs) i us
        /\ (tagged_variant (h_iter h) e e6 d tagged (map (fun v => (fst v, plug_fields y (snd v))) vs) i us
           -> tagged_variant (h_iter h) e e6 d tagged (map (fun v => (fst v, plug_fields x (snd v))) vs) i us)).
      { induction IH as [|[g fs] vs Hf _ IHvs]; intros [|i] us Hv; cbn [map valid_variant] in Hv; try contradiction.
        - destruct (embeds_plug_fields fs Hf us Hv) as (H1 & H2 & H3 & H4).
          cbn [map valid_variant enc_variant norm_variant tagged_variant fst snd] in *. rewrite H3.
          split; [exact H1|]. split; [rewrite H2; reflexivity|]. split; [reflexivity|].
          intros [Hb Ht]. split; [|auto]. intros Hp b. rewrite <- H2. apply Hb, Hp.
        - cbn [map valid_variant enc_variant norm_variant tagged_variant]. apply IHvs, Hv. }
      rewrite !plug_enum.
      constructor; intros; destruct v; try contradiction; destruct (Hvs _ _ H) as (H1 & H2 & H3 & H4);
        cbn [Spec.valid Spec.enc norm Wellformed.tagged] in *; auto. f_equal. exact H3.
  Qed.
End ValuePlug.

(* ------------------------------------------------------------------ *)
(** * Further facts *)

Lemma fields_open_mono y x fs : nominal y -> nominal x ->
  Forall (fun f => forall eof, opens eof (plug y (snd f)) = true -> opens eof (plug x (snd f)) = true) fs ->
  fields_open opens (plug_fields y fs) = true -> fields_open opens (plug_fields x fs) = true.
Proof.
  intros Ny Nx. unfold plug_fields. induction 1 as [|[a t] fs Hf _ IH]; [auto|].
  cbn [map fields_open plug_field fst snd] in *. rewrite !field_eof_plug by assumption.
  intros H. apply orb_prop in H as [H|H]; apply orb_true_intro; [left|right; auto].
  apply andb_prop in H as [H1 H2]. rewrite H1. cbn [andb]. apply Hf, H2.
Qed.

Lemma opens_mono y x t : nominal y -> nominal x -> (forall eof, opens eof y = true -> opens eof x = true) ->
  forall eof, opens eof (plug y t) = true -> opens eof (plug x t) = true.
Proof.
  intros Ny Nx Hyx.
  induction t as [s|k|k t IH|t n IH|t n IH|t IH|t1 t2 IH1 IH2|ts IH|i t IH|k t IH|k tk tv IHk IHv|t IH|d fs IH|d vs IH|]
    using ty_ind'; intros eof; try rewrite !plug_struct; try rewrite !plug_enum; cbn [plug opens]; auto.
  - intros H. apply orb_prop in H as [H|H]; apply orb_true_intro; auto.
  - induction IH as [|t ts Ht _ IHts]; [auto|]. cbn [map existsb].
    intros H. apply orb_prop in H as [H|H]; apply orb_true_intro; auto.
  - apply fields_open_mono; assumption.
  - induction IH as [|[g fs] vs Hf _ IHvs]; [auto|]. cbn [map variants_open fst snd] in *.
    intros H. apply orb_prop in H as [H|H]; apply orb_true_intro; [left|auto]. revert H. apply fields_open_mono; assumption.
Qed.

Lemma no_eof_plug y x t : nominal y -> nominal x -> (forall eof, no_eof eof y -> no_eof eof x) ->
  forall eof, no_eof eof (plug y t) -> no_eof eof (plug x t).
Proof.
  intros Ny Nx Hyx.
  induction t as [s|k|k t IH|t n IH|t n IH|t IH|t1 t2 IH1 IH2|ts IH|i t IH|k t IH|k tk tv IHk IHv|t IH|d fs IH|d vs IH|]
    using ty_ind'; intros eof; try rewrite !plug_struct; try rewrite !plug_enum; cbn [plug no_eof]; auto.
  - intros []. auto.
  - intros []. auto.
  - rewrite !all_tys_map. apply all_tys_impl. revert IH. apply Forall_impl. auto.
  - intros []. auto.
  - intros (H1 & H2 & H3). auto.
  - rewrite !all_fields_plug. apply all_fields_impl. revert IH. apply Forall_impl. intros [a t] Hf. cbn [fst snd] in *.
    rewrite !field_eof_plug by assumption. intros [H|[H1 H2]]; auto.
  - rewrite !all_variants_plug. apply all_variants_impl. revert IH. apply Forall_impl. intros v Hv.
    rewrite !all_fields_plug. apply all_fields_impl. revert Hv. apply Forall_impl. intros [a t] Hf. cbn [fst snd] in *.
    rewrite !field_eof_plug by assumption. intros [H|[H1 H2]]; auto.
Qed.

Lemma map_plug_ext (g1 g2 : ty -> ty) fs : Forall (fun f => g1 (snd f) = g2 (snd f)) fs ->
  map (fun f : fattrs * ty => (fst f, g1 (snd f))) fs = map (fun f => (fst f, g2 (snd f))) fs.
Proof. induction 1 as [|f fs Hf _ IH]; [reflexivity|]. cbn. rewrite Hf, IH. reflexivity. Qed.

Lemma plug_plug a b t : plug a (plug b t) = plug (plug a b) t.
Proof.
  induction t as [s|k|k t IH|t n IH|t n IH|t IH|t1 t2 IH1 IH2|ts IH|i t IH|k t IH|k tk tv IHk IHv|t IH|d fs IH|d vs IH|]
    using ty_ind'; cbn [plug]; f_equal; auto.
  - rewrite map_map. induction IH as [|t ts Ht _ IHts]; [reflexivity|]. cbn. rewrite Ht, IHts. reflexivity.
  - rewrite map_map. cbn [fst snd]. apply (map_plug_ext (fun t => plug a (plug b t)) (plug (plug a b))), IH.
  - rewrite map_map. cbn [fst snd]. induction IH as [|v vs Hv _ IHvs]; [reflexivity|]. cbn [map]. rewrite IHvs. f_equal. f_equal.
    rewrite map_map. cbn [fst snd]. apply (map_plug_ext (fun t => plug a (plug b t)) (plug (plug a b))), Hv.
Qed.

Lemma plug_unroll d n : plug (unroll d 1) (unroll d n) = unroll d (S n).
Proof.
  induction n as [|n IH]; [reflexivity|]. cbn [unroll]. rewrite plug_plug. f_equal. exact IH.
Qed.

(** The host that takes the hole for [x]. *)
Definition with_hole (h : host) (x : ty) : host :=
  {| h_native := h_native h;
     h_lim := {| l_usize_max := l_usize_max (h_lim h);
                 l_fits t n := l_fits (h_lim h) (plug x t) n;
                 l_systime_max := l_systime_max (h_lim h);
                 l_chrono_ok := l_chrono_ok (h_lim h);
                 l_regex_ok := l_regex_ok (h_lim h) |};
     h_overflow_checks := h_overflow_checks h;
     h_size t := h_size h (plug x t);
     h_align t := h_align h (plug x t);
     h_offset d fs := h_offset h d (plug_fields x fs);
     h_capacity := h_capacity h;
     h_iter := h_iter h;
     h_alloc_max := h_alloc_max h |}.

Lemma with_hole_valid h x : valid_host h -> valid_host (with_hole h x).
Proof.
  intros VH. constructor; cbn [with_hole h_lim l_usize_max l_fits l_systime_max h_size h_align h_offset h_capacity h_iter h_alloc_max].
  - apply (vh_usize_lo h VH).
  - apply (vh_usize_hi h VH).
  - apply (vh_alloc h VH).
  - intros. apply (vh_fits h VH).
  - apply (vh_systime h VH).
  - apply (vh_prim h VH).
  - intros. apply (vh_align h VH).
  - apply (vh_empty h VH).
  - intros d f Hd. apply (vh_transparent h VH d (plug_field x f) Hd).
  - intros d fs i f Hf. apply (vh_inside h VH d (plug_fields x fs) i (plug_field x f)).
    unfold plug_fields. rewrite nth_error_map, Hf. reflexivity.
  - intros d fs i j f g Hij Hf Hg. apply (vh_disjoint h VH d (plug_fields x fs) i j (plug_field x f) (plug_field x g) Hij);
      unfold plug_fields; rewrite nth_error_map; [rewrite Hf|rewrite Hg]; reflexivity.
  - intros d fs Hd. pose proof (vh_c h VH d (plug_fields x fs) Hd) as H. unfold offsets, plug_fields in *.
    rewrite map_length in H. exact H.
  - apply (vh_capacity h VH).
  - apply (vh_iter h VH).
Qed.
