(* Properties C106, C107: whole declarations, from their attributes to the code. *)
From Verif Require Import Declaration Spelling PropSyntax PropTags Checker Samples Entry.
Open Scope string_scope.
Open Scope N_scope.
Open Scope list_scope.

(* ------------------------------------------------------------------ *)
(** * What attributes say *)

(** The items written in the `#[speedy( … )]` of a declaration, in order. *)
Definition written (l : list attribute) (items : list (string * avalue)) : Prop :=
  exists groups, Forall2 (fun a its => exists ws, at_meta a = MetaList ws (Some its))
                         (filter (fun a => (at_path a =? "speedy")%string) l) groups
                 /\ items = concat groups.

Inductive enum_item : string * avalue -> enum_attr -> Prop :=
| tag_type_u7 : enum_item ("tag_type", Value (EName "u7")) (ATagType BU7)
| tag_type_u8 : enum_item ("tag_type", Value (EName "u8")) (ATagType BU8)
| tag_type_u16 : enum_item ("tag_type", Value (EName "u16")) (ATagType BU16)
| tag_type_u32 : enum_item ("tag_type", Value (EName "u32")) (ATagType BU32)
| tag_type_u64 : enum_item ("tag_type", Value (EName "u64")) (ATagType BU64)
| tag_type_varint : enum_item ("tag_type", Value (EName "u64_varint")) (ATagType BVarint)
| peek_tag_item : enum_item ("peek_tag", NoValue) APeekTag.

Inductive variant_item : string * avalue -> N -> Prop :=
| tag_item n suffix : n < 2 ^ 64 -> variant_item ("tag", Value (ELit (LInt n suffix))) n.

Inductive struct_item : string * avalue -> unit -> Prop :=
| always_item : struct_item ("unsafe_is_primitive", Value (EName "always")) tt.

Section FieldItem.
  Context (eval : sexpr -> list (option Z) -> option N).
  Inductive field_item : string * avalue -> field_attr -> Prop :=
  | item_eof : field_item ("default_on_eof", NoValue) ADefaultOnEof
  | item_length e : field_item ("length", Value e) (ALengthExpr (eval e))
  | item_until : field_item ("length", DotDot) ALengthEof
  | item_type x b : enum_item ("tag_type", Value (EName x)) (ATagType b) ->
                    field_item ("length_type", Value (EName x)) (ALengthType b)
  | item_skip : field_item ("skip", NoValue) ASkip
  | item_prefix e b : parse_constant e = Parsed b ->        (* C96 *)
                      field_item ("constant_prefix", Value e) (AConstantPrefix b)
  | item_varint : field_item ("varint", NoValue) AVarint.
End FieldItem.

Definition says {A} (item : string * avalue -> A -> Prop) (l : list attribute) (xs : list A) : Prop :=
  exists items, written l items /\ Forall2 item items xs.

(* ------------------------------------------------------------------ *)
(** * C106: attributes *)

Ltac eqb_cases :=
  repeat match goal with
         | |- context [(?x =? ?y)%string] =>
           is_var x; let E := fresh "E" in destruct (x =? y)%string eqn:E;
             [apply String.eqb_eq in E; subst x|apply String.eqb_neq in E]
         end.

Lemma enum_items k v a : parse_enum_attr k v = Parsed a <-> enum_item (k, v) a.
Proof.
  split.
  - unfold parse_enum_attr. eqb_cases; [| |discriminate].
    + destruct v as [| |e]; try discriminate. unfold parse_basic. destruct e as [| |x|]; try discriminate.
      eqb_cases; try discriminate; intros [= <-]; constructor.
    + destruct v; try discriminate. intros [= <-]. constructor.
  - intros H. inversion H; reflexivity.
Qed.

Lemma variant_items k v n : parse_variant_attr k v = Parsed n <-> variant_item (k, v) n.
Proof.
  split.
  - unfold parse_variant_attr. eqb_cases; [|discriminate]. destruct v as [| |e]; try discriminate.
    unfold parse_tag_literal. destruct e as [[]| | |]; try discriminate. unfold parse_u64.
    destruct (n0 <? 2 ^ 64) eqn:E; [|discriminate]. intros [= <-]. constructor. apply N.ltb_lt, E.
  - intros H. inversion H as [m s Hm]; subst. cbn. unfold parse_u64. apply N.ltb_lt in Hm. rewrite Hm. reflexivity.
Qed.

Lemma struct_items k v u : parse_struct_attr k v = Parsed u <-> struct_item (k, v) u.
Proof.
  split.
  - unfold parse_struct_attr. eqb_cases; [|discriminate]. destruct v as [| |[| |x|]]; try discriminate.
    eqb_cases; [|discriminate]. intros [= <-]. constructor.
  - intros H. inversion H; reflexivity.
Qed.

Lemma field_items eval k v a : parse_field_attr eval k v = Parsed a <-> field_item eval (k, v) a.
Proof.
  split.
  - unfold parse_field_attr. eqb_cases; try discriminate; destruct v as [| |e]; try discriminate;
      try (intros [= <-]; constructor).
    + destruct (parse_basic e) as [b|] eqn:Eb; [|discriminate]. intros [= <-].
      destruct e as [| |x|]; try discriminate. constructor. apply enum_items. unfold parse_enum_attr.
      cbn -[parse_basic]. rewrite Eb. reflexivity.
    + destruct (parse_constant e) eqn:Ec; try discriminate. intros [= <-]. constructor. exact Ec.
  - intros H. inversion H as [| | |x b Hx| |e b Hb|]; subst; try reflexivity.
    + apply enum_items in Hx. revert Hx. unfold parse_enum_attr. cbn -[parse_basic].
      destruct (parse_basic (EName x)); [|discriminate]. intros [= <-]. reflexivity.
    + cbn -[parse_constant]. rewrite Hb. reflexivity.
Qed.

Section Says.
  Context {A : Type} (parse : string -> avalue -> parsed A) (item : string * avalue -> A -> Prop).
  Context (Hitem : forall k v a, parse k v = Parsed a <-> item (k, v) a).

  Lemma items_parsed l xs : parse_items parse l = Parsed xs <-> Forall2 item l xs.
  Proof.
    revert xs. induction l as [|[k v] l IH]; intros xs; cbn [parse_items].
    - split; [intros [= <-]; constructor|intros H; inversion H; reflexivity].
    - split.
      + destruct (parse k v) as [a| |] eqn:E; try discriminate. cbn [pbind].
        destruct (parse_items parse l) as [ys| |]; try discriminate. cbn [pbind]. intros [= <-].
        constructor; [apply Hitem, E|apply IH; reflexivity].
      + intros H. inversion H as [|? a ? ys Ha Hl]; subst. apply Hitem in Ha. apply IH in Hl. rewrite Ha, Hl. reflexivity.
  Qed.

  Lemma attributes_parsed l xs : parse_attributes parse l = Parsed xs <-> says item l xs.
  Proof.
    revert xs. induction l as [|a l IH]; intros xs; cbn [parse_attributes].
    - split.
      + intros [= <-]. exists []. split; [exists []; split; [constructor|reflexivity]|constructor].
      + intros (items & (groups & Hg & ->) & H). inversion Hg; subst. inversion H. reflexivity.
    - unfold says, written. cbn [filter]. destruct (at_path a =? "speedy")%string.
      + split.
        * destruct (at_meta a) as [| |ws [its|]] eqn:Em; try discriminate.
          destruct (parse_items parse its) as [ys| |] eqn:Ei; try discriminate. cbn [pbind].
          destruct (parse_attributes parse l) as [zs| |] eqn:El; try discriminate. cbn [pbind]. intros [= <-].
          destruct (proj1 (IH zs) eq_refl) as (items & (groups & Hg & ->) & Hz).
          exists (its ++ concat groups). split.
          -- exists (its :: groups). split; [constructor; [eauto|exact Hg]|reflexivity].
          -- apply Forall2_app; [apply items_parsed, Ei|exact Hz].
        * intros (items & (groups & Hg & ->) & H). inversion Hg as [|? its ? gs (ws & Em) Hgs]; subst. rewrite Em.
          cbn [concat] in H. apply Forall2_app_inv_l in H as (ys & zs & Hy & Hz & ->).
          apply items_parsed in Hy. rewrite Hy. cbn [pbind].
          rewrite (proj2 (IH zs)) by (exists (concat gs); split; [exists gs; auto|exact Hz]). reflexivity.
      + apply IH.
  Qed.
End Says.

(** C106: attributes are accepted exactly if every `#[speedy]` is a list of the items
    its place allows; other attributes are ignored, and it does not matter how the
    items are spread over several. *)
Theorem C106_attributes eval l :
  (forall xs, parse_attributes parse_enum_attr l = Parsed xs <-> says enum_item l xs)
  /\ (forall xs, parse_attributes parse_variant_attr l = Parsed xs <-> says variant_item l xs)
  /\ (forall xs, parse_attributes parse_struct_attr l = Parsed xs <-> says struct_item l xs)
  /\ (forall xs, parse_attributes (parse_field_attr eval) l = Parsed xs <-> says (field_item eval) l xs).
Proof.
  split; [|split; [|split]]; intros xs; apply attributes_parsed.
  - apply enum_items.
  - apply variant_items.
  - apply struct_items.
  - apply field_items.
Qed.
Print Assumptions C106_attributes.

(* ------------------------------------------------------------------ *)
(** * C106: declarations *)

(** A literal behind the variant, something else, or nothing. *)
Inductive discriminant_is : option sexpr -> discriminant -> Prop :=
| disc_none : discriminant_is None DiscNone
| disc_lit n suffix : discriminant_is (Some (ELit (LInt n suffix))) (DiscLit n)
| disc_other e : (forall n suffix, e <> ELit (LInt n suffix)) -> discriminant_is (Some e) DiscExpr.

Section Declared.
  Context (user : spelled -> option rust_ty) (eval : sexpr -> list (option Z) -> option N).

  (** The description of a field that Derive.v starts from. *)
  Definition raw_describes (f : rawfield) (r : rfield) : Prop :=
    says (field_item eval) (rw_attrs f) (rf_attrs r)
    /\ sized (denote user (rw_ty f)) = Some (rf_ty r)
    /\ rf_opaque r = is_opaque (opt_inner (parse_field_ty (rw_ty f)))
    /\ rf_default r = rw_default f.

  Definition variant_describes (v : svariant) (r : rvariant) : Prop :=
    says variant_item (sv_attrs v) (rv_tags r) /\ discriminant_is (sv_disc v) (rv_disc r)
    /\ Forall2 raw_describes (sv_fields v) (rv_fields r).

  (** The types behind a variant. *)
  Definition variant_typed (v : variant) (w : tvariant) : Prop :=
    va_tag v = tv_tag w /\ va_unit v = tv_unit w
    /\ tv_fixed w = forallb (fun d => is_guaranteed_non_recursive (fd_raw d)) (va_fields v)
    /\ Forall2 (typed user) (va_fields v) (tv_fields w).

  Notation model f := (tf_attrs f, tf_raw f).
  Notation models fs := (map (fun f => model f) fs).

  Lemma same_items l : parse_items (parse_field_attr eval) l = parse_field_attrs eval l.
  Proof.
    reflexivity.
  Qed.

  (** The field with its items in one list. *)
  Definition gather (f : rawfield) (items : list (string * avalue)) : sfield :=
    {| sf_attrs := items; sf_ty := rw_ty f; sf_default := rw_default f |}.

  Lemma gathered f r : raw_describes f r ->
    exists items, describes user eval (gather f items) r /\ parse_rawfield eval f = parse_field eval (gather f items).
  Proof.
    intros (Hs & Ht & Ho & Hd). pose proof Hs as (items & _ & Hi).
    apply (items_parsed _ _ (field_items eval)) in Hi. rewrite same_items in Hi.
    exists items. split; [repeat split; assumption|].
    apply (attributes_parsed _ _ (field_items eval)) in Hs.
    unfold parse_rawfield, parse_field. rewrite Hs. cbn [pbind gather sf_attrs sf_ty]. rewrite Hi. reflexivity.
  Qed.

  Lemma fields_declared seen l rs : Forall2 raw_describes l rs ->
    match parse_rawfields_from eval seen l with
    | Parsed ds => exists fs, Forall2 (typed user) ds fs /\ Forall sound_field fs
                   /\ get_fields_from seen rs = Some (models fs)
    | _ => get_fields_from seen rs = None
    end.
  Proof.
    intros H. assert (G : exists gs, Forall2 (describes user eval) gs rs
                          /\ forall b, parse_rawfields_from eval b l = parse_fields_from eval b gs).
    { induction H as [|f r l rs Hr _ IH]; [exists []; split; [constructor|reflexivity]|].
      destruct IH as (gs & H1 & H2). destruct (gathered f r Hr) as (items & H3 & H4).
      exists (gather f items :: gs). split; [constructor; assumption|]. intros b.
      cbn [parse_rawfields_from parse_fields_from]. destruct b; [reflexivity|]. rewrite H4.
      destruct (parse_field eval (gather f items)) as [d| |]; try reflexivity. cbn [pbind]. rewrite H2.
      destruct (parse_fields_from eval (is_until_eof (fd_attrs d)) gs); reflexivity. }
    destruct G as (gs & H1 & H2). rewrite H2. apply accepted_from. exact H1.
  Qed.

  (** C106: a struct is accepted exactly if Derive.v accepts its description, and both
      agree on the type. *)
  Theorem C106_struct id attrs g l forced rs :
    says struct_item attrs forced -> Forall2 raw_describes l rs ->
    match declare_struct eval id attrs g l with
    | Parsed (d, ds) => exists fs, Forall2 (typed user) ds fs /\ Forall sound_field fs
        /\ derive_struct id (repr_of (map repr_view attrs)) (uses_generics g) forced rs = Some (TStruct d (models fs))
    | _ => derive_struct id (repr_of (map repr_view attrs)) (uses_generics g) forced rs = None
    end.
  Proof.
    intros Ha Hl. apply (attributes_parsed _ _ struct_items) in Ha. unfold declare_struct. rewrite Ha. cbn [pbind].
    unfold derive_struct, get_fields, struct_new. pose proof (fields_declared false l rs Hl) as H.
    destruct forced as [|[] [|]]; try reflexivity;
      (destruct (parse_rawfields_from eval false l) as [ds| |]; cbn [pbind]; [|rewrite H; reflexivity..];
       destruct H as (fs & H1 & H2 & H3); rewrite H3; eauto).
  Qed.

  Lemma tag_declared max previous v r : says variant_item (sv_attrs v) (rv_tags r) -> discriminant_is (sv_disc v) (rv_disc r) ->
    match spelled_tag max previous (rv_tags r) (sv_disc v) with
    | Parsed tag => assign_tag max previous r = Some tag
    | _ => assign_tag max previous r = None
    end.
  Proof.
    intros Hs Hd. unfold spelled_tag, assign_tag, variant_tag. destruct (rv_tags r) as [|n [|]]; [| |reflexivity].
    - destruct Hd as [|n s|e He].
      + destruct previous as [p|]; [|reflexivity]. destruct (max <=? p); reflexivity.
      + cbn [parse_tag_literal]. destruct (parse_u64 n) as [tag|]; [|reflexivity]. cbn [pbind].
        destruct (max <? tag); reflexivity.
      + assert (E : parse_tag_literal e = Rejected).
        { destruct e as [[]| | |]; try reflexivity. exfalso. exact (He _ _ eq_refl). }
        rewrite E. reflexivity.
    - assert (Hn : n < 2 ^ 64).
      { destruct Hs as (items & _ & Hi). inversion Hi as [|? ? ? ? Hx]; subst. inversion Hx; subst. assumption. }
      unfold parse_u64. apply N.ltb_lt in Hn. rewrite Hn. destruct (max <? n); reflexivity.
  Qed.

  Lemma variants_declared b previous seen l rs : Forall2 variant_describes l rs ->
    match parse_variants eval b previous seen l with
    | Parsed vs => exists ws, Forall2 variant_typed vs ws /\ Forall (fun w => Forall sound_field (tv_fields w)) ws
                   /\ enum_variants b previous seen rs = Some (map (fun w => (tv_tag w, models (tv_fields w))) ws)
    | _ => enum_variants b previous seen rs = None
    end.
  Proof.
    intros H. revert previous seen. induction H as [|v r l rs (Ha & Hd & Hf) _ IH]; intros previous seen.
    - exists []. auto.
    - cbn [parse_variants enum_variants]. pose proof (tag_declared (tag_max b) previous v r Ha Hd) as Ht.
      apply (attributes_parsed _ _ variant_items) in Ha. rewrite Ha. cbn [pbind].
      destruct (spelled_tag (tag_max b) previous (rv_tags r) (sv_disc v)) as [tag| |]; cbn [pbind]; rewrite Ht; try reflexivity.
      destruct (existsb (N.eqb tag) seen); [reflexivity|].
      unfold get_fields, struct_new. pose proof (fields_declared false _ _ Hf) as HF.
      destruct (parse_rawfields_from eval false (sv_fields v)) as [ds| |]; cbn [pbind]; [|rewrite HF; reflexivity..].
      destruct HF as (fs & F1 & F2 & F3). rewrite F3. specialize (IH (Some tag) (tag :: seen)).
      destruct (parse_variants eval b (Some tag) (tag :: seen) l) as [vs| |]; cbn [pbind]; [|rewrite IH; reflexivity..].
      destruct IH as (ws & W1 & W2 & W3). rewrite W3.
      exists ({| tv_tag := tag_expr b tag; tv_unit := sv_unit v;
                 tv_fixed := forallb (fun d => is_guaranteed_non_recursive (fd_raw d)) ds; tv_fields := fs |} :: ws).
      split; [|split; [|reflexivity]]; constructor; auto. repeat split; auto.
  Qed.

  (** The same for enums. *)
  Theorem C106_enum attrs l es rs : says enum_item attrs es -> Forall2 variant_describes l rs ->
    match declare_enum eval attrs l with
    | Parsed (d, vs) => exists ws, Forall2 variant_typed vs ws /\ Forall (fun w => Forall sound_field (tv_fields w)) ws
        /\ derive_enum es rs = Some (TEnum d (map (fun w => (tv_tag w, models (tv_fields w))) ws))
    | _ => derive_enum es rs = None
    end.
  Proof.
    intros Ha Hl. apply (attributes_parsed _ _ enum_items) in Ha. unfold declare_enum. rewrite Ha. cbn [pbind].
    unfold derive_enum, enum_new. destruct (collect_enum_attrs es None false) as [d|]; [|reflexivity].
    pose proof (variants_declared (e_tag d) None [] l rs Hl) as H.
    destruct (parse_variants eval (e_tag d) None [] l) as [vs| |]; cbn [pbind]; [|rewrite H; reflexivity..].
    destruct H as (ws & H1 & H2 & H3). rewrite H3. eauto.
  Qed.

  (** What is accepted has a description, if its types exist. *)
  Definition fields_exist (l : list rawfield) : Prop :=
    Forall (fun f => exists t, sized (denote user (rw_ty f)) = Some t) l.

  Lemma fields_described seen l ds : fields_exist l -> parse_rawfields_from eval seen l = Parsed ds ->
    exists rs, Forall2 raw_describes l rs.
  Proof.
    intros H. revert seen ds. induction H as [|f l (t & Ht) _ IH]; intros seen ds; [exists []; constructor|].
    cbn [parse_rawfields_from]. destruct seen; [discriminate|]. unfold parse_rawfield.
    destruct (parse_attributes (parse_field_attr eval) (rw_attrs f)) as [xs| |] eqn:E; try discriminate. cbn [pbind].
    destruct (sadd_attrs (rw_ty f) xs no_attrs) as [s|]; [|discriminate].
    destruct (finish_field _ s) as [d|]; [|discriminate]. cbn [pbind].
    destruct (parse_rawfields_from eval (is_until_eof (fd_attrs d)) l) as [ds'| |] eqn:El; try discriminate. intros _.
    destruct (IH _ _ El) as (rs & Hrs).
    exists ({| rf_attrs := xs; rf_opaque := is_opaque (opt_inner (parse_field_ty (rw_ty f))); rf_ty := t;
               rf_default := rw_default f |} :: rs).
    constructor; [|exact Hrs]. repeat split; auto. apply (attributes_parsed _ _ (field_items eval)), E.
  Qed.

  Theorem C106_struct_described id attrs g l d ds : fields_exist l -> declare_struct eval id attrs g l = Parsed (d, ds) ->
    exists forced rs, says struct_item attrs forced /\ Forall2 raw_describes l rs.
  Proof.
    intros He. unfold declare_struct.
    destruct (parse_attributes parse_struct_attr attrs) as [forced| |] eqn:Ea; try discriminate. cbn [pbind]. intros H.
    assert (E : exists ds', struct_new eval l = Parsed ds').
    { destruct forced as [|[] [|]]; try discriminate; destruct (struct_new eval l); try discriminate; eauto. }
    destruct E as (ds' & E). destruct (fields_described _ _ _ He E) as (rs & Hrs).
    exists forced, rs. split; [apply (attributes_parsed _ _ struct_items), Ea|exact Hrs].
  Qed.

  Lemma discriminant_total o : exists d, discriminant_is o d.
  Proof.
    destruct o as [e|]; [|eexists; constructor].
    destruct e as [[]| | |]; eexists; try apply disc_lit; apply disc_other; discriminate.
  Qed.

  Theorem C106_enum_described attrs l d vs : Forall (fun v => fields_exist (sv_fields v)) l ->
    declare_enum eval attrs l = Parsed (d, vs) ->
    exists es rs, says enum_item attrs es /\ Forall2 variant_describes l rs.
  Proof.
    intros He. unfold declare_enum.
    destruct (parse_attributes parse_enum_attr attrs) as [es| |] eqn:Ea; try discriminate. cbn [pbind].
    destruct (collect_enum_attrs es None false) as [d'|]; [|discriminate].
    destruct (parse_variants eval (e_tag d') None [] l) as [vs'| |] eqn:E; try discriminate. intros _.
    assert (G : exists rs, Forall2 variant_describes l rs).
    { revert E. generalize (@None N) as p, (@nil N) as seen. revert vs'. clear Ea.
      induction He as [|v l Hv _ IH]; intros vs' p seen; [exists []; constructor|]. cbn [parse_variants].
      destruct (parse_attributes parse_variant_attr (sv_attrs v)) as [tags| |] eqn:Et; try discriminate. cbn [pbind].
      destruct (spelled_tag (tag_max (e_tag d')) p tags (sv_disc v)) as [tag| |]; try discriminate. cbn [pbind].
      destruct (existsb (N.eqb tag) seen); [discriminate|].
      destruct (struct_new eval (sv_fields v)) as [ds| |] eqn:Es; try discriminate. cbn [pbind].
      destruct (parse_variants eval (e_tag d') (Some tag) (tag :: seen) l) as [ws| |] eqn:Ew; try discriminate. intros _.
      destruct (IH _ _ _ Ew) as (rs & Hrs). destruct (fields_described _ _ _ Hv Es) as (fr & Hfr).
      destruct (discriminant_total (sv_disc v)) as (dc & Hdc).
      exists ({| rv_tags := tags; rv_disc := dc; rv_fields := fr |} :: rs). constructor; [|exact Hrs].
      split; [apply (attributes_parsed _ _ variant_items), Et|]. split; assumption. }
    destruct G as (rs & Hrs). exists es, rs. split; [apply (attributes_parsed _ _ enum_items), Ea|exact Hrs].
  Qed.

  Lemma kinds_parsed seen l ds : parse_rawfields_from eval seen l = Parsed ds ->
    Forall (fun d => fd_kind d = parse_field_ty (fd_raw d)) ds.
  Proof.
    revert seen ds. induction l as [|f l IH]; intros seen ds; cbn [parse_rawfields_from]; [intros [= <-]; constructor|].
    destruct seen; [discriminate|]. destruct (parse_rawfield eval f) as [d| |] eqn:Ef; try discriminate. cbn [pbind].
    destruct (parse_rawfields_from eval (is_until_eof (fd_attrs d)) l) as [ds'| |] eqn:El; try discriminate. cbn [pbind].
    intros [= <-]. constructor; [|exact (IH _ _ El)]. clear - Ef. unfold parse_rawfield in Ef.
    destruct (parse_attributes (parse_field_attr eval) (rw_attrs f)) as [xs| |]; try discriminate. cbn [pbind] in Ef.
    destruct (sadd_attrs (rw_ty f) xs no_attrs) as [s|]; [|discriminate].
    destruct (finish_field _ s) as [d'|] eqn:E; [|discriminate]. injection Ef as <-.
    unfold finish_field in E. cbn [sf_ty sf_default] in E. destruct (as_length s), (as_type s); try discriminate.
    - destruct (parse_field_ty (rw_ty f)) eqn:Ep; [|discriminate]. destruct (is_sequence t); [|discriminate].
      injection E as <-. symmetry. exact Ep.
    - destruct (is_sequence _); [|discriminate]. injection E as <-. reflexivity.
    - injection E as <-. reflexivity.
  Qed.

  (** `check_is_primitive` sees the spellings as the model sees the types. *)
  Theorem C106_primitive id attrs g l d ds fs : declare_struct eval id attrs g l = Parsed (d, ds) ->
    Forall2 (typed user) ds fs -> Forall sound_field fs ->
    spelled_primitive attrs g (sd_forced d) ds = potentially_primitive d (models fs).
  Proof.
    intros Hd Ht Hs.
    assert (Er : sd_repr d = repr_of (map repr_view attrs) /\ sd_generic d = uses_generics g
                 /\ Forall (fun d => fd_kind d = parse_field_ty (fd_raw d)) ds).
    { unfold declare_struct in Hd. destruct (parse_attributes parse_struct_attr attrs) as [forced| |]; try discriminate.
      cbn [pbind] in Hd. destruct forced as [|[] [|]]; try discriminate;
        (destruct (struct_new eval l) eqn:El; try discriminate; cbn [pbind] in Hd; injection Hd as <- <-;
         apply kinds_parsed in El; auto). }
    destruct Er as (Er & Eg & Hk). destruct (C95_one (map repr_view attrs)) as (E1 & E2 & E3).
    unfold spelled_primitive, potentially_primitive, is_transparent, is_packed, is_c. rewrite E1, E2, E3, Er, Eg.
    assert (El : length (models fs) = length ds) by (rewrite map_length; clear - Ht; induction Ht; cbn [length]; congruence).
    assert (Ec : forallb (fun d => can_be_primitive (fd_attrs d)) ds = forallb (fun f => can_be_primitive (fst f)) (models fs)
              /\ forallb (fun d => match parse_primitive_ty (fd_raw d) with Some _ => true | None => false end) ds
                 = forallb is_simple (models fs)).
    { clear - Ht Hs Hk. induction Ht as [|x f ds fs H1 _ IH]; [split; reflexivity|].
      inversion_clear Hs as [|? ? Hf Hs']. inversion_clear Hk as [|? ? Hx Hk']. destruct (IH Hs' Hk') as [I1 I2].
      cbn [map forallb]. rewrite I1, I2, (simple_typed user x f H1 Hf Hx). destruct H1 as (-> & _). split; reflexivity. }
    destruct Ec as [-> ->]. rewrite El. f_equal. f_equal. f_equal. f_equal. f_equal. f_equal.
    destruct (repr_of (map repr_view attrs)); rewrite ?Bool.andb_false_r; try reflexivity.
    rewrite Bool.andb_true_r. rewrite <- El. destruct (models fs) as [|? [|]]; reflexivity.
  Qed.
End Declared.

Print Assumptions C106_struct.
Print Assumptions C106_enum.
Print Assumptions C106_struct_described.
Print Assumptions C106_enum_described.
Print Assumptions C106_primitive.

(* ------------------------------------------------------------------ *)
(** * C106: the code around the fields *)

Section EnumCode.
  Context (h : host).
  Notation models fs := (map (fun f => (tf_attrs f, tf_raw f)) fs).
  Notation model_variants ws := (map (fun w => (tv_tag w, models (tv_fields w))) ws).

  (** The code generated for an enum is that of the model: reading, *)
  Theorem C106_read d ws : valid_host h -> rust_alignment h -> Forall (fun w => Forall sound_field (tv_fields w)) ws ->
    Forall (fun w => Forall (fun f => usize_length h (tf_attrs f)) (tv_fields w)) ws ->
    forall St (R : reader St), exact_reader R ->
    forall s, enum_read_body h R (read h R) d ws s = read h R (TEnum d (model_variants ws)) s.
  Proof.
    intros VH RA Hs Hu St R ER s. unfold enum_read_body. cbn [read].
    assert (A : forall kind i s', enum_arms h R (read h R) kind i ws s' = read_variant h R (read h R) kind i (model_variants ws) s').
    { intros kind. induction ws as [|w ws IH]; intros i s'; [reflexivity|].
      inversion_clear Hs as [|? ? H1 Hs']. inversion_clear Hu as [|? ? H2 Hu'].
      cbn [map enum_arms read_variant fst snd]. destruct (tv_tag w =? kind); [|apply (IH Hs' Hu')].
      unfold mmap, bind. rewrite (C92_read h (tv_fields w) VH RA H1 H2 St R (fun _ => ER)). reflexivity. }
    unfold bind. destruct (read_tag h R d s) as [[kind| |] s']; try reflexivity. apply A.
  Qed.

  (** writing, *)
  Theorem C106_write d ws : Forall (fun w => Forall sound_field (tv_fields w)) ws ->
    forall St (W : writer St) i us s,
    enum_write_body h W (write h W) d ws i us s = write h W (TEnum d (model_variants ws)) (VVar i us) s.
  Proof.
    intros Hs St W i us s. unfold enum_write_body. cbn [write]. revert i.
    induction ws as [|w ws IH]; intros i; [destruct i; reflexivity|]. inversion_clear Hs as [|? ? H1 Hs'].
    destruct i as [|i]; [|exact (IH Hs' i)]. cbn [nth_error map write_variant fst snd]. unfold bind.
    destruct (e_peek d); cbn [negb].
    - cbn [ret]. apply (C92_write h (tv_fields w) H1).
    - destruct (write_tag h W (e_tag d) (tv_tag w) s) as [[[]| |] s']; try reflexivity. apply (C92_write h (tv_fields w) H1).
  Qed.

  Lemma fold_min_zero l : fold_left N.min l 0 = 0.
  Proof. induction l as [|a l IH]; [reflexivity|]. cbn [fold_left]. rewrite N.min_0_l. exact IH. Qed.

  (** and the announced minimum, whichever variants take part. *)
  Theorem C106_minimum d ws :
    enum_minimum (min_bytes h) d ws = min_bytes h (TEnum d (model_variants ws)).
  Proof.
    unfold enum_minimum. cbn [min_bytes]. rewrite fold_min_zero.
    assert (E : forall l, minimum_min l = 0) by (intros [|a l]; [reflexivity|apply fold_min_zero]).
    rewrite E. destruct (e_peek d); reflexivity.
  Qed.
End EnumCode.

Print Assumptions C106_read.
Print Assumptions C106_write.
Print Assumptions C106_minimum.

(* ------------------------------------------------------------------ *)
(** * C107: the patterns of the generated writer *)

(** A field with a `skip` among its attributes. *)
Definition marked_skip (f : rawfield) : Prop := exists items, written (rw_attrs f) items /\ In ("skip", NoValue) items.

Lemma sadd_skip t l s s' : sadd_attrs t l s = Some s' -> (as_skip s' = true <-> as_skip s = true \/ In ASkip l).
Proof.
  revert s. induction l as [|a l IH]; intros s; cbn [sadd_attrs].
  - intros [= <-]. cbn. tauto.
  - destruct (sadd_attr t a s) as [s1|] eqn:E; [|discriminate]. intros H. apply IH in H. rewrite H. cbn [In].
    assert (G : as_skip s1 = true <-> as_skip s = true \/ a = ASkip).
    { clear - E. destruct a; cbn [sadd_attr] in E;
        repeat match type of E with
               | (if ?b then _ else _) = _ => destruct b
               | match ?x with _ => _ end = _ => destruct x
               end; try discriminate; injection E as <-; cbn [as_skip]; split; intros; auto;
        match goal with H : _ \/ _ |- _ => destruct H; [assumption|discriminate] end. }
    rewrite G. intuition congruence.
Qed.

Lemma field_skip eval f d : parse_rawfield eval f = Parsed d -> (f_skip (fd_attrs d) = true <-> marked_skip f).
Proof.
  unfold parse_rawfield. destruct (parse_attributes (parse_field_attr eval) (rw_attrs f)) as [xs| |] eqn:E; try discriminate.
  cbn [pbind]. destruct (sadd_attrs (rw_ty f) xs no_attrs) as [s|] eqn:Es; [|discriminate].
  destruct (finish_field _ s) as [d'|] eqn:Ef; [|discriminate]. intros [= <-].
  assert (Hd : f_skip (fd_attrs d') = as_skip s).
  { unfold finish_field in Ef. destruct (as_length s), (as_type s); try discriminate;
      repeat match type of Ef with
             | (if ?b then _ else _) = _ => destruct b
             | match ?x with _ => _ end = _ => destruct x
             end; try discriminate; injection Ef as <-; reflexivity. }
  rewrite Hd, (sadd_skip _ _ _ _ Es). cbn [no_attrs as_skip].
  apply (attributes_parsed _ _ (field_items eval)) in E as (items & Hw & Hi). unfold marked_skip.
  assert (Hin : In ASkip xs <-> In ("skip", NoValue) items).
  { clear - Hi. induction Hi as [|[k v] x its xs Hx _ IH]; [reflexivity|]. cbn [In]. rewrite IH.
    assert (G : x = ASkip <-> (k, v) = ("skip", NoValue)); [|rewrite G; reflexivity].
    inversion Hx; subst; split; intros; try discriminate; reflexivity. }
  split.
  - intros [H|H]; [discriminate|]. exists items. split; [exact Hw|apply Hin, H].
  - intros (items' & Hw' & H). right. apply Hin. assert (items' = items); [|subst; exact H].
    destruct Hw as (g1 & G1 & ->), Hw' as (g2 & G2 & ->). f_equal. clear - G1 G2. revert g2 G2.
    induction G1 as [|a its l g1 (ws & Ha) _ IH]; intros g2 G2; inversion G2 as [|? its' ? g2' (ws' & Ha') G2']; subst; [reflexivity|].
    rewrite Ha in Ha'. injection Ha' as <- <-. f_equal. apply IH, G2'.
Qed.

Lemma fields_skip eval seen l ds : parse_rawfields_from eval seen l = Parsed ds ->
  (pattern_complete ds = true <-> Forall (fun f => ~ marked_skip f) l).
Proof.
  assert (E : forall ds, pattern_complete ds = true <-> Forall (fun d => f_skip (fd_attrs d) = false) ds).
  { clear. intros ds. unfold pattern_complete. rewrite Nat.eqb_eq. induction ds as [|d ds IH]; [split; [constructor|reflexivity]|].
    cbn [pattern_fields filter length]. fold (pattern_fields ds). destruct (f_skip (fd_attrs d)) eqn:Es; cbn [negb].
    - split; [|intros H; inversion H; congruence]. intros H. exfalso.
      assert (L : (length (pattern_fields ds) <= length ds)%nat).
      { clear. induction ds as [|x ds IH]; [reflexivity|]. cbn [pattern_fields filter length]. fold (pattern_fields ds).
        destruct (negb (f_skip (fd_attrs x))); cbn [length]; lia. }
      lia.
    - cbn [length]. split.
      + intros H. constructor; [exact Es|]. apply IH. lia.
      + intros H. inversion H; subst. f_equal. apply IH. assumption. }
  rewrite E. clear E. revert seen ds. induction l as [|f l IH]; intros seen ds; cbn [parse_rawfields_from].
  - intros [= <-]. split; constructor.
  - destruct seen; [discriminate|]. destruct (parse_rawfield eval f) as [d| |] eqn:Ef; try discriminate. cbn [pbind].
    destruct (parse_rawfields_from eval (is_until_eof (fd_attrs d)) l) as [ds'| |] eqn:El; try discriminate. cbn [pbind].
    intros [= <-]. apply field_skip in Ef. apply IH in El. split; intros H; inversion H; subst; constructor;
      try (apply El; assumption); rewrite <- Ef in *; destruct (f_skip (fd_attrs d)); congruence.
Qed.

(** C107 is false as stated: with `skip` on a field of a variant the writer does not
    compile.  Exactly then. *)
Theorem C107_patterns_partial eval attrs l d vs : declare_enum eval attrs l = Parsed (d, vs) ->
  (Forall (fun v => pattern_complete (va_fields v) = true) vs
   <-> Forall (fun v => Forall (fun f => ~ marked_skip f) (sv_fields v)) l).
Proof.
  unfold declare_enum. destruct (parse_attributes parse_enum_attr attrs) as [es| |]; try discriminate. cbn [pbind].
  destruct (collect_enum_attrs es None false) as [d'|]; [|discriminate].
  destruct (parse_variants eval (e_tag d') None [] l) as [vs'| |] eqn:E; try discriminate. cbn [pbind]. intros [= <- <-].
  revert E. generalize (@None N) as p, (@nil N) as seen. revert vs'.
  induction l as [|v l IH]; intros vs' p seen; cbn [parse_variants].
  - intros [= <-]. split; constructor.
  - destruct (parse_attributes parse_variant_attr (sv_attrs v)) as [tags| |]; try discriminate. cbn [pbind].
    destruct (spelled_tag (tag_max (e_tag d')) p tags (sv_disc v)) as [tag| |]; try discriminate. cbn [pbind].
    destruct (existsb (N.eqb tag) seen); [discriminate|].
    destruct (struct_new eval (sv_fields v)) as [ds| |] eqn:Es; try discriminate. cbn [pbind].
    destruct (parse_variants eval (e_tag d') (Some tag) (tag :: seen) l) as [ws| |] eqn:Ew; try discriminate. cbn [pbind].
    intros [= <-]. apply IH in Ew. apply fields_skip in Es.
    split; intros H; inversion H; subst; constructor; try (apply Ew; assumption); cbn [va_fields] in *; apply Es; assumption.
Qed.
Print Assumptions C107_patterns_partial.

(* ------------------------------------------------------------------ *)
(** * Concrete cases *)

Definition speedy (items : list (string * avalue)) : attribute := {| at_path := "speedy"; at_meta := MetaList [] (Some items) |}.
Definition doc : attribute := {| at_path := "doc"; at_meta := MetaNameValue |}.
Definition raw_of (attrs : list attribute) (y : spelled) : rawfield := {| rw_attrs := attrs; rw_ty := y; rw_default := VInt 0 |}.

(** `#[speedy(skip)]` in a variant. *)
Definition skipping : svariant :=
  {| sv_attrs := []; sv_disc := None; sv_unit := false;
     sv_fields := [raw_of [] (bare_name "u8"); raw_of [speedy [("skip", NoValue)]] (bare_name "u16")] |}.
Theorem C107_skip_refuted : exists d vs, declare_enum no_eval [] [skipping] = Parsed (d, vs)
  /\ Exists (fun v => pattern_complete (va_fields v) = false) vs.
Proof. eexists _, _. split; [reflexivity|]. left. reflexivity. Qed.
Print Assumptions C107_skip_refuted.

(** `/// …  #[speedy(tag_type = u16)] #[speedy(peek_tag)]
    enum E { A = 3u8, #[speedy(tag = 300u8)] B { #[speedy(varint)] x: u64, y: String }, C( u32 ) }` *)
Definition e_attrs : list attribute := [doc; speedy [("tag_type", Value (EName "u16"))]; speedy [("peek_tag", NoValue)]].
Definition e_variants : list svariant :=
  [{| sv_attrs := [doc]; sv_disc := Some (ELit (LInt 3 "u8")); sv_unit := true; sv_fields := [] |};
   {| sv_attrs := [speedy [("tag", Value (ELit (LInt 300 "u8")))]]; sv_disc := None; sv_unit := false;
      sv_fields := [raw_of [speedy [("varint", NoValue)]; doc] (bare_name "u64"); raw_of [] (bare_name "String")] |};
   {| sv_attrs := []; sv_disc := None; sv_unit := false; sv_fields := [raw_of [] (bare_name "u32")] |}].
Definition raw_as (l : list field_attr) (t : ty) : rfield := {| rf_attrs := l; rf_opaque := false; rf_ty := t; rf_default := VInt 0 |}.
Definition e_described : list rvariant :=
  [{| rv_tags := []; rv_disc := DiscLit 3; rv_fields := [] |};
   {| rv_tags := [300]; rv_disc := DiscNone; rv_fields := [raw_as [AVarint] (TP U64); raw_as [] (TStr KString)] |};
   {| rv_tags := []; rv_disc := DiscNone; rv_fields := [raw_as [] (TP U32)] |}].

Lemma says_of {A} (parse : string -> avalue -> parsed A) item (H : forall k v a, parse k v = Parsed a <-> item (k, v) a) l xs :
  parse_attributes parse l = Parsed xs -> says item l xs.
Proof. apply (attributes_parsed _ _ H). Qed.

Example C106_enum_attrs : says enum_item e_attrs [ATagType BU16; APeekTag].
Proof. apply (says_of _ _ enum_items). reflexivity. Qed.
Example C106_enum_variants : Forall2 (variant_describes std_paths eval_len) e_variants e_described.
Proof.
  repeat constructor; try apply (says_of _ _ variant_items); try apply (says_of _ _ (field_items eval_len)); reflexivity.
Qed.
(** The tag 300 is taken although its suffix says u8. *)
Example C106_enum_case : exists d vs, declare_enum eval_len e_attrs e_variants = Parsed (d, vs)
  /\ e_tag d = BU16 /\ e_peek d = true /\ map va_tag vs = [3; 300; 301].
Proof. eexists _, _. repeat split. Qed.

(** Rejected: `tag` on the enum, `tag_type` twice (apart), `#[speedy]` without a list,
    a tag that is no literal. *)
Example rejected_place : declare_enum no_eval [speedy [("tag", Value (ELit (LInt 3 "")))]] e_variants = Rejected.
Proof. reflexivity. Qed.
Example rejected_twice :
  declare_enum no_eval [speedy [("tag_type", Value (EName "u8"))]; doc; speedy [("tag_type", Value (EName "u8"))]] e_variants = Rejected.
Proof. reflexivity. Qed.
Example rejected_path : declare_enum no_eval [{| at_path := "speedy"; at_meta := MetaPath |}] e_variants = Rejected.
Proof. reflexivity. Qed.
Example rejected_expr :
  declare_enum no_eval [] [{| sv_attrs := []; sv_disc := Some (ENeg (ELit (LInt 1 ""))); sv_unit := true; sv_fields := [] |}] = Rejected.
Proof. reflexivity. Qed.

(** `#[repr(C)] #[speedy(unsafe_is_primitive = always)] struct S { a: u8, b: u16 }` *)
Definition s_attrs : list attribute :=
  [{| at_path := "repr"; at_meta := MetaList ["C"] None |}; speedy [("unsafe_is_primitive", Value (EName "always"))]].
Definition no_generics : sgenerics := {| sg_lifetimes := []; sg_types := []; sg_consts := [] |}.
Example C106_struct_case : exists d ds,
  declare_struct no_eval 90 s_attrs no_generics [raw_of [] (bare_name "u8"); raw_of [] (bare_name "u16")] = Parsed (d, ds)
  /\ sd_repr d = RC /\ sd_forced d = true /\ spelled_primitive s_attrs no_generics true ds = true.
Proof. eexists _, _. repeat split. Qed.
