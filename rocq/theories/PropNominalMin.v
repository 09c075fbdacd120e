(* Property C132: what `minimum_bytes_needed` gives for declarations that refer to one
   another by name. *)
From Verif Require Import Nominal Safe Sane CalmCheck Readers Host Samples PropNominal PropSyntax PropSafe.

(** Every `&[T; N]` in the type is one of primitive numbers. *)
Fixpoint number_refs (t : ty) : Prop :=
  match t with
  | TRefArr t' _ => exists p, t' = TP p
  | TSeq _ t' | TArr t' _ | TOption t' | TRange _ t' | TSet _ t' | TBox t' => number_refs t'
  | TMap _ t1 t2 | TResult t1 t2 => number_refs t1 /\ number_refs t2
  | TTuple ts => all_tys number_refs ts
  | TStruct _ fs => all_fields (fun _ t' => number_refs t') fs
  | TEnum _ vs => all_variants (all_fields (fun _ t' => number_refs t')) vs
  | _ => True
  end.

(* ------------------------------------------------------------------ *)
(** * Types written out *)

Section Written.
  Context (user : spelled -> option target) (size_of : spelled -> N) (const : alen -> N) (h : host).

  (** A field of a declaration, its type written out. *)
  Definition field_stands (deeper : spelled -> option rust_ty) (d : field) (f : fattrs * ty) : Prop :=
    fst f = set_opaque (is_opaque (opt_inner (fd_kind d))) (fd_attrs d)
    /\ sized (denote deeper (fd_raw d)) = Some (snd f).

  (** The names stand for what they are declared to be.  What the names inside the
      declarations stand for is [deeper]'s affair.  (Names of arrays are left out:
      behind a reference they would have to be looked through.) *)
  Record stands (names deeper : spelled -> option rust_ty) : Prop := {
    st_struct y fs : user y = Some (Declared (DeclStruct fs)) ->
      exists d fts, names y = Some (Sized (TStruct d fts)) /\ Forall2 (field_stands deeper) fs fts;
    st_enum y tag peek vs : user y = Some (Declared (DeclEnum tag peek vs)) ->
      exists d vts, names y = Some (Sized (TEnum d vts)) /\ e_tag d = tag /\ e_peek d = peek
        /\ Forall2 (fun v vt => Forall2 (field_stands deeper) (snd v) (snd vt)) vs vts;
    st_alias y z : user y = Some (Alias z) ->
      exists t, names y = Some (Sized t) /\ denote deeper z = Some (Sized t) /\ forall u n, t <> TArr u n;
    st_foreign y parts f : user y = Some (Foreign parts f) ->
      exists t ts, names y = Some (Sized t) /\ map (fun u => sized (denote deeper u)) parts = map Some ts
        /\ min_bytes h t = f (map (min_bytes h) ts) /\ (number_refs t -> Forall number_refs ts)
        /\ forall u n, t <> TArr u n;
    st_length u n : (forall k s, n <> LenInt k s) ->
      names (YArray u n) = with1 (sized (denote deeper u)) (fun t => TArr t (N.to_nat (const n)));
    st_other y : user y = None -> (forall u n, y <> YArray u n) -> names y = None;
    st_size y p : denote names y = Some (Sized (TP p)) -> size_of y = N.of_nat (psize p)      (* `mem::size_of` *)
  }.

  (** The declarations are written out [k] times: below that anything may stand. *)
  Inductive deep : nat -> (spelled -> option rust_ty) -> Prop :=
  | deep_any names : deep 0 names
  | deep_more k names deeper : stands names deeper -> deep k deeper -> deep (S k) names.

  Lemma deep_less k names : deep (S k) names -> deep k names.
  Proof.
    revert names. induction k as [|k IH]; intros names H; [constructor|].
    inversion_clear H as [|? ? deeper Hs Hd]. exact (deep_more _ _ _ Hs (IH _ Hd)).
  Qed.

  (** Declarations that do not recur are written out any number of times. *)
  Lemma deep_fixed names : stands names names -> forall k, deep k names.
  Proof. intros H. induction k as [|k IH]; [constructor|exact (deep_more _ _ _ H IH)]. Qed.
End Written.

(* ------------------------------------------------------------------ *)
(** * C132 *)

Lemma sum_some (m : spelled -> option N) us n : sum_opt (map m us) = Some n ->
  exists l, map m us = map Some l /\ n = nsum l.
Proof.
  revert n. induction us as [|u us IH]; intros n; unfold sum_opt in *; cbn [map fold_right].
  - intros H. injection H as <-. exists []. split; reflexivity.
  - destruct (m u) as [x|]; [|discriminate]. destruct (fold_right _ _ (map m us)) as [z|]; [|discriminate].
    intros H. injection H as <-. destruct (IH _ eq_refl) as (l & E & ->). exists (x :: l). split; [cbn; congruence|reflexivity].
Qed.

Lemma all_some_map {A} (l : list (option A)) r : all_some l = Some r -> l = map Some r.
Proof.
  revert r. induction l as [|[a|] l IH]; intros r; cbn; [intros H; injection H as <-; reflexivity| |discriminate].
  destruct (all_some l) as [l'|]; [|discriminate]. intros H. injection H as <-. cbn. rewrite (IH _ eq_refl). reflexivity.
Qed.

Lemma fold_min_zero l : fold_left N.min l 0 = 0.
Proof. induction l as [|x l IH]; [reflexivity|]. cbn [fold_left]. rewrite N.min_0_l. exact IH. Qed.

Lemma fold_opt_zero l n : fold_left min_opt l (Some 0) = Some n -> n = 0.
Proof.
  induction l as [|[x|] l IH]; cbn [fold_left min_opt]; [congruence| |rewrite fold_min_none; discriminate].
  rewrite N.min_0_l. exact IH.
Qed.

Fixpoint denote_strip names y : denote names (strip y) = denote names y.
Proof. destruct y; try reflexivity; cbn [strip denote]; apply denote_strip. Qed.

Lemma strip_strip y : strip (strip y) = strip y.
Proof. revert y. fix IH 1. destruct y; try reflexivity; cbn [strip]; apply IH. Qed.

Section Value.
  Context (user : spelled -> option target) (size_of : spelled -> N) (const : alen -> N) (h : host).
  Context (VH : valid_host h) (PR : proper user).
  Notation minimum := (minimum user size_of const).
  Notation deep := (deep user size_of const h).

  (** `varint` is put on `u64` only (C92). *)
  Context (Hvar : forall y d f, user y = Some (Declared d) -> In f (declared_fields d) ->
             f_varint (fd_attrs f) = true -> fd_kind f = Plain (TyPrimitive U64)).

  Lemma deep_size k names y p : deep (S k) names -> denote names y = Some (Sized (TP p)) -> size_of y = N.of_nat (psize p).
  Proof. intros H. inversion_clear H as [|? ? deeper Hs Hd]. exact (st_size _ _ _ _ _ _ Hs y p). Qed.

  Section Step.
    Context (k : nat).
    Context (IH : forall j names y n t, (k < j)%nat -> deep j names -> minimum k y = Some n ->
               sized (denote names y) = Some t -> number_refs t -> n = min_bytes h t).

    Lemma field_value j deeper d f n : (k < j)%nat -> deep j deeper -> fd_kind d = parse_field_ty (fd_raw d) ->
      (f_varint (fd_attrs d) = true -> fd_kind d = Plain (TyPrimitive U64)) ->
      field_stands deeper d f -> number_refs (snd f) ->
      field_minimum (minimum k) d = Some n -> n = field_min (min_bytes h) f.
    Proof.
      intros Hj Hd Ek Hv [Ha Ht] Hr. destruct f as [a t]. cbn [fst snd] in *. subst a.
      destruct (field_types deeper (fd_raw d) t Ht) as (o & Ho & Eo). rewrite <- Ek in Ho.
      assert (Hop : is_opaque (opt_inner (fd_kind d)) = is_opaque (opt_inner o)).
      { destruct (fd_kind d) as [x|x]; cbn in Ho; destruct (kind_types deeper x) as [x'|] eqn:Ex; try discriminate;
          injection Ho as <-; symmetry; apply (kind_opaque deeper x x' Ex). }
      assert (Hv' : f_varint (fd_attrs d) = true -> o = Plain (TyPrimitive U64)).
      { intros E. rewrite (Hv E) in Ho. cbn in Ho. congruence. }
      rewrite Hop. subst t.
      rewrite <- (minimum_same h (set_opaque (is_opaque (opt_inner o)) (fd_attrs d)) o eq_refl Hv').
      unfold get_minimum_bytes. cbn [set_opaque f_eof f_len f_skip f_varint f_prefix].
      unfold field_minimum. destruct (_ || _ || _); [congruence|].
      assert (E : forall x y : N, x = y ->
        add_opt (Some x) (Some (nlen (f_prefix (fd_attrs d)))) = Some n ->
        n = match f_prefix (fd_attrs d) with [] => y | p => y + nlen p end).
      { intros x y -> H. injection H as <-. destruct (f_prefix (fd_attrs d)); [apply N.add_0_r|reflexivity]. }
      destruct (fd_kind d) as [x|x]; cbn [opt_types] in Ho; destruct (kind_types deeper x) as [x'|] eqn:Ex; try discriminate;
        injection Ho as <-; [|apply E; reflexivity].
      cbn [opt_ty] in *.
      destruct x as [|u|u| |u w|u|u w|u|u w|u|u w|u| |u| |u q|p|u]; cbn [kind_types] in Ex;
        repeat match type of Ex with
               | match sized (denote deeper ?v) with _ => _ end = _ => destruct (sized (denote deeper v)) eqn:?; [|discriminate]
               | omap _ (sized (denote deeper ?v)) = _ => destruct (sized (denote deeper v)) eqn:?; [|discriminate]; cbn [omap] in Ex
               end; injection Ex as <-; try (apply E; reflexivity).
      - destruct (minimum k u) as [z|] eqn:Ez; [|discriminate]. cbn [omap]. apply E. f_equal.
        apply (IH j deeper u z _ Hj Hd Ez Heqo). exact Hr.
      - destruct (f_varint (fd_attrs d)); [apply E; reflexivity|].
        destruct (minimum k (fd_raw d)) as [z|] eqn:Ez; [|discriminate]. apply E. apply (IH j deeper _ z _ Hj Hd Ez Ht Hr).
      - destruct (minimum k (fd_raw d)) as [z|] eqn:Ez; [|discriminate]. apply E. apply (IH j deeper _ z _ Hj Hd Ez Ht Hr).
    Qed.

    Lemma fields_value j deeper fs fts n : (k < j)%nat -> deep j deeper ->
      (forall d, In d fs -> fd_kind d = parse_field_ty (fd_raw d)
                 /\ (f_varint (fd_attrs d) = true -> fd_kind d = Plain (TyPrimitive U64))) ->
      Forall2 (field_stands deeper) fs fts -> all_fields (fun _ t => number_refs t) fts ->
      fields_minimum (minimum k) fs = Some n -> n = nsum (map (field_min (min_bytes h)) fts).
    Proof.
      intros Hj Hd Hf H. revert n. unfold fields_minimum, sum_opt.
      induction H as [|d [a t] fs fts H1 _ IHf]; intros n Hr; cbn [map fold_right].
      - intros E. injection E as <-. reflexivity.
      - destruct Hr as [Hr1 Hr2]. destruct (field_minimum (minimum k) d) as [x|] eqn:Ex; [|discriminate].
        destruct (fold_right _ _ (map (field_minimum (minimum k)) fs)) as [z|]; [|discriminate]. intros E. injection E as <-.
        destruct (Hf d (or_introl eq_refl)) as [Hk Hv].
        rewrite (field_value j deeper d (a, t) x Hj Hd Hk Hv H1 Hr1 Ex).
        rewrite (IHf (fun d' Hd' => Hf d' (or_intror Hd')) z Hr2 eq_refl). reflexivity.
    Qed.

    Lemma all_value j names us ts l : (k < j)%nat -> deep j names ->
      map (fun u => sized (denote names u)) us = map Some ts -> map (minimum k) us = map Some l -> Forall number_refs ts ->
      l = map (min_bytes h) ts.
    Proof.
      intros Hj Hd. revert ts l. induction us as [|u us IHu]; intros [|t ts] [|x l]; cbn [map]; try discriminate; [reflexivity|].
      intros H1 H2 Hr. injection H1 as H1 H1'. injection H2 as H2 H2'. inversion_clear Hr as [|? ? Hr1 Hr2].
      rewrite (IH j names u x t Hj Hd H2 H1 Hr1), (IHu ts l H1' H2' Hr2). reflexivity.
    Qed.

    Lemma named_value j names deeper y g n t : (k < j)%nat -> stands user size_of const h names deeper -> deep j deeper ->
      user y = Some g -> names y = Some (Sized t) -> number_refs t ->
      minimum_body user size_of const (minimum k) y = Some n -> n = min_bytes h t.
    Proof.
      intros Hj Hs Hd Hg Hn Hr. rewrite (named_body user size_of const PR _ _ _ Hg). destruct g as [[fs|tag peek vs]|z|parts f].
      - destruct (st_struct _ _ _ _ _ _ Hs y fs Hg) as (d & fts & E & Hf). rewrite E in Hn. injection Hn as <-.
        cbn [min_bytes declared_minimum] in *. intros H. apply (fields_value j deeper fs fts n Hj Hd); auto.
        intros f Hin. split; [apply (pr_fields _ PR y _ f Hg Hin)|apply (Hvar y _ f Hg Hin)].
      - destruct (st_enum _ _ _ _ _ _ Hs y tag peek vs Hg) as (d & vts & E & E1 & E2 & _). rewrite E in Hn. injection Hn as <-.
        cbn [min_bytes declared_minimum]. rewrite E1, E2, fold_min_zero.
        destruct (fold_left min_opt _ _) as [x|] eqn:Ex; [|discriminate]. apply fold_opt_zero in Ex as ->. congruence.
      - destruct (st_alias _ _ _ _ _ _ Hs y z Hg) as (t' & E & E' & _). rewrite E in Hn. injection Hn as ->.
        intros H. apply (IH j deeper z n t Hj Hd H); [|exact Hr]. rewrite E'. reflexivity.
      - destruct (st_foreign _ _ _ _ _ _ Hs y parts f Hg) as (t' & ts & E & Hp & Hm & Hr' & _). rewrite E in Hn. injection Hn as ->.
        destruct (all_some (map (minimum k) parts)) as [l|] eqn:El; [|discriminate]. intros H. injection H as <-.
        apply all_some_map in El. rewrite Hm. f_equal. apply (all_value j deeper parts ts l Hj Hd Hp El (Hr' Hr)).
    Qed.
  End Step.

  Lemma named_denote names y g : user y = Some g -> denote names y = names y.
  Proof.
    intros E. pose proof (pr_names _ PR _ _ E) as Ho.
    destruct y as [q c l|u|u n|ts|l mu u|u|u|u| |ids]; try contradiction.
    destruct q; [reflexivity|]. destruct c; [reflexivity|].
    destruct l as [|[name args] [|]]; [reflexivity| |destruct args as [|tf [|[] [|[] []]]|]; reflexivity].
    cbn [own_name] in Ho.
    assert (Hs : forall x, In x std_names -> (name =? x)%string = false).
    { intros x Hx. destruct (String.eqb_spec name x) as [->|]; [contradiction|reflexivity]. }
    assert (Hp : prim_named name = None).
    { unfold prim_named. rewrite !Hs by (unfold std_names, value_names; cbn; tauto). reflexivity. }
    cbn [denote]. rewrite Hp. rewrite !Hs by (unfold std_names, value_names; cbn; tauto).
    destruct args as [|tf args|ids]; [reflexivity| |reflexivity].
    destruct args as [|[l|u|a u|ids] [|[l'|u'|a' u'|ids'] [|a'' args]]]; reflexivity.
  Qed.

  Lemma names_sized names deeper y r : stands user size_of const h names deeper -> (forall u k s, y <> YArray u (LenInt k s)) ->
    names y = Some r -> exists t, r = Sized t /\ ((forall u n, y <> YArray u n) -> forall u n, t <> TArr u n).
  Proof.
    intros Hs Hi E. destruct (user y) as [[[fs|tag peek vs]|z|parts f]|] eqn:Hg.
    - destruct (st_struct _ _ _ _ _ _ Hs y fs Hg) as (d & fts & E' & _). rewrite E' in E. injection E as <-.
      eexists. split; [reflexivity|discriminate].
    - destruct (st_enum _ _ _ _ _ _ Hs y tag peek vs Hg) as (d & vts & E' & _). rewrite E' in E. injection E as <-.
      eexists. split; [reflexivity|discriminate].
    - destruct (st_alias _ _ _ _ _ _ Hs y z Hg) as (t & E' & _ & Ha). rewrite E' in E. injection E as <-. eexists. split; [reflexivity|auto].
    - destruct (st_foreign _ _ _ _ _ _ Hs y parts f Hg) as (t & ts & E' & _ & _ & _ & Ha). rewrite E' in E. injection E as <-.
      eexists. split; [reflexivity|auto].
    - assert (D : (exists u n, y = YArray u n) \/ forall u n, y <> YArray u n).
      { destruct y; try (right; discriminate). left. eauto. }
      destruct D as [(u & n & ->)|D]; [|rewrite (st_other _ _ _ _ _ _ Hs y Hg D) in E; discriminate].
      assert (D' : (exists k s, n = LenInt k s) \/ forall k s, n <> LenInt k s).
      { destruct n; try (right; discriminate). left. eauto. }
      destruct D' as [(k & s & ->)|D'].
      + contradiction (Hi u k s eq_refl).
      + rewrite (st_length _ _ _ _ _ _ Hs u n D') in E. destruct (sized (denote deeper u)); [|discriminate].
        injection E as <-. eexists. split; [reflexivity|]. intros H. contradiction (H u n eq_refl).
  Qed.

  (** What the spelling of a type without size, and of an array, looks like. *)
  Lemma shapes names deeper y r : stands user size_of const h names deeper -> denote names y = Some r ->
    match r with
    | Slice t => exists w, strip y = YSlice w
    | Str => strip y = bare_name "str"
    | Sized (TArr t n) => exists w l, strip y = YArray w l
    | Sized _ => True
    end.
  Proof.
    intros Hs. revert y r. fix shapes 1. intros y r.
    assert (Hn : (forall u n, y <> YArray u n) -> names y = Some r -> exists t, r = Sized t /\ forall u n, t <> TArr u n).
    { intros Ha E. destruct (names_sized names deeper y r Hs ltac:(intros; apply Ha) E) as (t & -> & Ht). exists t.
      split; [reflexivity|exact (Ht Ha)]. }
    assert (Hn' : (forall u n, y <> YArray u n) -> names y = Some r ->
      match r with
      | Slice t => exists w, strip y = YSlice w
      | Str => strip y = bare_name "str"
      | Sized (TArr t n) => exists w l, strip y = YArray w l
      | Sized _ => True
      end).
    { intros Ha E. destruct (Hn Ha E) as (t & -> & Ht). destruct t; auto. contradiction (Ht t n eq_refl). }
    clear Hn.
    assert (H1 : forall o f, (forall t u n, f t <> TArr u n) -> with1 o f = Some r -> exists t, r = Sized t /\ forall u n, t <> TArr u n).
    { intros [t|] f Hf E; [|discriminate]. injection E as <-. eauto. }
    assert (H2 : forall o o' f, (forall t t' u n, f t t' <> TArr u n) -> with2 o o' f = Some r -> exists t, r = Sized t /\ forall u n, t <> TArr u n).
    { intros [t|] [t'|] f Hf E; try discriminate. injection E as <-. eauto. }
    assert (Hk : (exists t, r = Sized t /\ forall u n, t <> TArr u n) ->
      match r with
      | Slice t => exists w, strip y = YSlice w
      | Str => strip y = bare_name "str"
      | Sized (TArr t n) => exists w l, strip y = YArray w l
      | Sized _ => True
      end).
    { intros (t & -> & Ht). destruct t; auto. contradiction (Ht t n eq_refl). }
    destruct y as [q c l|u|u l|ts|l mu u|u|u|u| |ids]; cbn [denote].
    - specialize (Hn' ltac:(discriminate)).
      destruct q; [exact Hn'|]. destruct c; [exact Hn'|].
      destruct l as [|[name args] [|]]; [exact Hn'| |destruct args as [|tf [|[] [|[] []]]|]; exact Hn'].
      assert (Hp : match prim_named name with Some _ => None | None => names (YPath false false [(name, args)]) end = Some r ->
        match r with
        | Slice t => exists w, strip (YPath false false [(name, args)]) = YSlice w
        | Str => strip (YPath false false [(name, args)]) = bare_name "str"
        | Sized (TArr t n) => exists w l, strip (YPath false false [(name, args)]) = YArray w l
        | Sized _ => True
        end) by (destruct (prim_named name); [discriminate|exact Hn']).
      destruct args as [|tf args|ids]; [| |exact Hp].
      + destruct (prim_named name) as [p|]; [intros E; injection E as <-; exact Logic.I|].
        destruct (name =? "String")%string; [intros E; injection E as <-; exact Logic.I|].
        destruct (name =? "str")%string eqn:E1; [apply String.eqb_eq in E1 as ->; intros E; injection E as <-; reflexivity|].
        destruct (name =? "bool")%string; [intros E; injection E as <-; exact Logic.I|].
        destruct (name =? "char")%string; [intros E; injection E as <-; exact Logic.I|].
        destruct (name =? "usize")%string; [intros E; injection E as <-; exact Logic.I|]. exact Hn'.
      + destruct args as [|a [|a' [|a'' args]]]; [exact Hp| | |destruct a; [destruct a'|destruct a'| |]; exact Hp].
        * destruct a as [|u| |]; try exact Hp.
          destruct (name =? "Vec")%string; [intros E; apply Hk; eapply H1; [|exact E]; discriminate|].
          destruct (name =? "Option")%string; [intros E; apply Hk; eapply H1; [|exact E]; discriminate|].
          destruct (name =? "Box")%string.
          { intros E. apply Hk. unfold Spelling.box_of in E. destruct (denote names u) as [[]|]; try discriminate; injection E as <-;
              (eexists; split; [reflexivity|discriminate]). }
          destruct (name =? "HashSet")%string; [intros E; apply Hk; eapply H1; [|exact E]; discriminate|].
          destruct (name =? "BTreeSet")%string; [intros E; apply Hk; eapply H1; [|exact E]; discriminate|]. exact Hp.
        * destruct a as [l|u| |]; try exact Hp; destruct a' as [l'|w| |]; try exact Hp.
          -- destruct (name =? "Cow")%string; [|exact Hp]. intros E. apply Hk. unfold cow_of in E.
             destruct (denote names w) as [[[]| |]|]; try discriminate;
               try (injection E as <-; (eexists; split; [reflexivity|discriminate]));
               destruct k; try discriminate; injection E as <-; (eexists; split; [reflexivity|discriminate]).
          -- destruct (name =? "Result")%string; [intros E; apply Hk; eapply H2; [|exact E]; discriminate|].
             destruct (name =? "HashMap")%string; [intros E; apply Hk; eapply H2; [|exact E]; discriminate|].
             destruct (name =? "BTreeMap")%string; [intros E; apply Hk; eapply H2; [|exact E]; discriminate|]. exact Hp.
    - destruct (denote names u) as [[]|]; try discriminate. intros E. injection E as <-. exists u. reflexivity.
    - intros E.
      assert (Er : exists t, r = Sized t).
      { destruct l as [q s| |ids].
        - destruct (sized (denote names u)); [|discriminate]. injection E as <-. eauto.
        - destruct (names_sized names deeper (YArray u LenLit) r Hs ltac:(discriminate) E) as (t & -> & _). eauto.
        - destruct (names_sized names deeper (YArray u (LenExpr ids)) r Hs ltac:(discriminate) E) as (t & -> & _). eauto. }
      destruct Er as [t ->]. destruct t; auto. exists u, l. reflexivity.
    - destruct ts as [|u ts]; [intros E; injection E as <-; exact Logic.I|].
      destruct (all_some _) as [us|]; [|discriminate]. intros E. injection E as <-. exact Logic.I.
    - destruct mu; [discriminate|]. intros E. apply Hk. unfold ref_to in E.
      destruct (denote names u) as [[[]| |]|]; try discriminate; injection E as <-; (eexists; split; [reflexivity|discriminate]).
    - discriminate.
    - exact (shapes u r).
    - exact (shapes u r).
    - discriminate.
    - apply Hn'. discriminate.
  Qed.

  (** What the call gives is what [min_bytes] says of the type the spelling stands for,
      its declarations written out deeper than the call went. *)
  Theorem C132_minimum k : forall j names y n t, (k < j)%nat -> deep j names -> minimum k y = Some n ->
    sized (denote names y) = Some t -> number_refs t -> n = min_bytes h t.
  Proof.
    induction k as [|k IH]; intros j names y n t Hj Hdeep; [discriminate|].
    inversion Hdeep as [|j' ? deeper Hs Hd]; subst; [lia|].
    assert (Hj' : (k < j')%nat) by lia. pose proof (deep_less _ _ _ _ _ _ Hdeep) as Hdeep'.
    cbn [Nominal.minimum]. intros Hm Ht Hr. destruct (user y) as [g|] eqn:Hg.
    { rewrite (named_denote names y g Hg) in Ht. destruct (names y) as [[t'| |]|] eqn:En; try discriminate. injection Ht as ->.
      exact (named_value k IH j' names deeper y g n t Hj' Hs Hd Hg En Hr Hm). }
    assert (Hno : (forall u n, y <> YArray u n) -> names y = None) by exact (st_other _ _ _ _ _ _ Hs y Hg).
    unfold minimum_body in Hm. rewrite Hg in Hm.
    destruct y as [q c l|u|u l|ts|l mu u|u|u|u| |ids]; cbn [denote] in Ht.
    - rewrite Hno in Ht by discriminate.
      destruct q; [discriminate|]. destruct c; [discriminate|].
      destruct l as [|[name args] [|]]; [discriminate| |destruct args as [|tf [|[] [|[] []]]|]; discriminate].
      destruct args as [|tf args|ids]; [| |destruct (prim_named name); discriminate].
      + destruct (prim_named name) as [p|]; [injection Ht as <-; injection Hm as <-; reflexivity|].
        destruct (name =? "String")%string; [cbn in Ht; injection Ht as <-; cbn; congruence|].
        destruct (name =? "str")%string; [discriminate|].
        destruct (name =? "bool")%string; [cbn in Ht; injection Ht as <-; cbn; congruence|].
        destruct (name =? "char")%string; [cbn in Ht; injection Ht as <-; cbn; congruence|].
        destruct (name =? "usize")%string; [cbn in Ht; injection Ht as <-; cbn; congruence|]. discriminate.
      + destruct args as [|a [|a' [|a'' args]]]; [destruct (prim_named name); discriminate| | |
          destruct a; [destruct a'|destruct a'| |]; destruct (prim_named name); discriminate].
        * destruct a as [|u| |]; try (destruct (prim_named name); discriminate).
          destruct (name =? "Vec")%string; [destruct (sized (denote names u)); [|discriminate]; cbn in Ht; injection Ht as <-; cbn; congruence|].
          destruct (name =? "Option")%string; [destruct (sized (denote names u)); [|discriminate]; cbn in Ht; injection Ht as <-; cbn; congruence|].
          destruct (name =? "Box")%string.
          { rewrite <- (denote_strip names u) in Ht.
            destruct (is_bare_ty (strip u) "str") eqn:Eb.
            - apply bare_denotes in Eb. rewrite Eb in *. cbn in Ht, Hm. injection Ht as <-. cbn. congruence.
            - destruct (denote names (strip u)) as [[t'|t'|]|] eqn:Eu; try discriminate; cbn in Ht; injection Ht as <-.
              + cbn [min_bytes]. cbn [number_refs] in Hr.
                apply (IH (S j') names u n t'); [lia|exact Hdeep| |rewrite <- denote_strip, Eu; reflexivity|exact Hr].
                destruct (strip u) as [| w| | | | | | | |]; try (rewrite Eb in Hm); try exact Hm.
                cbn in Eu. destruct (denote names w) as [[]|]; discriminate.
              + destruct (shapes names deeper (strip u) (Slice t') Hs Eu) as [w Ew]. rewrite strip_strip in Ew. rewrite Ew in Hm.
                cbn [min_bytes]. congruence.
              + pose proof (shapes names deeper (strip u) Str Hs Eu) as Ew. cbn in Ew. rewrite strip_strip in Ew. rewrite Ew in Eb. discriminate. }
          destruct (name =? "HashSet")%string; [destruct (sized (denote names u)); [|discriminate]; cbn in Ht; injection Ht as <-; cbn; congruence|].
          destruct (name =? "BTreeSet")%string; [destruct (sized (denote names u)); [|discriminate]; cbn in Ht; injection Ht as <-; cbn; congruence|].
          destruct (prim_named name); discriminate.
        * destruct a as [l|u| |]; try (destruct (prim_named name); discriminate);
            destruct a' as [l'|w| |]; try (destruct (prim_named name); discriminate).
          -- destruct (name =? "Cow")%string; [|destruct (prim_named name); discriminate].
             unfold cow_of in Ht. injection Hm as <-.
             destruct (denote names w) as [[[]| |]|]; try discriminate; try (cbn in Ht; injection Ht as <-; reflexivity);
               destruct k0; try discriminate; cbn in Ht; injection Ht as <-; reflexivity.
          -- destruct (name =? "Result")%string;
               [destruct (sized (denote names u)), (sized (denote names w)); try discriminate; cbn in Ht; injection Ht as <-; cbn; congruence|].
             destruct (name =? "HashMap")%string;
               [destruct (sized (denote names u)), (sized (denote names w)); try discriminate; cbn in Ht; injection Ht as <-; cbn; congruence|].
             destruct (name =? "BTreeMap")%string;
               [destruct (sized (denote names u)), (sized (denote names w)); try discriminate; cbn in Ht; injection Ht as <-; cbn; congruence|].
             destruct (prim_named name); discriminate.
    - destruct (denote names u) as [[]|]; discriminate.
    - destruct (minimum k u) as [x|] eqn:Ex; [|discriminate]. injection Hm as <-.
      assert (E : exists names' t', sized (denote names' u) = Some t' /\ t = TArr t' (N.to_nat (array_length const l))
                  /\ exists j, (k < j)%nat /\ deep j names').
      { destruct l as [q s| |ids]; cbn [array_length].
        - exists names. destruct (sized (denote names u)) as [t'|] eqn:Eu; [|discriminate]. injection Ht as <-.
          exists t'. repeat (split; [congruence|]). exists (S j'). split; [lia|exact Hdeep].
        - rewrite (st_length _ _ _ _ _ _ Hs) in Ht by discriminate. exists deeper.
          destruct (sized (denote deeper u)) as [t'|] eqn:Eu; [|discriminate]. injection Ht as <-.
          exists t'. repeat (split; [congruence|]). exists j'. split; [lia|exact Hd].
        - rewrite (st_length _ _ _ _ _ _ Hs) in Ht by discriminate. exists deeper.
          destruct (sized (denote deeper u)) as [t'|] eqn:Eu; [|discriminate]. injection Ht as <-.
          exists t'. repeat (split; [congruence|]). exists j'. split; [lia|exact Hd]. }
      destruct E as (names' & t' & Et & -> & j & Hk & Hdj). cbn [min_bytes number_refs] in *.
      rewrite (IH j names' u x t' Hk Hdj Ex Et Hr), Nnat.N2Nat.id. reflexivity.
    - apply sum_some in Hm as (l & El & ->).
      assert (Et : exists us, map (fun u => sized (denote names u)) ts = map Some us /\ number_refs (TTuple us)
                   /\ min_bytes h t = nsum (map (min_bytes h) us)).
      { destruct ts as [|u ts]; [injection Ht as <-; exists []; repeat split; reflexivity|].
        destruct (all_some _) as [us|] eqn:E; [|discriminate]. injection Ht as <-. apply all_some_map in E. exists us.
        split; [exact E|]. split; [exact Hr|reflexivity]. }
      destruct Et as (us & Eu & Hus & ->). f_equal.
      apply (all_value k IH (S j') names ts us l); [lia|exact Hdeep|exact Eu|exact El|].
      clear - Hus. cbn [number_refs] in Hus. induction us as [|u us IH]; constructor; [apply Hus|apply IH, Hus].
    - destruct mu; [discriminate|]. destruct (denote names u) as [r|] eqn:Eu; [|discriminate].
      pose proof (shapes names deeper u r Hs Eu) as Hsh. rewrite <- denote_strip in Eu.
      destruct r as [t'|t'|]; cbn in Ht.
      + destruct t'; try discriminate. cbn in Ht. injection Ht as <-. destruct Hsh as (w & l' & Ew). rewrite Ew in *.
        injection Hm as <-. cbn [number_refs] in Hr. destruct Hr as [p ->]. cbn [min_bytes].
        assert (E : exists names' k', denote names' w = Some (Sized (TP p)) /\ deep (S k') names' /\ N.of_nat n0 = array_length const l').
        { destruct j' as [|i]; [lia|]. destruct l' as [q s| |ids]; cbn [denote array_length] in *.
          - exists names, (S i). destruct (denote names w) as [[x| |]|]; try discriminate. cbn in Eu. injection Eu as -> <-.
            rewrite Nnat.N2Nat.id. auto.
          - rewrite (st_length _ _ _ _ _ _ Hs) in Eu by discriminate. exists deeper, i.
            destruct (denote deeper w) as [[x| |]|]; try discriminate. cbn in Eu. injection Eu as -> <-. rewrite Nnat.N2Nat.id. auto.
          - rewrite (st_length _ _ _ _ _ _ Hs) in Eu by discriminate. exists deeper, i.
            destruct (denote deeper w) as [[x| |]|]; try discriminate. cbn in Eu. injection Eu as -> <-. rewrite Nnat.N2Nat.id. auto. }
        destruct E as (names' & k' & E1 & E2 & ->). rewrite (deep_size k' names' w p E2 E1), (vh_prim h VH). reflexivity.
      + injection Ht as <-. destruct Hsh as [w Ew]. rewrite Ew in Hm. cbn. congruence.
      + injection Ht as <-. rewrite Hsh in Hm. cbn in Hm |- *. congruence.
    - discriminate.
    - apply (IH (S j') names u n t); [lia|exact Hdeep|exact Hm|exact Ht|exact Hr].
    - apply (IH (S j') names u n t); [lia|exact Hdeep|exact Hm|exact Ht|exact Hr].
    - discriminate.
    - rewrite Hno in Ht by discriminate. discriminate.
  Qed.

  (** Reading the type takes as many bytes, whatever the declarations are, when [min_bytes]
      is a lower bound at all (C15). *)
  Theorem C132_consumes e L k j names y n t addr bs v c : (k < j)%nat -> deep j names -> minimum k y = Some n ->
    sized (denote names y) = Some t -> number_refs t -> least h t -> sane h L LDefault t ->
    nlen bs <= L -> L <= h_alloc_max h ->
    read_with_length_from_buffer h e t addr bs = (Ok v, c) \/ read_with_length_from_buffer_copying h e t bs = (Ok v, c) ->
    n <= c.
  Proof.
    intros Hj Hd Hm Ht Hr Hl Hs Hb HL H. rewrite (C132_minimum k j names y n t Hj Hd Hm Ht Hr).
    apply (C15_buffer_consumes_partial h VH e L t addr bs v c Hl Hs Hb HL H).
  Qed.
End Value.

Print Assumptions C132_minimum.
Print Assumptions C132_consumes.

(* ------------------------------------------------------------------ *)
(** * Examples *)

(** `mem::size_of`, of the primitive numbers. *)
Definition prim_sizes (y : spelled) : N :=
  match strip y with
  | YPath false false [(name, NoArgs)] => match prim_named name with Some p => N.of_nat (psize p) | None => 0 end
  | _ => 0
  end.

(** If no name stands for a primitive number, only their own names do. *)
Lemma prim_shape names : (forall y p, names y <> Some (Sized (TP p))) ->
  forall y p, denote names y = Some (Sized (TP p)) -> prim_sizes y = N.of_nat (psize p).
Proof.
  intros Hn. fix shape 1. intros y p.
  destruct y as [q c l|u|u l|ts|l mu u|u|u|u| |ids]; cbn [denote].
  - destruct q; [intros H; contradiction (Hn _ _ H)|]. destruct c; [intros H; contradiction (Hn _ _ H)|].
    destruct l as [|[name args] [|]];
      [intros H; contradiction (Hn _ _ H)| |destruct args as [|tf [|[] [|[] []]]|]; intros H; contradiction (Hn _ _ H)].
    assert (Hp : match prim_named name with Some _ => None | None => names (YPath false false [(name, args)]) end <> Some (Sized (TP p)))
      by (destruct (prim_named name); [discriminate|apply Hn]).
    destruct args as [|tf args|ids]; [| |intros H; contradiction (Hp H)].
    + unfold prim_sizes. cbn [strip]. destruct (prim_named name) as [p'|]; [intros H; injection H as ->; reflexivity|].
      do 5 (destruct (_ =? _)%string; [discriminate|]). intros H. contradiction (Hn _ _ H).
    + destruct args as [|a [|a' [|a'' args]]]; [intros H; contradiction (Hp H)| | |
        destruct a; [destruct a'|destruct a'| |]; intros H; contradiction (Hp H)].
      * destruct a as [|u| |]; try (intros H; contradiction (Hp H)).
        do 2 (destruct (_ =? _)%string; [destruct (sized _); discriminate|]).
        destruct (_ =? _)%string; [destruct (denote names u) as [[]|]; discriminate|].
        do 2 (destruct (_ =? _)%string; [destruct (sized _); discriminate|]). intros H. contradiction (Hp H).
      * destruct a as [l|u| |]; try (intros H; contradiction (Hp H)); destruct a' as [l'|w| |]; try (intros H; contradiction (Hp H)).
        -- destruct (_ =? _)%string; [|intros H; contradiction (Hp H)].
           destruct (denote names w) as [[[]| |]|]; try discriminate; destruct k; discriminate.
        -- do 3 (destruct (_ =? _)%string; [destruct (sized (denote names u)), (sized (denote names w)); discriminate|]).
           intros H. contradiction (Hp H).
  - destruct (denote names u) as [[]|]; discriminate.
  - destruct l; [destruct (sized _); discriminate| |]; intros H; contradiction (Hn _ _ H).
  - destruct ts as [|u ts]; [discriminate|]. destruct (all_some _); discriminate.
  - destruct mu; [discriminate|]. destruct (denote names u) as [[[]| |]|]; discriminate.
  - discriminate.
  - exact (shape u p).
  - exact (shape u p).
  - discriminate.
  - intros H. contradiction (Hn _ _ H).
Qed.

(** The declarations [nodes] (PropNominal.v), written out; the unit type stands below. *)
Definition opaque_field : fattrs := set_opaque true plain.
Fixpoint node_tys (j : nat) : ty * ty :=
  match j with
  | O => (TScalar SUnit, TScalar SUnit)
  | S j => let '(node, link) := node_tys j in
           (TStruct {| sd_id := 102; sd_repr := RRust; sd_forced := false; sd_generic := false |}
              [(plain, TP U32); (opaque_field, link); (plain, TSeq KVec node)],
            TEnum {| e_tag := BU8; e_peek := false |} [(0, []); (1, [(opaque_field, TBox node)])])
  end.
Fixpoint list_ty (j : nat) : ty :=
  match j with
  | O => TScalar SUnit
  | S j => TEnum {| e_tag := BU32; e_peek := false |} [(0, []); (1, [(plain, TP U32); (opaque_field, TBox (list_ty j))])]
  end.

Fixpoint node_names (j : nat) (y : spelled) : option rust_ty :=
  match j with
  | O => Some (Sized (TScalar SUnit))
  | S i =>
    match y with
    | YPath false false [(name, NoArgs)] =>
      if ("List" =? name)%string then Some (Sized (list_ty j))
      else if ("Node" =? name)%string then Some (Sized (fst (node_tys j)))
      else if ("Link" =? name)%string then Some (Sized (snd (node_tys j)))
      else if ("Nodes" =? name)%string then Some (Sized (TTuple [fst (node_tys i); TArr (fst (node_tys i)) 2]))
      else None
    | YArray u _ => with1 (sized (denote (node_names i) u)) (fun t => TArr t 0)
    | _ => None
    end
  end.

Lemma node_known j : node_names j (bare_name "Node") = Some (Sized (fst (node_tys j)))
  /\ node_names j (bare_name "Link") = Some (Sized (snd (node_tys j)))
  /\ node_names j (bare_name "List") = Some (Sized (list_ty j)).
Proof. destruct j; repeat split. Qed.

Lemma nodes_deep h j : deep (declares nodes) prim_sizes no_const h j (node_names j).
Proof.
  induction j as [|j IH]; [constructor|]. refine (deep_more _ _ _ _ _ _ _ _ IH).
  destruct (node_known j) as (K1 & K2 & K3).
  assert (D1 : denote (node_names j) (bare_name "Node") = Some (Sized (fst (node_tys j)))) by exact K1.
  assert (D2 : denote (node_names j) (bare_name "Link") = Some (Sized (snd (node_tys j)))) by exact K2.
  assert (D3 : denote (node_names j) (bare_name "List") = Some (Sized (list_ty j))) by exact K3.
  assert (B : forall x t, denote (node_names j) x = Some (Sized t) -> sized (denote (node_names j) (box_of x)) = Some (TBox t)).
  { intros x t E. cbn [box_of name_with denote String.eqb Ascii.eqb Bool.eqb]. rewrite E. reflexivity. }
  constructor.
  - intros y fs E. apply declares_in in E as (name & -> & Hin). cbn in Hin.
    destruct Hin as [Hin|[Hin|[Hin|[Hin|[]]]]]; try discriminate. injection Hin as <- <-.
    cbn [node_names bare_name String.eqb Ascii.eqb Bool.eqb node_tys]. destruct (node_tys j) as [nd lk] eqn:En. cbn [fst snd] in *.
    eexists _, _. split; [reflexivity|].
    constructor; [split; reflexivity|]. constructor; [split; [reflexivity|]|].
    { cbn [fd_raw of_type snd]. fold (bare_name "Link"). rewrite D2. reflexivity. }
    constructor; [split; [reflexivity|]|constructor].
    cbn [fd_raw of_type snd name_with denote String.eqb Ascii.eqb Bool.eqb].
    fold (denote (node_names j)). fold (bare_name "Node"). rewrite D1. reflexivity.
  - intros y tag peek vs E. apply declares_in in E as (name & -> & Hin). cbn in Hin.
    destruct Hin as [Hin|[Hin|[Hin|[Hin|[]]]]]; try discriminate; injection Hin as <- <- <- <-;
      cbn [node_names bare_name String.eqb Ascii.eqb Bool.eqb node_tys list_ty].
    + eexists _, _. split; [reflexivity|]. split; [reflexivity|]. split; [reflexivity|].
      constructor; [constructor|]. constructor; [|constructor].
      constructor; [split; reflexivity|]. constructor; [|constructor]. split; [reflexivity|]. exact (B _ _ D3).
    + destruct (node_tys j) as [nd lk] eqn:En. cbn [fst snd] in *.
      eexists _, _. split; [reflexivity|]. split; [reflexivity|]. split; [reflexivity|].
      constructor; [constructor|]. constructor; [|constructor]. constructor; [|constructor]. split; [reflexivity|]. exact (B _ _ D1).
  - intros y z E. apply declares_in in E as (name & -> & Hin). cbn in Hin.
    destruct Hin as [Hin|[Hin|[Hin|[Hin|[]]]]]; try discriminate. injection Hin as <- <-.
    eexists. split; [reflexivity|]. split; [|discriminate].
    cbn [denote map]. fold (bare_name "Node"). rewrite D1. reflexivity.
  - intros y parts f E. apply declares_in in E as (name & -> & Hin). cbn in Hin.
    destruct Hin as [Hin|[Hin|[Hin|[Hin|[]]]]]; discriminate.
  - intros u n _. reflexivity.
  - intros y E Ha. destruct y as [[] [] [|[name [| |]] [|]]| | | | | | | | |]; try reflexivity; [|contradiction (Ha _ _ eq_refl)].
    unfold declares, nodes in E. cbn [find fst] in E. cbn [node_names].
    destruct ("List" =? name)%string; [discriminate|]. destruct ("Node" =? name)%string; [discriminate|].
    destruct ("Link" =? name)%string; [discriminate|]. destruct ("Nodes" =? name)%string; [discriminate|]. reflexivity.
  - apply prim_shape. intros y p. cbn [node_names].
    destruct y as [[] [] [|[name [| |]] [|]]|u|u n|ts|l mu u|u|u|u| |ids]; try discriminate.
    + cbn [list_ty node_tys]. destruct (node_tys j). repeat (destruct (_ =? _)%string; [discriminate|]). discriminate.
    + destruct (sized _); discriminate.
Qed.

Lemma nodes_varint y d f : declares nodes y = Some (Declared d) -> In f (declared_fields d) ->
  f_varint (fd_attrs f) = true -> fd_kind f = Plain (TyPrimitive U64).
Proof.
  intros E Hf. apply declares_in in E as (name & -> & Hin). cbn in Hin.
  destruct Hin as [Hin|[Hin|[Hin|[Hin|[]]]]]; try discriminate; injection Hin as <- <-; cbn in Hf;
    repeat (destruct Hf as [<-|Hf]; [discriminate|]); contradiction.
Qed.

(** `minimum_bytes_needed` of `Nodes` is that of the type written out, 27, *)
Example nodes_value j : (5 < j)%nat -> forall t, sized (denote (node_names j) (bare_name "Nodes")) = Some t -> number_refs t ->
  min_bytes host64 t = 27.
Proof.
  intros Hj t Ht Hr. symmetry.
  apply (C132_minimum (declares nodes) prim_sizes no_const host64 host64_valid nodes_proper nodes_varint
           5 j (node_names j) (bare_name "Nodes") 27 t Hj (nodes_deep host64 j)); [vm_compute; reflexivity|exact Ht|exact Hr].
Qed.

(** and values take as much: three nodes without links. *)
Definition nodes_ty : ty := TTuple [fst (node_tys 6); TArr (fst (node_tys 6)) 2].
Definition nodes_in : bytes := map n2b (concat (repeat [5; 0; 0; 0; 0; 0; 0; 0; 0] 3)).

Example nodes_hypotheses : minimum (declares nodes) prim_sizes no_const 5 (bare_name "Nodes") = Some 27
  /\ sized (denote (node_names 7) (bare_name "Nodes")) = Some nodes_ty /\ number_refs nodes_ty
  /\ least host64 nodes_ty /\ sane host64 (2 ^ 40) LDefault nodes_ty
  /\ snd (read_with_length_from_buffer host64 LE nodes_ty 0 nodes_in) = 27.
Proof.
  split; [vm_compute; reflexivity|]. split; [reflexivity|]. split; [cbn; tauto|].
  split; [apply leastb_sound; vm_compute; reflexivity|]. split; [apply saneb_sound; vm_compute; reflexivity|].
  vm_compute. reflexivity.
Qed.

Example nodes_consume v c : read_with_length_from_buffer host64 LE nodes_ty 0 nodes_in = (Ok v, c) -> 27 <= c.
Proof.
  destruct nodes_hypotheses as (H1 & H2 & H3 & H4 & H5 & _). intros H.
  eapply (C132_consumes (declares nodes) prim_sizes no_const host64 host64_valid nodes_proper nodes_varint LE (2 ^ 40) 5 7);
    [lia|exact (nodes_deep host64 7)|exact H1|exact H2|exact H3|exact H4|exact H5| |vm_compute; discriminate|left; exact H].
  vm_compute. discriminate.
Qed.
