(* Property C101: `minimum_bytes_needed` ends for recursive declarations. *)
From Verif Require Import Nominal.

(** The names the standard library gives to types `minimum_bytes_needed` exists for. *)
Definition value_names : list string :=
  ["String"; "bool"; "char"; "usize"; "u8"; "u16"; "u32"; "u64"; "u128"; "i8"; "i16"; "i32"; "i64"; "i128"; "f32"; "f64"].
Definition std_names : list string :=
  value_names ++ ["isize"; "str"; "Vec"; "Option"; "Box"; "HashSet"; "BTreeSet"; "Result"; "HashMap"; "BTreeMap"; "Cow"].

Section Inhabited.
  Context (user : spelled -> option target) (const : alen -> N).

  (** The type has values: values are finite.  [zero]: count arrays of length zero
      in. *)
  Inductive inhabited (zero : bool) : spelled -> Prop :=
  | inh_value name : In name value_names -> inhabited zero (bare_name name)
  | inh_str : inhabited zero (bare_name "str")
  | inh_slice u : inhabited zero (YSlice u)
  | inh_one name tf u : In name ["Vec"; "Option"; "HashSet"; "BTreeSet"] ->
      inhabited zero (YPath false false [(name, Angle tf [GType u])])
  | inh_two name tf u w : In name ["HashMap"; "BTreeMap"] ->
      inhabited zero (YPath false false [(name, Angle tf [GType u; GType w])])
  | inh_ok tf u w : inhabited zero u -> inhabited zero (YPath false false [("Result", Angle tf [GType u; GType w])])
  | inh_err tf u w : inhabited zero w -> inhabited zero (YPath false false [("Result", Angle tf [GType u; GType w])])
  | inh_box tf u : inhabited zero u -> inhabited zero (YPath false false [("Box", Angle tf [GType u])])
  | inh_cow tf l u : inhabited zero u -> inhabited zero (YPath false false [("Cow", Angle tf [GLifetime l; GType u])])
  | inh_array u n : inhabited zero u -> inhabited zero (YArray u n)
  | inh_empty u n : zero = true -> array_length const n = 0 -> inhabited zero (YArray u n)
  | inh_tuple ts : (forall u, In u ts -> inhabited zero u) -> inhabited zero (YTuple ts)
  | inh_paren u : inhabited zero u -> inhabited zero (YParen u)
  | inh_group u : inhabited zero u -> inhabited zero (YGroup u)
  | inh_ref l m u : inhabited zero u -> inhabited zero (YRef l m u)
  | inh_struct y fs : user y = Some (Declared (DeclStruct fs)) ->
      (forall d, In d fs -> inhabited zero (fd_raw d)) -> inhabited zero y
  | inh_enum y tag peek vs unit fs : user y = Some (Declared (DeclEnum tag peek vs)) -> In (unit, fs) vs ->
      (forall d, In d fs -> inhabited zero (fd_raw d)) -> inhabited zero y
  | inh_alias y z : user y = Some (Alias z) -> inhabited zero z -> inhabited zero y
  | inh_foreign y parts f : user y = Some (Foreign parts f) -> (forall u, In u parts -> inhabited zero u) ->
      inhabited zero y.
End Inhabited.

(** Declarations have names of their own. *)
Definition own_name (y : spelled) : Prop :=
  match y with
  | YPath false false [(name, _)] => ~ In name std_names
  | YPath _ _ _ => True
  | _ => False
  end.

(** The fields of a declaration, read from their spellings. *)
Definition declared_fields (d : declaration) : list field :=
  match d with DeclStruct fs => fs | DeclEnum _ _ vs => concat (map snd vs) end.

Record proper (user : spelled -> option target) : Prop := {
  pr_names : forall y t, user y = Some t -> own_name y;
  pr_fields : forall y d f, user y = Some (Declared d) -> In f (declared_fields d) -> fd_kind f = parse_field_ty (fd_raw f)
}.

(* ------------------------------------------------------------------ *)
(** * More fuel gives the same *)

Definition more (m m' : spelled -> option N) : Prop := forall y n, m y = Some n -> m' y = Some n.

Lemma sum_more m m' ts n : more m m' -> sum_opt (map m ts) = Some n -> sum_opt (map m' ts) = Some n.
Proof.
  intros H. revert n. induction ts as [|t ts IH]; intros n; [auto|]. unfold sum_opt in *. cbn [map fold_right].
  destruct (m t) as [x|] eqn:E; [|discriminate]. rewrite (H _ _ E). destruct (fold_right _ _ (map m ts)) as [z|]; [|discriminate].
  rewrite (IH _ eq_refl). auto.
Qed.

Lemma all_more m m' ts l : more m m' -> all_some (map m ts) = Some l -> all_some (map m' ts) = Some l.
Proof.
  intros H. revert l. induction ts as [|t ts IH]; intros l; [auto|]. cbn [map all_some].
  destruct (m t) as [x|] eqn:E; [|discriminate]. rewrite (H _ _ E). destruct (all_some (map m ts)) as [z|]; [|discriminate].
  rewrite (IH _ eq_refl). auto.
Qed.

Lemma omap_more {B} (g : N -> B) m m' y b : more m m' -> omap g (m y) = Some b -> omap g (m' y) = Some b.
Proof. intros H. destruct (m y) as [x|] eqn:E; [|discriminate]. rewrite (H _ _ E). auto. Qed.

Lemma field_more m m' d n : more m m' -> field_minimum m d = Some n -> field_minimum m' d = Some n.
Proof.
  intros H. unfold field_minimum. destruct (_ || _ || _)%bool; [auto|].
  destruct (fd_kind d) as [k|k]; [|auto].
  assert (G : forall o o' : option N, (forall x, o = Some x -> o' = Some x) ->
    add_opt o (Some (nlen (f_prefix (fd_attrs d)))) = Some n -> add_opt o' (Some (nlen (f_prefix (fd_attrs d)))) = Some n).
  { intros [x|] o' Ho; [|discriminate]. rewrite (Ho x eq_refl). auto. }
  destruct k; auto; apply G; intros z; [apply omap_more, H|destruct (f_varint _); [auto|apply H]|apply H].
Qed.

Lemma fields_more m m' fs n : more m m' -> fields_minimum m fs = Some n -> fields_minimum m' fs = Some n.
Proof.
  intros H. revert n. unfold fields_minimum, sum_opt. induction fs as [|d fs IH]; intros n; [auto|]. cbn [map fold_right].
  destruct (field_minimum m d) as [x|] eqn:E; [|discriminate]. rewrite (field_more m m' d x H E).
  destruct (fold_right _ _ (map (field_minimum m) fs)) as [z|]; [|discriminate]. rewrite (IH _ eq_refl). auto.
Qed.

Lemma fold_min_none l : fold_left min_opt l None = None.
Proof. induction l as [|x l IH]; [reflexivity|]. exact IH. Qed.

Lemma variants_more m m' l : more m m' -> forall a n, fold_left min_opt (map (fields_minimum m) l) a = Some n ->
  fold_left min_opt (map (fields_minimum m') l) a = Some n.
Proof.
  intros H. induction l as [|fs l IH]; intros a n; [auto|]. cbn [map fold_left].
  destruct (fields_minimum m fs) as [x|] eqn:E.
  - rewrite (fields_more m m' fs x H E). apply IH.
  - replace (min_opt a None) with (@None N) by (destruct a; reflexivity). rewrite fold_min_none. discriminate.
Qed.

Lemma declared_more m m' d n : more m m' -> declared_minimum m d = Some n -> declared_minimum m' d = Some n.
Proof.
  intros H. destruct d as [fs|tag peek vs]; cbn [declared_minimum]; [apply fields_more, H|].
  destruct (fold_left min_opt (map (fields_minimum m) (minimum_variants vs)) (Some 0)) as [x|] eqn:E; [|discriminate].
  rewrite (variants_more m m' _ H _ _ E). auto.
Qed.

Section Ends.
  Context (user : spelled -> option target) (size_of : spelled -> N) (const : alen -> N).
  Notation minimum := (minimum user size_of const).
  Notation body := (minimum_body user size_of const).

  Lemma body_more m m' y n : more m m' -> body m y = Some n -> body m' y = Some n.
  Proof.
    intros H. unfold minimum_body.
    set (named := match user y with Some (Declared d) => declared_minimum m d | _ => _ end).
    set (named' := match user y with Some (Declared d) => declared_minimum m' d | _ => _ end).
    assert (Hn : named = Some n -> named' = Some n).
    { unfold named, named'. destruct (user y) as [[d|z|parts f]|]; [apply declared_more, H|apply H| |auto].
      destruct (all_some (map m parts)) as [l|] eqn:E; [|discriminate]. rewrite (all_more m m' _ _ H E). auto. }
    destruct y as [q c l|u|u k|ts|l mu u|u|u|u| |ids]; auto.
    - destruct q; [exact Hn|]. destruct c; [exact Hn|]. destruct l as [|[name args] [|s l]];
        [exact Hn| |destruct args as [|tf [|[] [|[] []]]|]; exact Hn].
      destruct args as [|tf args|ids]; [| |exact Hn].
      + destruct (prim_named name); [auto|].
        destruct (name =? "String")%string; [auto|]. destruct (name =? "bool")%string; [auto|]. destruct (name =? "char")%string; [auto|].
        destruct (name =? "usize")%string; [auto|]. exact Hn.
      + destruct args as [|a [|a' [|a'' args]]]; try exact Hn; [| |destruct a; [destruct a'|destruct a'|exact Hn|exact Hn]; exact Hn].
        * destruct a; try exact Hn. destruct (name =? "Vec")%string; [auto|]. destruct (name =? "Option")%string; [auto|].
          destruct (name =? "Box")%string; [|destruct (name =? "HashSet")%string; [auto|]; destruct (name =? "BTreeSet")%string; [auto|exact Hn]].
          destruct (strip t); try (destruct (is_bare_ty _ _)); auto; apply H.
        * destruct a; try exact Hn; destruct a'; try exact Hn.
          -- destruct (name =? "Cow")%string; [auto|exact Hn].
          -- destruct (name =? "Result")%string; [auto|]. destruct (name =? "HashMap")%string; [auto|].
             destruct (name =? "BTreeMap")%string; [auto|exact Hn].
    - apply omap_more, H.
    - apply sum_more, H.
  Qed.

  Lemma minimum_more k j : (k <= j)%nat -> more (minimum k) (minimum j).
  Proof.
    assert (G : forall k, more (minimum k) (minimum (S k))).
    { clear k j. induction k as [|k IH]; intros y n; [discriminate|]. apply (body_more (minimum k) (minimum (S k)) y n IH). }
    induction 1 as [|j _ IH]; intros y n H; [exact H|]. apply G, IH, H.
  Qed.

  (** The call returns. *)
  Definition ends (y : spelled) : Prop := exists k n, minimum k y = Some n.

  Lemma ends_all l : (forall u, In u l -> ends u) -> exists k, forall u, In u l -> exists n, minimum k u = Some n.
  Proof.
    induction l as [|u l IH]; intros H; [exists O; intros v []|].
    destruct IH as [k Hk]; [intros v Hv; apply H; right; exact Hv|]. destruct (H u (or_introl eq_refl)) as (k' & n & Hn).
    exists (Nat.max k k'). intros v [<-|Hv]; [exists n; apply (minimum_more k'); [lia|exact Hn]|].
    destruct (Hk v Hv) as [x Hx]. exists x. apply (minimum_more k); [lia|exact Hx].
  Qed.

  Lemma sum_ends (m : spelled -> option N) ts : (forall u, In u ts -> exists n, m u = Some n) -> exists n, sum_opt (map m ts) = Some n.
  Proof.
    induction ts as [|u ts IH]; intros H; [exists 0; reflexivity|]. destruct IH as [z Hz]; [intros v Hv; apply H; right; exact Hv|].
    destruct (H u (or_introl eq_refl)) as [x Hx]. exists (x + z). unfold sum_opt in *. cbn [map fold_right]. rewrite Hx, Hz. reflexivity.
  Qed.

  Lemma all_ends (m : spelled -> option N) ts : (forall u, In u ts -> exists n, m u = Some n) -> exists l, all_some (map m ts) = Some l.
  Proof.
    induction ts as [|u ts IH]; intros H; [exists []; reflexivity|]. destruct IH as [z Hz]; [intros v Hv; apply H; right; exact Hv|].
    destruct (H u (or_introl eq_refl)) as [x Hx]. exists (x :: z). cbn [map all_some]. rewrite Hx, Hz. reflexivity.
  Qed.

  Lemma ends_step y : (exists k n, body (minimum k) y = Some n) -> ends y.
  Proof. intros (k & n & H). exists (S k), n. exact H. Qed.

  Lemma ends_tuple ts : (forall u, In u ts -> ends u) -> ends (YTuple ts).
  Proof. intros H. apply ends_all in H as [k Hk]. apply ends_step. exists k. apply sum_ends, Hk. Qed.

  Lemma ends_paren u : ends u -> ends (YParen u) /\ ends (YGroup u).
  Proof. intros (k & n & H). split; exists (S k), n; exact H. Qed.

  Lemma ends_array u n : ends u -> ends (YArray u n).
  Proof. intros (k & x & H). apply ends_step. exists k, (x * array_length const n). cbn [minimum_body]. rewrite H. reflexivity. Qed.

  Lemma ends_ref l m u : ends (YRef l m u).
  Proof. exists 1%nat. cbn [Nominal.minimum minimum_body]. destruct m; [eexists; reflexivity|]. destruct (strip u); eexists; reflexivity. Qed.

  Context (PR : proper user).

  Lemma not_own y : ~ own_name y -> user y = None.
  Proof. destruct (user y) as [t|] eqn:E; [|reflexivity]. intros H. contradiction (H (pr_names _ PR _ _ E)). Qed.

  Lemma std_ends name args : In name std_names -> name <> "Box" -> ends (YPath false false [(name, args)]).
  Proof.
    intros Hn Hb. exists 1%nat. cbn [Nominal.minimum minimum_body].
    rewrite (not_own (YPath false false [(name, args)])) by (cbn; tauto).
    destruct args as [|tf args|ids]; [| |eexists; reflexivity].
    - destruct (prim_named name); [eexists; reflexivity|].
      repeat match goal with |- context [if ?b then _ else _] => destruct b; [eexists; reflexivity|] end. eexists; reflexivity.
    - destruct (String.eqb_spec name "Box") as [E|_]; [contradiction|].
      destruct args as [|[l|t|a t|ids] [|[l'|t'|a' t'|ids'] [|a'' args]]];
        repeat match goal with |- context [if ?b then _ else _] => destruct b; [eexists; reflexivity|] end; eexists; reflexivity.
  Qed.

  (** Types that are guaranteed not to be recursive. *)
  Fixpoint known_ends (y : spelled) : is_guaranteed_non_recursive y = true -> ends y.
  Proof.
    destruct y as [q c l|u|u n|ts|l mu u|u|u|u| |ids]; cbn [is_guaranteed_non_recursive]; intros H; try discriminate;
      try (exists 1%nat; eexists; reflexivity).
    - destruct q; [discriminate|]. destruct c; [discriminate|]. destruct l as [|[name args] [|]]; try discriminate.
      cbn [fst] in H. apply andb_prop in H as [H _]. unfold named in H. apply existsb_exists in H as (x & Hx & E).
      apply String.eqb_eq in E. subst x. apply std_ends.
      + clear - Hx. unfold std_names, value_names. cbn in *. tauto.
      + intros ->. clear - Hx. cbn in Hx. repeat (destruct Hx as [Hx|Hx]; [discriminate|]). exact Hx.
    - apply andb_prop in H as [H _]. apply ends_array, known_ends, H.
    - apply ends_tuple. induction ts as [|t ts IH]; [intros u []|]. cbn [forallb] in H. apply andb_prop in H as [H1 H2].
      intros u [<-|Hu]; [apply known_ends, H1|apply (IH H2), Hu].
    - apply ends_ref.
    - apply ends_paren, known_ends, H.
    - apply ends_paren, known_ends, H.
  Qed.

  Lemma cow_not_array u t n : parse_cow_collection u <> Some (TyArray t n).
  Proof.
    unfold parse_cow_collection. destruct u as [q c l| | | | | | | | |]; try discriminate.
    destruct q, c; try discriminate. destruct l as [|[name args] [|]]; try discriminate. cbn [fst snd].
    destruct args as [|[] args|]; try discriminate.
    destruct (extract_inner_ty args), (extract_inner_ty_2 args); cbn [omap]; do 4 (destruct (_ =? _)%string; [discriminate|]); discriminate.
  Qed.

  Lemma parse_array y t n : parse_special_ty y = Some (TyArray t n) -> y = YArray t (LenInt n false).
  Proof.
    unfold parse_special_ty. destruct (parse_primitive_ty y); [discriminate|].
    destruct y as [q c l|u|u k|ts|l mu u|u|u|u| |ids]; try discriminate.
    - destruct q, c; try discriminate. destruct l as [|[name args] [|]]; try discriminate. cbn [fst snd].
      destruct args as [|[] args|]; try discriminate; [destruct (_ =? _)%string; discriminate|].
      destruct (extract_inner_ty args) as [u1|], (extract_inner_ty_2 args) as [u2|]; cbn [omap];
        do 4 (destruct (_ =? _)%string; [try discriminate|]);
        try (do 2 (destruct (_ =? _)%string; [discriminate|]); discriminate);
        (destruct (extract_lifetime_and_inner_ty args) as [u|]; [|discriminate]);
        (destruct (extract_slice_inner_ty u); [discriminate|]); (destruct (is_bare_ty u "str"); [discriminate|]);
        intros H; contradiction (cow_not_array _ _ _ H).
    - destruct k as [k [|]| |]; try discriminate. destruct (_ <? _); [|discriminate]. congruence.
    - destruct l; [|discriminate]. destruct mu; [discriminate|]. destruct (is_bare_ty _ _); [discriminate|].
      destruct (extract_slice_inner_ty u) as [w|]; [|discriminate]. destruct (is_bare_ty w "u8"); discriminate.
  Qed.

  Lemma field_ends d k : fd_kind d = parse_field_ty (fd_raw d) -> (exists n, minimum k (fd_raw d) = Some n) ->
    exists n, field_minimum (minimum k) d = Some n.
  Proof.
    intros E [n Hn]. unfold field_minimum. destruct (_ || _ || _)%bool; [eexists; reflexivity|].
    destruct (fd_kind d) as [t|t]; [|eexists; reflexivity].
    unfold parse_field_ty in E. destruct (extract_option_inner_ty (fd_raw d)) eqn:Eo; [discriminate|]. injection E as E.
    unfold parse_ty in E.
    destruct t; try (eexists; reflexivity).
    - assert (Er : fd_raw d = YArray t (LenInt n0 false)).
      { apply parse_array. destruct (parse_special_ty (fd_raw d)); congruence. }
      rewrite Er in Hn. destruct k as [|k]; [discriminate|]. cbn [Nominal.minimum minimum_body] in Hn.
      destruct (minimum k t) as [x|] eqn:Ex; [|discriminate].
      rewrite (minimum_more k (S k) ltac:(lia) _ _ Ex). eexists. reflexivity.
    - rewrite Hn. destruct (f_varint _); eexists; reflexivity.
    - rewrite Hn. eexists. reflexivity.
  Qed.

  Lemma fields_end fs k : (forall d, In d fs -> fd_kind d = parse_field_ty (fd_raw d)) ->
    (forall d, In d fs -> exists n, minimum k (fd_raw d) = Some n) -> exists n, fields_minimum (minimum k) fs = Some n.
  Proof.
    intros E H. unfold fields_minimum, sum_opt. induction fs as [|d fs IH]; [eexists; reflexivity|]. cbn [map fold_right].
    destruct (field_ends d k) as [x ->]; [apply E; left; reflexivity|apply H; left; reflexivity|].
    destruct IH as [z ->]; [intros; apply E; right; assumption|intros; apply H; right; assumption|]. eexists. reflexivity.
  Qed.

  Lemma raws_end fs : (forall d : field, In d fs -> ends (fd_raw d)) ->
    exists k, forall d, In d fs -> exists n, minimum k (fd_raw d) = Some n.
  Proof.
    intros H. destruct (ends_all (map fd_raw fs)) as [k Hk].
    - intros u Hu. apply in_map_iff in Hu as (d & <- & Hd). apply H, Hd.
    - exists k. intros d Hd. apply Hk, in_map, Hd.
  Qed.

  (** A name of the user's is looked up. *)
  Lemma named_body m y t : user y = Some t ->
    body m y = match t with
               | Declared d => declared_minimum m d
               | Alias z => m z
               | Foreign parts f => match all_some (map m parts) with Some l => Some (f l) | None => None end
               end.
  Proof.
    intros E. pose proof (pr_names _ PR _ _ E) as Ho. unfold minimum_body. rewrite E.
    destruct y as [q c l|u|u n|ts|l mu u|u|u|u| |ids]; try contradiction.
    destruct q; [reflexivity|]. destruct c; [reflexivity|].
    destruct l as [|[name args] [|]]; [reflexivity| |destruct args as [|tf [|[] [|[] []]]|]; reflexivity].
    cbn [own_name] in Ho.
    assert (Hs : forall x, In x std_names -> (name =? x)%string = false).
    { intros x Hx. destruct (String.eqb_spec name x) as [->|]; [contradiction|reflexivity]. }
    assert (Hp : prim_named name = None).
    { unfold prim_named. rewrite !Hs by (unfold std_names, value_names; cbn; tauto). reflexivity. }
    rewrite Hp. rewrite !Hs by (unfold std_names, value_names; cbn; tauto).
    destruct args as [|tf args|ids]; [reflexivity| |reflexivity].
    destruct args as [|[l|u|a u|ids] [|[l'|u'|a' u'|ids'] [|a'' args]]]; reflexivity.
  Qed.

  (** Every enum ends: the variants that could call back are left out. *)
  Theorem C101_enums y tag peek vs : user y = Some (Declared (DeclEnum tag peek vs)) -> ends y.
  Proof.
    intros E. apply ends_step.
    destruct (raws_end (concat (minimum_variants vs))) as [k Hk].
    { intros d Hd. apply in_concat in Hd as (fs & Hfs & Hd). unfold minimum_variants in Hfs.
      apply in_map_iff in Hfs as ([u fs'] & Efs & Hf). cbn in Efs. subst fs'. apply filter_In in Hf as [_ Hf]. cbn [fst snd] in Hf.
      apply andb_prop in Hf as [_ Hf]. unfold non_recursive in Hf. rewrite forallb_forall in Hf. apply known_ends, Hf, Hd. }
    exists k. rewrite (named_body _ _ _ E). cbn [declared_minimum].
    assert (G : exists x, fold_left min_opt (map (fields_minimum (minimum k)) (minimum_variants vs)) (Some 0) = Some x).
    { assert (Hp : forall fs d, In fs (minimum_variants vs) -> In d fs -> fd_kind d = parse_field_ty (fd_raw d)).
      { intros fs d Hfs Hd. apply (pr_fields _ PR y _ d E). cbn [declared_fields]. apply in_concat. exists fs. split; [|exact Hd].
        unfold minimum_variants in Hfs. apply in_map_iff in Hfs as (v & <- & Hv). apply filter_In in Hv as [Hv _]. apply in_map, Hv. }
      generalize 0. induction (minimum_variants vs) as [|fs l IH]; intros a; [eexists; reflexivity|]. cbn [map fold_left].
      destruct (fields_end fs k) as [x ->].
      - intros d Hd. apply (Hp fs); [left; reflexivity|exact Hd].
      - intros d Hd. apply Hk. cbn [concat]. apply in_or_app. left. exact Hd.
      - cbn [min_opt]. apply IH.
        + intros d Hd. apply Hk. cbn [concat]. apply in_or_app. right. exact Hd.
        + intros fs' d Hfs Hd. apply (Hp fs'); [right; exact Hfs|exact Hd]. }
    destruct G as [x ->]. eexists. reflexivity.
  Qed.

  (** For every type with values - arrays of length zero apart - the call ends,
      however the declarations refer to one another. *)
  Theorem C101_ends y : inhabited user const false y -> ends y.
  Proof.
    induction 1 as [name Hn| |u|name tf u Hn|name tf u w Hn|tf u w _ _|tf u w _ _|tf u _ IH|tf l u _ _|u n _ IH|u n Hz|ts _ IH
      |u _ IH|u _ IH|l m u _ _|y fs E _ IH|y tag peek vs un fs E _ _ _|y z E _ IH|y parts f E _ IH].
    - apply std_ends; [unfold std_names; apply in_or_app; left; exact Hn|]. intros ->. cbn in Hn.
      repeat (destruct Hn as [Hn|Hn]; [discriminate|]). exact Hn.
    - apply std_ends; [unfold std_names, value_names; cbn; tauto|discriminate].
    - exists 1%nat. eexists. reflexivity.
    - apply std_ends; [unfold std_names, value_names; cbn in *; tauto|]. intros ->. cbn in Hn.
      repeat (destruct Hn as [Hn|Hn]; [discriminate|]). exact Hn.
    - apply std_ends; [unfold std_names, value_names; cbn in *; tauto|]. intros ->. cbn in Hn.
      repeat (destruct Hn as [Hn|Hn]; [discriminate|]). exact Hn.
    - apply std_ends; [unfold std_names, value_names; cbn; tauto|discriminate].
    - apply std_ends; [unfold std_names, value_names; cbn; tauto|discriminate].
    - apply ends_step. destruct IH as (k & n & Hk). exists k. cbn [minimum_body String.eqb Ascii.eqb Bool.eqb].
      destruct (strip u); try (destruct (is_bare_ty _ _)); rewrite ?Hk; eexists; reflexivity.
    - apply std_ends; [unfold std_names, value_names; cbn; tauto|discriminate].
    - apply ends_array, IH.
    - discriminate.
    - apply ends_tuple, IH.
    - apply ends_paren, IH.
    - apply ends_paren, IH.
    - apply ends_ref.
    - apply ends_step. destruct (raws_end fs IH) as [k Hk]. exists k. rewrite (named_body _ _ _ E).
      apply fields_end; [|exact Hk]. intros d Hd. apply (pr_fields _ PR y _ d E), Hd.
    - apply (C101_enums y tag peek vs E).
    - apply ends_step. destruct IH as (k & n & Hk). exists k, n. rewrite (named_body _ _ _ E). exact Hk.
    - apply ends_step. destruct (ends_all parts IH) as [k Hk]. exists k. rewrite (named_body _ _ _ E).
      destruct (all_ends (minimum k) parts Hk) as [l ->]. eexists. reflexivity.
  Qed.
End Ends.

Print Assumptions C101_enums.
Print Assumptions C101_ends.

(* ------------------------------------------------------------------ *)
(** * Examples *)

Definition of_type (y : spelled) : field := {| fd_attrs := plain; fd_kind := parse_field_ty y; fd_raw := y |}.
Definition no_size : spelled -> N := fun _ => 0.
Definition no_const : alen -> N := fun _ => 0.

(** Declarations by their names. *)
Definition declares (l : list (string * target)) (y : spelled) : option target :=
  match y with
  | YPath false false [(name, NoArgs)] => omap snd (find (fun p => (fst p =? name)%string) l)
  | _ => None
  end.

Lemma declares_in l y t : declares l y = Some t -> exists name, y = bare_name name /\ In (name, t) l.
Proof.
  unfold declares. destruct y as [[] [] [|[name [| |]] [|]]| | | | | | | | |]; try discriminate.
  destruct (find _ l) as [[x t']|] eqn:E; [|discriminate]. intros H. injection H as <-. apply find_some in E as [E1 E2].
  cbn in E2. apply String.eqb_eq in E2. subst x. exists name. split; [reflexivity|exact E1].
Qed.

(** A list of declarations with names of their own. *)
Definition properb (l : list (string * target)) : bool :=
  forallb (fun p => negb (named std_names (fst p))) l.

Lemma proper_declares l : properb l = true ->
  (forall name d f, In (name, Declared d) l -> In f (declared_fields d) -> fd_kind f = parse_field_ty (fd_raw f)) ->
  proper (declares l).
Proof.
  intros Hl Hf. constructor.
  - intros y t E. apply declares_in in E as (name & -> & Hin). cbn. intros Hs.
    unfold properb in Hl. rewrite forallb_forall in Hl. specialize (Hl _ Hin). cbn [fst] in Hl.
    assert (named std_names name = true) by (apply existsb_exists; exists name; split; [exact Hs|apply String.eqb_refl]).
    rewrite H in Hl. discriminate.
  - intros y d f E Hd. apply declares_in in E as (name & _ & Hin). apply (Hf name d f Hin Hd).
Qed.

(** `enum List { Nil, Cons(u32, Box<List>) }`, `struct Node { value: u32, next: Link, also: Vec<Node> }`,
    `enum Link { End, More(Box<Node>) }`, `type Nodes = (Node, [Node; 2])`. *)
Definition box_of (y : spelled) : spelled := name_with "Box" [GType y].
Definition nodes : list (string * target) :=
  [("List", Declared (DeclEnum BU32 false [(true, []); (false, [of_type (bare_name "u32"); of_type (box_of (bare_name "List"))])]));
   ("Node", Declared (DeclStruct [of_type (bare_name "u32"); of_type (bare_name "Link"); of_type (name_with "Vec" [GType (bare_name "Node")])]));
   ("Link", Declared (DeclEnum BU8 false [(true, []); (false, [of_type (box_of (bare_name "Node"))])]));
   ("Nodes", Alias (YTuple [bare_name "Node"; YArray (bare_name "Node") (LenInt 2 false)]))].

Lemma nodes_proper : proper (declares nodes).
Proof.
  apply proper_declares; [reflexivity|]. intros name d f Hin Hf. cbn in Hin.
  do 3 (destruct Hin as [Hin|Hin];
        [injection Hin as <- <-; cbn in Hf; repeat (destruct Hf as [<-|Hf]; [reflexivity|]); contradiction|]).
  destruct Hin as [Hin|[]]. discriminate.
Qed.

Lemma nodes_inhabited : inhabited (declares nodes) no_const false (bare_name "Nodes").
Proof.
  assert (H : inhabited (declares nodes) no_const false (bare_name "Node")).
  { eapply inh_struct; [reflexivity|]. intros d [<-|[<-|[<-|[]]]]; cbn [of_type fd_raw].
    - apply inh_value. cbn. tauto.
    - eapply inh_enum; [reflexivity|left; reflexivity|intros d []].
    - apply inh_one. cbn. tauto. }
  eapply inh_alias; [reflexivity|]. apply inh_tuple. intros u [<-|[<-|[]]]; [exact H|apply inh_array, H].
Qed.

Example nodes_end : ends (declares nodes) no_size no_const (bare_name "Nodes").
Proof. exact (C101_ends _ _ _ nodes_proper _ nodes_inhabited). Qed.
Example nodes_minimum : minimum (declares nodes) no_size no_const 5 (bare_name "Nodes") = Some 27.
Proof. vm_compute. reflexivity. Qed.
Example list_ends : ends (declares nodes) no_size no_const (bare_name "List").
Proof. eapply C101_enums; [apply nodes_proper|reflexivity]. Qed.

(** A type without values need not end: `struct Loop { next: Box<Loop> }`. *)
Definition loops : list (string * target) := [("Loop", Declared (DeclStruct [of_type (box_of (bare_name "Loop"))]))].

Example loop_never_ends k : minimum (declares loops) no_size no_const k (bare_name "Loop") = None.
Proof.
  enough (H : minimum (declares loops) no_size no_const k (bare_name "Loop") = None
              /\ minimum (declares loops) no_size no_const k (box_of (bare_name "Loop")) = None) by apply H.
  induction k as [|k [IH1 IH2]]; [split; reflexivity|]. split.
  - cbn [minimum]. unfold minimum_body, declared_minimum, fields_minimum, field_minimum. cbn. rewrite IH2. reflexivity.
  - cbn [minimum]. unfold minimum_body. cbn. exact IH1.
Qed.

(** `struct Empty { x: [Box<Empty>; 0] }` has a value, `Empty { x: [] }`, and its
    `minimum_bytes_needed` calls itself without end: nothing multiplied by zero is
    left out. *)
Definition empties : list (string * target) :=
  [("Empty", Declared (DeclStruct [of_type (YArray (box_of (bare_name "Empty")) (LenInt 0 false))]))].

Lemma empties_proper : proper (declares empties).
Proof.
  apply proper_declares; [reflexivity|]. intros name d f [Hin|[]] Hf. injection Hin as <- <-. destruct Hf as [<-|[]]. reflexivity.
Qed.

Lemma empty_never_ends k : minimum (declares empties) no_size no_const k (bare_name "Empty") = None.
Proof.
  enough (H : minimum (declares empties) no_size no_const k (bare_name "Empty") = None
              /\ minimum (declares empties) no_size no_const k (box_of (bare_name "Empty")) = None) by apply H.
  induction k as [|k [IH1 IH2]]; [split; reflexivity|]. split.
  - cbn [minimum]. unfold minimum_body, declared_minimum, fields_minimum, field_minimum. cbn. rewrite IH2. reflexivity.
  - cbn [minimum]. unfold minimum_body. cbn. exact IH1.
Qed.

Theorem C101_empty_arrays_refuted : exists l y, proper (declares l) /\ inhabited (declares l) no_const true y
  /\ forall k, minimum (declares l) no_size no_const k y = None.
Proof.
  exists empties, (bare_name "Empty"). split; [apply empties_proper|]. split; [|apply empty_never_ends].
  eapply inh_struct; [reflexivity|]. intros d [<-|[]]. apply inh_empty; reflexivity.
Qed.

Print Assumptions C101_empty_arrays_refuted.
