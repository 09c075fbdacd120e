(* Property C136: the headers of the generated impls. *)
From Verif Require Import Header PropSyntax.

(* ------------------------------------------------------------------ *)
(** * Specification: what Rust asks of a header *)

(** The names a list of parameters declares, each in its namespace. *)
Inductive name := Lifetime (l : string) | Thing (x : string).

Definition declares (p : param) : name :=
  match p with ParamLifetime l _ => Lifetime l | ParamType x _ _ | ParamConst x _ => Thing x end.

(** The argument that stands for a parameter. *)
Definition passes (p : param) (a : argument) : Prop :=
  match p, a with
  | ParamLifetime l _, ArgLifetime l' [] => l = l'
  | ParamType x _ _, ArgType x' => x = x'
  | ParamConst x _, ArgType x' => x = x'
  | _, _ => False
  end.

Definition is_lifetime (p : param) : bool := match p with ParamLifetime _ _ => true | _ => false end.

(** Lifetimes come first. *)
Definition ordered (l : list param) : Prop :=
  exists a b, l = a ++ b /\ forallb is_lifetime a = true /\ forallb (fun p => negb (is_lifetime p)) b = true.

(** Rust's rules, for a header of a type declared with the parameters [ps]: no two parameters have
    the same name, also not that of the method's; lifetimes come first; none has a default; the
    type gets an argument for each of its parameters, without bounds; no predicate has the form
    `'x: 'y: 'z`. *)
Record well_formed (ps : list param) (hd : header) : Prop := {
  wf_distinct : NoDup (map declares (hd_params hd) ++ map Thing (hd_inner hd));
  wf_ordered : ordered (hd_params hd);
  wf_defaults : Forall (fun p => match p with ParamType _ _ d => d = None | _ => True end) (hd_params hd);
  wf_args : Forall2 passes ps (hd_args hd);
  wf_where : Forall (fun q => match q with Outlives _ xs _ ys => xs = [] /\ ys = [] | _ => True end) (hd_where hd)
}.

(** What Rust asks of the declaration itself. *)
Record declared (ps : list param) : Prop := {
  dc_distinct : NoDup (map declares ps);
  dc_ordered : ordered ps
}.

(** The names the macro takes. *)
Definition taken (tr : derived_trait) : list name :=
  match tr with
  | ForReadable => [Lifetime "'a_"; Thing "C_"; Thing "R_"]
  | ForWritable => [Thing "C_"; Thing "T_"]
  | ForZeroCopyable _ _ => [Thing "C_"; Thing "T_"]
  end.

(* ------------------------------------------------------------------ *)
(** * Proofs *)

Definition no_consts (ps : list param) : Prop := const_params ps = [].
Definition no_bounded_lifetimes (ps : list param) : Prop := Forall (fun l => snd l = []) (lifetime_params ps).

Lemma declares_impl ps : ordered ps -> no_consts ps -> map declares (impl_params ps) = map declares ps.
Proof.
  intros (a & b & -> & Ha & Hb) Hc. unfold impl_params, no_consts in *.
  assert (La : forall l, forallb is_lifetime l = true ->
    map declares (map (fun l => ParamLifetime (fst l) (snd l)) (lifetime_params l)) = map declares l
    /\ type_params l = []).
  { induction l as [|[l' bs|x bs d|x t] l IH]; cbn; try discriminate; [auto|]. intros H. destruct (IH H) as [E1 E2].
    split; [f_equal; exact E1|exact E2]. }
  assert (Lb : forall l, forallb (fun p => negb (is_lifetime p)) l = true -> const_params l = [] ->
    map declares (map (fun x => ParamType (fst x) (snd x) None) (type_params l)) = map declares l
    /\ lifetime_params l = []).
  { induction l as [|[l' bs|x bs d|x t] l IH]; cbn; try discriminate; [auto|]. intros H H'. destruct (IH H H') as [E1 E2].
    split; [f_equal; exact E1|exact E2]. }
  unfold lifetime_params, type_params, const_params in *. rewrite !flat_map_app in *.
  apply app_eq_nil in Hc as [_ Hc]. destruct (La a Ha) as [E1 E2], (Lb b Hb Hc) as [E3 E4].
  rewrite E2, E4, app_nil_r. cbn [app]. rewrite !map_app. f_equal; assumption.
Qed.

Lemma impl_ordered ps pre suf : forallb is_lifetime pre = true -> forallb (fun p => negb (is_lifetime p)) suf = true ->
  ordered (pre ++ impl_params ps ++ suf).
Proof.
  intros Hp Hs. exists (pre ++ map (fun l => ParamLifetime (fst l) (snd l)) (lifetime_params ps)),
    (map (fun x => ParamType (fst x) (snd x) None) (type_params ps) ++ suf).
  split; [unfold impl_params; rewrite <- !app_assoc; reflexivity|]. rewrite !forallb_app, Hp, Hs, andb_true_r. cbn [andb].
  split; apply forallb_forall; intros p Hin; apply in_map_iff in Hin as (q & <- & _); reflexivity.
Qed.

Lemma impl_defaults ps : Forall (fun p => match p with ParamType _ _ d => d = None | _ => True end) (impl_params ps).
Proof.
  unfold impl_params. apply Forall_app. split; apply Forall_forall; intros p Hin; apply in_map_iff in Hin as (q & <- & _); cbn; auto.
Qed.

(** The arguments fit exactly if there are no constants and no bounds on lifetimes. *)
Lemma args_fit ps : ordered ps -> (Forall2 passes ps (ty_params ps) <-> no_consts ps /\ no_bounded_lifetimes ps).
Proof.
  intros (a & b & -> & Ha & Hb). unfold ty_params, no_consts, no_bounded_lifetimes, lifetime_params, type_params, const_params.
  rewrite !flat_map_app. fold (lifetime_params a) (lifetime_params b) (type_params a) (type_params b) (const_params a) (const_params b).
  assert (E2 : type_params a = [] /\ const_params a = []).
  { clear - Ha. induction a as [|[l bs|x bs d|x t] a IH]; cbn in *; try discriminate; auto. }
  assert (E4 : lifetime_params b = []).
  { clear - Hb. induction b as [|[l bs|x bs d|x t] b IH]; cbn in *; try discriminate; auto. }
  destruct E2 as [E2 E2']. rewrite E2, E2', E4, app_nil_r. cbn [app].
  assert (Aa : Forall2 passes a (map (fun l => ArgLifetime (fst l) (snd l)) (lifetime_params a)) <-> Forall (fun l => snd l = []) (lifetime_params a)).
  { clear - Ha. induction a as [|[l bs|x bs d|x t] a IH]; cbn in *; try discriminate; [split; constructor|].
    specialize (IH Ha). split.
    - intros H. inversion H as [|? ? ? ? H1 H2]; subst. constructor; [|apply IH, H2]. cbn in *. destruct bs; [reflexivity|contradiction].
    - intros H. inversion H as [|? ? H1 H2]; subst. cbn in H1. subst bs. constructor; [reflexivity|apply IH, H2]. }
  assert (Ab : Forall2 passes b (map (fun x => ArgType (fst x)) (type_params b)) <-> const_params b = []).
  { clear - Hb. assert (Hlen : (length (type_params b) + length (const_params b) = length b)%nat).
    { induction b as [|[l bs|x bs d|x t] b IH]; cbn in *; try discriminate; [reflexivity| |]; specialize (IH Hb); unfold type_params, const_params in *; lia. }
    split.
    - intros H. assert (E : length b = length (map (fun x => ArgType (fst x)) (type_params b))).
      { clear - H. induction H; cbn; congruence. }
      rewrite map_length in E. destruct (const_params b); [reflexivity|]. cbn in Hlen. lia.
    - intros H. clear Hlen. induction b as [|[l bs|x bs d|x t] b IH]; cbn in *; try discriminate; constructor; [reflexivity|apply IH; assumption]. }
  assert (Al : length (map (fun l => ArgLifetime (fst l) (snd l)) (lifetime_params a)) = length a).
  { rewrite map_length. clear - Ha. induction a as [|[l bs|x bs d|x t] a IH]; cbn in *; try discriminate; [reflexivity|].
    f_equal. apply IH, Ha. }
  rewrite <- Ab, <- Aa. split.
  - intros H. apply Forall2_app_inv_l in H as (l1 & l2 & H1 & H2 & E).
    assert (El : l1 = map (fun l => ArgLifetime (fst l) (snd l)) (lifetime_params a)).
    { assert (Hl : length l1 = length a) by (clear - H1; induction H1; cbn; congruence).
      clear - E Hl Al. revert E. generalize (map (fun x => ArgType (fst x)) (type_params b)).
      rewrite <- Al in Hl. revert Hl. generalize (map (fun l => ArgLifetime (fst l) (snd l)) (lifetime_params a)). clear.
      intros m. revert m. induction l1 as [|x l1 IH]; intros [|y m] Hl k; cbn in *; try discriminate; [reflexivity|].
      intros E. injection E as <- E. f_equal. eapply IH; [congruence|exact E]. }
    subst l1. apply app_inv_head in E. subst l2. auto.
  - intros [H1 H2]. apply Forall2_app; assumption.
Qed.

Lemma where_fits ps given types tr : (forall q, In q given -> match q with Outlives _ _ _ _ => False | _ => True end) ->
  no_bounded_lifetimes ps ->
  Forall (fun q => match q with Outlives _ xs _ ys => xs = [] /\ ys = [] | _ => True end) (where_items ps given types tr).
Proof.
  intros Hg Hb. unfold where_items. apply Forall_app. split.
  - apply Forall_forall. intros q Hin. apply in_map_iff in Hin as (t & <- & _). exact Logic.I.
  - apply Forall_app. split.
    + apply Forall_forall. intros q Hin. specialize (Hg q Hin). destruct q; auto. contradiction.
    + destruct tr; try constructor. unfold no_bounded_lifetimes in Hb. induction Hb as [|[l bs] ls H _ IH]; cbn; [constructor|].
      cbn in H. subst bs. repeat (apply Forall_cons; [split; reflexivity|]). exact IH.
Qed.

Lemma nodup_app {A} (l m : list A) : NoDup (l ++ m) <-> NoDup l /\ NoDup m /\ (forall x, In x l -> ~ In x m).
Proof.
  induction l as [|x l IH]; cbn [app].
  - split; [intros H; repeat split; [constructor|exact H|intros x []]|intros (_ & H & _); exact H].
  - rewrite !NoDup_cons_iff, IH, in_app_iff. split.
    + intros (H1 & H2 & H3 & H4). repeat split; auto. intros y [<-|Hy]; auto.
    + intros ((H1 & H2) & H3 & H4). repeat split; auto.
      * intros [H|H]; [auto|]. exact (H4 x (or_introl eq_refl) H).
      * intros y Hy. apply H4. right. exact Hy.
Qed.

Lemma nodup_rotate {A} (a b c : list A) : NoDup (a ++ b ++ c) <-> NoDup b /\ NoDup (a ++ c) /\ (forall x, In x b -> ~ In x (a ++ c)).
Proof.
  assert (P : Permutation (a ++ b ++ c) (b ++ (a ++ c))).
  { rewrite !app_assoc. apply Permutation_app_tail, Permutation_app_comm. }
  rewrite <- nodup_app. split; apply Permutation_NoDup; [exact P|apply Permutation_sym, P].
Qed.

(* ------------------------------------------------------------------ *)
(** * The property *)

(** A header is as Rust wants it exactly if the declaration has no constants, no bounds on
    lifetimes in its parameter list, and no parameter with a name the macro takes. *)
Theorem C136_headers ps given types tr : declared ps ->
  (forall q, In q given -> match q with Outlives _ _ _ _ => False | _ => True end) ->
  (well_formed ps (header_of ps given types tr)
   <-> no_consts ps /\ no_bounded_lifetimes ps /\ forall n, In n (taken tr) -> ~ In n (map declares ps)).
Proof.
  intros [Hd Ho] Hg. split.
  - intros [H1 H2 H3 H4 H5].
    assert (H4' : Forall2 passes ps (ty_params ps)) by (destruct tr; exact H4). apply args_fit in H4' as [Hc Hb]; [|exact Ho].
    split; [exact Hc|]. split; [exact Hb|]. clear - Hc Ho H1. pose proof (declares_impl ps Ho Hc) as E.
    destruct tr; cbn [header_of hd_params hd_inner] in H1; rewrite ?map_app, E, <- ?app_assoc in H1; cbn [map app declares] in H1.
    + change (Lifetime "'a_" :: ?l) with ([Lifetime "'a_"] ++ l) in H1. apply nodup_rotate in H1 as (_ & _ & H1).
      intros n Hn Hin. apply (H1 n Hin). cbn. cbn in Hn. tauto.
    + apply nodup_app in H1 as (_ & _ & H1). intros n Hn Hin. apply (H1 n Hin). exact Hn.
    + apply nodup_app in H1 as (_ & _ & H1). intros n Hn Hin. apply (H1 n Hin). exact Hn.
  - intros (Hc & Hb & Ht). pose proof (declares_impl ps Ho Hc) as E. constructor.
    + destruct tr; cbn [header_of hd_params hd_inner]; rewrite ?map_app, E, <- ?app_assoc; cbn [map app declares].
      * change (Lifetime "'a_" :: map declares ps ++ [Thing "C_"; Thing "R_"]) with ([Lifetime "'a_"] ++ map declares ps ++ [Thing "C_"; Thing "R_"]).
        apply nodup_rotate. split; [exact Hd|]. split; [repeat constructor; cbn; intuition discriminate|].
        intros n Hin Hn. apply (Ht n Hn Hin).
      * apply nodup_app. split; [exact Hd|]. split; [repeat constructor; cbn; intuition discriminate|].
        intros n Hin Hn. apply (Ht n Hn Hin).
      * apply nodup_app. split; [exact Hd|]. split; [repeat constructor; cbn; intuition discriminate|].
        intros n Hin Hn. apply (Ht n Hn Hin).
    + destruct tr; cbn [header_of hd_params].
      * apply impl_ordered; reflexivity.
      * apply (impl_ordered ps []); reflexivity.
      * apply (impl_ordered ps []); reflexivity.
    + pose proof (impl_defaults ps) as F. destruct tr; cbn [header_of hd_params]; rewrite ?Forall_app; repeat split; try exact F; repeat constructor.
    + destruct tr; apply args_fit; auto.
    + destruct tr; cbn [header_of hd_where]; apply where_fits; assumption.
Qed.

(** What a where-clause says about lifetimes: [outlives] is any preorder, [rho] what the
    lifetimes stand for. *)
Section Lifetimes.
  Context {L : Type} (outlives : L -> L -> Prop) (rho : string -> L).

  Definition holds (q : predicate) : Prop :=
    match q with
    | Outlives x _ y _ => outlives (rho x) (rho y)
    | GivenOutlives x ys => forall y, In y ys -> outlives (rho x) (rho y)
    | Given _ | Bound _ => True
    end.

  (** A reader of a type with lifetimes applies exactly if all of them are the lifetime of
      the input, apart from what the user asks for; a writer adds nothing. *)
  Theorem C136_lifetimes ps given types tr :
    (forall q, In q (hd_where (header_of ps given types tr)) -> holds q)
    <-> (forall q, In q given -> holds q)
        /\ (tr = ForReadable -> forall l b, In (ParamLifetime l b) ps ->
            outlives (rho "'a_") (rho l) /\ outlives (rho l) (rho "'a_")).
  Proof.
    assert (El : forall l, In l (lifetime_params ps) <-> In (ParamLifetime (fst l) (snd l)) ps).
    { intros [l b]. unfold lifetime_params. rewrite in_flat_map. split.
      - intros ([l' b'|x b' d|x t] & Hp & Hin); cbn in Hin; try contradiction. destruct Hin as [Hin|[]]. injection Hin as -> ->. exact Hp.
      - intros H. exists (ParamLifetime l b). split; [exact H|left; reflexivity]. }
    assert (Ew : hd_where (header_of ps given types tr) = where_items ps given types tr) by (destruct tr; reflexivity).
    rewrite Ew. unfold where_items. split.
    - intros H. split; [intros q Hq; apply H; rewrite !in_app_iff; auto|]. intros -> l b Hin.
      split; [apply (H (Outlives "'a_" [] l b))|apply (H (Outlives l b "'a_" []))];
        rewrite !in_app_iff; right; right; apply in_flat_map; exists (l, b); (split; [apply (El (l, b)), Hin|cbn; auto]).
    - intros [H1 H2] q Hq. rewrite !in_app_iff in Hq. destruct Hq as [Hq|[Hq|Hq]]; [|apply H1, Hq|].
      + apply in_map_iff in Hq as (t & <- & _). exact Logic.I.
      + destruct tr; try contradiction. apply in_flat_map in Hq as (l & Hl & Hq). apply El in Hl.
        destruct (H2 eq_refl _ _ Hl) as [A B]. destruct Hq as [<-|[<-|[]]]; assumption.
  Qed.
End Lifetimes.

(** The parameters are known for what they are: which types get bounds
    depends on it. *)
Theorem C136_generics ps n :
  (In n (sg_lifetimes (generics_of ps)) <-> exists b, In (ParamLifetime n b) ps)
  /\ (In n (sg_types (generics_of ps)) <-> exists b d, In (ParamType n b d) ps)
  /\ (In n (sg_consts (generics_of ps)) <-> exists t, In (ParamConst n t) ps).
Proof.
  cbn [generics_of sg_lifetimes sg_types sg_consts]. unfold lifetime_params, type_params, const_params.
  split; [|split].
  - rewrite in_map_iff. split.
    + intros ([l b] & <- & H). apply in_flat_map in H as ([l' b'|x b' d|x t] & Hp & H); cbn in H; try contradiction.
      destruct H as [E|[]]. injection E as -> ->. exists b. exact Hp.
    + intros (b & H). exists (n, b). split; [reflexivity|]. apply in_flat_map. exists (ParamLifetime n b). cbn. auto.
  - rewrite in_map_iff. split.
    + intros ([l b] & <- & H). apply in_flat_map in H as ([l' b'|x b' d|x t] & Hp & H); cbn in H; try contradiction.
      destruct H as [E|[]]. injection E as -> ->. exists b, d. exact Hp.
    + intros (b & d & H). exists (n, b). split; [reflexivity|]. apply in_flat_map. exists (ParamType n b d). cbn. auto.
  - rewrite in_flat_map. split.
    + intros ([l' b'|x b' d|x t] & Hp & H); cbn in H; try contradiction.
      destruct H as [E|[]]. subst. exists t. exact Hp.
    + intros (t & H). exists (ParamConst n t). cbn. auto.
Qed.

(** The types of fields that get a bound are those of C93. *)
Theorem C136_bounds ps given ds t :
  (In (Bound t) (hd_where (header_of ps given (flat_map bound_types ds) ForReadable)) <->
   In (Bound t) given \/ In t (readable_bounds (generics_of ps) ds)).
Proof.
  cbn [header_of hd_where]. unfold where_items, readable_bounds. rewrite !in_app_iff. split.
  - intros [H|[H|H]]; [right|left; exact H|].
    + apply in_map_iff in H as (u & E & H). injection E as <-. exact H.
    + apply in_flat_map in H as (l & _ & [H|[H|[]]]); discriminate.
  - intros [H|H]; [auto|]. left. apply in_map, H.
Qed.

(** Constants and bounds on lifetimes, which Rust allows in declarations. *)
(* struct Buffer< const N: usize > { data: [u8; N] } *)
Definition with_const : list param := [ParamConst "N" (bare_name "usize")].
(* struct View< 'a, 'b: 'a > { x: &'a str, y: &'b str } *)
Definition with_bound : list param := [ParamLifetime "'a" []; ParamLifetime "'b" ["'a"]].

Theorem C136_consts_refuted : declared with_const /\ forall types tr, ~ well_formed with_const (header_of with_const [] types tr).
Proof.
  split.
  - split; [repeat constructor; intros []|]. exists [], with_const. repeat split.
  - intros types tr H. assert (A : Forall2 passes with_const []) by (destruct tr; exact (wf_args _ _ H)). inversion A.
Qed.

Theorem C136_lifetime_bounds_refuted :
  declared with_bound /\ forall types tr, ~ well_formed with_bound (header_of with_bound [] types tr).
Proof.
  assert (D : declared with_bound).
  { split; [repeat constructor; cbn; intuition discriminate|]. exists with_bound, []. repeat split. }
  split; [exact D|]. intros types tr H. apply C136_headers in H as (_ & H & _); [|exact D|intros q []].
  inversion H as [|? ? _ H']; subst. inversion H' as [|? ? E _]; subst. discriminate E.
Qed.

Print Assumptions C136_headers.
Print Assumptions C136_lifetimes.
Print Assumptions C136_bounds.
Print Assumptions C136_generics.
Print Assumptions C136_consts_refuted.
Print Assumptions C136_lifetime_bounds_refuted.

(* struct Page< 'a, K: Ord, V = u8 > where V: Clone { keys: Cow< 'a, [K] >, value: V } *)
Definition page : list param := [ParamLifetime "'a" []; ParamType "K" ["Ord"] None; ParamType "V" [] (Some (bare_name "u8"))].
Definition page_where : list predicate := [Given ["V"; "Clone"]].

Example page_declared : declared page /\ forall q, In q page_where -> match q with Outlives _ _ _ _ => False | _ => True end.
Proof.
  split; [split; [repeat constructor; cbn; intuition discriminate|]|].
  - exists [ParamLifetime "'a" []], [ParamType "K" ["Ord"] None; ParamType "V" [] (Some (bare_name "u8"))]. repeat split.
  - intros q [<-|[]]. exact Logic.I.
Qed.

Example page_header : well_formed page (header_of page page_where [bare_name "K"; bare_name "V"; bare_name "u8"] ForReadable)
  /\ header_of page page_where [bare_name "K"; bare_name "V"; bare_name "u8"] ForReadable =
     {| hd_params := [ParamLifetime "'a_" []; ParamLifetime "'a" []; ParamType "K" ["Ord"] None; ParamType "V" [] None;
                      ParamType "C_" ["speedy"; "Context"] None];
        hd_args := [ArgLifetime "'a" []; ArgType "K"; ArgType "V"];
        hd_where := [Bound (bare_name "K"); Bound (bare_name "V"); Given ["V"; "Clone"];
                     Outlives "'a_" [] "'a" []; Outlives "'a" [] "'a_" []];
        hd_inner := ["R_"] |}.
Proof.
  split; [|reflexivity]. apply C136_headers; [apply page_declared|apply page_declared|]. split; [reflexivity|].
  split; [repeat constructor|]. cbn. intuition congruence.
Qed.
