(* The order on values is total; sets and maps collect to sorted lists. *)
From Verif Require Export Spec.
From Coq Require Export Permutation.

Section Ind.
  Context (P : val -> Prop)
    (Hunit : P VUnit) (Hbool : forall b, P (VBool b)) (Hint : forall z, P (VInt z))
    (Hbytes : forall b, P (VBytes b)) (Hseq : forall vs, Forall P vs -> P (VSeq vs))
    (Hnone : P VNone) (Hsome : forall v, P v -> P (VSome v)) (Hok : forall v, P v -> P (VOk v))
    (Herr : forall v, P v -> P (VErr v)) (Hvar : forall i vs, Forall P vs -> P (VVar i vs)).

  Fixpoint val_ind' (v : val) : P v :=
    let go := fix go l : Forall P l :=
      match l with [] => Forall_nil _ | v :: r => Forall_cons _ (val_ind' v) (go r) end in
    match v with
    | VUnit => Hunit | VBool b => Hbool b | VInt z => Hint z | VBytes b => Hbytes b
    | VSeq vs => Hseq vs (go vs) | VNone => Hnone | VSome v => Hsome v (val_ind' v)
    | VOk v => Hok v (val_ind' v) | VErr v => Herr v (val_ind' v) | VVar i vs => Hvar i vs (go vs)
    end.
End Ind.

Section Lex.
  Context {A : Type} (cmp : A -> A -> comparison).

  Lemma lex_eq l : Forall (fun a => forall b, cmp a b = Eq -> a = b) l ->
    forall l', lex_cmp cmp l l' = Eq -> l = l'.
  Proof.
    induction 1 as [|a l Ha _ IH]; intros [|b l']; cbn; try discriminate; auto.
    destruct (cmp a b) eqn:E; try discriminate. intros H. f_equal; auto.
  Qed.

  Lemma lex_refl l : Forall (fun a => cmp a a = Eq) l -> lex_cmp cmp l l = Eq.
  Proof. induction 1 as [|a l Ha _ IH]; cbn; auto. rewrite Ha. assumption. Qed.

  Lemma lex_opp l : Forall (fun a => forall b, cmp b a = CompOpp (cmp a b)) l ->
    forall l', lex_cmp cmp l' l = CompOpp (lex_cmp cmp l l').
  Proof.
    induction 1 as [|a l Ha _ IH]; intros [|b l']; cbn; auto.
    rewrite Ha. destruct (cmp a b); cbn; auto.
  Qed.

  Lemma lex_trans l : Forall (fun a => (forall b, cmp a b = Eq -> a = b)
      /\ forall b c, (forall x, cmp b x = Eq -> b = x) -> cmp a b = Lt -> cmp b c = Lt -> cmp a c = Lt) l ->
    forall l' l'', Forall (fun b => forall x, cmp b x = Eq -> b = x) l' ->
    lex_cmp cmp l l' = Lt -> lex_cmp cmp l' l'' = Lt -> lex_cmp cmp l l'' = Lt.
  Proof.
    induction 1 as [|a l [Ha1 Ha2] _ IH]; intros l' l'' Hl'.
    - destruct l', l''; cbn; try discriminate; auto.
    - inversion Hl' as [|b l2 Hb Hl2]; subst; [discriminate|]. destruct l'' as [|c l'']; [intros _; cbn; discriminate|]. cbn.
      destruct (cmp a b) eqn:E1; try discriminate; destruct (cmp b c) eqn:E2; try discriminate; intros H1 H2.
      + apply Ha1 in E1. subst b. rewrite E2. eauto.
      + apply Ha1 in E1. subst b. rewrite E2. reflexivity.
      + apply Hb in E2. subst c. rewrite E1. reflexivity.
      + rewrite (Ha2 b c Hb E1 E2). reflexivity.
  Qed.
End Lex.

Lemma byte_cmp_eq a b : byte_cmp a b = Eq -> a = b.
Proof.
  unfold byte_cmp. intros H. apply N.compare_eq in H. unfold b2n in H.
  assert (Byte.of_N (Byte.to_N a) = Byte.of_N (Byte.to_N b)) as E by congruence.
  rewrite !Byte.of_to_N in E. congruence.
Qed.

Lemma val_cmp_eq a : forall b, val_cmp a b = Eq -> a = b.
Proof.
  induction a as [|x|x|x|vs IH| |v IH|v IH|v IH|i vs IH] using val_ind'; intros [] H; try discriminate H; auto; cbn in H.
  - destruct x, b; auto; discriminate.
  - apply Z.compare_eq in H. congruence.
  - f_equal. eapply lex_eq; [|exact H]. apply Forall_forall. intros; apply byte_cmp_eq; assumption.
  - f_equal. eapply lex_eq; [|exact H]. assumption.
  - f_equal. auto.
  - f_equal. auto.
  - f_equal. auto.
  - destruct (Nat.compare i i0) eqn:E; try discriminate. apply Nat.compare_eq in E. subst. f_equal.
    eapply lex_eq; [|exact H]. assumption.
Qed.

Lemma val_cmp_refl a : val_cmp a a = Eq.
Proof.
  induction a as [|x|x|x|vs IH| |v IH|v IH|v IH|i vs IH] using val_ind'; cbn; auto.
  - destruct x; reflexivity.
  - apply Z.compare_refl.
  - apply lex_refl, Forall_forall. intros. apply N.compare_refl.
  - apply lex_refl. assumption.
  - rewrite Nat.compare_refl. apply lex_refl. assumption.
Qed.

Lemma val_cmp_opp a : forall b, val_cmp b a = CompOpp (val_cmp a b).
Proof.
  induction a as [|x|x|x|vs IH| |v IH|v IH|v IH|i vs IH] using val_ind'; intros []; try reflexivity; cbn; auto.
  - destruct x, b; reflexivity.
  - apply Z.compare_antisym.
  - apply lex_opp, Forall_forall. intros. apply N.compare_antisym.
  - apply lex_opp. assumption.
  - rewrite Nat.compare_antisym. destruct (Nat.compare i i0); cbn; auto. apply lex_opp. assumption.
Qed.

Lemma val_cmp_rank a b : val_cmp a b = Lt -> vrank a <= vrank b.
Proof. destruct a, b; intros H; try (exfalso; cbn in H; discriminate H); cbn [vrank]; lia. Qed.

Lemma val_cmp_rank_lt a b : vrank a < vrank b -> val_cmp a b = Lt.
Proof. destruct a, b; cbn [vrank]; intros H; try reflexivity; lia. Qed.

Lemma val_cmp_trans a : forall b c, val_cmp a b = Lt -> val_cmp b c = Lt -> val_cmp a c = Lt.
Proof.
  induction a as [|x|x|x|vs IH| |v IH|v IH|v IH|i vs IH] using val_ind'; intros b c H1 H2;
    pose proof (val_cmp_rank _ _ H1) as R1; pose proof (val_cmp_rank _ _ H2) as R2;
    destruct (N.lt_ge_cases (vrank b) (vrank c)) as [L2|L2];
    try (apply val_cmp_rank_lt; lia);
    (destruct b; try (cbn [vrank] in R1; lia); try (apply val_cmp_rank_lt; cbn [vrank] in *; lia));
    (destruct c; try (cbn [vrank] in *; lia)); cbn [val_cmp vrank] in H1, H2 |- *; try discriminate; eauto.
  - destruct x, b, b0; auto; discriminate.
  - rewrite Z.compare_lt_iff in *. lia.
  - eapply lex_trans; [| |exact H1|exact H2].
    + apply Forall_forall. intros a _. split; [apply byte_cmp_eq|]. intros y z _ Ha Hb.
      unfold byte_cmp in *. rewrite N.compare_lt_iff in *. lia.
    + apply Forall_forall. intros; apply byte_cmp_eq; assumption.
  - eapply lex_trans; [| |exact H1|exact H2].
    + eapply Forall_impl; [|exact IH]. intros a Ha. split; [apply val_cmp_eq|]. intros; eauto.
    + apply Forall_forall. intros; apply val_cmp_eq; assumption.
  - destruct (Nat.compare_spec i i0), (Nat.compare_spec i0 i1); try discriminate; subst;
      rewrite ?Nat.compare_refl; try (apply Nat.compare_lt_iff in H0 as ->; reflexivity);
      try (apply Nat.compare_lt_iff in H as ->; reflexivity).
    + eapply lex_trans; [| |exact H1|exact H2].
      * eapply Forall_impl; [|exact IH]. intros a Ha. split; [apply val_cmp_eq|]. intros; eauto.
      * apply Forall_forall. intros; apply val_cmp_eq; assumption.
    + assert ((i ?= i1)%nat = Lt) as -> by (apply Nat.compare_lt_iff; lia). reflexivity.
Qed.

(* ------------------------------------------------------------------ *)
(** * Collecting *)

Section Collect.
  Context (key : val -> val).
  Notation lt a b := (val_cmp (key a) (key b) = Lt).

  Lemma increasing_cons x l : increasing key (x :: l) <-> Forall (fun u => lt x u) l /\ increasing key l.
  Proof. reflexivity. Qed.

  Lemma increasing_distinct l : increasing key l -> distinct key l.
  Proof.
    induction l as [|x l IH]; cbn; auto. intros [H1 H2]. split; auto.
    eapply Forall_impl; [|exact H1]. cbn. intros; congruence.
  Qed.

  Lemma cmp_gt a b : val_cmp a b = Gt -> val_cmp b a = Lt.
  Proof. intros H. rewrite val_cmp_opp, H. reflexivity. Qed.

  Lemma insert_perm x l : Forall (fun u => val_cmp (key x) (key u) <> Eq) l ->
    Permutation (sorted_insert key x l) (x :: l).
  Proof.
    induction 1 as [|y l Hy _ IH]; cbn; auto.
    destruct (val_cmp (key x) (key y)); [congruence|reflexivity|].
    rewrite IH. apply perm_swap.
  Qed.

  Lemma sorted_insert_in x y l : In y (sorted_insert key x l) -> y = x \/ In y l.
  Proof.
    induction l as [|z l IH]; cbn; [intuition|].
    destruct (val_cmp (key x) (key z)); cbn; intuition.
  Qed.

  Lemma insert_increasing x l : increasing key l -> increasing key (sorted_insert key x l).
  Proof.
    induction l as [|y l IH]; cbn; [auto|]. intros [H1 H2].
    destruct (val_cmp (key x) (key y)) eqn:E; cbn.
    - apply val_cmp_eq in E. rewrite E. auto.
    - split; auto. constructor; [assumption|]. eapply Forall_impl; [|exact H1]. cbn. intros u Hu.
      eapply val_cmp_trans; eassumption.
    - split; auto. apply Forall_forall. intros u Hu. apply sorted_insert_in in Hu as [->|Hu].
      + apply cmp_gt. assumption.
      + rewrite Forall_forall in H1. auto.
  Qed.

  Lemma collect_sorted_gen xs acc : increasing key acc -> increasing key (fold_left (fun l x => sorted_insert key x l) xs acc).
  Proof. revert acc. induction xs as [|x xs IH]; cbn; auto. intros acc H. apply IH, insert_increasing, H. Qed.

  Lemma distinct_perm l l' : Permutation l l' -> distinct key l -> distinct key l'.
  Proof.
    induction 1 as [|x l l' HP IH|x y l|l1 l2 l3 _ IH1 _ IH2]; cbn; auto.
    - intros [H1 H2]. split; auto. eapply Permutation_Forall; eassumption.
    - intros [H1 [H2 H3]]. inversion H1 as [|? ? Hyx H1']; subst. split; [|split; auto].
      constructor; auto. intros E. apply Hyx. rewrite val_cmp_opp, E. reflexivity.
  Qed.

  Lemma collect_perm xs acc : distinct key (xs ++ acc) ->
    Permutation (fold_left (fun l x => sorted_insert key x l) xs acc) (xs ++ acc).
  Proof.
    revert acc. induction xs as [|x xs IH]; cbn; intros acc; [reflexivity|]. intros [H1 H2].
    assert (HP : Permutation (sorted_insert key x acc) (x :: acc)).
    { apply insert_perm. apply Forall_app in H1. tauto. }
    rewrite IH.
    - rewrite HP. symmetry. apply Permutation_middle.
    - eapply distinct_perm; [apply Permutation_app_head; symmetry; exact HP|].
      eapply distinct_perm; [apply Permutation_middle|]. cbn. auto.
  Qed.

  Lemma increasing_unique l : forall l', increasing key l -> increasing key l' -> Permutation l l' -> l = l'.
  Proof.
    induction l as [|x l IH]; intros l' H1 H2 HP.
    - apply Permutation_nil in HP. congruence.
    - destruct l' as [|y l']; [symmetry in HP; apply Permutation_nil in HP; congruence|].
      destruct H1 as [Hx H1]. destruct H2 as [Hy H2].
      assert (x = y).
      { assert (In x (y :: l')) as [E|Hin] by (eapply Permutation_in; [exact HP|left; reflexivity]); auto.
        assert (In y (x :: l)) as [E|Hin'] by (eapply Permutation_in; [symmetry; exact HP|left; reflexivity]); auto.
        rewrite Forall_forall in Hx, Hy. specialize (Hx y Hin'). specialize (Hy x Hin).
        rewrite val_cmp_opp, Hy in Hx. discriminate. }
      subst y. f_equal. apply IH; auto. eapply Permutation_cons_inv. exact HP.
  Qed.

  (** Inserting the items of a sorted list in any order gives the list. *)
  Lemma collect_sorted xs vs : increasing key vs -> Permutation xs vs ->
    fold_left (fun l x => sorted_insert key x l) xs [] = vs.
  Proof.
    intros Hv HP.
    assert (Hd : distinct key (xs ++ [])).
    { rewrite app_nil_r. eapply distinct_perm; [symmetry; exact HP|]. apply increasing_distinct, Hv. }
    apply increasing_unique; auto.
    - apply collect_sorted_gen. exact I.
    - rewrite (collect_perm xs [] Hd), app_nil_r. assumption.
  Qed.

  Lemma index_insert_new x l : Forall (fun u => val_cmp (key u) (key x) <> Eq) l -> index_insert key x l = l ++ [x].
  Proof.
    induction 1 as [|y l Hy _ IH]; cbn; auto. rewrite IH.
    destruct (val_cmp (key x) (key y)) eqn:E; auto. exfalso. apply Hy. rewrite val_cmp_opp, E. reflexivity.
  Qed.

  Lemma collect_index_gen xs acc : distinct key (acc ++ xs) ->
    fold_left (fun l x => index_insert key x l) xs acc = acc ++ xs.
  Proof.
    revert acc. induction xs as [|x xs IH]; cbn; intros acc H; [rewrite app_nil_r; reflexivity|].
    rewrite index_insert_new.
    - rewrite IH; rewrite <- app_assoc; auto.
    - clear IH. induction acc as [|a acc IH]; cbn in *; auto. destruct H as [H1 H2]. constructor; auto.
      apply Forall_app in H1 as [_ H1]. inversion H1; assumption.
  Qed.

  Lemma collect_roundtrip it k vs : (forall l, Permutation (it l) l) -> keys_ok k key vs ->
    collect k key (iter_order it k vs) = vs.
  Proof.
    intros Hit Hk. destruct k; cbn [keys_ok iter_order] in *; unfold collect.
    - apply collect_sorted; auto.
    - apply collect_sorted; auto.
    - apply (collect_index_gen vs []). assumption.
  Qed.

  Lemma index_insert_in x y l : In y (index_insert key x l) -> y = x \/ In y l.
  Proof.
    induction l as [|z l IH]; cbn; [intuition|].
    destruct (val_cmp (key x) (key z)); cbn; intuition.
  Qed.

  Lemma index_insert_distinct x l : distinct key l -> distinct key (index_insert key x l).
  Proof.
    induction l as [|y l IH]; cbn; [auto|]. intros [H1 H2].
    destruct (val_cmp (key x) (key y)) eqn:E; cbn.
    - apply val_cmp_eq in E. rewrite E. auto.
    - split; auto. apply Forall_forall. intros u Hu. apply index_insert_in in Hu as [->|Hu].
      + rewrite val_cmp_opp, E. discriminate.
      + rewrite Forall_forall in H1. auto.
    - split; auto. apply Forall_forall. intros u Hu. apply index_insert_in in Hu as [->|Hu].
      + rewrite val_cmp_opp, E. discriminate.
      + rewrite Forall_forall in H1. auto.
  Qed.

  (** Whatever is collected has distinct (sorted) keys. *)
  Lemma collect_keys_ok k xs : keys_ok k key (collect k key xs).
  Proof.
    unfold collect. destruct k; cbn [keys_ok].
    - apply collect_sorted_gen. exact I.
    - apply collect_sorted_gen. exact I.
    - assert (H : forall acc, distinct key acc -> distinct key (fold_left (fun l x => index_insert key x l) xs acc)).
      { induction xs as [|x xs IH]; cbn; auto. intros acc H. apply IH, index_insert_distinct, H. }
      apply H. exact I.
  Qed.

  Lemma collect_Forall (P : val -> Prop) k xs : Forall P xs -> Forall P (collect k key xs).
  Proof.
    unfold collect. intros H.
    assert (G : forall acc, Forall P acc -> Forall P (fold_left (container_insert k key) xs acc)).
    { induction H as [|x xs Hx _ IH]; cbn; auto. intros acc Ha. apply IH.
      apply Forall_forall. intros u Hu. rewrite Forall_forall in Ha.
      assert (u = x \/ In u acc) as [->|Hin]; auto.
      destruct k; cbn in Hu; eauto using sorted_insert_in, index_insert_in. }
    apply G. constructor.
  Qed.

  Lemma collect_length k xs : (length (collect k key xs) <= length xs)%nat.
  Proof.
    unfold collect.
    assert (G : forall acc, (length (fold_left (container_insert k key) xs acc) <= length acc + length xs)%nat).
    { induction xs as [|x xs IH]; cbn; intros acc; [lia|]. etransitivity; [apply IH|].
      assert ((length (container_insert k key acc x) <= S (length acc))%nat); [|lia].
      destruct k; cbn; clear; induction acc as [|y acc IH]; cbn; try lia; destruct (val_cmp _ _); cbn; lia. }
    apply (G []).
  Qed.
End Collect.
