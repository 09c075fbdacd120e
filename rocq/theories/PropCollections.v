(* Property C38: sets and maps. *)
From Verif Require Import Samples Entry ValOrder MinFacts PropRoundTrip PropBulk.

(** [y] is an entry of the input that no later entry with its key replaces. *)
Definition not_replaced (key : val -> val) (xs : list val) (y : val) : Prop :=
  exists before after, xs = before ++ y :: after /\ forall z, In z after -> key z <> key y.

(** The value [v] is the last one given for the key [q]. *)
Definition last_value (q v : val) (entries : list val) : Prop :=
  exists before after, entries = before ++ VSeq [q; v] :: after
    /\ forall v', ~ In (VSeq [q; v']) after.

(* ------------------------------------------------------------------ *)
(** * Collecting *)

Section Collect.
  Context (key : val -> val).

  Lemma cmp_neq a b : val_cmp a b <> Eq <-> a <> b.
  Proof.
    split; intros H E; apply H.
    - subst. apply val_cmp_refl.
    - apply val_cmp_eq, E.
  Qed.

  Lemma distinct_in x l y : distinct key (x :: l) -> In y l -> key y <> key x.
  Proof. intros [H _] Hy. rewrite Forall_forall in H. specialize (H y Hy). apply cmp_neq in H. congruence. Qed.

  Lemma sorted_insert_spec x y l : increasing key l ->
    In y (sorted_insert key x l) <-> y = x \/ (In y l /\ key y <> key x).
  Proof.
    induction l as [|z l IH]; intros Hl.
    - cbn. intuition.
    - pose proof (increasing_distinct key _ Hl) as Hd. pose proof Hl as [Hz Hl'].
      rewrite Forall_forall in Hz. cbn [sorted_insert]. destruct (val_cmp (key x) (key z)) eqn:E.
      + apply val_cmp_eq in E. cbn. split.
        * intros [->|H]; [auto|]. right. split; [auto|]. rewrite E. apply (distinct_in z l); assumption.
        * intros [->|[[->|H] Hn]]; auto. congruence.
      + assert (Hne : key z <> key x) by (intros Ez; rewrite Ez, val_cmp_refl in E; discriminate). cbn. split.
        * intros [->|[->|H]]; auto. right. split; [auto|]. specialize (Hz y H). intros Ey.
          rewrite Ey in Hz. pose proof (val_cmp_trans _ _ _ E Hz) as Hc. rewrite val_cmp_refl in Hc. discriminate.
        * intros [->|[H _]]; auto.
      + assert (Hne : key z <> key x) by (intros Ez; rewrite Ez, val_cmp_refl in E; discriminate). cbn.
        rewrite (IH Hl'). split.
        * intros [->|[->|H]]; tauto.
        * tauto.
  Qed.

  Lemma index_insert_spec x y l : distinct key l ->
    In y (index_insert key x l) <-> y = x \/ (In y l /\ key y <> key x).
  Proof.
    induction l as [|z l IH]; intros Hl.
    - cbn. intuition.
    - pose proof Hl as [Hz Hl']. cbn [index_insert].
      assert (Hother : key x <> key z -> In y (z :: index_insert key x l) <-> y = x \/ (In y (z :: l) /\ key y <> key x)).
      { intros Hne. cbn. rewrite (IH Hl'). split; [intros [->|[->|H]]|]; try tauto. right. split; [tauto|congruence]. }
      destruct (val_cmp (key x) (key z)) eqn:E.
      + apply val_cmp_eq in E. cbn. split.
        * intros [->|H]; [auto|]. right. split; [auto|]. rewrite E. apply (distinct_in z l); assumption.
        * intros [->|[[->|H] Hn]]; auto. congruence.
      + apply Hother, cmp_neq. congruence.
      + apply Hother, cmp_neq. congruence.
  Qed.

  Lemma insert_spec k x y l : keys_ok k key l ->
    In y (container_insert k key l x) <-> y = x \/ (In y l /\ key y <> key x).
  Proof. destruct k; cbn; intros H; [apply sorted_insert_spec|apply sorted_insert_spec|apply index_insert_spec]; exact H. Qed.

  Lemma collect_snoc k xs x : collect k key (xs ++ [x]) = container_insert k key (collect k key xs) x.
  Proof. unfold collect. rewrite fold_left_app. reflexivity. Qed.

  (** Collecting keeps the entries that are not replaced. *)
  Lemma collect_spec k xs y : In y (collect k key xs) <-> not_replaced key xs y.
  Proof.
    induction xs as [|x xs IH] using rev_ind.
    - split; [intros []|]. intros (b & a & E & _). destruct b; discriminate.
    - rewrite collect_snoc, insert_spec by apply collect_keys_ok. rewrite IH. split.
      + intros [->|[(b & a & -> & Ha) Hne]].
        * exists xs, []. split; [reflexivity|]. intros z [].
        * exists b, (a ++ [x]). split; [rewrite <- app_assoc; reflexivity|]. intros z Hz.
          apply in_app_or in Hz as [Hz|[<-|[]]]; auto.
      + intros (b & a & E & Ha). destruct a as [|z a _] using rev_ind.
        * apply app_inj_tail in E as [_ ->]. auto.
        * right. rewrite app_comm_cons, app_assoc in E. apply app_inj_tail in E as [-> ->]. split.
          -- exists b, a. split; [reflexivity|]. intros w Hw. apply Ha, in_or_app. auto.
          -- intros Ek. apply (Ha z); [apply in_or_app; cbn; auto|congruence].
  Qed.

  Lemma distinct_nodup l : distinct key l -> NoDup (map key l).
  Proof.
    induction l as [|x l IH]; intros Hd; [constructor|]. cbn. constructor; [|apply IH, Hd].
    intros H. apply in_map_iff in H as (y & E & Hy). apply (distinct_in x l y Hd Hy E).
  Qed.

  Lemma collect_nodup k xs : NoDup (map key (collect k key xs)).
  Proof.
    apply distinct_nodup. pose proof (collect_keys_ok key k xs) as H. destruct k; cbn in H; auto using increasing_distinct.
  Qed.
End Collect.

Lemma not_replaced_id xs y : not_replaced id xs y <-> In y xs.
Proof.
  split.
  - intros (b & a & -> & _). apply in_or_app. cbn. auto.
  - induction xs as [|x xs IH] using rev_ind; [intros []|]. intros H.
    destruct (val_cmp y x) eqn:E.
    + apply val_cmp_eq in E as ->. exists xs, []. split; [reflexivity|]. intros z [].
    + apply in_app_or in H as [H|[<-|[]]]; [|rewrite val_cmp_refl in E; discriminate].
      destruct (IH H) as (b & a & -> & Ha). exists b, (a ++ [x]). split; [rewrite <- app_assoc; reflexivity|].
      intros z Hz. apply in_app_or in Hz as [Hz|[<-|[]]]; [auto|]. unfold id. intros ->. rewrite val_cmp_refl in E. discriminate.
    + apply in_app_or in H as [H|[<-|[]]]; [|rewrite val_cmp_refl in E; discriminate].
      destruct (IH H) as (b & a & -> & Ha). exists b, (a ++ [x]). split; [rewrite <- app_assoc; reflexivity|].
      intros z Hz. apply in_app_or in Hz as [Hz|[<-|[]]]; [auto|]. unfold id. intros ->. rewrite val_cmp_refl in E. discriminate.
Qed.

(* ------------------------------------------------------------------ *)
(** * Reading *)

Section Reading.
  Context (h : host) (VH : valid_host h) (e : endian).
  Notation e6 := (ipv6_order h e).
  Notation decode := (decode (h_lim h) e e6).
  Notation decl := (decl (h_lim h) e e6).

  Definition is_pair (v : val) : Prop := exists a b, v = VSeq [a; b].

  Lemma pairs_keys l : Forall is_pair l -> Forall2 (fun q x => exists v, x = VSeq [q; v]) (map pair_key l) l.
  Proof. induction 1 as [|x l (a & b & ->) _ IH]; [constructor|]. cbn. constructor; [eauto|exact IH]. Qed.

  Lemma drepeat_all {A} (P : A -> Prop) (d : dec A) n : (forall o a o', d o = DOk a o' -> P a) ->
    forall o xs o', drepeat d n o = DOk xs o' -> Forall P xs /\ length xs = n.
  Proof.
    intros Hd. induction n as [|n IH]; intros o xs o' E; cbn [drepeat] in E.
    - injection E as <- _. split; [constructor|reflexivity].
    - unfold dbind in E. destruct (d o) as [a o1| | | |] eqn:E1; try discriminate.
      destruct (drepeat d n o1) as [ys o2| | | |] eqn:E2; try discriminate. injection E as <- _.
      destruct (IH _ _ _ E2) as [H1 H2]. split; [constructor; eauto|cbn; congruence].
  Qed.

  (** One value after another, from the decoding of the container. *)
  Lemma separate_ok n t body bw r xs o : supported h e bw true LDefault t -> minok h t ->
    drepeat (decl len0 t) n (Some body) = DOk xs o -> reading h e (separately n t) body bw r ->
    r = Ok (VSeq xs).
  Proof.
    intros Hs Hm Hd Hr. assert (Hs' : supported h e bw true LDefault (separately n t)) by (apply all_tys_repeat, Hs).
    apply (reading_ok h VH e _ body bw r _ o Hs' Hr).
    - unfold Spec.decode. cbn [separately Spec.decl]. unfold dmap, dbind. rewrite dtuple_repeat, Hd. reflexivity.
    - assert (Hmin : min_bytes h (separately n t) = min_bytes h t * N.of_nat n).
      { clear. cbn [separately min_bytes]. induction n as [|n IH]; [cbn; lia|]. cbn [repeat map].
        unfold nsum in *. cbn [fold_right]. rewrite IH. lia. }
      rewrite Hmin. pose proof (atleast_repeat _ _ n (atleast_min h VH (h_lim h) e e6 t Hm) _ _ _ Hd) as H.
      cbn in H. destruct o; lia.
  Qed.

  Lemma separate_back n t body bw v : supported h e bw true LDefault t -> no_eof false t ->
    reading h e (separately n t) body bw (Ok v) ->
    exists xs o, v = VSeq xs /\ drepeat (decl len0 t) n (Some body) = DOk xs o.
  Proof.
    intros Hs Hn Hr. assert (Hs' : supported h e bw true LDefault (separately n t)) by (apply all_tys_repeat, Hs).
    destruct (reading_decodes h VH e _ body bw v Hs' Hr) as [(o & Hd)|Hd].
    - unfold Spec.decode in Hd. cbn [separately Spec.decl] in Hd. unfold dmap, dbind in Hd. rewrite dtuple_repeat in Hd.
      destruct (drepeat (decl len0 t) n (Some body)) as [xs o1| | | |] eqn:E; try discriminate.
      injection Hd as <- <-. eauto.
    - exfalso. refine (decode_spec _ _ _ _ _ _ Hd). apply all_tys_repeat, Hn.
  Qed.

  (** What a set is collected from. *)
  Lemma set_collected k t n body bw bw' r r' : n < 2 ^ 32 ->
    supported h e bw true LDefault (TSet k t) -> supported h e bw' true LDefault t ->
    minok h t -> no_eof false t ->
    reading h e (TSet k t) (word e 4 n ++ body) bw r -> reading h e (separately (N.to_nat n) t) body bw' r' ->
    forall m, r = Ok m -> exists us o, drepeat (decl len0 t) (N.to_nat n) (Some body) = DOk us o
                                       /\ m = VSeq (collect k id us) /\ r' = Ok (VSeq us).
  Proof.
    intros Hn Hs Hs' Hm Hne Hr Hr'.
    assert (Hd : decode (TSet k t) (word e 4 n ++ body)
                 = (xs <-- drepeat (decl len0 t) (N.to_nat n) ;; dret (VSeq (collect k id xs))) (Some body)).
    { unfold Spec.decode. cbn [Spec.decl dlen len0]. unfold dbind. rewrite (length_first h VH) by exact Hn. reflexivity. }
    intros m ->. destruct (reading_decodes h VH e _ _ bw m Hs Hr) as [(o & Ho)|Ho].
    - rewrite Hd in Ho. unfold dbind in Ho.
      destruct (drepeat (decl len0 t) (N.to_nat n) (Some body)) as [us o1| | | |] eqn:E; try discriminate.
      injection Ho as <- <-. exists us, o1. split; [reflexivity|]. split; [reflexivity|].
      apply (separate_ok _ t body bw' r' us o1 Hs' Hm E Hr').
    - exfalso. refine (decode_spec _ _ _ _ _ _ Ho). split; [reflexivity|exact Hne].
  Qed.

  Lemma map_collected k tk tv n body bw bw' r r' : n < 2 ^ 32 ->
    supported h e bw true LDefault (TMap k tk tv) ->
    supported h e bw' true LDefault tk -> supported h e bw' true LDefault tv ->
    minok h tk -> minok h tv -> no_eof false tk -> no_eof false tv ->
    reading h e (TMap k tk tv) (word e 4 n ++ body) bw r ->
    reading h e (separately (N.to_nat n) (TTuple [tk; tv])) body bw' r' ->
    forall m, r = Ok m -> exists us, length us = N.to_nat n /\ Forall is_pair us
                                     /\ m = VSeq (collect k pair_key us) /\ r' = Ok (VSeq us).
  Proof.
    intros Hn Hs Hsk Hsv Hmk Hmv Hnk Hnv Hr Hr'. set (t := TTuple [tk; tv]) in *.
    assert (Hs' : supported h e bw' true LDefault t) by (cbn; auto).
    assert (Hm : minok h t) by (cbn; auto). assert (Hne : no_eof false t) by (cbn; auto).
    assert (Hd : decode (TMap k tk tv) (word e 4 n ++ body)
                 = (xs <-- drepeat (decl len0 t) (N.to_nat n) ;; dret (VSeq (collect k pair_key xs))) (Some body)).
    { unfold Spec.decode. cbn [Spec.decl dlen len0]. unfold dbind. rewrite (length_first h VH) by exact Hn.
      rewrite (drepeat_ext _ _ _ _ (pair_decl_eq h e tk tv)). reflexivity. }
    intros m ->. destruct (reading_decodes h VH e _ _ bw m Hs Hr) as [(o & Ho)|Ho].
    - rewrite Hd in Ho. unfold dbind in Ho.
      destruct (drepeat (decl len0 t) (N.to_nat n) (Some body)) as [us o1| | | |] eqn:Eu; try discriminate.
      injection Ho as <- <-. exists us.
      assert (Hp : Forall is_pair us /\ length us = N.to_nat n).
      { apply (drepeat_all is_pair (decl len0 t) _) with (2 := Eu). intros o2 a o3 Ea.
        unfold t in Ea. rewrite pair_decl_eq in Ea. unfold dpair, dbind in Ea.
        destruct (decl len0 tk o2) as [x1 p1| | | |]; try discriminate.
        destruct (decl len0 tv p1) as [x2 p2| | | |]; try discriminate. injection Ea as <- _. exists x1, x2. reflexivity. }
      destruct Hp as [Hp Hl]. split; [exact Hl|]. split; [exact Hp|]. split; [reflexivity|].
      apply (separate_ok _ t body bw' r' us o1 Hs' Hm Eu Hr').
    - exfalso. refine (decode_spec _ _ _ _ _ _ Ho). split; [reflexivity|]. split; assumption.
  Qed.

  (** C38: a set has what is in the input, each element once. *)
  Theorem C38_set_partial k t n body bw bw' r r' : n < 2 ^ 32 ->
    supported h e bw true LDefault (TSet k t) -> supported h e bw' true LDefault t ->
    minok h t -> no_eof false t ->
    reading h e (TSet k t) (word e 4 n ++ body) bw r -> reading h e (separately (N.to_nat n) t) body bw' r' ->
    ((exists m, r = Ok m) <-> (exists xs, r' = Ok xs))
    /\ forall m xs, r = Ok m -> r' = Ok xs ->
       exists ms us, m = VSeq ms /\ xs = VSeq us /\ nlen us = n
       /\ NoDup ms /\ (forall x, In x ms <-> In x us).
  Proof.
    intros Hn Hs Hs' Hm Hne Hr Hr'.
    assert (Hd : decode (TSet k t) (word e 4 n ++ body)
                 = (xs <-- drepeat (decl len0 t) (N.to_nat n) ;; dret (VSeq (collect k id xs))) (Some body)).
    { unfold Spec.decode. cbn [Spec.decl dlen len0]. unfold dbind. rewrite (length_first h VH) by exact Hn. reflexivity. }
    assert (Hsize : min_bytes h (TSet k t) <= nlen (word e 4 n ++ body)).
    { pose proof (prefix_long e n body). cbn [min_bytes]. lia. }
    assert (H1 : forall m, r = Ok m -> exists us o, drepeat (decl len0 t) (N.to_nat n) (Some body) = DOk us o
                                                    /\ m = VSeq (collect k id us) /\ r' = Ok (VSeq us)).
    { intros m ->. destruct (reading_decodes h VH e _ _ bw m Hs Hr) as [(o & Ho)|Ho].
      - rewrite Hd in Ho. unfold dbind in Ho.
        destruct (drepeat (decl len0 t) (N.to_nat n) (Some body)) as [us o1| | | |] eqn:E; try discriminate.
        injection Ho as <- <-. exists us, o1. split; [reflexivity|]. split; [reflexivity|].
        apply (separate_ok _ t body bw' r' us o1 Hs' Hm E Hr').
      - exfalso. refine (decode_spec _ _ _ _ _ _ Ho). split; [reflexivity|exact Hne]. }
    split.
    - split; [intros (m & E); destruct (H1 m E) as (us & o & _ & _ & E'); eauto|].
      intros (v & ->). destruct (separate_back _ t body bw' v Hs' Hne Hr') as (us & o & -> & E).
      exists (VSeq (collect k id us)). apply (reading_ok h VH e _ _ bw r _ o Hs Hr); [|exact Hsize].
      rewrite Hd. unfold dbind. rewrite E. reflexivity.
    - intros m xs E E'. destruct (H1 m E) as (us & o & Eu & -> & E2). rewrite E' in E2. injection E2 as ->.
      exists (collect k id us), us. split; [reflexivity|]. split; [reflexivity|].
      destruct (drepeat_all (fun _ => True) _ _ (fun _ _ _ _ => I) _ _ _ Eu) as [_ Hl].
      split; [unfold nlen; lia|]. split.
      + rewrite <- (map_id (collect k id us)). apply (collect_nodup id).
      + intros x. rewrite (collect_spec id), not_replaced_id. reflexivity.
  Qed.

  (** C38: a map has the keys of the input, each once, with their last values. *)
  Theorem C38_map_partial k tk tv n body bw bw' r r' : n < 2 ^ 32 ->
    supported h e bw true LDefault (TMap k tk tv) ->
    supported h e bw' true LDefault tk -> supported h e bw' true LDefault tv ->
    minok h tk -> minok h tv -> no_eof false tk -> no_eof false tv ->
    reading h e (TMap k tk tv) (word e 4 n ++ body) bw r ->
    reading h e (separately (N.to_nat n) (TTuple [tk; tv])) body bw' r' ->
    ((exists m, r = Ok m) <-> (exists xs, r' = Ok xs))
    /\ forall m xs, r = Ok m -> r' = Ok xs ->
       exists ms us, m = VSeq ms /\ xs = VSeq us /\ nlen us = n
       /\ (exists ks, Forall2 (fun q x => exists v, x = VSeq [q; v]) ks ms /\ NoDup ks)
       /\ (forall q v, In (VSeq [q; v]) ms <-> last_value q v us).
  Proof.
    intros Hn Hs Hsk Hsv Hmk Hmv Hnk Hnv Hr Hr'. set (t := TTuple [tk; tv]) in *.
    assert (Hs' : supported h e bw' true LDefault t) by (cbn; auto).
    assert (Hm : minok h t) by (cbn; auto). assert (Hne : no_eof false t) by (cbn; auto).
    assert (Hd : decode (TMap k tk tv) (word e 4 n ++ body)
                 = (xs <-- drepeat (decl len0 t) (N.to_nat n) ;; dret (VSeq (collect k pair_key xs))) (Some body)).
    { unfold Spec.decode. cbn [Spec.decl dlen len0]. unfold dbind. rewrite (length_first h VH) by exact Hn.
      rewrite (drepeat_ext _ _ _ _ (pair_decl_eq h e tk tv)). reflexivity. }
    assert (Hsize : min_bytes h (TMap k tk tv) <= nlen (word e 4 n ++ body)).
    { pose proof (prefix_long e n body). cbn [min_bytes]. lia. }
    assert (H1 : forall m, r = Ok m -> exists us o, drepeat (decl len0 t) (N.to_nat n) (Some body) = DOk us o
                                                    /\ m = VSeq (collect k pair_key us) /\ r' = Ok (VSeq us)).
    { intros m ->. destruct (reading_decodes h VH e _ _ bw m Hs Hr) as [(o & Ho)|Ho].
      - rewrite Hd in Ho. unfold dbind in Ho.
        destruct (drepeat (decl len0 t) (N.to_nat n) (Some body)) as [us o1| | | |] eqn:E; try discriminate.
        injection Ho as <- <-. exists us, o1. split; [reflexivity|]. split; [reflexivity|].
        apply (separate_ok _ t body bw' r' us o1 Hs' Hm E Hr').
      - exfalso. refine (decode_spec _ _ _ _ _ _ Ho). split; [reflexivity|]. split; assumption. }
    split.
    - split; [intros (m & E); destruct (H1 m E) as (us & o & _ & _ & E'); eauto|].
      intros (v & ->). destruct (separate_back _ t body bw' v Hs' Hne Hr') as (us & o & -> & E).
      exists (VSeq (collect k pair_key us)). apply (reading_ok h VH e _ _ bw r _ o Hs Hr); [|exact Hsize].
      rewrite Hd. unfold dbind. rewrite E. reflexivity.
    - intros m xs E E'. destruct (H1 m E) as (us & o & Eu & -> & E2). rewrite E' in E2. injection E2 as ->.
      exists (collect k pair_key us), us. split; [reflexivity|]. split; [reflexivity|].
      assert (Hp : Forall is_pair us /\ length us = N.to_nat n).
      { apply (drepeat_all is_pair (decl len0 t) _) with (2 := Eu). intros o1 a o2 Ea.
        unfold t in Ea. rewrite pair_decl_eq in Ea. unfold dpair, dbind in Ea.
        destruct (decl len0 tk o1) as [x1 p1| | | |]; try discriminate.
        destruct (decl len0 tv p1) as [x2 p2| | | |]; try discriminate. injection Ea as <- _. exists x1, x2. reflexivity. }
      destruct Hp as [Hp Hl]. split; [unfold nlen; lia|]. split.
      + exists (map pair_key (collect k pair_key us)). split; [|apply collect_nodup].
        apply pairs_keys, (collect_Forall pair_key is_pair k us Hp).
      + intros q v. rewrite (collect_spec pair_key). rewrite Forall_forall in Hp. split.
        * intros (b & a & -> & Ha). exists b, a. split; [reflexivity|]. intros v' Hv. apply (Ha _ Hv). reflexivity.
        * intros (b & a & -> & Ha). exists b, a. split; [reflexivity|]. intros z Hz Ez.
          destruct (Hp z) as (q' & v' & ->); [apply in_or_app; cbn; auto|]. cbn in Ez. subst q'. apply (Ha v' Hz).
  Qed.
End Reading.

Print Assumptions C38_set_partial.
Print Assumptions C38_map_partial.

(* ------------------------------------------------------------------ *)
(** * Iteration orders *)

(** C38: what comes back does not depend on the order in which hash tables are
    walked.  The writer is on any host [h1], whose iteration order [h_iter h1] is
    any permutation, and the reader on any host [h2].  The hosts have to agree on
    the byte order of IPv6 addresses, see C23. *)
Theorem C38_iteration_order h1 h2 e mem t v b bw r :
  valid_host h1 -> valid_host h2 -> (forall n, n <= nlen (mem n)) ->
  ipv6_order h1 e = ipv6_order h2 e ->
  wsup h1 t -> supported h2 e bw true LDefault t -> rtok (h_lim h2) e (ipv6_order h2 e) false t ->
  value_of h1 e t v -> valid (h_lim h2) t v ->
  write_to_vec h1 mem e t v = Ok b -> reading h2 e t b bw r -> r = Ok (norm t v).
Proof.
  intros VH1 VH2 Hmem He6 Hw Hs Hr Hv Hv2 Hb Hrd.
  pose proof (written h1 VH1 e mem Hmem t v b Hw Hv Hb) as He. destruct Hv as [_ Ht]. rewrite He6 in He, Ht.
  assert (Hd : decode (h_lim h2) e (ipv6_order h2 e) t b = DOk (norm t v) (Some [])).
  { rewrite <- (app_nil_r b) at 1. unfold decode.
    apply (round_trip (h_lim h2) (h_iter h1) e (ipv6_order h2 e) (vh_usize_hi h2 VH2) (vh_systime h2 VH2) (vh_iter h1 VH1));
      try assumption. reflexivity. }
  apply (reading_ok h2 VH2 e t b bw r _ _ Hs Hrd Hd). eapply enc_min; eassumption.
Qed.

Print Assumptions C38_iteration_order.

(* ------------------------------------------------------------------ *)
(** * Examples *)

(** {5: "b", 3: "c"} from the entries 5: "a", 3: "c", 5: "b". *)
Definition entries : bytes :=
  [x05; x01; x00; x00; x00; x61; x03; x01; x00; x00; x00; x63; x05; x01; x00; x00; x00; x62].
Example entries_last :
  exists ms us,
    read_from_buffer host64 LE (TMap CHash (TP U8) (TStr KString)) 0 (word LE 4 3 ++ entries) = Ok (VSeq ms)
    /\ (forall q v, In (VSeq [q; v]) ms <-> last_value q v us)
    /\ us = [VSeq [VInt 5; VBytes [x61]]; VSeq [VInt 3; VBytes [x63]]; VSeq [VInt 5; VBytes [x62]]]
    /\ ms = [VSeq [VInt 3; VBytes [x63]]; VSeq [VInt 5; VBytes [x62]]].
Proof.
  destruct (C38_map_partial host64 host64_valid LE CHash (TP U8) (TStr KString) 3 entries true false
    (read_from_buffer host64 LE (TMap CHash (TP U8) (TStr KString)) 0 (word LE 4 3 ++ entries))
    (read_from_buffer_copying host64 LE (separately 3 (TTuple [TP U8; TStr KString])) entries)) as [_ H].
  - reflexivity.
  - cbn. repeat split; discriminate.
  - exact I.
  - exact I.
  - exact I.
  - exact I.
  - exact I.
  - reflexivity.
  - apply from_buffer. vm_compute. discriminate.
  - apply from_copied_buffer. vm_compute. discriminate.
  - destruct (H (VSeq [VSeq [VInt 3; VBytes [x63]]; VSeq [VInt 5; VBytes [x62]]])
      (VSeq [VSeq [VInt 5; VBytes [x61]]; VSeq [VInt 3; VBytes [x63]]; VSeq [VInt 5; VBytes [x62]]]))
      as (ms & us & Em & Eu & _ & _ & Hq); [vm_compute; reflexivity|vm_compute; reflexivity|].
    injection Em as <-. injection Eu as <-. do 2 eexists. split; [vm_compute; reflexivity|].
    split; [exact Hq|]. split; reflexivity.
Qed.

(** Written on a host that walks hash tables backwards, read on one that does
    not. *)
Definition backwards : host := make_host 8 true LE false.
Definition small_set : val := VSeq [VInt 1; VInt 2; VInt 3].
Example set_backwards :
  write_to_vec backwards dirty LE (TSet CHash (TP U16)) small_set
    = Ok (word LE 4 3 ++ [x03; x00; x02; x00; x01; x00])
  /\ write_to_vec host64 dirty LE (TSet CHash (TP U16)) small_set
    = Ok (word LE 4 3 ++ [x01; x00; x02; x00; x03; x00])
  /\ read_from_buffer host64 LE (TSet CHash (TP U16)) 0 (word LE 4 3 ++ [x03; x00; x02; x00; x01; x00]) = Ok small_set.
Proof.
  split; [vm_compute; reflexivity|]. split; [vm_compute; reflexivity|].
  refine (C38_iteration_order backwards host64 LE dirty (TSet CHash (TP U16)) small_set _ true _
    (make_host_valid _ _ _ _ _) host64_valid dirty_enough eq_refl _ _ _ _ _ _ (from_buffer _ _ _ _ _ _)).
  - lia.
  - apply wsupb_sound. vm_compute. reflexivity.
  - cbn. split; [|exact I]. intros _. split; [exact I|]. split; [discriminate|].
    intros n. unfold possible_length. cbn [basic_max]. intros Hn. change (h_size host64 (TP U16)) with 2.
    change (l_usize_max (h_lim host64)) with (2 ^ 64 - 1). num_pow. lia.
  - apply rtokb_sound. vm_compute. reflexivity.
  - apply value_ofb_sound. vm_compute. reflexivity.
  - apply validb_sound. vm_compute. reflexivity.
  - vm_compute. reflexivity.
  - vm_compute. discriminate.
Qed.

(* ------------------------------------------------------------------ *)
(** * Where it fails *)

(** A set of one empty struct is read as the empty set, because the elements are
    found by walking memory and take none. *)
Theorem C38_empty_refuted : exists h t v b, valid_host h /\ valid (h_lim h) (TSet CBTree t) (VSeq [v])
  /\ write_to_vec h dirty LE (TSet CBTree t) (VSeq [v]) = Ok b
  /\ read_from_buffer h LE (TSet CBTree t) 0 b = Ok (VSeq []).
Proof.
  exists host64, (TStruct (sd 1 RRust) []), (VSeq []), [x01; x00; x00; x00].
  split; [apply host64_valid|]. split; [apply validb_sound; vm_compute; reflexivity|].
  split; vm_compute; reflexivity.
Qed.
Print Assumptions C38_empty_refuted.
