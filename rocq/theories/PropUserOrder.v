(* Property C126: sets and maps whose keys are compared by code of the user's. *)
From Verif Require Import BaseFacts SpecFacts Samples Checker Errors Entry PropWrite PropReaders ValOrder.
From Coq Require Import Permutation Sorted.
From Verif Require Import Impls Formats ImplFacts PropImpls UserOrder.

(* ------------------------------------------------------------------ *)
(** * The format *)

(** The items it hands out are as many as it has, and give it back. *)
Definition returns (co : collection) (vs : list val) : Prop :=
  nlen (co_walk co vs) = nlen vs /\ co_build co (co_walk co vs) = vs.

Section Format.
  Context (h : host).
  Notation lim := (h_lim h).

  (** A length of four bytes and the items. *)
  Definition fitems (size : N) (co : collection) (F : format) : format :=
    {| fm_size := size;
       fm_dec := fun e =>
         xs <-- dlen lim e len0 (fun n => drepeat (fm_dec F e) (N.to_nat n)) (duntil (fm_dec F e)) ;;
         dret (VSeq (co_build co xs));
       fm_enc := fun e v =>
         match v with
         | VSeq vs => rapp (enc_len e len0 (nlen vs)) (enc_all (fm_enc F e) (co_walk co vs))
         | _ => Fault IllTyped
         end;
       fm_ok := fun v =>
         match v with VSeq vs => Forall (fm_ok F) (co_walk co vs) /\ small lim (nlen vs) /\ returns co vs | _ => False end;
       fm_open := false |}.

  (** A key and its value. *)
  Definition fentry (F G : format) : format := ftuple 0 [F; G].
End Format.

Section Items.
  Context (h : host) (VH : valid_host h).
  Notation lim := (h_lim h).
  Notation implements := (implements h).
  Notation element := (element h).

  Lemma collected_implements size co rd X F : element X F ->
    (forall St (R : reader St) rep io n, reader_ok h R true rep io -> n <= basic_max BU32 ->
       sim rep io (rd St R n) (drepeat (fm_dec F (rd_endian R)) (N.to_nat n))) ->
    implements (collected h size co rd X) (fitems h size co F).
  Proof.
    intros HE Hrd. pose proof HE as (H & Ho).
    split; cbn [collected fitems i_size i_read i_min i_write i_needed fm_size fm_dec fm_enc fm_ok fm_open].
    - reflexivity.
    - intros St R rep io OK.
      eapply sim_ext; [reflexivity| |apply (read_length_then h VH R true rep io OK BU32 _
        (fun n => xs <-- drepeat (fm_dec F (rd_endian R)) (N.to_nat n) ;; dret (VSeq (co_build co xs))))].
      + intros o. unfold len0. cbn [dlen]. rewrite dbind_assoc. reflexivity.
      + intros n (Hn & _). apply sim_bind; [apply Hrd; assumption|]. intros. apply sim_ret.
    - intros e. apply (len_min h e plain []); [exact Logic.I|intros n; apply rep_zero, (im_zero h X), H|eapply atleast_until, (im_zero h X), H|intros; apply atleast_ret].
    - intros St W wrep werr room v OK Hv. destruct v as [| | | |vs| | | | |]; try contradiction.
      destruct Hv as (Hv & Hs & _). apply (wsim_bind h W wrep werr room OK).
      + exact (wsim_length_body h VH W wrep werr room OK [] LDefault (nlen vs) Hs).
      + apply (wsim_each h W wrep werr room OK). eapply Forall_impl; [|exact Hv]. intros v. apply (im_write _ _ _ H), OK.
    - intros e e' v Hv. destruct v as [| | | |vs| | | | |]; try contradiction. destruct Hv as (Hv & _).
      apply samelen_app; [apply samelen_len|eapply same_all; eassumption].
    - intros e v b Hv Hb. destruct v as [| | | |vs| | | | |]; try contradiction. destruct Hv as (Hv & _).
      apply rapp_ok in Hb as (p & b' & Hp & Hb & ->). destruct (is_length_ok e _ _ Hp) as (-> & Hl). cbn [rbind].
      rewrite (needed_all (fm_enc F e) (i_needed X) (co_walk co vs) (co_walk co vs) b'); [|reflexivity| |exact Hb].
      + cbn [rmap]. rewrite nlen_app, Hl. reflexivity.
      + intros v x Hin Hx. eapply (im_needed _ _ _ H); [|exact Hx]. rewrite Forall_forall in Hv. apply Hv, Hin.
    - intros e v b rest Hv Hb _. destruct v as [| | | |vs| | | | |]; try contradiction. destruct Hv as (Hv & Hs & Hn & Hr).
      apply rapp_ok in Hb as (p & b' & Hp & Hb & ->). unfold dbind at 1.
      rewrite (seq_rt lim e len0 _ _ (nlen vs) p b' rest (co_walk co vs)); auto; try discriminate.
      + unfold dret. rewrite Hr. reflexivity.
      + intros _. rewrite <- Hn. unfold nlen. rewrite Nat2N.id. apply (many_rt _ (fm_enc F e)); [|exact Hb].
        apply (element_rt h X); assumption.
  Qed.

  (** Items of hand-written types, or of pairs of them. *)
  Theorem C126_items size co X F : element X F -> implements (items_of h size co X) (fitems h size co F).
  Proof.
    intros HE. apply collected_implements; [exact HE|]. intros St R rep io n OK _. apply sim_repeat, (im_read _ _ _ (proj1 HE)), OK.
  Qed.

  Theorem C126_entries size co X F Y G : element X F -> element Y G ->
    implements (items_of h size co (tuple_of 0 [X; Y])) (fitems h size co (fentry F G)).
  Proof.
    intros (HX & HoX) (HY & HoY). apply C126_items. split.
    - apply C118_tuple. constructor; [exact HX|congruence|]. constructor; [exact HY|reflexivity|constructor].
    - cbn. rewrite HoX, HoY. reflexivity.
  Qed.

  Section Primitive.
    Context {St : Type} (R : reader St) (rep : St -> bytes -> Prop) (io : error -> Prop) (OK : reader_ok h R true rep io).
    Notation e := (rd_endian R).
    Notation e6 := (ipv6_order h e).

    Lemma read_listed_sim lm t rd n : copy_elem h lm t -> possible_length h lm n ->
      sim rep io rd (decl lim e e6 len0 t) ->
      sim rep io (read_listed h R t rd n) (drepeat (decl lim e e6 len0 t) (N.to_nat n)).
    Proof.
      intros Hc Hn Hrd. unfold read_listed.
      destruct (is_prim h t && no_conv h R t)%bool eqn:E2; [|apply sim_repeat, Hrd].
      apply andb_prop in E2 as [Ep Enc]. apply (no_conv_spec h R true) in Enc.
      destruct (Hc Ep) as (Hh & Hz & Hfit). specialize (Hfit n Hn).
      assert (Hp : plain_data h t) by (apply (prim_plain h VH); assumption).
      unfold usize_max. destruct (N.ltb_spec (l_usize_max lim) (n * h_size h t)); [lia|].
      destruct (rd_borrow_r R) as [b|] eqn:Eb; [|apply sim_repeat, Hrd].
      eapply sim_ext; [reflexivity|intros o; symmetry; apply (drepeat_plain h VH); assumption|].
      rewrite N2Nat.id.
      apply (sim_bind_where _ _ (fun bs => nlen bs = n * h_size h t)).
      - apply OK; assumption.
      - intros o a o' H'. eapply dread_len; eauto.
      - intros bs Hb. rewrite (raw_chunks h e t (N.to_nat n) bs) by (auto; rewrite N2Nat.id; assumption). apply sim_ret.
    Qed.

    Lemma read_paired_sim lm tk tv rk rv n : pair_elem h lm tk tv -> possible_length h lm n ->
      sim rep io rk (decl lim e e6 len0 tk) -> sim rep io rv (decl lim e e6 len0 tv) ->
      sim rep io (read_paired h R tk tv rk rv n) (drepeat (dpair (decl lim e e6 len0 tk) (decl lim e e6 len0 tv)) (N.to_nat n)).
    Proof.
      intros Hc Hn Hk Hv. unfold read_paired.
      match goal with |- sim _ _ (if ?b then _ else _) _ => destruct b eqn:E2 end;
        [|apply sim_repeat, read_pair_sim; assumption].
      apply andb_prop in E2 as [E2 Enc]. apply andb_prop in E2 as [Ek Ev].
      destruct (Hc Ek Ev) as (Hhk & Hhv & Hs & Hz & Ha & Hfit). specialize (Hfit n Hn).
      assert (Hpk : plain_data h tk) by (apply (prim_plain h VH); assumption).
      assert (Hpv : plain_data h tv) by (apply (prim_plain h VH); assumption).
      assert (Hp := pair_plain h VH true tk tv Hpk Hpv Hs Ha).
      unfold usize_max. destruct (N.ltb_spec (l_usize_max lim) (n * h_size h (pair_ty tk tv))); [lia|].
      destruct (rd_borrow_r R) as [b|] eqn:Eb; [|apply sim_repeat, read_pair_sim; assumption].
      set (sz := h_size h (pair_ty tk tv)) in *.
      assert (Hpair : forall o, dpair (decl lim e e6 len0 tk) (decl lim e e6 len0 tv) o
        = dmap (fun z => VSeq [pval h e tk (ntake (h_size h tk) z); pval h e tv (ndrop (h_size h tk) z)]) (dread sz) o).
      { intros o. unfold dpair.
        rewrite (dbind_ext _ _ _ (fun a => dbind (dread (h_size h tv)) (fun y => dret (VSeq [a; pval h e tv y]))) _
                 (decl_plain h VH lim e e6 tk o Hpk)).
        - rewrite dbind_dmap.
          rewrite (dread_add _ _ (fun x y => dret (VSeq [pval h e tk x; pval h e tv y]))).
          rewrite Hs. reflexivity.
        - intros a o'.
          rewrite (dbind_ext _ _ _ (fun y => dret (VSeq [a; y])) _ (decl_plain h VH lim e e6 tv o' Hpv)) by reflexivity.
          rewrite dbind_dmap. reflexivity. }
      eapply sim_ext; [reflexivity|intros o; symmetry; etransitivity; [apply drepeat_ext, Hpair|apply drepeat_dread]|].
      rewrite N2Nat.id.
      apply (sim_bind_where _ _ (fun bs => nlen bs = n * sz)).
      - apply OK; assumption.
      - intros o a o' H'. eapply dread_len; eauto.
      - intros bs Hb.
        match goal with |- sim _ _ (ret ?l) (dret ?l') => assert (l = l') as ->; [|apply sim_ret] end.
        assert (HF : Forall (fun c => length c = N.to_nat sz) (chunks (N.to_nat sz) (N.to_nat n) bs))
          by (apply chunks_Forall; lia).
        apply map_ext_in. intros c Hin. rewrite Forall_forall in HF. specialize (HF c Hin). cbn in HF.
        assert (Hlc : nlen c = sz) by (unfold nlen; lia).
        rewrite (mem_read_pval h) by assumption. rewrite (pair_value h true) by (rewrite Hs; symmetry; assumption).
        apply orb_prop in Enc as [Enc|Enc].
        + apply andb_prop in Enc as [E1 E2]. apply N.eqb_eq in E1, E2. do 2 f_equal.
          * apply pval_small; [assumption| |]; rewrite nlen_take; lia.
          * f_equal. apply pval_small; [assumption| |]; rewrite nlen_drop; lia.
        + assert (h_native h = e) as ->; [|reflexivity].
          unfold conversion_necessary in Enc. destruct (h_native h), e; cbn in Enc; congruence.
    Qed.
  End Primitive.

  (** A type of the model that can be read from anywhere. *)
  Definition usable (t : ty) : Prop :=
    (forall e, supported h e false true LDefault t) /\ wsup h t /\ minok h t
    /\ (forall e, rtok lim e (ipv6_order h e) false t) /\ opens false t = false.

  Lemma usable_element t : usable t -> element (of_ty h t) (fty h t).
  Proof. intros (H1 & H2 & H3 & H4 & H5). split; [apply C118_type; assumption|exact H5]. Qed.

  (** Primitive items are copied out of the input, and others read one by one. *)
  Theorem C126_set size co t : usable t -> copy_elem h LDefault t ->
    implements (set_by h size co t) (fitems h size co (fty h t)).
  Proof.
    intros Ht Hc. apply collected_implements; [apply usable_element, Ht|]. intros St R rep io n OK Hn.
    apply (read_listed_sim R rep io OK LDefault); [exact Hc|exact Hn|].
    apply (read_sim h VH R false true rep io OK); [discriminate|apply Ht].
  Qed.

  Theorem C126_map size co tk tv : usable tk -> usable tv -> pair_elem h LDefault tk tv ->
    implements (map_by h size co tk tv) (fitems h size co (fentry (fty h tk) (fty h tv))).
  Proof.
    intros Hk Hv Hc. destruct (usable_element tk Hk) as (EX & OX). destruct (usable_element tv Hv) as (EY & OY).
    apply collected_implements.
    - split.
      + apply C118_tuple. constructor; [exact EX|congruence|]. constructor; [exact EY|reflexivity|constructor].
      + cbn [fentry ftuple fm_open existsb]. rewrite OX, OY. reflexivity.
    - intros St R rep io n OK Hn.
      eapply sim_ext; [reflexivity| |apply (read_paired_sim R rep io OK LDefault); [exact Hc|exact Hn|..]].
      + intros o. apply drepeat_ext. intros o'. cbn [fentry ftuple fm_dec deach fty]. unfold dmap, dpair, dbind, dret.
        destruct (decl _ _ _ _ tk o') as [a o1| | | |]; try reflexivity. destruct (decl _ _ _ _ tv o1); reflexivity.
      + apply (read_sim h VH R false true rep io OK); [discriminate|apply Hk].
      + apply (read_sim h VH R false true rep io OK); [discriminate|apply Hv].
  Qed.
End Items.
Print Assumptions C126_items.
Print Assumptions C126_entries.
Print Assumptions C126_set.
Print Assumptions C126_map.

(* ------------------------------------------------------------------ *)
(** * Lawful comparisons *)

(** What the documentation of `Ord` asks for. *)
Record lawful (cmp : val -> val -> comparison) : Prop := {
  lw_opp : forall a b, cmp b a = CompOpp (cmp a b);
  lw_lt : forall a b c, cmp a b = Lt -> cmp b c = Lt -> cmp a c = Lt;
  lw_eq : forall a b c, cmp a b = Eq -> cmp a c = cmp b c
}.

(** What the documentation of `Eq` asks for. *)
Record equivalence (same : val -> val -> bool) : Prop := {
  eqv_refl : forall a, same a a = true;
  eqv_sym : forall a b, same a b = same b a;
  eqv_trans : forall a b c, same a b = true -> same b c = true -> same a c = true
}.

(** The items of a B-tree, and of a hash table or an index table. *)
Definition ascends (cmp : val -> val -> comparison) (key : val -> val) : list val -> Prop :=
  StronglySorted (fun a b => cmp (key a) (key b) = Lt).
Fixpoint different (same : val -> val -> bool) (key : val -> val) (l : list val) : Prop :=
  match l with
  | [] => True
  | x :: r => Forall (fun y => same (key x) (key y) = false) r /\ different same key r
  end.

Section Ordered.
  Context (cmp : val -> val -> comparison) (LW : lawful cmp) (key : val -> val).

  Lemma insert_last x l : Forall (fun y => cmp (key y) (key x) = Lt) l -> ordered_insert cmp key x l = l ++ [x].
  Proof.
    induction 1 as [|y l Hy _ IH]; [reflexivity|]. cbn [ordered_insert app].
    rewrite (lw_opp _ LW (key y) (key x)), Hy. cbn [CompOpp]. rewrite IH. reflexivity.
  Qed.

  Lemma build_ascending l acc : ascends cmp key (acc ++ l) -> fold_left (fun l x => ordered_insert cmp key x l) l acc = acc ++ l.
  Proof.
    revert acc. induction l as [|x l IH]; intros acc H; cbn [fold_left]; [rewrite app_nil_r; reflexivity|].
    rewrite insert_last; [rewrite IH; rewrite <- app_assoc; [reflexivity|exact H]|]. clear IH.
    induction acc as [|a acc IH]; [constructor|]. cbn [app] in H. inversion H as [|? ? H1 H2]; subst.
    constructor; [|apply IH, H1]. rewrite Forall_forall in H2. apply H2, in_or_app. right. left. reflexivity.
  Qed.

  (** A B-tree comes back. *)
  Theorem C126_btree_returns l : ascends cmp key l -> returns (btree cmp key) l.
  Proof. intros H. split; [reflexivity|]. exact (build_ascending l [] H). Qed.

  Lemma insert_in x l z : ascends cmp key l ->
    In z (ordered_insert cmp key x l) <-> z = x \/ In z l /\ cmp (key z) (key x) <> Eq.
  Proof.
    induction 1 as [|y l Hl IH Hy]; cbn [ordered_insert In]; [intuition|].
    rewrite Forall_forall in Hy. destruct (cmp (key x) (key y)) eqn:E.
    - cbn [In]. split.
      + intros [->|Hz]; [left; reflexivity|]. right. split; [right; exact Hz|].
        rewrite (lw_opp _ LW (key x) (key z)), (lw_eq _ LW _ _ (key z) E), (Hy z Hz). discriminate.
      + intros [->|[[<-|Hz] Hne]]; auto. exfalso. apply Hne. rewrite (lw_opp _ LW (key x) (key y)), E. reflexivity.
    - cbn [In]. split.
      + intros [->|[->|Hz]]; auto; right; (split; [auto|]).
        * rewrite (lw_opp _ LW (key x)), E. discriminate.
        * rewrite (lw_opp _ LW (key x)), (lw_lt _ LW _ _ _ E (Hy z Hz)). discriminate.
      + intros [->|[[<-|Hz] _]]; auto.
    - cbn [In]. rewrite IH. split.
      + intros [->|[->|[Hz Hne]]]; auto. right. split; [auto|]. rewrite (lw_opp _ LW (key x)), E. discriminate.
      + intros [->|[[<-|Hz] Hne]]; auto.
  Qed.

  Lemma insert_ascends x l : ascends cmp key l -> ascends cmp key (ordered_insert cmp key x l).
  Proof.
    induction 1 as [|y l Hl IH Hy]; cbn [ordered_insert]; [repeat constructor|]. destruct (cmp (key x) (key y)) eqn:E.
    - constructor; [exact Hl|]. eapply Forall_impl; [|exact Hy]. intros z Hz. cbn in *. rewrite (lw_eq _ LW _ _ _ E). exact Hz.
    - constructor; [constructor; assumption|]. constructor; [exact E|]. eapply Forall_impl; [|exact Hy]. intros z Hz. cbn in *.
      eapply (lw_lt _ LW); eassumption.
    - constructor; [exact IH|]. rewrite Forall_forall in *. intros z Hz. apply insert_in in Hz; [|exact Hl].
      destruct Hz as [->|[Hz _]]; [|apply Hy, Hz]. rewrite (lw_opp _ LW (key x)), E. reflexivity.
  Qed.

  Lemma build_snoc xs x : ordered_build cmp key (xs ++ [x]) = ordered_insert cmp key x (ordered_build cmp key xs).
  Proof. unfold ordered_build. rewrite fold_left_app. reflexivity. Qed.

  (** Whatever was read is ascending. *)
  Theorem C126_btree_ascends xs : ascends cmp key (ordered_build cmp key xs).
  Proof.
    induction xs as [|x xs IH] using rev_ind; [constructor|]. rewrite build_snoc. apply insert_ascends, IH.
  Qed.

  (** Of equal items the last one stays. *)
  Theorem C126_btree_kept xs z : In z (ordered_build cmp key xs)
    <-> exists pre post, xs = pre ++ z :: post /\ Forall (fun y => cmp (key z) (key y) <> Eq) post.
  Proof.
    induction xs as [|x xs IH] using rev_ind.
    - split; [intros []|]. intros (pre & post & E & _). destruct pre; discriminate.
    - rewrite build_snoc, insert_in by apply C126_btree_ascends. rewrite IH. split.
      + intros [->|[(pre & post & -> & HF) Hne]].
        * exists xs, []. split; [reflexivity|constructor].
        * exists pre, (post ++ [x]). split; [rewrite <- app_assoc; reflexivity|]. apply Forall_app. split; [exact HF|]. repeat constructor. exact Hne.
      + intros (pre & post & E & HF). destruct post as [|w post] using rev_ind.
        * apply app_inj_tail in E as [_ ->]. left. reflexivity.
        * clear IHpost. change (pre ++ z :: post ++ [w]) with (pre ++ (z :: post) ++ [w]) in E. rewrite app_assoc in E.
          apply app_inj_tail in E as [-> ->]. apply Forall_app in HF as [HF Hw]. right. split; [eauto|]. inversion Hw; assumption.
  Qed.
End Ordered.
Print Assumptions C126_btree_returns.
Print Assumptions C126_btree_ascends.
Print Assumptions C126_btree_kept.

Section Hashed.
  Context (same : val -> val -> bool) (EQ : equivalence same) (key : val -> val).

  Lemma different_app l l' : different same key (l ++ l')
    <-> different same key l /\ different same key l' /\ Forall (fun x => Forall (fun y => same (key x) (key y) = false) l') l.
  Proof.
    induction l as [|x l IH]; cbn [app different].
    - split; [intros H; repeat split; [exact H|constructor]|tauto].
    - rewrite IH, Forall_app. split.
      + intros ((H1 & H2) & H3 & H4 & H5). repeat split; auto.
      + intros ((H1 & H2) & H3 & H4). inversion H4; subst. tauto.
  Qed.

  Lemma different_perm l l' : Permutation l l' -> different same key l -> different same key l'.
  Proof.
    induction 1 as [|x l l' HP IH|x y l|l1 l2 l3 _ IH1 _ IH2]; cbn [different]; auto.
    - intros (H1 & H2). split; auto. eapply Permutation_Forall; eassumption.
    - intros (H1 & H2 & H3). inversion H1 as [|? ? Hyx H1']; subst. repeat split; auto.
      constructor; [|exact H2]. rewrite (eqv_sym _ EQ). exact Hyx.
  Qed.

  Lemma place_new merge x l : Forall (fun y => same (key y) (key x) = false) l -> place same merge key x l = l ++ [x].
  Proof. induction 1 as [|y l Hy _ IH]; [reflexivity|]. cbn [place app]. rewrite Hy, IH. reflexivity. Qed.

  Lemma place_different merge l acc : different same key (acc ++ l) -> fold_left (fun l x => place same merge key x l) l acc = acc ++ l.
  Proof.
    revert acc. induction l as [|x l IH]; intros acc H; cbn [fold_left]; [rewrite app_nil_r; reflexivity|].
    rewrite place_new; [rewrite IH; rewrite <- app_assoc; [reflexivity|exact H]|].
    apply different_app in H as (_ & _ & H). eapply Forall_impl; [|exact H]. intros y Hy. inversion Hy; assumption.
  Qed.

  (** An index table comes back in its order, and a hash table in whatever order it was written. *)
  Theorem C126_index_returns merge l : different same key l -> returns (index_table same merge key) l.
  Proof. intros H. split; [reflexivity|]. exact (place_different merge l [] H). Qed.

  Theorem C126_hash_returns h merge l : valid_host h -> different same key l -> keys_ok CHash id l ->
    returns (hash_table same merge key h) l.
  Proof.
    intros VH H Hk. pose proof (vh_iter h VH l) as HP. split; cbn [hash_table co_walk co_build].
    - unfold nlen. rewrite (Permutation_length HP). reflexivity.
    - unfold place_all. rewrite (place_different merge (h_iter h l) []).
      + cbn [app]. exact (collect_roundtrip id (h_iter h) CHash l (vh_iter h VH) Hk).
      + cbn [app]. eapply different_perm; [symmetry; exact HP|exact H].
  Qed.

  Lemma place_snoc merge xs x : place_all same merge key (xs ++ [x]) = place same merge key x (place_all same merge key xs).
  Proof. unfold place_all. rewrite fold_left_app. reflexivity. Qed.

  Section Merge.
    Context (merge : val -> val -> val) (Hm : forall a b, key (merge a b) = key a).

    Lemma place_keys x l : Forall (fun k => Exists (fun y => key y = k) (x :: l)) (map key (place same merge key x l)).
    Proof.
      induction l as [|y l IH]; cbn [place map].
      - repeat constructor.
      - destruct (same (key y) (key x)); cbn [map].
        + constructor; [rewrite Hm; right; left; reflexivity|]. apply Forall_forall. intros k Hk. apply in_map_iff in Hk as (z & <- & Hz).
          right. right. apply Exists_exists. eauto.
        + constructor; [right; left; reflexivity|]. eapply Forall_impl; [|exact IH]. intros k Hk. inversion Hk; subst; [left; reflexivity|right; right; assumption].
    Qed.

    Lemma place_keeps x l : different same key l -> different same key (place same merge key x l).
    Proof.
      induction l as [|y l IH]; cbn [place different]; [repeat constructor|]. intros (H1 & H2).
      destruct (same (key y) (key x)) eqn:E; cbn [different].
      - split; [|exact H2]. rewrite Hm. exact H1.
      - split; [|apply IH, H2]. pose proof (place_keys x l) as HK. rewrite Forall_forall in *. intros z Hz.
        specialize (HK (key z) (in_map key _ _ Hz)). apply Exists_exists in HK as (w & Hw & <-).
        destruct Hw as [<-|Hw]; [exact E|apply H1, Hw].
    Qed.

    (** Whatever was read has no equal keys. *)
    Theorem C126_table_different xs : different same key (place_all same merge key xs).
    Proof. induction xs as [|x xs IH] using rev_ind; [exact Logic.I|]. rewrite place_snoc. apply place_keeps, IH. Qed.
  End Merge.

  Lemma place_old_in x l z : In z (place same keep_old key x l)
    <-> In z l \/ z = x /\ Forall (fun y => same (key y) (key x) = false) l.
  Proof.
    induction l as [|y l IH]; cbn [place In].
    - intuition.
    - destruct (same (key y) (key x)) eqn:E; cbn [In]; unfold keep_old.
      + split; [tauto|]. intros [H|(-> & H)]; [exact H|]. inversion H; congruence.
      + rewrite IH, Forall_cons_iff. intuition.
  Qed.

  Lemma table_covers xs x : In x xs -> Exists (fun y => same (key y) (key x) = true) (place_all same keep_old key xs).
  Proof.
    induction xs as [|w xs IH] using rev_ind; [intros []|]. rewrite in_app_iff, place_snoc. intros Hx.
    apply Exists_exists. destruct Hx as [Hx|[->|[]]].
    - specialize (IH Hx). apply Exists_exists in IH as (y & Hy & E). exists y. split; [|exact E]. apply place_old_in. auto.
    - destruct (existsb (fun y => same (key y) (key x)) (place_all same keep_old key xs)) eqn:E.
      + apply existsb_exists in E as (y & Hy & E). exists y. split; [apply place_old_in; auto|exact E].
      + exists x. split; [|apply (eqv_refl _ EQ)]. apply place_old_in. right. split; [reflexivity|]. apply Forall_forall. intros y Hy.
        destruct (same (key y) (key x)) eqn:Ey; [|reflexivity]. rewrite <- E. symmetry. apply existsb_exists. eauto.
  Qed.

  (** Of equal elements of a set the first one stays. *)
  Theorem C126_table_kept xs z : In z (place_all same keep_old key xs)
    <-> exists pre post, xs = pre ++ z :: post /\ Forall (fun y => same (key y) (key z) = false) pre.
  Proof.
    revert z. induction xs as [|x xs IH] using rev_ind; intros z.
    - split; [intros []|]. intros (pre & post & E & _). destruct pre; discriminate.
    - rewrite place_snoc, place_old_in, IH. split.
      + intros [(pre & post & -> & HF)|(-> & HF)].
        * exists pre, (post ++ [x]). split; [rewrite <- app_assoc; reflexivity|exact HF].
        * exists xs, []. split; [reflexivity|]. apply Forall_forall. intros y Hy.
          destruct (same (key y) (key x)) eqn:E; [|reflexivity]. pose proof (table_covers xs y Hy) as HE.
          apply Exists_exists in HE as (w & Hw & Ew). rewrite Forall_forall in HF. specialize (HF w Hw). cbn in HF.
          rewrite (eqv_trans _ EQ _ _ _ Ew E) in HF. discriminate.
      + intros (pre & post & E & HF). destruct post as [|w post] using rev_ind.
        * apply app_inj_tail in E as [-> ->]. right. split; [reflexivity|]. apply Forall_forall. intros y Hy.
          destruct (same (key y) (key z)) eqn:Ey; [|reflexivity]. exfalso.
          assert (In y pre).
          { apply IH in Hy as (p & q & -> & _). apply in_or_app. right. left. reflexivity. }
          rewrite Forall_forall in HF. specialize (HF y H). cbn in HF. congruence.
        * clear IHpost. change (pre ++ z :: post ++ [w]) with (pre ++ (z :: post) ++ [w]) in E. rewrite app_assoc in E.
          apply app_inj_tail in E as [-> ->]. left. eauto.
  Qed.

End Hashed.

Section Hashed_maps.
  Context (same : val -> val -> bool) (EQ : equivalence same).

  (** Of equal keys of a map the first one stays, with the value of the last. *)
  Definition entry_like (x : val) : Prop := exists k v, x = VSeq [k; v].

  Lemma place_map_keys x l : map pair_key (place same keep_key pair_key x l) = place same keep_old id (pair_key x) (map pair_key l).
  Proof.
    induction l as [|y l IH]; [reflexivity|]. cbn [place map]. unfold id at 1 2.
    destruct (same (pair_key y) (pair_key x)); cbn [map]; [|rewrite IH; reflexivity]. f_equal.
    unfold keep_old, keep_key. destruct y as [| | | |[|k ys]| | | | |]; try reflexivity. destruct x as [| | | |[|k' xs]| | | | |]; reflexivity.
  Qed.

  Lemma place_value_in k v l z : Forall entry_like l -> different same pair_key l ->
    In z (place same keep_key pair_key (VSeq [k; v]) l) ->
    In z l /\ same (pair_key z) k = false \/ exists k', z = VSeq [k'; v] /\ same k' k = true.
  Proof.
    induction 1 as [|y l (ky & vy & ->) _ IH]; cbn [place different].
    - intros _ [<-|[]]. right. exists k. split; [reflexivity|apply (eqv_refl _ EQ)].
    - intros (Hd & Hl). cbn [pair_key] in *. destruct (same ky k) eqn:E.
      + intros [<-|Hz]; [right; exists ky; split; [reflexivity|exact E]|]. left. split; [right; exact Hz|].
        rewrite Forall_forall in Hd. specialize (Hd z Hz). cbn in Hd. destruct (same (pair_key z) k) eqn:Ez; [|reflexivity].
        rewrite (eqv_sym _ EQ) in Ez. rewrite (eqv_trans _ EQ _ _ _ E Ez) in Hd. discriminate.
      + intros [<-|Hz]; [left; split; [left; reflexivity|exact E]|].
        destruct (IH Hl Hz) as [(H1 & H2)|H]; [left; split; [right|]; assumption|right; exact H].
  Qed.

  Lemma key_kept a b : pair_key (keep_key a b) = pair_key a.
  Proof. unfold keep_key. destruct a as [| | | |[|k ys]| | | | |]; try reflexivity. destruct b as [| | | |[|k' xs]| | | | |]; reflexivity. Qed.

  Lemma place_entries x l : entry_like x -> Forall entry_like l -> Forall entry_like (place same keep_key pair_key x l).
  Proof.
    intros (k & v & ->). induction 1 as [|y l (ky & vy & ->) Hl IH]; cbn [place]; [repeat constructor; do 2 eexists; reflexivity|].
    destruct (same _ _); constructor; auto; do 2 eexists; reflexivity.
  Qed.

  Lemma all_entries xs : Forall entry_like xs -> Forall entry_like (place_all same keep_key pair_key xs).
  Proof.
    intros H. induction xs as [|x xs IH] using rev_ind; [constructor|]. apply Forall_app in H as (H & Hx).
    unfold place_all. rewrite fold_left_app. apply place_entries; [inversion Hx; assumption|apply IH, H].
  Qed.

  Theorem C126_map_kept xs : Forall entry_like xs ->
    map pair_key (place_all same keep_key pair_key xs) = place_all same keep_old id (map pair_key xs)
    /\ forall k v, In (VSeq [k; v]) (place_all same keep_key pair_key xs) ->
         exists pre k' post, xs = pre ++ VSeq [k'; v] :: post /\ same k' k = true
           /\ Forall (fun y => same (pair_key y) k = false) post.
  Proof.
    intros H. split.
    - clear H. induction xs as [|x xs IH] using rev_ind; [reflexivity|]. unfold place_all in *. rewrite map_app, !fold_left_app.
      cbn [fold_left map]. rewrite place_map_keys, IH. reflexivity.
    - induction xs as [|x xs IH] using rev_ind; [intros k v []|]. apply Forall_app in H as (H & Hx).
      inversion Hx as [|? ? (k0 & v0 & ->) _]; subst. intros k v. unfold place_all. rewrite fold_left_app. cbn [fold_left]. intros Hin.
      pose proof (C126_table_different same pair_key keep_key key_kept xs) as Hd.
      apply place_value_in in Hin; [|apply all_entries, H|exact Hd]. destruct Hin as [(Hin & Hne)|(k' & E & Es)].
      + destruct (IH H k v Hin) as (pre & k' & post & -> & Es & HF). exists pre, k', (post ++ [VSeq [k0; v0]]).
        split; [rewrite <- app_assoc; reflexivity|]. split; [exact Es|]. apply Forall_app. split; [exact HF|]. repeat constructor.
        cbn [pair_key] in *. rewrite (eqv_sym _ EQ). exact Hne.
      + injection E as -> ->. exists xs, k0, []. split; [reflexivity|]. split; [rewrite (eqv_sym _ EQ); exact Es|constructor].
  Qed.
End Hashed_maps.
Print Assumptions C126_index_returns.
Print Assumptions C126_hash_returns.
Print Assumptions C126_table_different.
Print Assumptions C126_table_kept.
Print Assumptions C126_map_kept.

(** With the derived order these are the sets and maps of the other properties. *)
Theorem C126_derived key xs : ordered_build val_cmp key xs = collect CBTree key xs
  /\ place_all (fun a b => match val_cmp b a with Eq => true | _ => false end) (fun _ new => new) key xs = collect CIndex key xs.
Proof.
  assert (H1 : forall x l, ordered_insert val_cmp key x l = sorted_insert key x l).
  { intros x l. induction l as [|y l IH]; [reflexivity|]. cbn [ordered_insert sorted_insert]. rewrite IH. reflexivity. }
  assert (H2 : forall x l, place (fun a b => match val_cmp b a with Eq => true | _ => false end) (fun _ new => new) key x l = index_insert key x l).
  { intros x l. induction l as [|y l IH]; [reflexivity|]. cbn [place index_insert]. rewrite IH. destruct (val_cmp (key x) (key y)); reflexivity. }
  unfold ordered_build, place_all, collect. split; generalize (@nil val); induction xs as [|x xs IH]; intros l; try reflexivity;
    cbn [fold_left container_insert]; rewrite ?H1, ?H2; apply IH.
Qed.
Print Assumptions C126_derived.

(** Through every entry point: what was written is read back as the same collection. *)
Section Round_trip.
  Context (h : host) (VH : valid_host h).

  (** Writing [v] with [X] gives [b], and reading [b] gives [v]. *)
  Definition goes_round (X : impl) (e : endian) (v : val) (b : bytes) : Prop :=
    forall mem rest, (forall n, n <= nlen (mem n)) -> nlen (b ++ rest) <= h_alloc_max h ->
    impl_to_vec h e X v mem = Ok b
    /\ (forall addr, impl_from_buffer e X addr (b ++ rest) = (Ok v, nlen b))
    /\ impl_from_copied e X (b ++ rest) = (Ok v, nlen b)
    /\ forall mem' buffering sched, (forall n, n <= nlen (mem' n)) -> no_errors sched ->
         fst (impl_from_stream e X mem' buffering {| is_rest := b ++ rest; is_sched := sched |}) = Ok v.

  Lemma items_round size co X F rd e vs p b : implements h (collected h size co rd X) (fitems h size co F) ->
    Forall (fm_ok F) (co_walk co vs) -> nlen vs < 2 ^ 32 -> returns co vs ->
    enc_len e len0 (nlen vs) = Ok p -> enc_all (fm_enc F e) (co_walk co vs) = Ok b ->
    goes_round (collected h size co rd X) e (VSeq vs) (p ++ b).
  Proof.
    intros HI Hv Hs Hr Hp Hb mem rest Hmem Hl.
    apply (C118_round_trip h VH _ _ HI e mem (VSeq vs) (p ++ b) rest Hmem); [| |discriminate|exact Hl].
    - split; [exact Hv|]. split; [|exact Hr]. pose proof (vh_usize_lo h VH). unfold small. num_pow. lia.
    - cbn [fitems fm_enc]. rewrite Hp, Hb. reflexivity.
  Qed.

  (** A B-tree set under any lawful order, of hand-written elements or of types of the model. *)
  Theorem C126_btree_round_trip size cmp X F e vs p b : lawful cmp -> element h X F ->
    Forall (fm_ok F) vs -> nlen vs < 2 ^ 32 -> ascends cmp id vs ->
    enc_len e len0 (nlen vs) = Ok p -> enc_all (fm_enc F e) vs = Ok b ->
    goes_round (items_of h size (btree cmp id) X) e (VSeq vs) (p ++ b)
    /\ (forall t, X = of_ty h t -> F = fty h t -> usable h t -> copy_elem h LDefault t ->
         goes_round (set_by h size (btree cmp id) t) e (VSeq vs) (p ++ b)).
  Proof.
    intros LW HE Hv Hs Ha Hp Hb. split.
    - apply (items_round size (btree cmp id) X F); try assumption; [apply C126_items; assumption|apply C126_btree_returns; assumption].
    - intros t -> -> Ht Hc. apply (items_round size (btree cmp id) _ (fty h t)); try assumption;
        [apply C126_set; assumption|apply C126_btree_returns; assumption].
  Qed.

  (** A hash map under any equivalence, written in whatever order its table has. *)
  Theorem C126_hash_round_trip size same X F Y G e vs p b : equivalence same -> element h X F -> element h Y G ->
    Forall (fm_ok (fentry F G)) vs -> nlen vs < 2 ^ 32 -> different same pair_key vs -> keys_ok CHash id vs ->
    enc_len e len0 (nlen vs) = Ok p -> enc_all (fm_enc (fentry F G) e) (h_iter h vs) = Ok b ->
    goes_round (items_of h size (hash_table same keep_key pair_key h) (tuple_of 0 [X; Y])) e (VSeq vs) (p ++ b)
    /\ (forall tk tv, X = of_ty h tk -> F = fty h tk -> Y = of_ty h tv -> G = fty h tv ->
         usable h tk -> usable h tv -> pair_elem h LDefault tk tv ->
         goes_round (map_by h size (hash_table same keep_key pair_key h) tk tv) e (VSeq vs) (p ++ b)).
  Proof.
    intros EQ EX EY Hv Hs Hd Hk Hp Hb.
    assert (Hw : Forall (fm_ok (fentry F G)) (h_iter h vs)) by (eapply Permutation_Forall; [symmetry; apply (vh_iter h VH)|exact Hv]).
    assert (Hr : returns (hash_table same keep_key pair_key h) vs) by (apply C126_hash_returns; assumption).
    split.
    - apply (items_round size (hash_table same keep_key pair_key h) _ (fentry F G)); try assumption. apply C126_entries; assumption.
    - intros tk tv -> -> -> -> Htk Htv Hc.
      apply (items_round size (hash_table same keep_key pair_key h) _ (fentry (fty h tk) (fty h tv))); try assumption. apply C126_map; assumption.
  Qed.
End Round_trip.
Print Assumptions C126_btree_round_trip.
Print Assumptions C126_hash_round_trip.

(** ** Cases *)

(** Orders that look at a part of the value, and orders turned around. *)
Lemma lawful_by f : lawful (fun a b => val_cmp (f a) (f b)).
Proof.
  split.
  - intros a b. apply val_cmp_opp.
  - intros a b c. apply val_cmp_trans.
  - intros a b c E. apply val_cmp_eq in E. rewrite E. reflexivity.
Qed.
Lemma lawful_reverse cmp : lawful cmp -> lawful (fun a b => cmp b a).
Proof.
  intros [H1 H2 H3]. split.
  - intros a b. apply H1.
  - intros a b c E1 E2. eapply H2; eassumption.
  - intros a b c E. rewrite (H1 a c), (H1 b c). f_equal. apply H3. rewrite H1, E. reflexivity.
Qed.
Definition same_by (f : val -> val) (a b : val) : bool := match val_cmp (f a) (f b) with Eq => true | _ => false end.
Lemma equivalence_by f : equivalence (same_by f).
Proof.
  unfold same_by. split.
  - intros a. rewrite val_cmp_refl. reflexivity.
  - intros a b. rewrite (val_cmp_opp (f b) (f a)). destruct (val_cmp (f b) (f a)); reflexivity.
  - intros a b c. destruct (val_cmp (f a) (f b)) eqn:E; try discriminate. apply val_cmp_eq in E. rewrite E. auto.
Qed.

(** Names that are the same in capitals and small letters. *)
Definition small_letter (b : byte) : byte := if (65 <=? b2n b) && (b2n b <=? 90) then n2b (b2n b + 32) else b.
Definition uncased (v : val) : val := match v with VBytes b => VBytes (map small_letter b) | _ => v end.
Definition uncased_cmp (a b : val) : comparison := val_cmp (uncased a) (uncased b).
Definition name_ty : ty := TStr KString.
Definition name_set (h : host) : impl := set_by h 24 (btree uncased_cmp id) name_ty.
Definition name_map (h : host) : impl := map_by h 48 (hash_table (same_by uncased) keep_key pair_key h) name_ty (TP U8).
Definition ann : val := VBytes [x61; x6e; x6e].
Definition Bob : val := VBytes [x42; x6f; x62].
Definition bob : val := VBytes [x62; x6f; x62].

Example C126_set_case :
  usable host64 name_ty /\ copy_elem host64 LDefault name_ty
  /\ fm_ok (fitems host64 24 (btree uncased_cmp id) (fty host64 name_ty)) (VSeq [ann; Bob])
  /\ collect CBTree id [ann; Bob] = [Bob; ann].
Proof.
  split; [|split; [|split]].
  - split; [intros e; apply supportedb_sound; destruct e; vm_compute; reflexivity|].
    split; [exact Logic.I|]. split; [exact Logic.I|]. split; [intros e; exact Logic.I|reflexivity].
  - apply copy_elemb_sound. vm_compute. reflexivity.
  - split; [|split].
    + repeat constructor; vm_compute; try reflexivity; try discriminate.
    + vm_compute. discriminate.
    + apply C126_btree_returns; [apply lawful_by|]. repeat constructor; vm_compute; reflexivity.
  - vm_compute. reflexivity.
Qed.

Definition entries_bytes : bytes :=
  [x02; x00; x00; x00; x03; x00; x00; x00; x42; x6f; x62; x01; x03; x00; x00; x00; x62; x6f; x62; x02].
Example C126_map_case :
  usable host64 name_ty /\ usable host64 (TP U8) /\ pair_elem host64 LDefault name_ty (TP U8)
  /\ Forall (fm_ok (fentry (fty host64 name_ty) (fty host64 (TP U8)))) [VSeq [Bob; VInt 1]; VSeq [ann; VInt 2]]
  /\ different (same_by uncased) pair_key [VSeq [Bob; VInt 1]; VSeq [ann; VInt 2]]
  /\ keys_ok CHash id [VSeq [Bob; VInt 1]; VSeq [ann; VInt 2]].
Proof.
  split; [apply C126_set_case|]. split; [|split; [|split; [|split]]].
  - split; [intros e; apply supportedb_sound; destruct e; vm_compute; reflexivity|].
    split; [exact Logic.I|]. split; [exact Logic.I|]. split; [intros e; exact Logic.I|reflexivity].
  - apply pair_elemb_sound. vm_compute. reflexivity.
  - repeat constructor; vm_compute; try reflexivity; try discriminate.
  - repeat constructor.
  - repeat constructor.
Qed.

(** Two spellings of a name: the map keeps the first with the second's value, a set of them
    in a B-tree keeps the second. *)
Example C126_spellings :
  fst (impl_from_buffer LE (name_map host64) 0 entries_bytes) = Ok (VSeq [VSeq [Bob; VInt 2]])
  /\ co_build (btree uncased_cmp id) [Bob; ann; bob] = [ann; bob]
  /\ co_build (hash_table (same_by uncased) keep_old id host64) [Bob; ann; bob] = [Bob; ann].
Proof. split; [|split]; vm_compute; reflexivity. Qed.

(** Numbers in descending order, copied out of the input. *)
Example C126_descending_case :
  let X := set_by host64 24 (btree (fun a b => val_cmp b a) id) (TP U16) in
  impl_to_vec host64 LE X (VSeq [VInt 9; VInt 3]) dirty = Ok [x02; x00; x00; x00; x09; x00; x03; x00]
  /\ fst (impl_from_buffer LE X 0 [x02; x00; x00; x00; x09; x00; x03; x00]) = Ok (VSeq [VInt 9; VInt 3])
  /\ fst (impl_from_buffer BE X 0 [x00; x00; x00; x02; x00; x03; x00; x09]) = Ok (VSeq [VInt 9; VInt 3])
  /\ copy_elem host64 LDefault (TP U16) /\ is_prim host64 (TP U16) = true.
Proof.
  cbn zeta. split; [vm_compute; reflexivity|]. split; [vm_compute; reflexivity|]. split; [vm_compute; reflexivity|].
  split; [apply copy_elemb_sound; vm_compute; reflexivity|reflexivity].
Qed.

(** An order that is not lawful: floats for which `partial_cmp` has no answer are called less.
    The set that was written is not the set that is read. *)
Definition nan (v : val) : bool := match v with VInt z => Z.eqb z 2143289344 | _ => false end.
Definition careless_cmp (a b : val) : comparison := if nan a || nan b then Lt else val_cmp a b.
Theorem C126_any_refuted : exists cmp l, ascends cmp id l /\ ~ returns (btree cmp id) l
  /\ let X := set_by host64 24 (btree cmp id) (TP F32) in
      exists b v, impl_to_vec host64 LE X (VSeq l) dirty = Ok b /\ fst (impl_from_buffer LE X 0 b) = Ok v /\ v <> VSeq l.
Proof.
  exists careless_cmp, [VInt 2143289344; VInt 1065353216]. split; [repeat constructor|]. split.
  - intros (_ & H). vm_compute in H. discriminate.
  - cbn zeta. eexists _, _. split; [vm_compute; reflexivity|]. split; [vm_compute; reflexivity|]. discriminate.
Qed.
Print Assumptions C126_any_refuted.
