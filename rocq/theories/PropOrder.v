(* Property C123: the order of elements in sets and maps.

   [before] is the order `#[derive(PartialOrd, Ord)]` and std give, by rules
   instead of by computation; it shares nothing with [val_cmp]. *)
From Coq Require Import Sorting.Sorted.
From Verif Require Import Samples Entry ValOrder MinFacts PropRoundTrip PropBulk PropCollections PropSafe TyInd Checker Sane WriteApi.

(* ------------------------------------------------------------------ *)
(** * The order *)

Inductive before : val -> val -> Prop :=
| false_true : before (VBool false) (VBool true)
| smaller x y : (x < y)%Z -> before (VInt x) (VInt y)
(* strings and lists: the first difference decides, and a beginning comes first *)
| bytes_shorter p b r : before (VBytes p) (VBytes (p ++ b :: r))
| bytes_differ p a b r s : Byte.to_N a < Byte.to_N b -> before (VBytes (p ++ a :: r)) (VBytes (p ++ b :: s))
| seq_shorter p b r : before (VSeq p) (VSeq (p ++ b :: r))
| seq_differ p a b r s : before a b -> before (VSeq (p ++ a :: r)) (VSeq (p ++ b :: s))
| none_some v : before VNone (VSome v)
| some_some a b : before a b -> before (VSome a) (VSome b)
| ok_err a b : before (VOk a) (VErr b)
| ok_ok a b : before a b -> before (VOk a) (VOk b)
| err_err a b : before a b -> before (VErr a) (VErr b)
(* variants by their position, then by their fields *)
| earlier_variant i j xs ys : (i < j)%nat -> before (VVar i xs) (VVar j ys)
| variant_shorter i p b r : before (VVar i p) (VVar i (p ++ b :: r))
| variant_differ i p a b r s : before a b -> before (VVar i (p ++ a :: r)) (VVar i (p ++ b :: s)).

(** Every element once, where it first occurs. *)
Inductive firsts : list val -> list val -> Prop :=
| no_element : firsts [] []
| new_element xs ys x : firsts xs ys -> ~ In x xs -> firsts (xs ++ [x]) (ys ++ [x])
| old_element xs ys x : firsts xs ys -> In x xs -> firsts (xs ++ [x]) ys.

(* ------------------------------------------------------------------ *)
(** * It is the order of the model *)

Lemma lex_app {A} (cmp : A -> A -> comparison) p xs ys : (forall a, cmp a a = Eq) ->
  lex_cmp cmp (p ++ xs) (p ++ ys) = lex_cmp cmp xs ys.
Proof. intros H. induction p as [|a p IH]; [reflexivity|]. cbn. rewrite H. exact IH. Qed.

Lemma lex_shorter {A} (cmp : A -> A -> comparison) p b r : (forall a, cmp a a = Eq) -> lex_cmp cmp p (p ++ b :: r) = Lt.
Proof. intros H. rewrite <- (app_nil_r p) at 1. rewrite lex_app by exact H. reflexivity. Qed.

Lemma lex_differ {A} (cmp : A -> A -> comparison) p a b r s : (forall a, cmp a a = Eq) -> cmp a b = Lt ->
  lex_cmp cmp (p ++ a :: r) (p ++ b :: s) = Lt.
Proof. intros H E. rewrite lex_app by exact H. cbn. rewrite E. reflexivity. Qed.

Lemma before_lt a b : before a b -> val_cmp a b = Lt.
Proof.
  assert (Hb : forall x, byte_cmp x x = Eq) by (intros; apply N.compare_refl).
  induction 1 as [|x y H|p b r|p a b r s H|p b r|p a b r s _ IH|v|a b _ IH|a b|a b _ IH|a b _ IH|i j xs ys H|i p b r|i p a b r s _ IH];
    cbn [val_cmp vrank]; try reflexivity; try exact IH.
  - exact H.
  - apply lex_shorter, Hb.
  - apply lex_differ; [apply Hb|]. exact H.
  - apply lex_shorter, val_cmp_refl.
  - apply lex_differ; [apply val_cmp_refl|exact IH].
  - apply Nat.compare_lt_iff in H. rewrite H. reflexivity.
  - rewrite Nat.compare_refl. apply lex_shorter, val_cmp_refl.
  - rewrite Nat.compare_refl. apply lex_differ; [apply val_cmp_refl|exact IH].
Qed.

Lemma lex_inv {A} (cmp : A -> A -> comparison) (Heq : forall a b, cmp a b = Eq -> a = b) xs : forall ys,
  lex_cmp cmp xs ys = Lt ->
  (exists b r, ys = xs ++ b :: r)
  \/ exists p a b r s, xs = p ++ a :: r /\ ys = p ++ b :: s /\ cmp a b = Lt.
Proof.
  induction xs as [|x xs IH]; intros [|y ys] H; cbn in H; try discriminate.
  - left. exists y, ys. reflexivity.
  - destruct (cmp x y) eqn:E; try discriminate.
    + apply Heq in E as <-. destruct (IH ys H) as [(b & r & ->)|(p & a & b & r & s & -> & -> & Hc)].
      * left. exists b, r. reflexivity.
      * right. exists (x :: p), a, b, r, s. auto.
    + right. exists [], x, y, xs, ys. auto.
Qed.

(** Values of one kind, of which the model's order is [before]. *)
Definition ordered (P : val -> Prop) : Prop := forall a b, P a -> P b -> val_cmp a b = Lt -> before a b.

Definition lexed (xs ys : list val) : Prop :=
  (exists b r, ys = xs ++ b :: r)
  \/ exists p a b r s, xs = p ++ a :: r /\ ys = p ++ b :: s /\ before a b.

Lemma lexed_seq xs ys : lexed xs ys -> before (VSeq xs) (VSeq ys).
Proof. intros [(b & r & ->)|(p & a & b & r & s & -> & -> & H)]; constructor. exact H. Qed.

Lemma lexed_var i xs ys : lexed xs ys -> before (VVar i xs) (VVar i ys).
Proof. intros [(b & r & ->)|(p & a & b & r & s & -> & -> & H)]; [apply variant_shorter|apply variant_differ; exact H]. Qed.

Lemma all_lexed P xs ys : ordered P -> Forall P xs -> Forall P ys -> lex_cmp val_cmp xs ys = Lt -> lexed xs ys.
Proof.
  intros HP Hx Hy H. destruct (lex_inv _ val_cmp_eq xs ys H) as [E|(p & a & b & r & s & -> & -> & Hc)]; [left; exact E|right].
  exists p, a, b, r, s. split; [reflexivity|]. split; [reflexivity|].
  rewrite Forall_forall in Hx, Hy. apply HP; [apply Hx|apply Hy|exact Hc]; apply in_or_app; cbn; auto.
Qed.

(** Each position has its own kind. *)
Lemma each_lexed Ps : Forall ordered Ps -> forall xs ys, Forall2 (fun (P : val -> Prop) x => P x) Ps xs ->
  Forall2 (fun (P : val -> Prop) x => P x) Ps ys -> lex_cmp val_cmp xs ys = Lt -> lexed xs ys.
Proof.
  induction 1 as [|P Ps HP _ IH]; intros xs ys Hx Hy H.
  - inversion Hx. inversion Hy. subst. discriminate.
  - inversion Hx as [|? x ? xr Hx1 Hx2]; inversion Hy as [|? y ? yr Hy1 Hy2]; subst. cbn in H.
    destruct (val_cmp x y) eqn:E; try discriminate.
    + apply val_cmp_eq in E as <-. destruct (IH xr yr Hx2 Hy2 H) as [(b & r & ->)|(p & a & b & r & s & -> & -> & Hc)].
      * left. exists b, r. reflexivity.
      * right. exists (x :: p), a, b, r, s. auto.
    + right. exists [], x, y, xr, yr. split; [reflexivity|]. split; [reflexivity|]. exact (HP x y Hx1 Hy1 E).
Qed.

Lemma ordered_int : ordered (fun v => match v with VInt _ => True | _ => False end).
Proof. intros [] [] Ha Hb H; try contradiction. constructor. exact H. Qed.

Lemma ordered_bool : ordered (fun v => match v with VBool _ => True | _ => False end).
Proof. intros [|[]| | | | | | | |] [|[]| | | | | | | |] Ha Hb H; try contradiction; try discriminate. constructor. Qed.

Lemma ordered_bytes : ordered (fun v => match v with VBytes _ => True | _ => False end).
Proof.
  intros [] [] Ha Hb H; try contradiction. cbn [val_cmp] in H.
  destruct (lex_inv byte_cmp byte_cmp_eq _ _ H) as [(c & r & ->)|(p & x & y & r & s & -> & -> & Hc)]; constructor. exact Hc.
Qed.

Lemma ordered_weaken (P Q : val -> Prop) : (forall v, Q v -> P v) -> ordered P -> ordered Q.
Proof. intros H HP a b Ha Hb. apply HP; auto. Qed.

Lemma typed_list va ts : forall vs, valid_list va ts vs -> Forall2 (fun (P : val -> Prop) x => P x) (map va ts) vs.
Proof. induction ts as [|t ts IH]; intros [|v vs] H; cbn in H; try contradiction; constructor; [apply H|apply IH, H]. Qed.

Lemma typed_fields va (fs : fields) : forall vs, valid_fields va fs vs ->
  Forall2 (fun (P : val -> Prop) x => P x) (map (fun f => va (snd f)) fs) vs.
Proof. induction fs as [|f fs IH]; intros [|v vs] H; cbn in H; try contradiction; constructor; [apply H|apply IH, H]. Qed.

Lemma ordered_pairs vk vv : ordered vk -> ordered vv -> ordered (valid_pair vk vv).
Proof.
  intros Hk Hv a b Ha Hb H.
  destruct a as [| | | |[|a1 [|a2 [|]]]| | | | |]; try contradiction. destruct b as [| | | |[|b1 [|b2 [|]]]| | | | |]; try contradiction.
  apply lexed_seq, (each_lexed [vk; vv]); [repeat (constructor; auto)| | |exact H]; destruct Ha, Hb; repeat (constructor; auto).
Qed.

Section Values.
  Context (lim : limits).

  Lemma ordered_scalar s : ordered (valid_scalar lim s).
  Proof.
    intros a b Ha Hb H.
    assert (Hints : forall xs ys, Forall (fun v => match v with VInt _ => True | _ => False end) xs ->
      Forall (fun v => match v with VInt _ => True | _ => False end) ys -> val_cmp (VSeq xs) (VSeq ys) = Lt -> before (VSeq xs) (VSeq ys)).
    { intros xs ys Hx Hy E. apply lexed_seq, (all_lexed _ _ _ ordered_int Hx Hy E). }
    assert (Hadr : forall i j x y, val_cmp (VVar i [VBytes x]) (VVar j [VBytes y]) = Lt -> before (VVar i [VBytes x]) (VVar j [VBytes y])).
    { intros i j x y E. cbn [val_cmp] in E. destruct (Nat.compare_spec i j) as [<-|L|L]; try discriminate; [|constructor; exact L].
      apply lexed_var, (all_lexed _ _ _ ordered_bytes); [repeat constructor|repeat constructor|exact E]. }
    assert (Htime : forall P : Z -> Z -> Prop, match a with VSeq [VInt x; VInt y] => P x y | _ => False end ->
      match b with VSeq [VInt x; VInt y] => P x y | _ => False end -> before a b).
    { intros P Pa Pb. destruct a as [| | | |xs| | | | |]; try contradiction. destruct b as [| | | |ys| | | | |]; try contradiction.
      apply Hints; [| |exact H].
      - destruct xs as [|[] [|[] [|]]]; try contradiction. repeat constructor.
      - destruct ys as [|[] [|[] [|]]]; try contradiction. repeat constructor. }
    destruct s.
    all: try (destruct a; try contradiction Ha; destruct b; try contradiction Hb;
      solve [discriminate H | apply ordered_int; [exact Logic.I|exact Logic.I|exact H]
            | apply ordered_bool; [exact Logic.I|exact Logic.I|exact H]
            | apply ordered_bytes; [exact Logic.I|exact Logic.I|exact H]]).
    - (* SEndian *)
      destruct a as [| | | | | | | | |i [|]]; try contradiction Ha. destruct b as [| | | | | | | | |j [|]]; try contradiction Hb.
      cbn [val_cmp] in H. destruct (Nat.compare_spec i j) as [<-|L|L]; try discriminate. constructor. exact L.
    - (* SIpAddr *)
      destruct a as [| | | | | | | | |[|[|i]] [|[] [|]]]; try contradiction Ha;
        destruct b as [| | | | | | | | |[|[|j]] [|[] [|]]]; try contradiction Hb; apply Hadr, H.
    - exact (Htime _ Ha Hb).
    - exact (Htime _ Ha Hb).
    - exact (Htime _ Ha Hb).
    - (* SGlam *)
      destruct a; try contradiction Ha. destruct b; try contradiction Hb. destruct Ha as [_ Ha], Hb as [_ Hb].
      apply Hints; [| |exact H]; eapply Forall_impl; try eassumption; intros []; auto.
    - (* SBVec *)
      destruct a; try contradiction Ha. destruct b; try contradiction Hb. destruct Ha as [_ Ha], Hb as [_ Hb].
      apply lexed_seq, (all_lexed _ _ _ ordered_bool Ha Hb H).
  Qed.

  (** Of values of one type, the model's order is [before]. *)
  Lemma ordered_values t : ordered (valid lim t).
  Proof.
    induction t as [s|k|k t IH|t n IH|t n IH|t IH|t1 t2 IH1 IH2|ts IH|i t IH|k t IH|k tk tv IHk IHv|t IH|d fs IH|d vs IH|] using ty_ind';
      intros a b Ha Hb H; cbn [valid] in Ha, Hb.
    - exact (ordered_scalar s a b Ha Hb H).
    - destruct a; try contradiction. destruct b; try contradiction. apply ordered_bytes; [exact Logic.I|exact Logic.I|exact H].
    - destruct a; try contradiction. destruct b; try contradiction. apply lexed_seq, (all_lexed _ _ _ IH (proj1 Ha) (proj1 Hb) H).
    - destruct a; try contradiction. destruct b; try contradiction. apply lexed_seq, (all_lexed _ _ _ IH (proj1 Ha) (proj1 Hb) H).
    - destruct a; try contradiction. destruct b; try contradiction. apply lexed_seq, (all_lexed _ _ _ IH (proj1 Ha) (proj1 Hb) H).
    - destruct a; try contradiction; destruct b; try contradiction; try discriminate H; constructor. exact (IH _ _ Ha Hb H).
    - destruct a; try contradiction; destruct b; try contradiction; try discriminate H; constructor;
        [exact (IH1 _ _ Ha Hb H)|exact (IH2 _ _ Ha Hb H)].
    - destruct a; try contradiction. destruct b; try contradiction.
      apply lexed_seq, (each_lexed (map (valid lim) ts)); [|apply typed_list, Ha|apply typed_list, Hb|exact H].
      apply Forall_map. exact IH.
    - destruct i.
      + destruct a as [| | | |[|a1 [|a2 [|[] [|]]]]| | | | |]; try contradiction.
        destruct b as [| | | |[|b1 [|b2 [|[] [|]]]]| | | | |]; try contradiction. destruct Ha, Hb.
        apply lexed_seq, (each_lexed [valid lim t; valid lim t; fun v => match v with VBool _ => True | _ => False end]);
          [| | |exact H]; repeat (constructor; auto using ordered_bool).
      + destruct a as [| | | |[|a1 [|a2 [|]]]| | | | |]; try contradiction.
        destruct b as [| | | |[|b1 [|b2 [|]]]| | | | |]; try contradiction. destruct Ha, Hb.
        apply lexed_seq, (each_lexed [valid lim t; valid lim t]); [| | |exact H]; repeat (constructor; auto).
    - destruct a; try contradiction. destruct b; try contradiction. apply lexed_seq, (all_lexed _ _ _ IH (proj1 Ha) (proj1 Hb) H).
    - destruct a; try contradiction. destruct b; try contradiction.
      apply lexed_seq, (all_lexed _ _ _ (ordered_pairs _ _ IHk IHv) (proj1 Ha) (proj1 Hb) H).
    - exact (IH a b Ha Hb H).
    - destruct a; try contradiction. destruct b; try contradiction.
      apply lexed_seq, (each_lexed (map (fun f => valid lim (snd f)) fs)); [|apply typed_fields, Ha|apply typed_fields, Hb|exact H].
      apply Forall_map. exact IH.
    - destruct a as [| | | | | | | | |i xs]; try contradiction. destruct b as [| | | | | | | | |j ys]; try contradiction.
      cbn [val_cmp] in H. destruct (Nat.compare_spec i j) as [<-|L|L]; try discriminate; [|constructor; exact L].
      apply lexed_var. revert i Ha Hb. induction IH as [|v vs Hv _ IHvs]; intros [|i] Ha Hb; cbn in Ha, Hb; try contradiction.
      + apply (each_lexed (map (fun f => valid lim (snd f)) (snd v))); [|apply typed_fields, Ha|apply typed_fields, Hb|exact H].
        apply Forall_map. exact Hv.
      + exact (IHvs i Ha Hb).
    - contradiction.
  Qed.
End Values.

(** C123: the order is total and strict on the values of a type. *)
Theorem C123_order lim t a b c : valid lim t a -> valid lim t b -> valid lim t c ->
  ~ before a a /\ (before a b -> before b c -> before a c) /\ (a = b \/ before a b \/ before b a).
Proof.
  intros Ha Hb Hc. split; [|split].
  - intros H. apply before_lt in H. rewrite val_cmp_refl in H. discriminate.
  - intros H1 H2. apply (ordered_values lim t a c Ha Hc).
    exact (val_cmp_trans _ _ _ (before_lt _ _ H1) (before_lt _ _ H2)).
  - destruct (val_cmp a b) eqn:E.
    + left. exact (val_cmp_eq _ _ E).
    + right. left. exact (ordered_values lim t a b Ha Hb E).
    + right. right. apply (ordered_values lim t b a Hb Ha). rewrite val_cmp_opp, E. reflexivity.
Qed.

Lemma increasing_sorted P key vs : ordered P -> Forall (fun v => P (key v)) vs -> increasing key vs ->
  StronglySorted before (map key vs).
Proof.
  intros HP. induction vs as [|v vs IH]; intros Hv Hi; [constructor|]. inversion Hv as [|? ? H1 H2]; subst.
  destruct Hi as [Hl Hi]. cbn. constructor; [exact (IH H2 Hi)|].
  rewrite Forall_map. rewrite Forall_forall in *. intros u Hu. apply HP; auto.
Qed.

Lemma set_sorted lim t vs : valid lim (TSet CBTree t) (VSeq vs) -> StronglySorted before vs.
Proof.
  intros (Hv & _ & Hk). rewrite <- (map_id vs). apply (increasing_sorted (valid lim t) id); [apply ordered_values|exact Hv|exact Hk].
Qed.

(** The entries of a map and its keys. *)
Definition entries_of (ks ms : list val) : Prop := Forall2 (fun q x => exists v, x = VSeq [q; v]) ks ms.

Lemma map_sorted lim tk tv vs : valid lim (TMap CBTree tk tv) (VSeq vs) ->
  exists ks, entries_of ks vs /\ StronglySorted before ks.
Proof.
  intros (Hv & _ & Hk). exists (map pair_key vs). split.
  - apply pairs_keys. eapply Forall_impl; [|exact Hv]. intros v. unfold valid_pair, is_pair.
    destruct v as [| | | |[|a [|b [|]]]| | | | |]; try contradiction. eauto.
  - apply (increasing_sorted (valid lim tk) pair_key); [apply ordered_values| |exact Hk].
    eapply Forall_impl; [|exact Hv]. intros v. unfold valid_pair.
    destruct v as [| | | |[|a [|b [|]]]| | | | |]; try contradiction. intros [H _]. exact H.
Qed.

(* ------------------------------------------------------------------ *)
(** * B-trees are read and written in order *)

(** C123: what is read as a `BTreeSet` or `BTreeMap` ascends. *)
Theorem C123_read_set h e t bs buf v : valid_host h -> sane h (nlen bs) LDefault (TSet CBTree t) ->
  nlen bs <= max_input h buf -> outcome h e (TSet CBTree t) bs buf (Ok v) ->
  exists vs, v = VSeq vs /\ StronglySorted before vs.
Proof.
  intros VH Hs Hl Hr. pose proof (C24_values_valid_partial h VH e (nlen bs) _ bs buf v Hs (N.le_refl _) Hl Hr) as Hv.
  destruct v; try contradiction. exists vs. split; [reflexivity|]. exact (set_sorted _ _ _ Hv).
Qed.

Theorem C123_read_map h e tk tv bs buf v : valid_host h -> sane h (nlen bs) LDefault (TMap CBTree tk tv) ->
  nlen bs <= max_input h buf -> outcome h e (TMap CBTree tk tv) bs buf (Ok v) ->
  exists vs ks, v = VSeq vs /\ entries_of ks vs /\ StronglySorted before ks.
Proof.
  intros VH Hs Hl Hr. pose proof (C24_values_valid_partial h VH e (nlen bs) _ bs buf v Hs (N.le_refl _) Hl Hr) as Hv.
  destruct v; try contradiction. destruct (map_sorted _ _ _ _ Hv) as (ks & H1 & H2). exists vs, ks. auto.
Qed.

Section Written.
  Context (h : host) (VH : valid_host h) (e : endian) (mem : N -> bytes) (Hmem : forall n, n <= nlen (mem n)).

  Lemma all_parts en vs c : enc_all en vs = Ok c -> exists ps, c = concat ps /\ Forall2 (fun v p => en v = Ok p) vs ps.
  Proof.
    unfold enc_all. intros H. apply rmap_ok in H as (ps & H & ->). exists ps. split; [reflexivity|].
    revert ps H. induction vs as [|v vs IH]; intros ps H; cbn [rmapM] in H.
    - injection H as <-. constructor.
    - apply rbind_ok in H as (p & Hp & H). apply rmap_ok in H as (r & H & ->). constructor; auto.
  Qed.

  (** C123: a `BTreeSet` is written as its elements from the least to the
      greatest, after their number. *)
  Theorem C123_write_set t vs c : wsup h t -> valid (h_lim h) (TSet CBTree t) (VSeq vs) ->
    write_to_vec h mem e (TSet CBTree t) (VSeq vs) = Ok c ->
    StronglySorted before vs
    /\ exists x ps, c = x ++ concat ps /\ length x = 4%nat /\ Forall2 (fun v p => write_to_vec h mem e t v = Ok p) vs ps.
  Proof.
    intros Hs Hv Hc. split; [exact (set_sorted _ _ _ Hv)|].
    apply (write_to_vec_err h VH e (TSet CBTree t) _ Hs Hv mem c Hmem) in Hc. cbn [enc iter_order] in Hc.
    unfold rapp in Hc. apply rbind_ok in Hc as (x & Hx & Hc). apply rmap_ok in Hc as (y & Hy & ->).
    destruct (all_parts _ _ _ Hy) as (ps & -> & Hp). exists x, ps. split; [reflexivity|]. split.
    - cbn [enc_len len0] in Hx. destruct (_ <=? _); [|discriminate]. injection Hx as <-. apply word_length.
    - destruct Hv as [Hv _]. clear -VH Hmem Hs Hv Hp. induction Hp as [|v p vs ps E _ IH]; [constructor|].
      inversion Hv as [|? ? H1 H2]; subst. constructor; [|exact (IH H2)].
      exact (write_to_vec_ok h VH e t v Hs H1 mem p Hmem E).
  Qed.

  (** C123: a `BTreeMap` as its entries by ascending keys, each as a pair. *)
  Theorem C123_write_map tk tv vs c : wsup h tk -> wsup h tv -> valid (h_lim h) (TMap CBTree tk tv) (VSeq vs) ->
    write_to_vec h mem e (TMap CBTree tk tv) (VSeq vs) = Ok c ->
    (exists ks, entries_of ks vs /\ StronglySorted before ks)
    /\ exists x ps, c = x ++ concat ps /\ length x = 4%nat
       /\ Forall2 (fun v p => write_to_vec h mem e (TTuple [tk; tv]) v = Ok p) vs ps.
  Proof.
    intros Hsk Hsv Hv Hc. split; [exact (map_sorted _ _ _ _ Hv)|].
    apply (write_to_vec_err h VH e (TMap CBTree tk tv) _ (conj Hsk Hsv) Hv mem c Hmem) in Hc. cbn [enc iter_order] in Hc.
    unfold rapp in Hc. apply rbind_ok in Hc as (x & Hx & Hc). apply rmap_ok in Hc as (y & Hy & ->).
    destruct (all_parts _ _ _ Hy) as (ps & -> & Hp). exists x, ps. split; [reflexivity|]. split.
    - cbn [enc_len len0] in Hx. destruct (_ <=? _); [|discriminate]. injection Hx as <-. apply word_length.
    - destruct Hv as [Hv _]. clear -VH Hmem Hsk Hsv Hv Hp. induction Hp as [|v p vs ps E _ IH]; [constructor|].
      inversion Hv as [|? ? H1 H2]; subst. constructor; [|exact (IH H2)].
      unfold valid_pair in H1. destruct v as [| | | |[|a [|b [|]]]| | | | |]; try contradiction. destruct H1 as [Ha Hb].
      refine (write_to_vec_ok h VH e (TTuple [tk; tv]) (VSeq [a; b]) (conj Hsk (conj Hsv Logic.I)) (conj Ha (conj Hb Logic.I)) mem p Hmem _).
      unfold enc_pair, rapp in E. apply rbind_ok in E as (p1 & E1 & E). apply rmap_ok in E as (p2 & E2 & ->).
      cbn [enc enc_tuple]. unfold rapp. rewrite E1, E2. cbn. rewrite app_nil_r. reflexivity.
  Qed.
End Written.

(* ------------------------------------------------------------------ *)
(** * Index containers keep the order of the input *)

Section Index.
  Context (key : val -> val).

  Lemma index_insert_old x l : In (key x) (map key l) -> map key (index_insert key x l) = map key l.
  Proof.
    induction l as [|y l IH]; intros H; [destruct H|]. cbn [index_insert]. destruct (val_cmp (key x) (key y)) eqn:E.
    - apply val_cmp_eq in E. cbn. rewrite E. reflexivity.
    - destruct H as [H|H]; [rewrite H, val_cmp_refl in E; discriminate|]. cbn. rewrite (IH H). reflexivity.
    - destruct H as [H|H]; [rewrite H, val_cmp_refl in E; discriminate|]. cbn. rewrite (IH H). reflexivity.
  Qed.

  Lemma listed (q : val) l : In q l \/ ~ In q l.
  Proof.
    induction l as [|y l [IH|IH]]; [right; intros []|left; right; exact IH|].
    destruct (val_cmp q y) eqn:E.
    - left. left. symmetry. apply val_cmp_eq, E.
    - right. intros [->|H]; [rewrite val_cmp_refl in E; discriminate|exact (IH H)].
    - right. intros [->|H]; [rewrite val_cmp_refl in E; discriminate|exact (IH H)].
  Qed.

  Lemma firsts_in xs ys q : firsts xs ys -> In q ys <-> In q xs.
  Proof.
    induction 1 as [|xs ys x _ IH _|xs ys x _ IH Hx]; [reflexivity| |]; rewrite !in_app_iff, IH; [reflexivity|]. cbn. split; [auto|].
    intros [H|[<-|[]]]; assumption.
  Qed.

  Lemma collect_firsts xs : firsts (map key xs) (map key (collect CIndex key xs)).
  Proof.
    induction xs as [|x xs IH] using rev_ind; [constructor|].
    rewrite collect_snoc, map_app. cbn [container_insert map].
    destruct (listed (key x) (map key xs)) as [H|H].
    - rewrite index_insert_old by (apply (firsts_in _ _ _ IH); exact H). apply old_element; assumption.
    - rewrite (index_insert_new key), map_app by (apply Forall_forall; intros u Hu E; apply H, (firsts_in _ _ _ IH);
        apply val_cmp_eq in E; rewrite <- E; apply in_map, Hu).
      apply new_element; assumption.
  Qed.
End Index.

Section ReadIndex.
  Context (h : host) (VH : valid_host h) (e : endian).

  (** C123: an `IndexSet` has its elements where they first stand in the input. *)
  Theorem C123_index_set t n body bw bw' r r' : n < 2 ^ 32 ->
    supported h e bw true LDefault (TSet CIndex t) -> supported h e bw' true LDefault t ->
    minok h t -> no_eof false t ->
    reading h e (TSet CIndex t) (word e 4 n ++ body) bw r -> reading h e (separately (N.to_nat n) t) body bw' r' ->
    forall m xs, r = Ok m -> r' = Ok xs ->
    exists ms us, m = VSeq ms /\ xs = VSeq us /\ nlen us = n /\ firsts us ms.
  Proof.
    intros Hn Hs Hs' Hm Hne Hr Hr' m xs E E'.
    destruct (set_collected h VH e CIndex t n body bw bw' r r' Hn Hs Hs' Hm Hne Hr Hr' m E) as (us & o & Eu & -> & E2).
    rewrite E' in E2. injection E2 as ->. exists (collect CIndex id us), us. split; [reflexivity|]. split; [reflexivity|].
    destruct (drepeat_all (fun _ => True) _ _ (fun _ _ _ _ => Logic.I) _ _ _ Eu) as [_ Hl].
    split; [unfold nlen; lia|]. pose proof (collect_firsts id us) as H. rewrite !map_id in H. exact H.
  Qed.

  (** C123: an `IndexMap` has its keys where they first stand in the input (with
      their last values, C38). *)
  Theorem C123_index_map tk tv n body bw bw' r r' : n < 2 ^ 32 ->
    supported h e bw true LDefault (TMap CIndex tk tv) ->
    supported h e bw' true LDefault tk -> supported h e bw' true LDefault tv ->
    minok h tk -> minok h tv -> no_eof false tk -> no_eof false tv ->
    reading h e (TMap CIndex tk tv) (word e 4 n ++ body) bw r ->
    reading h e (separately (N.to_nat n) (TTuple [tk; tv])) body bw' r' ->
    forall m xs, r = Ok m -> r' = Ok xs ->
    exists ms us ks qs, m = VSeq ms /\ xs = VSeq us /\ nlen us = n
      /\ entries_of ks ms /\ entries_of qs us /\ firsts qs ks
      /\ forall q v, In (VSeq [q; v]) ms <-> last_value q v us.
  Proof.
    intros Hn Hs Hsk Hsv Hmk Hmv Hnk Hnv Hr Hr' m xs E E'.
    destruct (map_collected h VH e CIndex tk tv n body bw bw' r r' Hn Hs Hsk Hsv Hmk Hmv Hnk Hnv Hr Hr' m E) as (us & Hl & Hp & -> & E2).
    destruct (C38_map_partial h VH e CIndex tk tv n body bw bw' r r' Hn Hs Hsk Hsv Hmk Hmv Hnk Hnv Hr Hr') as [_ H38].
    rewrite E' in E2. injection E2 as ->.
    destruct (H38 _ _ E E') as (ms & us' & Em & Eu & _ & _ & Hq). injection Em as <-. injection Eu as <-.
    exists (collect CIndex pair_key us), us, (map pair_key (collect CIndex pair_key us)), (map pair_key us).
    split; [reflexivity|]. split; [reflexivity|]. split; [unfold nlen; lia|].
    split; [apply pairs_keys, (collect_Forall pair_key is_pair CIndex us Hp)|]. split; [apply pairs_keys, Hp|].
    split; [apply collect_firsts|exact Hq].
  Qed.
End ReadIndex.

Print Assumptions C123_order.
Print Assumptions C123_read_set.
Print Assumptions C123_read_map.
Print Assumptions C123_write_set.
Print Assumptions C123_write_map.
Print Assumptions C123_index_set.
Print Assumptions C123_index_map.

(* ------------------------------------------------------------------ *)
(** * Concrete cases *)

(** A set of words: a beginning comes first, capitals before small letters. *)
Definition word_set : ty := TSet CBTree (TStr KString).
Definition words_in : bytes :=
  [x03; x00; x00; x00; x02; x00; x00; x00; x61; x62; x01; x00; x00; x00; x61; x01; x00; x00; x00; x5a].
Example C123_holds :
  sane host64 (nlen words_in) LDefault word_set
  /\ read_from_buffer host64 LE word_set 0 words_in = Ok (VSeq [VBytes [x5a]; VBytes [x61]; VBytes [x61; x62]])
  /\ before (VBytes [x5a]) (VBytes [x61]) /\ before (VBytes [x61]) (VBytes [x61; x62]).
Proof.
  split; [apply saneb_sound; vm_compute; reflexivity|]. split; [vm_compute; reflexivity|].
  split; [apply (bytes_differ []); reflexivity|apply (bytes_shorter [x61])].
Qed.

(** Negative numbers come before positive ones although their bytes do not. *)
Example C123_written_holds :
  wsup host64 (TP I8) /\ valid (h_lim host64) (TSet CBTree (TP I8)) (VSeq [VInt (-1); VInt 1])
  /\ write_to_vec host64 dirty LE (TSet CBTree (TP I8)) (VSeq [VInt (-1); VInt 1]) = Ok [x02; x00; x00; x00; xff; x01].
Proof.
  split; [exact Logic.I|]. split; [apply validb_sound; vm_compute; reflexivity|]. vm_compute. reflexivity.
Qed.

(** 5, 3, 5, 9 in an index set, and with values in an index map. *)
Example C123_index_holds :
  supported host64 LE true true LDefault (TSet CIndex (TP U8)) /\ minok host64 (TP U8) /\ no_eof false (TP U8)
  /\ read_from_buffer host64 LE (TSet CIndex (TP U8)) 0 (word LE 4 4 ++ [x05; x03; x05; x09]) = Ok (VSeq [VInt 5; VInt 3; VInt 9])
  /\ firsts [VInt 5; VInt 3; VInt 5; VInt 9] [VInt 5; VInt 3; VInt 9]
  /\ read_from_buffer host64 LE (TMap CIndex (TP U8) (TP U8)) 0 (word LE 4 3 ++ [x05; x01; x03; x02; x05; x07])
     = Ok (VSeq [VSeq [VInt 5; VInt 7]; VSeq [VInt 3; VInt 2]]).
Proof.
  split; [apply supportedb_sound; vm_compute; reflexivity|]. split; [exact Logic.I|]. split; [apply no_eofb_sound; reflexivity|].
  split; [vm_compute; reflexivity|]. split; [|vm_compute; reflexivity].
  apply (new_element [VInt 5; VInt 3; VInt 5] [VInt 5; VInt 3]); [|intros [H|[H|[H|[]]]]; discriminate].
  apply (old_element [VInt 5; VInt 3]); [|cbn; auto].
  apply (new_element [VInt 5] [VInt 5]); [|intros [H|[]]; discriminate].
  apply (new_element [] []); [constructor|intros []].
Qed.
