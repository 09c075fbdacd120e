(* Writing by two writers that never say how much room they have, related by any
   relation between computations that is closed under doing one thing after the
   other. *)
From Verif Require Export WriteImpl.
From Verif Require Import BaseFacts TyInd.

Section Closed.
  Context {S1 S2 : Type} (h : host) (W : writer S1) (P : writer S2).
  Context (lk : M S1 unit -> M S2 unit -> Prop).
  Context (lk_ext : forall m1 m1' m2 m2', (forall s, m1 s = m1' s) -> (forall s, m2 s = m2' s) -> lk m1' m2' -> lk m1 m2)
          (lk_bind : forall m1 m2 n1 n2, lk m1 n1 -> lk m2 n2 -> lk (m1 ;;; m2) (n1 ;;; n2))
          (lk_stop : forall r : res unit, lk (fun s => (r, s)) (fun s => (r, s)))
          (Hend : wr_endian W = wr_endian P)
          (Hbytes : forall b, lk (wr_bytes W b) (wr_bytes P b))
          (Hu8 : forall n, lk (wr_u8 W n) (wr_u8 P n))
          (Huint : forall w n, lk (wr_uint W w n) (wr_uint P w n))
          (Hcan : forall n s, wr_can W n s = None) (Hcan2 : forall n s, wr_can P n s = None).

  Lemma lk_ret : lk (ret tt) (ret tt).
  Proof. apply lk_stop. Qed.
  Lemma lk_fail er : lk (fail er) (fail er).
  Proof. apply lk_stop. Qed.
  Lemma lk_crash f : lk (crash f) (crash f).
  Proof. apply lk_stop. Qed.

  Ltac leaf := first [apply Hbytes | apply Hu8 | apply Huint | apply lk_ret | apply lk_fail
                     | apply lk_crash].

  Lemma lk_prim p z : lk (write_prim W p z) (write_prim P p z).
  Proof. unfold write_prim. destruct p; leaf. Qed.

  Lemma lk_varint n : lk (write_varint h W n) (write_varint h P n).
  Proof.
    apply (lk_ext _ (if vi_write_length n =? 0 then wr_u8 W (n mod 256)
                     else wr_u8 W (vi_first n) ;;; wr_bytes W (vi_tail (h_native h) n))
                  _ (if vi_write_length n =? 0 then wr_u8 P (n mod 256)
                     else wr_u8 P (vi_first n) ;;; wr_bytes P (vi_tail (h_native h) n))).
    - intros s. unfold write_varint. rewrite Hcan. reflexivity.
    - intros s. unfold write_varint. rewrite Hcan2. reflexivity.
    - destruct (_ =? 0); [leaf|apply lk_bind; leaf].
  Qed.

  Lemma lk_length b n : lk (write_length h W b n) (write_length h P b n).
  Proof.
    destruct b; cbn [write_length]; try (destruct (_ <? _)); try leaf. apply lk_varint.
  Qed.

  Lemma lk_tag b n : lk (write_tag h W b n) (write_tag h P b n).
  Proof. destruct b; cbn [write_tag]; try leaf. apply lk_varint. Qed.

  Lemma lk_each f g vs : (forall v, lk (f v) (g v)) -> lk (write_each f vs) (write_each g vs).
  Proof. intros H. induction vs as [|v vs IH]; cbn [write_each]; [leaf|apply lk_bind; auto]. Qed.

  Lemma lk_slice t f g vs : (forall v, lk (f v) (g v)) ->
    lk (write_slice h W t f vs) (write_slice h P t g vs).
  Proof.
    intros H. unfold write_slice. rewrite Hend. destruct (_ && _)%bool; [leaf|apply lk_each, H].
  Qed.

  Lemma lk_bytes b : lk (write_bytes_slice h W b) (write_bytes_slice h P b).
  Proof. apply lk_slice. intros []; leaf. Qed.

  Lemma lk_ipv6 b : lk (write_ipv6 h W b) (write_ipv6 h P b).
  Proof. unfold write_ipv6. rewrite Hend. apply Hbytes. Qed.

  Lemma lk_scalar s v : lk (write_scalar h W s v) (write_scalar h P s v).
  Proof.
    destruct s; cbn [write_scalar].
    all: try (destruct v; first [leaf | apply lk_prim | apply lk_varint | apply lk_ipv6]; fail).
    - destruct v as [| | | | | | | | |i [|]]; leaf.
    - destruct v as [| | | | | | | | |[|[|i]] [|[] [|]]]; try leaf;
        (apply lk_bind; [leaf|first [apply Huint | apply lk_ipv6]]).
    - destruct v as [| | | |[|[] [|[] [|]]]| | | | |]; try leaf. apply lk_bind; leaf.
    - destruct v as [| | | |[|[] [|[] [|]]]| | | | |]; try leaf.
      destruct (_ <? 0)%Z; [leaf|]. apply lk_bind; leaf.
    - destruct v as [| | | |[|[] [|[] [|]]]| | | | |]; try leaf. apply lk_bind; leaf.
    - destruct v; try leaf. apply lk_each. intros []; try leaf. apply lk_prim.
  Qed.

  Lemma lk_length_body prev lm n : lk (write_length_body h W prev lm n) (write_length_body h P prev lm n).
  Proof.
    destruct lm; cbn [write_length_body]; try apply lk_length; [|leaf].
    destruct (f prev); [|leaf]. destruct (_ =? _); leaf.
  Qed.

  Definition tw (t : ty) : Prop := forall v, lk (write h W t v) (write h P t v).

  Lemma lk_pair tk tv v : tw tk -> tw tv ->
    lk (write_pair (write h W tk) (write h W tv) v) (write_pair (write h P tk) (write h P tv) v).
  Proof.
    intros Hk Hv. unfold write_pair. destruct v as [| | | |[|a [|b [|]]]| | | | |]; try leaf. apply lk_bind; auto.
  Qed.

  (** What the derive macro does with a field, for the field and what is inside. *)
  Definition tw_inner (t : ty) : Prop := forall prev lm vi v,
    lk (write_field_inner h W (write h W) prev lm vi t v) (write_field_inner h P (write h P) prev lm vi t v).

  Lemma lk_fields fs :
    Forall (fun f => tw (snd f) /\ tw_inner (snd f) /\ (forall t', snd f = TOption t' -> tw_inner t')) fs ->
    forall prev vs, lk (write_fields h W (write h W) prev fs vs) (write_fields h P (write h P) prev fs vs).
  Proof.
    induction 1 as [|[a t] fs (H1 & H2 & H3) _ IH]; intros prev [|v vs]; cbn [write_fields]; try leaf.
    cbn [fst snd] in *. destruct (f_skip a); [apply IH|]. apply lk_bind; [|apply IH].
    unfold write_field. apply lk_bind.
    { destruct (f_prefix a); [leaf|apply lk_bytes]. }
    destruct (f_opaque a); [apply H1|].
    destruct t as [| | | | |t'| | | | | | | | |]; try apply H2.
    destruct v; try leaf. apply lk_bind; [leaf|]. apply H3. reflexivity.
  Qed.

  Lemma tw_all t : tw t /\ tw_inner t /\ (forall t', t = TOption t' -> tw_inner t').
  Proof.
    assert (Hnt : forall t, tw t ->
                (forall prev lm vi v, write_field_inner h W (write h W) prev lm vi t v = write h W t v) ->
                            (forall prev lm vi v, write_field_inner h P (write h P) prev lm vi t v = write h P t v) -> tw_inner t).
    { intros t0 H A B prev lm vi v. rewrite A, B. apply H. }
    induction t as [s|k|k t IH|t n IH|t n IH|t IH|t1 t2 IH1 IH2|ts IH|i t IH|k t IH|k tk tv IHk IHv|t IH|d fs IH|d vs IH|]
      using ty_ind'.
    - assert (H : tw (TScalar s)) by (intros v; apply lk_scalar).
      split; [exact H|split; [|discriminate]].
      destruct s; try (apply Hnt; [exact H|reflexivity|reflexivity]).
      intros prev lm vi v. cbn [write_field_inner]. destruct v; try leaf.
      destruct vi; [apply lk_varint|apply H].
    - assert (H : tw (TStr k)).
      { intros v. cbn [write]. destruct v; try leaf. apply lk_bind; [apply lk_length|apply lk_bytes]. }
      split; [exact H|split; [|discriminate]].
      destruct k; try (apply Hnt; [exact H|reflexivity|reflexivity]);
        (intros prev lm vi v; cbn [write_field_inner]; destruct v; try leaf;
         apply lk_bind; [apply lk_length_body|apply lk_bytes]).
    - destruct IH as (Ht & _ & _).
      assert (H : tw (TSeq k t)).
      { intros v. cbn [write]. destruct v; try leaf. apply lk_bind; [apply lk_length|apply lk_slice, Ht]. }
      split; [exact H|split; [|discriminate]].
      destruct k; try (apply Hnt; [exact H|reflexivity|reflexivity]);
        (intros prev lm vi v; cbn [write_field_inner]; destruct v; try leaf;
         apply lk_bind; [apply lk_length_body|apply lk_slice, Ht]).
    - destruct IH as (Ht & _ & _). split; [|split; [|discriminate]].
      + intros v. cbn [write]. destruct v; try leaf. apply lk_each, Ht.
      + intros prev lm vi v. cbn [write_field_inner]. destruct v; try leaf. apply lk_slice, Ht.
    - destruct IH as (Ht & _ & _).
      assert (H : tw (TRefArr t n)).
      { intros v. cbn [write]. destruct v; try leaf. apply lk_each, Ht. }
      split; [exact H|split; [|discriminate]]. apply Hnt; [exact H|reflexivity|reflexivity].
    - destruct IH as (Ht & Hi & _).
      assert (H : tw (TOption t)).
      { intros v. cbn [write]. destruct v; try leaf. apply lk_bind; [leaf|apply Ht]. }
      split; [exact H|split].
      + apply Hnt; [exact H|reflexivity|reflexivity].
      + intros t' E. injection E as <-. exact Hi.
    - destruct IH1 as (Ht1 & _ & _). destruct IH2 as (Ht2 & _ & _).
      assert (H : tw (TResult t1 t2)).
      { intros v. cbn [write]. destruct v; try leaf; (apply lk_bind; [leaf|]); [apply Ht1|apply Ht2]. }
      split; [exact H|split; [|discriminate]]. apply Hnt; [exact H|reflexivity|reflexivity].
    - assert (H : tw (TTuple ts)).
      { intros v. cbn [write]. destruct v; try leaf. revert vs.
        induction IH as [|t ts [IHt _] _ IHts]; intros [|v vs]; cbn [write_tuple]; try leaf.
        apply lk_bind; [apply IHt|apply IHts]. }
      split; [exact H|split; [|discriminate]]. apply Hnt; [exact H|reflexivity|reflexivity].
    - destruct IH as (Ht & _ & _).
      assert (H : tw (TRange i t)).
      { intros v. cbn [write]. destruct v as [| | | |[|a [|b l]]| | | | |]; try leaf. apply lk_bind; apply Ht. }
      split; [exact H|split; [|discriminate]]. apply Hnt; [exact H|reflexivity|reflexivity].
    - destruct IH as (Ht & _ & _).
      assert (H : tw (TSet k t)).
      { intros v. cbn [write]. destruct v; try leaf. apply lk_bind; [apply lk_length|apply lk_each, Ht]. }
      split; [exact H|split; [|discriminate]].
      destruct k; try (apply Hnt; [exact H|reflexivity|reflexivity]);
        (intros prev lm vi v; cbn [write_field_inner]; destruct v; try leaf;
         apply lk_bind; [apply lk_length_body|apply lk_each, Ht]).
    - destruct IHk as (Ht1 & _ & _). destruct IHv as (Ht2 & _ & _).
      assert (H : tw (TMap k tk tv)).
      { intros v. cbn [write]. destruct v; try leaf. apply lk_bind; [apply lk_length|].
        apply lk_each. intros v. apply lk_pair; assumption. }
      split; [exact H|split; [|discriminate]].
      destruct k; try (apply Hnt; [exact H|reflexivity|reflexivity]);
        (intros prev lm vi v; cbn [write_field_inner]; destruct v; try leaf;
         apply lk_bind; [apply lk_length_body|apply lk_each; intros v; apply lk_pair; assumption]).
    - destruct IH as (Ht & _ & _).
      assert (H : tw (TBox t)) by (intros v; cbn [write]; apply Ht).
      split; [exact H|split; [|discriminate]]. apply Hnt; [exact H|reflexivity|reflexivity].
    - assert (H : tw (TStruct d fs)).
      { intros v. cbn [write]. destruct v; try leaf. apply lk_fields. exact IH. }
      split; [exact H|split; [|discriminate]]. apply Hnt; [exact H|reflexivity|reflexivity].
    - assert (H : tw (TEnum d vs)).
      { intros v. cbn [write]. destruct v as [| | | | | | | | |i us]; try leaf. revert i.
        induction IH as [|[tag fs] vs IHf _ IHvs]; intros i; cbn [write_variant]; [leaf|].
        destruct i as [|i]; [|apply IHvs]. apply lk_bind.
        - destruct (e_peek d); [leaf|apply lk_tag].
        - apply lk_fields. exact IHf. }
      split; [exact H|split; [|discriminate]]. apply Hnt; [exact H|reflexivity|reflexivity].
    - assert (H : tw TBot) by (intros v; cbn [write]; leaf).
      split; [exact H|split; [|discriminate]]. apply Hnt; [exact H|reflexivity|reflexivity].
  Qed.

  Theorem both_write t v : lk (write h W t v) (write h P t v).
  Proof. apply tw_all. Qed.
End Closed.
