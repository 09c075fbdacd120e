(* Writing to a stream or a file sends the bytes an obedient stream would get,
   or a prefix of them, for every type whatsoever. *)
From Verif Require Export WriterFacts.

(** A writer that keeps everything. *)
Definition Plain (h : host) (e : endian) : writer bytes :=
  {| wr_endian := e; wr_bytes := fun b out => (Ok tt, out ++ b); wr_can := fun _ _ => None;
     wr_u8 := default_u8 (fun b out => (Ok tt, out ++ b));
     wr_uint := default_uint h e (fun b out => (Ok tt, out ++ b)) |}.

Section Trace.
  Context {St : Type} (h : host) (W : writer St)
          (wrep : St -> bytes -> Prop) (werr : error -> Prop) (room : bytes -> Prop)
          (Hroom : forall a b, room (a ++ b) -> room a).
  Notation P := (Plain h (wr_endian W)).

  (** [m0] always adds [b] and gives [r]. *)
  Definition emits (m0 : M bytes unit) (r : res unit) (b : bytes) : Prop :=
    forall out, m0 out = (r, out ++ b).

  (** [m] does the same unless the writer fails, and then stops short. *)
  Definition follows (m : M St unit) (r : res unit) (b : bytes) : Prop :=
    forall s out, wrep s out ->
      (fst (m s) = r /\ wrep (snd (m s)) (out ++ b))
      \/ exists er b1 b2, b = b1 ++ b2 /\ fst (m s) = Err er /\ werr er
                          /\ wrep (snd (m s)) (out ++ b1) /\ ~ room (out ++ b).

  Definition tracks (m : M St unit) (m0 : M bytes unit) : Prop :=
    exists r b, emits m0 r b /\ follows m r b.

  Lemma tracks_bind m1 m2 n1 n2 : tracks m1 n1 -> tracks m2 n2 -> tracks (m1 ;;; m2) (n1 ;;; n2).
  Proof.
    intros (r1 & b1 & E1 & F1) (r2 & b2 & E2 & F2). destruct r1 as [[]|er1|f1].
    - exists r2, (b1 ++ b2). split.
      + intros out. unfold bind. rewrite E1, E2, app_assoc. reflexivity.
      + intros s out Hs. unfold bind. specialize (F1 s out Hs). destruct (m1 s) as [q1 s1]. cbn [fst snd] in F1.
        destruct F1 as [[-> F1]|(er & c1 & c2 & -> & -> & He & Hw & Hr)].
        * specialize (F2 s1 _ F1). destruct (m2 s1) as [q2 s2]. cbn [fst snd] in *. rewrite <- app_assoc in F2.
          destruct F2 as [F2|(er & c1 & c2 & -> & -> & He & Hw & Hr)]; [left; exact F2|right].
          exists er, (b1 ++ c1), c2. rewrite <- !app_assoc in *. auto.
        * right. exists er, c1, (c2 ++ b2). cbn [fst snd]. rewrite <- app_assoc. repeat split; auto.
          intros C. apply Hr. rewrite !app_assoc in *. apply (Hroom _ b2). exact C.
    - exists (Err er1), b1. split.
      + intros out. unfold bind. rewrite E1. reflexivity.
      + intros s out Hs. unfold bind. specialize (F1 s out Hs). destruct (m1 s) as [q1 s1]. cbn [fst snd] in F1.
        destruct F1 as [[-> F1]|(er & c1 & c2 & -> & -> & He & Hw & Hr)]; [left; auto|right].
        exists er, c1, c2. auto.
    - exists (Fault f1), b1. split.
      + intros out. unfold bind. rewrite E1. reflexivity.
      + intros s out Hs. unfold bind. specialize (F1 s out Hs). destruct (m1 s) as [q1 s1]. cbn [fst snd] in F1.
        destruct F1 as [[-> F1]|(er & c1 & c2 & -> & -> & He & Hw & Hr)]; [left; auto|right].
        exists er, c1, c2. auto.
  Qed.

  Lemma tracks_stop (r : res unit) : tracks (fun s => (r, s)) (fun s => (r, s)).
  Proof.
    exists r, []. split; [intros out; rewrite app_nil_r; reflexivity|].
    intros s out Hs. left. rewrite app_nil_r. auto.
  Qed.
  Lemma tracks_ret : tracks (ret tt) (ret tt).
  Proof. apply tracks_stop. Qed.
  Lemma tracks_fail er : tracks (fail er) (fail er).
  Proof. apply tracks_stop. Qed.
  Lemma tracks_crash f : tracks (crash f) (crash f).
  Proof. apply tracks_stop. Qed.

  Context (Hbytes : forall b, tracks (wr_bytes W b) (wr_bytes P b))
          (Hu8 : forall n, tracks (wr_u8 W n) (wr_u8 P n))
          (Huint : forall w n, tracks (wr_uint W w n) (wr_uint P w n))
          (Hcan : forall n s, wr_can W n s = None).

  Ltac leaf := first [apply Hbytes | apply Hu8 | apply Huint | apply tracks_ret | apply tracks_fail
                     | apply tracks_crash].

  Lemma tracks_prim p z : tracks (write_prim W p z) (write_prim P p z).
  Proof. unfold write_prim. destruct p; leaf. Qed.

  Lemma tracks_varint n : tracks (write_varint h W n) (write_varint h P n).
  Proof.
    assert (H : tracks (if vi_write_length n =? 0 then wr_u8 W (n mod 256)
                        else wr_u8 W (vi_first n) ;;; wr_bytes W (vi_tail (h_native h) n))
                       (if vi_write_length n =? 0 then wr_u8 P (n mod 256)
                        else wr_u8 P (vi_first n) ;;; wr_bytes P (vi_tail (h_native h) n))).
    { destruct (_ =? 0); [leaf|apply tracks_bind; leaf]. }
    destruct H as (r & b & E & F). exists r, b. split.
    - intros out. unfold write_varint. cbn [Plain wr_can]. apply E.
    - intros s out Hs. unfold write_varint. rewrite Hcan. apply F, Hs.
  Qed.

  Lemma tracks_length b n : tracks (write_length h W b n) (write_length h P b n).
  Proof.
    destruct b; cbn [write_length]; try (destruct (_ <? _)); try leaf. apply tracks_varint.
  Qed.

  Lemma tracks_tag b n : tracks (write_tag h W b n) (write_tag h P b n).
  Proof. destruct b; cbn [write_tag]; try leaf. apply tracks_varint. Qed.

  Lemma tracks_each f g vs : (forall v, tracks (f v) (g v)) -> tracks (write_each f vs) (write_each g vs).
  Proof. intros H. induction vs as [|v vs IH]; cbn [write_each]; [leaf|apply tracks_bind; auto]. Qed.

  Lemma tracks_slice t f g vs : (forall v, tracks (f v) (g v)) ->
    tracks (write_slice h W t f vs) (write_slice h P t g vs).
  Proof.
    intros H. unfold write_slice. cbn [Plain wr_endian]. destruct (_ && _)%bool; [leaf|apply tracks_each, H].
  Qed.

  Lemma tracks_bytes b : tracks (write_bytes_slice h W b) (write_bytes_slice h P b).
  Proof. apply tracks_slice. intros []; leaf. Qed.

  Lemma tracks_ipv6 b : tracks (write_ipv6 h W b) (write_ipv6 h P b).
  Proof. apply Hbytes. Qed.

  Lemma tracks_scalar s v : tracks (write_scalar h W s v) (write_scalar h P s v).
  Proof.
    destruct s; cbn [write_scalar].
    all: try (destruct v; first [leaf | apply tracks_prim | apply tracks_varint | apply tracks_ipv6]; fail).
    - destruct v as [| | | | | | | | |i [|]]; leaf.
    - destruct v as [| | | | | | | | |[|[|i]] [|[] [|]]]; try leaf;
        (apply tracks_bind; [leaf|first [apply Huint | apply tracks_ipv6]]).
    - destruct v as [| | | |[|[] [|[] [|]]]| | | | |]; try leaf. apply tracks_bind; leaf.
    - destruct v as [| | | |[|[] [|[] [|]]]| | | | |]; try leaf.
      destruct (_ <? 0)%Z; [leaf|]. apply tracks_bind; leaf.
    - destruct v as [| | | |[|[] [|[] [|]]]| | | | |]; try leaf. apply tracks_bind; leaf.
    - destruct v; try leaf. apply tracks_each. intros []; try leaf. apply tracks_prim.
  Qed.

  Lemma tracks_length_body prev lm n : tracks (write_length_body h W prev lm n) (write_length_body h P prev lm n).
  Proof.
    destruct lm; cbn [write_length_body]; try apply tracks_length; [|leaf].
    destruct (f prev); [|leaf]. destruct (_ =? _); leaf.
  Qed.

  Definition tw (t : ty) : Prop := forall v, tracks (write h W t v) (write h P t v).

  Lemma tracks_pair tk tv v : tw tk -> tw tv ->
    tracks (write_pair (write h W tk) (write h W tv) v) (write_pair (write h P tk) (write h P tv) v).
  Proof.
    intros Hk Hv. unfold write_pair. destruct v as [| | | |[|a [|b [|]]]| | | | |]; try leaf. apply tracks_bind; auto.
  Qed.

  (** What the derive macro does with a field, for the field and what is inside. *)
  Definition tw_inner (t : ty) : Prop := forall prev lm vi v,
    tracks (write_field_inner h W (write h W) prev lm vi t v) (write_field_inner h P (write h P) prev lm vi t v).

  Lemma tracks_fields fs :
    Forall (fun f => tw (snd f) /\ tw_inner (snd f) /\ (forall t', snd f = TOption t' -> tw_inner t')) fs ->
    forall prev vs, tracks (write_fields h W (write h W) prev fs vs) (write_fields h P (write h P) prev fs vs).
  Proof.
    induction 1 as [|[a t] fs (H1 & H2 & H3) _ IH]; intros prev [|v vs]; cbn [write_fields]; try leaf.
    cbn [fst snd] in *. destruct (f_skip a); [apply IH|]. apply tracks_bind; [|apply IH].
    unfold write_field. apply tracks_bind.
    { destruct (f_prefix a); [leaf|apply tracks_bytes]. }
    destruct (f_opaque a); [apply H1|].
    destruct t as [| | | | |t'| | | | | | | | |]; try apply H2.
    destruct v; try leaf. apply tracks_bind; [leaf|]. apply H3. reflexivity.
  Qed.

  Lemma tw_all t : tw t /\ tw_inner t /\ (forall t', t = TOption t' -> tw_inner t').
  Proof.
    assert (Hnt : forall t, tw t ->
                (forall prev lm vi v, write_field_inner h W (write h W) prev lm vi t v = write h W t v) ->
                            (forall prev lm vi v, write_field_inner h P (write h P) prev lm vi t v = write h P t v) -> tw_inner t).
    { intros t0 H A B prev lm vi v. rewrite A, B. apply H. }
    induction t as [s|k|k t IH|t n IH|t n IH|t IH|t1 t2 IH1 IH2|ts IH|i t IH|k t IH|k tk tv IHk IHv|t IH|d fs IH|d vs IH|]
      using ty_ind'.
    - assert (H : tw (TScalar s)) by (intros v; apply tracks_scalar).
      split; [exact H|split; [|discriminate]].
      destruct s; try (apply Hnt; [exact H|reflexivity|reflexivity]).
      intros prev lm vi v. cbn [write_field_inner]. destruct v; try leaf.
      destruct vi; [apply tracks_varint|apply H].
    - assert (H : tw (TStr k)).
      { intros v. cbn [write]. destruct v; try leaf. apply tracks_bind; [apply tracks_length|apply tracks_bytes]. }
      split; [exact H|split; [|discriminate]].
      destruct k; try (apply Hnt; [exact H|reflexivity|reflexivity]);
        (intros prev lm vi v; cbn [write_field_inner]; destruct v; try leaf;
         apply tracks_bind; [apply tracks_length_body|apply tracks_bytes]).
    - destruct IH as (Ht & _ & _).
      assert (H : tw (TSeq k t)).
      { intros v. cbn [write]. destruct v; try leaf. apply tracks_bind; [apply tracks_length|apply tracks_slice, Ht]. }
      split; [exact H|split; [|discriminate]].
      destruct k; try (apply Hnt; [exact H|reflexivity|reflexivity]);
        (intros prev lm vi v; cbn [write_field_inner]; destruct v; try leaf;
         apply tracks_bind; [apply tracks_length_body|apply tracks_slice, Ht]).
    - destruct IH as (Ht & _ & _). split; [|split; [|discriminate]].
      + intros v. cbn [write]. destruct v; try leaf. apply tracks_each, Ht.
      + intros prev lm vi v. cbn [write_field_inner]. destruct v; try leaf. apply tracks_slice, Ht.
    - destruct IH as (Ht & _ & _).
      assert (H : tw (TRefArr t n)).
      { intros v. cbn [write]. destruct v; try leaf. apply tracks_each, Ht. }
      split; [exact H|split; [|discriminate]]. apply Hnt; [exact H|reflexivity|reflexivity].
    - destruct IH as (Ht & Hi & _).
      assert (H : tw (TOption t)).
      { intros v. cbn [write]. destruct v; try leaf. apply tracks_bind; [leaf|apply Ht]. }
      split; [exact H|split].
      + apply Hnt; [exact H|reflexivity|reflexivity].
      + intros t' E. injection E as <-. exact Hi.
    - destruct IH1 as (Ht1 & _ & _). destruct IH2 as (Ht2 & _ & _).
      assert (H : tw (TResult t1 t2)).
      { intros v. cbn [write]. destruct v; try leaf; (apply tracks_bind; [leaf|]); [apply Ht1|apply Ht2]. }
      split; [exact H|split; [|discriminate]]. apply Hnt; [exact H|reflexivity|reflexivity].
    - assert (H : tw (TTuple ts)).
      { intros v. cbn [write]. destruct v; try leaf. revert vs.
        induction IH as [|t ts [IHt _] _ IHts]; intros [|v vs]; cbn [write_tuple]; try leaf.
        apply tracks_bind; [apply IHt|apply IHts]. }
      split; [exact H|split; [|discriminate]]. apply Hnt; [exact H|reflexivity|reflexivity].
    - destruct IH as (Ht & _ & _).
      assert (H : tw (TRange i t)).
      { intros v. cbn [write]. destruct v as [| | | |[|a [|b l]]| | | | |]; try leaf. apply tracks_bind; apply Ht. }
      split; [exact H|split; [|discriminate]]. apply Hnt; [exact H|reflexivity|reflexivity].
    - destruct IH as (Ht & _ & _).
      assert (H : tw (TSet k t)).
      { intros v. cbn [write]. destruct v; try leaf. apply tracks_bind; [apply tracks_length|apply tracks_each, Ht]. }
      split; [exact H|split; [|discriminate]].
      destruct k; try (apply Hnt; [exact H|reflexivity|reflexivity]);
        (intros prev lm vi v; cbn [write_field_inner]; destruct v; try leaf;
         apply tracks_bind; [apply tracks_length_body|apply tracks_each, Ht]).
    - destruct IHk as (Ht1 & _ & _). destruct IHv as (Ht2 & _ & _).
      assert (H : tw (TMap k tk tv)).
      { intros v. cbn [write]. destruct v; try leaf. apply tracks_bind; [apply tracks_length|].
        apply tracks_each. intros v. apply tracks_pair; assumption. }
      split; [exact H|split; [|discriminate]].
      destruct k; try (apply Hnt; [exact H|reflexivity|reflexivity]);
        (intros prev lm vi v; cbn [write_field_inner]; destruct v; try leaf;
         apply tracks_bind; [apply tracks_length_body|apply tracks_each; intros v; apply tracks_pair; assumption]).
    - destruct IH as (Ht & _ & _).
      assert (H : tw (TBox t)) by (intros v; cbn [write]; apply Ht).
      split; [exact H|split; [|discriminate]]. apply Hnt; [exact H|reflexivity|reflexivity].
    - assert (H : tw (TStruct d fs)).
      { intros v. cbn [write]. destruct v; try leaf. apply tracks_fields. exact IH. }
      split; [exact H|split; [|discriminate]]. apply Hnt; [exact H|reflexivity|reflexivity].
    - assert (H : tw (TEnum d vs)).
      { intros v. cbn [write]. destruct v as [| | | | | | | | |i us]; try leaf. revert i.
        induction IH as [|[tag fs] vs IHf _ IHvs]; intros i; cbn [write_variant]; [leaf|].
        destruct i as [|i]; [|apply IHvs]. apply tracks_bind.
        - destruct (e_peek d); [leaf|apply tracks_tag].
        - apply tracks_fields. exact IHf. }
      split; [exact H|split; [|discriminate]]. apply Hnt; [exact H|reflexivity|reflexivity].
    - assert (H : tw TBot) by (intros v; cbn [write]; leaf).
      split; [exact H|split; [|discriminate]]. apply Hnt; [exact H|reflexivity|reflexivity].
  Qed.

  Theorem write_tracks t v : tracks (write h W t v) (write h P t v).
  Proof. apply tw_all. Qed.
End Trace.

(* ------------------------------------------------------------------ *)
(** * Streams and files *)

Lemma tracks_wsim {St} wrep werr room (m : M St unit) b :
  wsim wrep werr room m (Ok b) -> tracks wrep werr room m (fun out => (Ok tt, out ++ b)).
Proof. intros H. exists (Ok tt), b. split; [intros out; reflexivity|]. intros s out Hs. exact (H s out Hs). Qed.

Lemma stream_tracks h e s0 t v :
  tracks (osrep s0) (oserr s0) (osroom s0) (write h (WritingCollector h e) t v) (write h (Plain h e) t v).
Proof.
  apply (write_tracks h (WritingCollector h e)); auto.
  - intros b. apply tracks_wsim, os_write_sim.
  - intros n. apply tracks_wsim, os_write_sim.
  - intros w n. apply tracks_wsim, os_write_sim.
Qed.

Lemma file_tracks h e sched t v :
  tracks (fwrep sched) (oserr (f0 sched)) (osroom (f0 sched)) (write h (FileCollector h e) t v) (write h (Plain h e) t v).
Proof.
  apply (write_tracks h (FileCollector h e)); auto.
  - intros b. apply tracks_wsim, bw_write_sim.
  - intros n. apply tracks_wsim, bw_write_sim.
  - intros w n. apply tracks_wsim, bw_write_sim.
Qed.
