(* C43, C06 and C44 for streams and files, for every type and every value, whatever
   their layout or attributes. *)
From Verif Require Import Samples WriteTrace PropWrite PropBulk.

(** A stream that takes everything it is given. *)
Definition obedient : ostream := {| os_out := []; os_sched := [] |}.

Section Stream.
  Context (h : host) (e : endian).

  Lemma obedient_emits t v r0 o0 r b :
    emits (write h (Plain h e) t v) r b -> follows (osrep obedient) (oserr obedient) (osroom obedient)
      (write h (WritingCollector h e) t v) r b ->
    write_to_stream h e t v obedient = (r0, o0) -> r0 = r /\ os_out o0 = b.
  Proof.
    intros _ F E. specialize (F obedient [] (os_start_rep obedient)).
    unfold write_to_stream in E. rewrite E in F. cbn [fst snd app] in F.
    destruct F as [[<- [F _]]|(er & b1 & b2 & _ & _ & (ev & [] & _) & _)]. auto.
  Qed.

  (** A stream that fails has received a prefix of what an obedient stream
      receives, and its error is returned; otherwise it has received
      the same and the result is the same. *)
  Theorem C43_any_type t v o r o' r0 o0 :
    write_to_stream h e t v obedient = (r0, o0) ->
    write_to_stream h e t v o = (r, o') ->
    (r = r0 /\ os_out o' = os_out o ++ os_out o0)
    \/ exists ev er b1 b2, In ev (os_sched o) /\ event_error ev = Some er /\ r = Err er
         /\ os_out o0 = b1 ++ b2 /\ os_out o' = os_out o ++ b1.
  Proof.
    intros E0 E. destruct (stream_tracks h e obedient t v) as (r1 & b & Em & F).
    destruct (obedient_emits t v r0 o0 r1 b Em F E0) as [-> <-]. clear F E0.
    destruct (stream_tracks h e o t v) as (r2 & b & Em2 & F).
    assert (H : (r1, [] ++ os_out o0) = (r2, [] ++ b)) by (rewrite <- Em, <- Em2; reflexivity).
    injection H as -> <-.
    specialize (F o [] (os_start_rep o)). unfold write_to_stream in E. rewrite E in F. cbn [fst snd app] in F.
    destruct F as [[-> [F _]]|(er & b1 & b2 & -> & -> & (ev & Hin & Hev) & [F _] & _)].
    - left. auto.
    - right. exists ev, er, b1, b2. auto.
  Qed.

  (** However a stream splits the writes, it receives the same bytes. *)
  Theorem C06_any_schedule t v o1 o2 r1 r2 o1' o2' :
    well_behaved (os_sched o1) -> well_behaved (os_sched o2) ->
    write_to_stream h e t v o1 = (r1, o1') -> write_to_stream h e t v o2 = (r2, o2') ->
    r1 = r2 /\ exists b, os_out o1' = os_out o1 ++ b /\ os_out o2' = os_out o2 ++ b.
  Proof.
    intros W1 W2 E1 E2. destruct (write_to_stream h e t v obedient) as [r0 o0] eqn:E0.
    assert (Hno : forall o, well_behaved (os_sched o) -> forall ev er, In ev (os_sched o) -> event_error ev = Some er -> False).
    { intros o Hw ev er Hin He. destruct (Hw ev Hin) as [->|(k & -> & Hk)]; [discriminate|].
      cbn in He. destruct (N.eqb_spec k 0); [contradiction|discriminate]. }
    destruct (C43_any_type t v o1 r1 o1' r0 o0 E0 E1) as [[-> H1]|(ev & er & _ & _ & Hin & He & _)];
      [|exfalso; eapply (Hno o1); eassumption].
    destruct (C43_any_type t v o2 r2 o2' r0 o0 E0 E2) as [[-> H2]|(ev & er & _ & _ & Hin & He & _)];
      [|exfalso; eapply (Hno o2); eassumption].
    split; [reflexivity|]. exists (os_out o0). auto.
  Qed.

  (** A file ends up with a prefix of what an obedient stream receives, and with
      all of it, and the same result, if the file system does not fail. *)
  Theorem C44_any_type_partial t v sched r o' r0 o0 :
    write_to_stream h e t v obedient = (r0, o0) ->
    write_to_file h None e t v sched = (r, o') ->
    exists b2, os_out o0 = os_out o' ++ b2
      /\ (r = r0 \/ exists ev er, In ev sched /\ event_error ev = Some er /\ r = Err er)
      /\ (well_behaved sched -> r = r0 /\ b2 = []).
  Proof.
    intros E0 E. destruct (stream_tracks h e obedient t v) as (r1 & b & Em & F).
    destruct (obedient_emits t v r0 o0 r1 b Em F E0) as [-> <-]. clear F E0.
    destruct (file_tracks h e sched t v) as (r2 & b & Em2 & F).
    assert (H : (r1, [] ++ os_out o0) = (r2, [] ++ b)) by (rewrite <- Em, <- Em2; reflexivity).
    injection H as -> <-.
    assert (Hno : well_behaved sched -> forall ev er, In ev sched -> event_error ev = Some er -> False).
    { intros Hw ev er Hin He. destruct (Hw ev Hin) as [->|(k & -> & Hk)]; [discriminate|].
      cbn in He. destruct (N.eqb_spec k 0); [contradiction|discriminate]. }
    specialize (F {| bw_buf := []; bw_inner := {| os_out := []; os_sched := sched |} |} []).
    unfold write_to_file in E. destruct (write h (FileCollector h e) t v _) as [q s] eqn:Ew. injection E as <- <-.
    cbn [fst snd app] in F.
    assert (Hs : exists b1 b2, os_out o0 = b1 ++ b2 /\ fwrep sched s b1
      /\ (q = r2 \/ exists ev er, In ev sched /\ event_error ev = Some er /\ q = Err er)
      /\ (well_behaved sched -> q = r2 /\ b2 = [])).
    { destruct F as [[-> F]|(er & b1 & b2 & Hb & -> & (ev & Hin & Hev) & F & _)].
      { split; [reflexivity|apply incl_refl]. }
      - exists (os_out o0), []. rewrite app_nil_r. auto.
      - exists b1, b2. split; [assumption|]. split; [assumption|]. split; [right; eauto|].
        intros Hw. exfalso. eapply Hno; eassumption. }
    destruct Hs as (b1 & b2 & Hb & Hs1 & Hr & Hok). unfold bw_drop.
    pose proof (bw_flush_cases sched s b1 Hs1) as Hf. destruct (bw_flush s) as [r' s']. cbn [snd].
    destruct Hf as [[Hs2 _] Hf]. exists (bw_buf s' ++ b2).
    rewrite app_assoc, Hs2. split; [assumption|]. split; [assumption|]. intros Hw.
    destruct (Hok Hw) as [-> ->]. split; [reflexivity|].
    destruct Hf as [[_ ->]|(er & _ & ev & Hin & Hev)]; [reflexivity|exfalso; eapply Hno; eassumption].
  Qed.
End Stream.

Print Assumptions C43_any_type.
Print Assumptions C06_any_schedule.
Print Assumptions C44_any_type_partial.

(* ------------------------------------------------------------------ *)
(** * The hypotheses are met *)

(* A type outside the other writing theorems: a transparent struct with `varint`
   in a vector. *)
Definition ids : ty := TSeq KVec varint_id.
Definition some_ids : val := VSeq [VSeq [VInt 300]; VSeq [VInt 5]].

Example ids_excluded : ~ wsup host64 ids.
Proof.
  intros [H _]. specialize (H eq_refl). destruct H as [H _].
  destruct (H eq_refl eq_refl) as [[[C _] _] _]. discriminate.
Qed.

Example C43_obedient : write_to_stream host64 BE ids some_ids obedient
  = (Ok tt, {| os_out := [x00; x00; x00; x02; x81; x2c; x05]; os_sched := [] |}).
Proof. vm_compute. reflexivity. Qed.
Example C43_partial : write_to_stream host64 BE ids some_ids
    {| os_out := [xaa]; os_sched := [WAccept 3; WErr IoInterrupted; WAccept 1; WAccept 1; WErr (IoOther 5)] |}
  = (Err (IoError (IoOther 5)), {| os_out := [xaa; x00; x00; x00; x02; x81]; os_sched := [] |}).
Proof. vm_compute. reflexivity. Qed.
(** A value that cannot be written: the length has been sent by then. *)
Example C43_unwritable :
  write_to_stream host64 LE (TSeq KVec (TScalar SSystemTime)) (VSeq [VSeq [VInt (-5); VInt 0]])
    {| os_out := []; os_sched := [WAccept 3] |}
  = (Err InvalidSystemTime, {| os_out := [x01; x00; x00; x00]; os_sched := [] |}).
Proof. vm_compute. reflexivity. Qed.
Example C44_whole_file : write_to_file host64 None BE ids some_ids [WAccept 2; WErr IoInterrupted; WAccept 1]
  = (Ok tt, {| os_out := [x00; x00; x00; x02; x81; x2c; x05]; os_sched := [] |}).
Proof. vm_compute. reflexivity. Qed.
