(* Properties C03, C04, C05, C06, C43, C44: writing. *)
From Verif Require Import Samples Portable.

Section Write.
  Context (h : host) (VH : valid_host h) (e : endian).
  Notation e6 := (ipv6_order h e).
  Notation encode := (encode (h_iter h) e e6).

  (** C03: what `write_to_vec` returns is the encoding of the wire format, fast
      paths or not, whatever the byte order of the host.  IPv6 addresses are in
      the byte order [e6], see [C03_ipv6_refuted]. *)
  Theorem C03_wire_format mem t v b : (forall n, n <= nlen (mem n)) ->
    wsup h t -> valid (h_lim h) t v ->
    (write_to_vec h mem e t v = Ok b <-> encode t v = Ok b).
  Proof.
    intros Hm Hs Hv. split; [apply write_to_vec_err; assumption|apply write_to_vec_ok; assumption].
  Qed.

  (** C04 *)
  Theorem C04_bytes_needed mem t v b : (forall n, n <= nlen (mem n)) ->
    wsup h t -> valid (h_lim h) t v ->
    write_to_vec h mem e t v = Ok b -> bytes_needed h t v = Ok (nlen b).
  Proof.
    intros Hm Hs Hv Hw. apply (bytes_needed_exact h VH e t v b Hs Hv).
    apply (write_to_vec_err h VH e t v Hs Hv mem b Hm Hw).
  Qed.

  (** The same for a stream. *)
  Theorem C04_bytes_needed_stream t v o o' :
    wsup h t -> valid (h_lim h) t v ->
    write_to_stream h e t v o = (Ok tt, o') ->
    exists b, os_out o' = os_out o ++ b /\ bytes_needed h t v = Ok (nlen b).
  Proof.
    intros Hs Hv Hw. pose proof (write_to_stream_spec h VH e t v Hs Hv o) as H. rewrite Hw in H.
    destruct (enc (h_iter h) e e6 len0 t v) as [b|er|f] eqn:E; cbn in H.
    - destruct H as [[_ [Ho _]]|(er & b1 & b2 & _ & C & _)]; [|discriminate].
      exists b. split; [exact Ho|]. apply (bytes_needed_exact h VH e t v b Hs Hv E).
    - destruct H as (er' & y & C & _). discriminate.
    - destruct H as [C|(er' & C & _)]; discriminate.
  Qed.

  (** C05 *)
  Theorem C05_write_to_buffer t v buffer :
    wsup h t -> valid (h_lim h) t v ->
    let (r, buffer') := write_to_buffer h e t v buffer in
    (r = Ok tt <-> exists b, encode t v = Ok b /\ nlen b <= nlen buffer)
    /\ (forall b, encode t v = Ok b -> nlen b <= nlen buffer -> buffer' = b ++ ndrop (nlen b) buffer)
    /\ (forall n, bytes_needed h t v = Ok n -> nlen buffer < n ->
          r = Err (OutputBufferIsTooSmall (nlen buffer) n) /\ buffer' = buffer).
  Proof.
    intros Hs Hv. destruct (encode t v) as [b|er|f] eqn:E.
    - rewrite (write_to_buffer_ok h VH e t v Hs Hv b buffer E).
      rewrite (bytes_needed_exact h VH e t v b Hs Hv E).
      destruct (N.leb_spec (nlen b) (nlen buffer)) as [Hl|Hl].
      + split; [split; [exists b; auto|reflexivity]|]. split.
        * intros b' Hb _. injection Hb as <-. reflexivity.
        * intros n Hn Hl'. injection Hn as <-. lia.
      + split; [split; [discriminate|]|].
        * intros (b' & Hb & Hl'). injection Hb as <-. lia.
        * split; [|intros n Hn _; injection Hn as <-; auto].
          intros b' Hb Hl'. injection Hb as <-. lia.
    - assert (Hb : forall b, enc (h_iter h) e e6 len0 t v <> Ok b) by (unfold Spec.encode in E; congruence).
      pose proof (write_to_buffer_err h VH e t v Hs Hv buffer Hb) as H.
      destruct (write_to_buffer h e t v buffer) as [r buffer'] eqn:Ew. destruct H as [Hr _].
      split; [split; [contradiction|intros (b & C & _); discriminate]|]. split; [discriminate|].
      intros n Hn Hl. unfold write_to_buffer in Ew. rewrite Hn in Ew.
      destruct (N.leb_spec n (nlen buffer)); [lia|]. injection Ew as <- <-. auto.
    - assert (Hb : forall b, enc (h_iter h) e e6 len0 t v <> Ok b) by (unfold Spec.encode in E; congruence).
      pose proof (write_to_buffer_err h VH e t v Hs Hv buffer Hb) as H.
      destruct (write_to_buffer h e t v buffer) as [r buffer'] eqn:Ew. destruct H as [Hr _].
      split; [split; [contradiction|intros (b & C & _); discriminate]|]. split; [discriminate|].
      intros n Hn Hl. unfold write_to_buffer in Ew. rewrite Hn in Ew.
      destruct (N.leb_spec n (nlen buffer)); [lia|]. injection Ew as <- <-. auto.
  Qed.

  (** C06: on a stream that only splits and interrupts writes, the bytes that
      arrive are those of `write_to_vec` and `write_to_buffer`. *)
  Definition well_behaved (sched : list write_event) : Prop :=
    forall ev, In ev sched -> ev = WErr IoInterrupted \/ exists k, ev = WAccept k /\ k <> 0.

  Theorem C06_writers_agree mem t v b o buffer : (forall n, n <= nlen (mem n)) ->
    wsup h t -> valid (h_lim h) t v -> well_behaved (os_sched o) ->
    write_to_vec h mem e t v = Ok b -> nlen b <= nlen buffer ->
    write_to_buffer h e t v buffer = (Ok tt, b ++ ndrop (nlen b) buffer)
    /\ exists o', write_to_stream h e t v o = (Ok tt, o') /\ os_out o' = os_out o ++ b.
  Proof.
    intros Hm Hs Hv Ho Hw Hl. pose proof (write_to_vec_err h VH e t v Hs Hv mem b Hm Hw) as E. split.
    - rewrite (write_to_buffer_ok h VH e t v Hs Hv b buffer E).
      destruct (N.leb_spec (nlen b) (nlen buffer)); [reflexivity|lia].
    - pose proof (write_to_stream_spec h VH e t v Hs Hv o) as H.
      destruct (write_to_stream h e t v o) as [r o']. rewrite E in H. cbn in H.
      destruct H as [[-> [H _]]|(er & b1 & b2 & _ & _ & _ & _ & C)]; [eauto|exfalso].
      apply C. intros ev Hev. destruct (Ho ev Hev) as [->|(k & -> & Hk)]; [reflexivity|].
      cbn. destruct (N.eqb_spec k 0); [contradiction|reflexivity].
  Qed.

  (** Nor does one of them succeed alone. *)
  Theorem C06_writers_fail mem t v o buffer : (forall n, n <= nlen (mem n)) ->
    wsup h t -> valid (h_lim h) t v ->
    (forall b, write_to_vec h mem e t v <> Ok b) ->
    fst (write_to_buffer h e t v buffer) <> Ok tt /\ fst (write_to_stream h e t v o) <> Ok tt.
  Proof.
    intros Hm Hs Hv Hw.
    assert (Hb : forall b, enc (h_iter h) e e6 len0 t v <> Ok b).
    { intros b C. apply (Hw b). apply write_to_vec_ok; assumption. }
    split.
    - pose proof (write_to_buffer_err h VH e t v Hs Hv buffer Hb) as H.
      destruct (write_to_buffer h e t v buffer). apply H.
    - pose proof (write_to_stream_spec h VH e t v Hs Hv o) as H.
      destruct (write_to_stream h e t v o) as [r o']. cbn [fst]. destruct (enc (h_iter h) e e6 len0 t v) as [b|er|f]; cbn in H.
      + exfalso. apply (Hb b). reflexivity.
      + destruct H as (er' & y & -> & _). discriminate.
      + destruct H as [->|(er' & -> & _)]; discriminate.
  Qed.

  (** C43: if a stream fails, the error is returned and a prefix of the encoding
      has arrived. *)
  Theorem C43_failed_writes t v b o r o' :
    wsup h t -> valid (h_lim h) t v -> encode t v = Ok b ->
    write_to_stream h e t v o = (r, o') ->
    exists b1 b2, b = b1 ++ b2 /\ os_out o' = os_out o ++ b1
      /\ ((r = Ok tt /\ b2 = [])
          \/ exists ev er, In ev (os_sched o) /\ event_error ev = Some er /\ r = Err er).
  Proof.
    intros Hs Hv E Hw. pose proof (write_to_stream_spec h VH e t v Hs Hv o) as H. rewrite Hw in H.
    unfold Spec.encode in E. rewrite E in H. cbn in H.
    destruct H as [[-> [Ho _]]|(er & b1 & b2 & -> & -> & (ev & Hin & Hev) & [Ho _] & _)].
    - exists b, []. rewrite app_nil_r. auto.
    - exists b1, b2. split; [reflexivity|]. split; [exact Ho|]. right. eauto.
  Qed.

  (** C44 does not hold, see below; what holds is: the file always holds a prefix
      of the encoding, and all of it if the file system does not fail. *)
  Theorem C44_file_prefix_partial t v b sched r o' :
    wsup h t -> valid (h_lim h) t v -> encode t v = Ok b ->
    write_to_file h None e t v sched = (r, o') ->
    exists b2, b = os_out o' ++ b2
      /\ (well_behaved sched -> r = Ok tt /\ b2 = []).
  Proof.
    intros Hs Hv E Hw. pose proof (write_to_file_spec h VH e t v Hs Hv sched) as H. rewrite Hw in H.
    unfold Spec.encode in E. rewrite E in H. destruct H as (s & H & ->).
    assert (Hwb : well_behaved sched -> osroom (f0 sched) b).
    { intros Hb ev Hev. destruct (Hb ev Hev) as [->|(k & -> & Hk)]; [reflexivity|].
      cbn. destruct (N.eqb_spec k 0); [contradiction|reflexivity]. }
    unfold bw_drop.
    assert (Hr : exists b1 b2, b = b1 ++ b2 /\ fwrep sched s b1 /\ (well_behaved sched -> r = Ok tt /\ b2 = [])).
    { cbn in H. destruct H as [[-> H]|(er & b1 & b2 & -> & -> & _ & H & C)].
      - exists b, []. rewrite app_nil_r. auto.
      - exists b1, b2. split; [reflexivity|]. split; [exact H|]. intros Hb. exfalso. apply C, Hwb, Hb. }
    destruct Hr as (b1 & b2 & -> & Hs1 & Hok).
    pose proof (bw_flush_cases sched s b1 Hs1) as Hf. destruct (bw_flush s) as [r' s']. cbn [snd].
    destruct Hf as [[Hs2 _] Hf]. exists (bw_buf s' ++ b2).
    rewrite app_assoc, Hs2. split; [reflexivity|]. intros Hb. destruct (Hok Hb) as [-> ->]. split; [reflexivity|].
    destruct Hf as [[_ ->]|(er & _ & ev & Hin & Hev)]; [reflexivity|exfalso].
    destruct (Hb ev Hin) as [->|(k & -> & Hk)]; [discriminate|].
    cbn in Hev. destruct (N.eqb_spec k 0); [contradiction|discriminate].
  Qed.
End Write.

(** C03, the host does not matter: without IPv6 addresses and hash tables, all
    hosts write the same bytes. *)
Theorem C03_host_independent_partial h1 h2 e mem1 mem2 t v b :
  valid_host h1 -> valid_host h2 -> (forall n, n <= nlen (mem1 n)) -> (forall n, n <= nlen (mem2 n)) ->
  wsup h1 t -> wsup h2 t -> valid (h_lim h1) t v -> valid (h_lim h2) t v -> portable t ->
  (write_to_vec h1 mem1 e t v = Ok b <-> write_to_vec h2 mem2 e t v = Ok b).
Proof.
  intros H1 H2 M1 M2 S1 S2 V1 V2 Hp.
  rewrite (C03_wire_format h1 H1 e mem1 t v b M1 S1 V1), (C03_wire_format h2 H2 e mem2 t v b M2 S2 V2).
  unfold encode. rewrite (portable_enc (h_iter h1) (h_iter h2) e (ipv6_order h1 e) (ipv6_order h2 e) t len0 v Hp). reflexivity.
Qed.

(** C03 fails for IPv6 addresses: `u128::to_be_bytes` and friends make their wire
    format depend on the byte order of the host. *)
Theorem C03_ipv6_refuted : exists h1 h2 v b1 b2,
  valid_host h1 /\ valid_host h2 /\ valid (h_lim h1) (TScalar SIpv6) v /\ valid (h_lim h2) (TScalar SIpv6) v
  /\ write_to_vec h1 dirty LE (TScalar SIpv6) v = Ok b1
  /\ write_to_vec h2 dirty LE (TScalar SIpv6) v = Ok b2 /\ b1 <> b2.
Proof.
  exists host64, host32be,
    (VBytes [x20; x01; x0d; xb8; x00; x00; x00; x00; x00; x00; x00; x00; x00; x00; x00; x01]). do 2 eexists.
  split; [apply host64_valid|]. split; [apply host32be_valid|]. split; [reflexivity|]. split; [reflexivity|].
  split; [vm_compute; reflexivity|]. split; [vm_compute; reflexivity|]. discriminate.
Qed.

(** C44 fails: the error of the last write is lost when the BufWriter is
    dropped. *)
Theorem C44_lost_error_refuted : exists h e t v b sched o,
  valid_host h /\ wsup h t /\ valid (h_lim h) t v
  /\ encode (h_iter h) e (ipv6_order h e) t v = Ok b
  /\ write_to_file h None e t v sched = (Ok tt, o) /\ os_out o <> b.
Proof.
  exists host64, LE, (TP U32), (VInt 7), [x07; x00; x00; x00], [WErr (IoOther 28)]. eexists.
  split; [apply host64_valid|]. split; [exact I|]. split; [reflexivity|]. split; [reflexivity|].
  split; [vm_compute; reflexivity|]. discriminate.
Qed.

Print Assumptions C03_wire_format.
Print Assumptions C03_host_independent_partial.
Print Assumptions C03_ipv6_refuted.
Print Assumptions C04_bytes_needed.
Print Assumptions C04_bytes_needed_stream.
Print Assumptions C05_write_to_buffer.
Print Assumptions C06_writers_agree.
Print Assumptions C06_writers_fail.
Print Assumptions C43_failed_writes.
Print Assumptions C44_file_prefix_partial.
Print Assumptions C44_lost_error_refuted.

(* ------------------------------------------------------------------ *)
(** * The hypotheses are met *)

Example C03_holds : wsup host64 sample /\ wsup host32be sample
  /\ valid (h_lim host64) sample sample_value /\ valid (h_lim host32be) sample sample_value.
Proof.
  split; [apply sample_covered64|]. split; [apply sample_covered32be|].
  split; [apply sample_value64|apply sample_value32be].
Qed.

(** The bytes of the example, and the same with the hash table iterated the other
    way round. *)
Example C03_bytes64 : sample_bytes64 =
  [x02; x81; x2c; x02; x01; x00; x03; x02; x07; x08; x09;
   x02; x00; x00; x00; x01; x01; x00; x00; x00; x61; x02; x02; x00; x00; x00; x62; x63;
   x02; x00; x00; x00; x02; x01; xfe; xff; x03; x00; x04; x00;
   x53; x48; x01; x04; x00; x05; x00; x00; x80; x3f;
   xac; x20; x00; x00; xff; xff; xff; xff; xff; xff; xff; xff;
   x01; x01; x00; x02; x00].
Proof. vm_compute. reflexivity. Qed.
Example C03_bytes32be : sample_bytes32be =
  [x02; x81; x2c; x02; x01; x00; x03; x02; x07; x08; x09;
   x02; x00; x00; x00; x02; x02; x00; x00; x00; x62; x63; x01; x01; x00; x00; x00; x61;
   x02; x00; x00; x00; x02; x01; xfe; xff; x03; x00; x04; x00;
   x53; x48; x01; x04; x00; x05; x00; x00; x80; x3f;
   xac; x20; x00; x00; xff; xff; xff; xff; xff; xff; xff; xff;
   x01; x01; x00; x02; x00].
Proof. vm_compute. reflexivity. Qed.

Example C05_too_small : write_to_buffer host32 BE (TSeq KVec point) (VSeq [VSeq [VInt 1; VInt 2]]) [x11; x12; x13]
  = (Err (OutputBufferIsTooSmall 3 8), [x11; x12; x13]).
Proof. vm_compute. reflexivity. Qed.
Example C05_larger : write_to_buffer host32 BE (TSeq KVec point) (VSeq [VSeq [VInt 1; VInt 2]])
    [xff; xff; xff; xff; xff; xff; xff; xff; xee; xdd]
  = (Ok tt, [x00; x00; x00; x01; x00; x01; x00; x02; xee; xdd]).
Proof. vm_compute. reflexivity. Qed.

Example C06_schedule : well_behaved [WAccept 1; WErr IoInterrupted; WAccept 3].
Proof. intros ev [<-|[<-|[<-|[]]]]; [right|left|right]; eauto; (eexists; split; [reflexivity|discriminate]). Qed.
Example C06_split : write_to_stream host32 BE (TSeq KVec point) (VSeq [VSeq [VInt 1; VInt 2]])
    {| os_out := [xaa]; os_sched := [WAccept 1; WErr IoInterrupted; WAccept 3] |}
  = (Ok tt, {| os_out := [xaa; x00; x00; x00; x01; x00; x01; x00; x02]; os_sched := [] |}).
Proof. vm_compute. reflexivity. Qed.

Example C43_fails : write_to_stream host32 BE (TSeq KVec point) (VSeq [VSeq [VInt 1; VInt 2]])
    {| os_out := []; os_sched := [WAccept 3; WAccept 2; WErr (IoOther 5)] |}
  = (Err (IoError (IoOther 5)), {| os_out := [x00; x00; x00; x01]; os_sched := [] |}).
Proof. vm_compute. reflexivity. Qed.
