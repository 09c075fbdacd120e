(* Property C130: streams with their own `read_exact`. *)
From Verif Require Import Closed OwnExact PropAnyRead RingFacts LockReaders Replay Hosts Samples PropErrors PropWait Entry Api.

(** The rules of `Read::read_exact`: if it succeeds the whole slice has been filled,
    with nothing that was there before; no panics; errors are errors of `std::io`,
    and an interruption is not one of them.  What an error leaves of the stream is
    not said. *)
Record exact_rules {S} (exact : any_exact_read S) : Prop := {
  xr_fills : forall s slice slice', nlen slice = nlen slice' ->
    let '(r, out, s1) := exact s slice in
    let '(r', out', s1') := exact s slice' in
    r = r' /\ s1 = s1' /\ nlen out = nlen slice /\ (r = Ok tt -> out = out');
  xr_calm : forall s slice f, fst (fst (exact s slice)) <> Fault f;
  xr_io : forall s slice er, fst (fst (exact s slice)) = Err er -> exists k, er = IoError k /\ k <> IoInterrupted
}.
Arguments xr_fills {S exact} _.
Arguments xr_calm {S exact} _.
Arguments xr_io {S exact} _.

Section Yields.
  Context {S : Type} (read : any_read S) (exact : any_exact_read S).

  (** What successive calls of `read` and `read_exact` did.  A failed `read_exact`
      is an error of the stream, also at the end of the input. *)
  Inductive yields : S -> list read_event -> bytes -> S -> Prop :=
  | yields_nothing s : yields s [] [] s
  | yields_read s slice n out s' evs b s'' :
      slice <> [] -> read s slice = (Ok n, out, s') -> yields s' evs b s'' ->
      yields s (RChunk n :: evs) (ntake n out ++ b) s''
  | yields_error s slice k out s' evs b s'' :
      slice <> [] -> read s slice = (Err (IoError k), out, s') -> yields s' evs b s'' ->
      yields s (RErr k :: evs) b s''
  | yields_exact s slice out s' evs b s'' :
      slice <> [] -> exact s slice = (Ok tt, out, s') -> yields s' evs b s'' ->
      yields s (RChunk (nlen slice) :: evs) (out ++ b) s''
  | yields_failure s slice k out s' evs b s'' :
      slice <> [] -> exact s slice = (Err (IoError k), out, s') -> yields s' evs b s'' ->
      yields s (RErr k :: evs) b s''.

  (** [over]: the end has been reported and nothing will come any more. *)
  Record ends_exactly (over : S -> Prop) : Prop := {
    ex_end : forall s slice out s', slice <> [] -> read s slice = (Ok 0, out, s') -> over s';
    ex_stays : forall s slice r out s', over s -> read s slice = (r, out, s') -> over s' /\ forall n, r = Ok n -> n = 0;
    ex_stays_exact : forall s slice r out s', over s -> slice <> [] -> exact s slice = (r, out, s') -> over s' /\ r <> Ok tt
  }.

  (** `read_exact` as one call that fills everything. *)
  Definition at_once : any_read S := fun s slice =>
    match slice with
    | [] => (Ok 0, [], s)
    | _ => let '(r, out, s') := exact s slice in (rmap (fun _ => nlen slice) r, out, s')
    end.

  Context (h : host) (mem : N -> bytes) (fuel : nat).
  Context (KR : keeps_rules read) (XR : exact_rules exact) (Hm : forall n, n <= nlen (mem n)).

  Lemma at_once_rules : keeps_rules at_once.
  Proof.
    constructor.
    - intros s slice slice' H. unfold at_once. destruct slice as [|x q]; destruct slice' as [|x' q']; try discriminate H.
      + split; [reflexivity|]. split; [reflexivity|]. split; [reflexivity|]. intros ? [= <-]. split; [apply N.le_refl|reflexivity].
      + pose proof (xr_fills XR s _ _ H) as HF. set (sl := x :: q) in *. set (sl' := x' :: q') in *.
        destruct (exact s sl) as [[r out] s1]. destruct (exact s sl') as [[r' out'] s1'].
        destruct HF as (-> & -> & Ho & He). rewrite <- H.
        split; [reflexivity|]. split; [reflexivity|]. split; [exact Ho|]. intros n.
        destruct r' as [[]|er|f]; try discriminate. intros [= <-]. split; [apply N.le_refl|rewrite (He eq_refl); reflexivity].
    - intros s slice f. unfold at_once. destruct slice as [|x q]; [discriminate|]. pose proof (xr_calm XR s (x :: q) f) as H.
      destruct (exact s (x :: q)) as [[r out] s1]. cbn [fst] in *. destruct r; cbn [rmap]; congruence.
    - intros s slice er. unfold at_once. destruct slice as [|x q]; [discriminate|]. pose proof (xr_io XR s (x :: q)) as H.
      destruct (exact s (x :: q)) as [[r out] s1]. cbn [fst] in *. destruct r as [|er'|]; cbn [rmap]; try discriminate.
      intros [= <-]. destruct (H er' eq_refl) as (k & -> & _). eauto.
  Qed.

  Lemma served_yields s evs b s' : served read at_once s evs b s' -> yields s evs b s'.
  Proof.
    assert (Hx : forall s slice r out s', slice <> [] -> at_once s slice = (r, out, s') ->
      exists r0, exact s slice = (r0, out, s') /\ r = rmap (fun _ => nlen slice) r0 /\ nlen out = nlen slice).
    { intros s0 [|x q] r out s1 Hs E; [congruence|]. unfold at_once in E. pose proof (xr_fills XR s0 (x :: q) _ eq_refl) as HF.
      destruct (exact s0 (x :: q)) as [[r0 out0] s2]. injection E as <- <- <-. destruct HF as (_ & _ & Ho & _). eauto. }
    induction 1 as [s|s slice n out s' evs b s'' Hs [E|E] H IH|s slice k out s' evs b s'' Hs [E|E] H IH].
    - constructor.
    - eapply yields_read; eassumption.
    - destruct (Hx _ _ _ _ _ Hs E) as (r0 & Er & En & Ho). destruct r0 as [[]|er|f]; try discriminate. injection En as ->.
      rewrite <- Ho, take_all by lia. rewrite Ho. eapply yields_exact; eassumption.
    - eapply yields_error; eassumption.
    - destruct (Hx _ _ _ _ _ Hs E) as (r0 & Er & En & Ho). destruct r0 as [[]|er|f]; try discriminate. injection En as <-.
      eapply yields_failure; eassumption.
  Qed.

  Lemma exact_at_once s n : n <> 0 -> any_exact at_once 1 s [] (ntake n (mem n)) =
    (let '(r, out, i) := exact s (ntake n (mem n)) in (rmap (fun _ => out) r, i)).
  Proof.
    intros Hn. assert (Hl : nlen (ntake n (mem n)) = n) by (rewrite nlen_take; pose proof (Hm n); lia).
    destruct (ntake n (mem n)) as [|x q]; [destruct Hn; rewrite <- Hl; reflexivity|]. cbn [any_exact]. unfold at_once.
    set (sl := x :: q) in *. pose proof (xr_fills XR s sl _ eq_refl) as HF. pose proof (xr_calm XR s sl) as Hf. pose proof (xr_io XR s sl) as Hi.
    destruct (exact s sl) as [[r out] i]. destruct HF as (_ & _ & Ho & _). cbn [fst] in *.
    destruct r as [[]|er|f]; cbn [rmap].
    - rewrite Hl in *. apply N.eqb_neq in Hn. rewrite Hn, Ho, N.leb_refl. rewrite take_all by lia. rewrite drop_all by lia. reflexivity.
    - destruct (Hi er eq_refl) as (k & -> & Hk). destruct k; congruence || reflexivity.
    - destruct (Hf f eq_refl).
  Qed.

  Lemma own_drain_eq n s : own_drain exact mem n s = ar_drain at_once mem 1 n s.
  Proof.
    unfold own_drain, ar_drain. set (len := N.min (cb_len (ar_buffer s)) n). unfold bind.
    match goal with |- match ?m s with _ => _ end = _ => destruct (m s) as [[first|er|f] s''] end; [|reflexivity|reflexivity].
    destruct (N.eqb_spec (n - len) 0) as [E|E]; [reflexivity|]. rewrite (exact_at_once _ _ E).
    destruct (exact (ar_stream s'') (ntake (n - len) (mem (n - len)))) as [[r out] i]. destruct r; reflexivity.
  Qed.

  Lemma own_mixed n s : own_read h read exact mem n s = mixed_read read at_once h mem 1 n s.
  Proof.
    unfold own_read, mixed_read, own_read_slow. destruct (n <=? cb_len (ar_buffer s)); [reflexivity|].
    cbv zeta. unfold bind.
    match goal with |- match ?m s with _ => _ end = _ => destruct (m s) as [[[]|er|f] s'] end; [|reflexivity|reflexivity].
    apply own_drain_eq.
  Qed.
End Yields.

From Verif Require Import PropSafe CalmCheck PropAnyStream.

Section Streams.
  Context {S : Type} (read : any_read S) (KR : keeps_rules read) (exact : any_exact_read S) (XR : exact_rules exact).
  Context (h : host) (VH : valid_host h) (mem : N -> bytes) (Hm : forall n, n <= nlen (mem n)) (Hroom : small_memory h mem).
  Context (fuel : nat) (e : endian) (buffering : bool).
  Notation e6 := (ipv6_order h e).
  Notation decode := (decode (h_lim h) e e6).

  (** C130: such a stream is as good as the list of what its calls did. *)
  Theorem C130_replay t s r s' : no_eof false t ->
    read_from_own h read exact mem fuel e buffering t s = (r, s') -> r <> Fault Diverges ->
    exists evs b, yields read exact s evs b s'
      /\ (forall v, r = Ok v -> ~ In (RChunk 0) evs)
      /\ (forall k, In (RErr k) evs -> k <> IoInterrupted -> r = Err (IoError k))
      /\ let (r2, s2) := deserialize h mem buffering e t {| is_rest := b; is_sched := evs |} in
         r2 = r /\ sr_stream s2 = {| is_rest := []; is_sched := [] |}.
  Proof.
    intros Ht E Hr. pose proof (no_eof_uncaught t LDefault false ltac:(discriminate) Ht) as Hl.
    destruct (read_from_replayed read (at_once exact) h mem fuel 1 False (fun _ => False) KR (at_once_rules exact XR) Hm Hroom
      ltac:(intros ? ? ? ? ? []) ltac:(intros []) (own_read h read exact mem) e buffering t s r s'
      (own_mixed read exact h mem XR Hm) Hl E) as [D|(evs & b & Hd & [H1 H2] & Hp)]; [contradiction|].
    exists evs, b. split; [exact (served_yields read exact XR _ _ _ _ Hd)|]. split; [intros v -> Hin; apply (H1 Hin); eauto|]. split; [apply H2; auto|].
    specialize (Hp [] [] (fun _ => eq_refl)). rewrite !app_nil_r in Hp.
    destruct (deserialize _ _ _ _ _ _) as [r2 s2]. destruct Hp as [[[] _]|Hp]. exact Hp.
  Qed.

  (** C130: what is read is what the delivered bytes mean, or the error the stream
      reported. *)
  Theorem C130_value_partial pk t s r s' : supported h e false pk LDefault t -> no_eof false t ->
    read_from_own h read exact mem fuel e buffering t s = (r, s') -> r <> Fault Diverges ->
    exists evs b, yields read exact s evs b s'
      /\ (nlen b <= l_usize_max (h_lim h) ->
          (exists k, r = Err (IoError k) /\ In (RErr k) evs)
          \/ (agrees (decode t b) r
              /\ forall v, r = Ok v -> exists rest, decode t b = DOk v (Some rest)
                                                    /\ (buffering = false -> pk = false -> rest = []))).
  Proof.
    intros Hs Ht E Hr. destruct (C130_replay t s r s' Ht E Hr) as (evs & b & Hd & _ & Hk & Hp).
    exists evs, b. split; [exact Hd|]. intros Hb.
    assert (Hdec : In (RErr IoUnexpectedEof) evs \/ ~ In (RErr IoUnexpectedEof) evs).
    { clear. induction evs as [|[n|[]] evs IH]; [right; intros []|..]; try (destruct IH; [left; right; assumption|right; intros [|]; congruence]).
      left. left. reflexivity. }
    destruct Hdec as [Hin|Hno]; [left; exists IoUnexpectedEof; split; [apply Hk; congruence|exact Hin]|].
    pose proof (stream_agrees h VH e mem Hm buffering pk {| is_rest := b; is_sched := evs |} Hno Hb t Hs) as H.
    destruct (deserialize _ _ _ _ _ _) as [r2 s2]. destruct Hp as [-> Hst].
    destruct H as [(k & Ek & Hin & _)|[Ha Hrest]]; [left; eauto|]. right. split; [exact Ha|]. intros v ->.
    cbn [is_rest is_sched] in *. pose proof (decode_spec (h_lim h) e e6 t b Ht) as Hun.
    destruct (decode t b) as [v' o| |er sure|f sure|] eqn:Ed.
    - injection Ha as ->. destruct (decode_ok_rest (h_lim h) e e6 t b v' o Ht Ed) as (c & rest & -> & _). exists rest.
      split; [reflexivity|]. intros Hbf Hpk. destruct (Hrest v' rest eq_refl) as (_ & _ & H3). rewrite <- (H3 Hbf Hpk), Hst. reflexivity.
    - destruct Ha as (? & ? & _). discriminate.
    - destruct Ha as [[? _]|(_ & ? & ? & _)]; discriminate.
    - destruct Ha as [?|(_ & ? & ? & _)]; discriminate.
    - destruct (Hun eq_refl).
  Qed.

  (** C130: if nothing follows the end `read` reports, this holds for every type. *)
  Theorem C130_ends_partial over t s r s' : ends_exactly read exact over ->
    read_from_own h read exact mem fuel e buffering t s = (r, s') -> r <> Fault Diverges ->
    exists evs b, yields read exact s evs b s'
      /\ (In (RChunk 0) evs -> over s')
      /\ let (r2, s2) := deserialize h mem buffering e t {| is_rest := b; is_sched := evs |} in
         r2 = Fault Diverges \/ (r2 = r /\ sr_stream s2 = {| is_rest := []; is_sched := [] |}).
  Proof.
    intros EG E Hr. pose proof (anything_lendable t) as Hl.
    assert (H0 : forall s slice r out s', slice <> [] -> at_once exact s slice = (r, out, s') ->
      exists r0, exact s slice = (r0, out, s') /\ r = rmap (fun _ => nlen slice) r0).
    { intros s0 [|x q] r0 out s1 Hs E0; [congruence|]. unfold at_once in E0.
      destruct (exact s0 (x :: q)) as [[r1 out0] s2]. injection E0 as <- <- <-. eauto. }
    destruct (read_from_replayed read (at_once exact) h mem fuel 1 True over KR (at_once_rules exact XR) Hm Hroom)
      with (rd := own_read h read exact mem) (e := e) (buffering := buffering) (t := t) (s := s) (r := r) (s' := s')
      as [D|(evs & b & Hd & [H1 H2] & Hp)]; [| |exact (own_mixed read exact h mem XR Hm)|exact Hl|exact E|contradiction|].
    - intros s0 slice r0 out s1 Ho [Hx|Hx]; [exact (ex_stays _ _ _ EG s0 slice r0 out s1 Ho Hx)|].
      destruct slice as [|x q]; [injection Hx as <- <- <-; split; [exact Ho|congruence]|].
      destruct (H0 s0 (x :: q) r0 out s1 ltac:(discriminate) Hx) as (r1 & Ex & ->).
      destruct (ex_stays_exact _ _ _ EG s0 (x :: q) r1 out s1 Ho ltac:(discriminate) Ex) as [Ho' Hn]. split; [exact Ho'|].
      intros n. destruct r1 as [[]|er|f]; try discriminate. congruence.
    - intros _ s0 slice out s1 Hn [Hx|Hx]; [exact (ex_end _ _ _ EG s0 slice out s1 Hn Hx)|].
      destruct (H0 s0 slice (Ok 0) out s1 Hn Hx) as (r1 & Ex & En). destruct r1 as [[]|er|f]; try discriminate.
      injection En as En. destruct slice; [congruence|]. unfold nlen in En. cbn [length] in En. lia.
    - exists evs, b. split; [exact (served_yields read exact XR _ _ _ _ Hd)|]. split; [intros Hin; apply (H1 Hin); auto|].
      specialize (Hp [] [] (fun _ => eq_refl)). rewrite !app_nil_r in Hp.
      destruct (deserialize _ _ _ _ _ _) as [r2 s2]. destruct Hp as [[_ Hp]|Hp]; auto.
  Qed.
End Streams.
Print Assumptions C130_replay.
Print Assumptions C130_value_partial.
Print Assumptions C130_ends_partial.

(* ------------------------------------------------------------------ *)
(** * Cases *)

(** Streams over bytes in memory; `read` is the same for all. *)
Definition memory_read : any_read bytes := fun s slice =>
  let n := N.min (nlen s) (nlen slice) in (Ok n, ntake n s ++ ndrop n slice, ndrop n s).

(** `read_exact` that checks the length first; [left] is what stays if there is not
    enough. *)
Definition checking (left : bytes -> bytes) : any_exact_read bytes := fun s slice =>
  if nlen slice <=? nlen s then (Ok tt, ntake (nlen slice) s, ndrop (nlen slice) s)
  else (Err (IoError IoUnexpectedEof), slice, left s).

Lemma memory_read_rules : keeps_rules memory_read.
Proof.
  constructor.
  - intros s slice slice' H. unfold memory_read. rewrite <- H. set (n := N.min _ _). assert (Hn : n <= nlen slice) by lia.
    assert (Hr : nlen (ntake n s) = n) by (rewrite nlen_take; lia).
    split; [reflexivity|]. split; [reflexivity|]. split; [unfold nlen, ndrop in *; rewrite app_length, skipn_length; lia|].
    intros ? [= <-]. split; [exact Hn|]. rewrite !ntake_first by exact Hr. reflexivity.
  - discriminate.
  - discriminate.
Qed.

Lemma checking_rules left : exact_rules (checking left).
Proof.
  constructor.
  - intros s slice slice' H. unfold checking. rewrite <- H. destruct (N.leb_spec (nlen slice) (nlen s)).
    + split; [reflexivity|]. split; [reflexivity|]. split; [rewrite nlen_take; lia|reflexivity].
    + split; [reflexivity|]. split; [reflexivity|]. split; [reflexivity|discriminate].
  - intros s slice f. unfold checking. destruct (_ <=? _); discriminate.
  - intros s slice er. unfold checking. destruct (_ <=? _); [discriminate|]. intros [= <-]. exists IoUnexpectedEof. split; [reflexivity|discriminate].
Qed.

Lemma checking_ends left : left [] = [] -> ends_exactly memory_read (checking left) (fun s => s = []).
Proof.
  intros Hl. constructor.
  - intros s slice out s' Hn [= E <- <-]. rewrite E. destruct s as [|x s]; [reflexivity|]. destruct slice as [|y q]; [congruence|].
    unfold nlen in E. cbn [length] in E. lia.
  - intros s slice r out s' -> [= <- <- <-]. change (nlen (@nil byte)) with 0. rewrite N.min_0_l. split; [reflexivity|]. intros n [= <-]. reflexivity.
  - intros s slice r out s' -> Hn. destruct slice as [|y q]; [congruence|]. intros [= <- <- <-]. split; [exact Hl|discriminate].
Qed.

(** Enough input, with and without buffering, and too little. *)
Example C130_ordinary : supported host64 LE false false LDefault counted /\ no_eof false counted
  /\ keeps_rules memory_read /\ exact_rules (checking (fun s => s)) /\ small_memory host64 dirty
  /\ read_from_own host64 memory_read (checking (fun s => s)) dirty 1 LE false counted [x01; x02; x03; x04; x05; x06; x07]
     = (Ok (VSeq [VInt 0x04030201; VInt 0x0605]), [x07])
  /\ read_from_own host64 memory_read (checking (fun s => s)) dirty 1 LE true counted [x01; x02; x03; x04; x05; x06; x07]
     = (Ok (VSeq [VInt 0x04030201; VInt 0x0605]), [])
  /\ read_from_own host64 memory_read (checking (fun s => s)) dirty 1 LE false counted [x01; x02; x03; x04; x05]
     = (Err (IoError IoUnexpectedEof), [x05]).
Proof.
  split; [apply supportedb_sound; vm_compute; reflexivity|]. split; [apply no_eofb_sound; reflexivity|].
  split; [apply memory_read_rules|]. split; [apply checking_rules|]. split; [apply dirty_small|].
  repeat split; vm_compute; reflexivity.
Qed.

(** C130, the other way round, is false: the bytes of the stream and its `read` do
    not determine the value.  With `default_on_eof` it depends on what a failed
    `read_exact` leaves in the stream, of which std says nothing: a stream that keeps
    the bytes it could not deliver offers them to the next field. *)
Theorem C130_content_refuted : exists t content r1 r2 left1 left2,
  keeps_rules memory_read /\ exact_rules (checking left1) /\ exact_rules (checking left2)
  /\ ends_exactly memory_read (checking left1) (fun s => s = []) /\ ends_exactly memory_read (checking left2) (fun s => s = [])
  /\ fst (read_from_own host64 memory_read (checking left1) dirty 1 LE false t content) = Ok r1
  /\ fst (read_from_own host64 memory_read (checking left2) dirty 1 LE false t content) = Ok r2
  /\ fst (read_from_any host64 memory_read dirty 10 LE false t content) = Ok r2
  /\ r1 <> r2.
Proof.
  exists (TStruct (sd 101 RRust) [(with_default (VInt 0), TP U32); (with_default (VInt 0), TP U8)]), [x05; x06],
    (VSeq [VInt 0; VInt 5]), (VSeq [VInt 0; VInt 0]), (fun s => s), (fun _ => []).
  split; [apply memory_read_rules|]. split; [apply checking_rules|]. split; [apply checking_rules|].
  split; [apply checking_ends; reflexivity|]. split; [apply checking_ends; reflexivity|].
  repeat split; try (vm_compute; reflexivity). discriminate.
Qed.
Print Assumptions C130_content_refuted.
