(* Property C127: any stream is one of those of [Readers], given by what it did. *)
From Verif Require Import Closed AnyRead PropAnyRead RingFacts LockReaders Replay Hosts Samples PropErrors PropWait Entry Api.

Section Delivered.
  Context {S : Type} (read : any_read S).

  (** What successive calls of `read` did: the events and the bytes that were
      delivered.  Nobody asks for nothing. *)
  Inductive delivers : S -> list read_event -> bytes -> S -> Prop :=
  | no_calls s : delivers s [] [] s
  | call_filled s slice n out s' evs b s'' :
      slice <> [] -> read s slice = (Ok n, out, s') -> delivers s' evs b s'' ->
      delivers s (RChunk n :: evs) (ntake n out ++ b) s''
  | call_failed s slice k out s' evs b s'' :
      slice <> [] -> read s slice = (Err (IoError k), out, s') -> delivers s' evs b s'' ->
      delivers s (RErr k :: evs) b s''.

  (** [over]: the end has been reported and nothing will come any more. *)
  Record ends_for_good (over : S -> Prop) : Prop := {
    eg_end : forall s slice out s', slice <> [] -> read s slice = (Ok 0, out, s') -> over s';
    eg_stays : forall s slice r out s', over s -> read s slice = (r, out, s') -> over s' /\ forall n, r = Ok n -> n = 0
  }.

  Lemma served_delivers s evs b s' : served read read s evs b s' -> delivers s evs b s'.
  Proof. induction 1 as [s|s slice n out s' evs b s'' Hs [E|E] H IH|s slice k out s' evs b s'' Hs [E|E] H IH]; econstructor; eassumption. Qed.
End Delivered.

From Verif Require Import PropSafe CalmCheck.

(** What is handed out for a small request fits into the address space. *)
Definition small_memory (h : host) (mem : N -> bytes) : Prop := forall n, n <= 8192 -> nlen (mem n) <= l_usize_max (h_lim h).

Lemma anything_lendable t : lendable True True (fun _ _ => True) True (fun _ => True) LDefault t.
Proof.
  generalize LDefault.
  induction t as [s|k|k t IH|t n IH|t n IH|t IH|t1 t2 IH1 IH2|ts IH|i t IH|k t IH|k tk tv IHk IHv|t IH|d fs IH|d vs IH|]
    using ty_ind'; intros lm; cbn [lendable]; auto.
  - destruct k; auto.
  - destruct k; auto.
  - induction IH; cbn; auto.
  - induction IH as [|f q Hf Hq IHq]; cbn; [exact Logic.I|]. split; [|exact IHq]. right. auto.
  - split; [auto|]. induction IH as [|v q Hv Hq IHq]; cbn; [exact Logic.I|]. split; [|exact IHq].
    induction Hv as [|f q' Hf Hq' IHq']; cbn; [exact Logic.I|]. split; [|exact IHq']. right. auto.
Qed.

Section Streams.
  Context {S : Type} (read : any_read S) (KR : keeps_rules read).
  Context (h : host) (VH : valid_host h) (mem : N -> bytes) (Hm : forall n, n <= nlen (mem n)) (Hroom : small_memory h mem).
  Context (fuel : nat) (e : endian) (buffering : bool).
  Notation e6 := (ipv6_order h e).
  Notation decode := (decode (h_lim h) e e6).

  (** C127: a stream of any kind is as good as the list of what its calls did: what
      is read from it is what [Readers]' model of a stream gives for that list,
      which is used up.  Streams may go on for ever, go on after having reported
      their end, and decide by the size of the slice how much they deliver. *)
  Theorem C127_replay t s r s' : no_eof false t ->
    read_from_any h read mem fuel e buffering t s = (r, s') -> r <> Fault Diverges ->
    exists evs b, delivers read s evs b s'
      /\ (forall v, r = Ok v -> ~ In (RChunk 0) evs)
      /\ (forall k, In (RErr k) evs -> k <> IoInterrupted -> r = Err (IoError k))
      /\ let (r2, s2) := deserialize h mem buffering e t {| is_rest := b; is_sched := evs |} in
         r2 = r /\ sr_stream s2 = {| is_rest := []; is_sched := [] |}.
  Proof.
    intros Ht E Hr. pose proof (no_eof_uncaught t LDefault false ltac:(discriminate) Ht) as Hl.
    destruct (read_from_replayed read read h mem fuel fuel False (fun _ => False) KR KR Hm Hroom ltac:(intros ? ? ? ? ? []) ltac:(intros [])
      (ar_read h read mem fuel) e buffering t s r s' (fun n s => eq_refl) Hl E) as [D|(evs & b & Hd & [H1 H2] & Hp)]; [contradiction|].
    exists evs, b. split; [exact (served_delivers _ _ _ _ _ Hd)|]. split; [intros v -> Hin; apply (H1 Hin); eauto|]. split; [apply H2; auto|].
    specialize (Hp [] [] (fun _ => eq_refl)). rewrite !app_nil_r in Hp.
    destruct (deserialize _ _ _ _ _ _) as [r2 s2]. destruct Hp as [[[] _]|Hp]. exact Hp.
  Qed.

  (** C127: what is read is what the delivered bytes mean, or the error the stream
      reported; without buffering and peeking all that was asked for is used. *)
  Theorem C127_value_partial pk t s r s' : supported h e false pk LDefault t -> no_eof false t ->
    read_from_any h read mem fuel e buffering t s = (r, s') -> r <> Fault Diverges ->
    exists evs b, delivers read s evs b s'
      /\ (nlen b <= l_usize_max (h_lim h) ->
          (exists k, r = Err (IoError k) /\ In (RErr k) evs)
          \/ (agrees (decode t b) r
              /\ forall v, r = Ok v -> exists rest, decode t b = DOk v (Some rest)
                                                    /\ (buffering = false -> pk = false -> rest = []))).
  Proof.
    intros Hs Ht E Hr. destruct (C127_replay t s r s' Ht E Hr) as (evs & b & Hd & _ & Hk & Hp).
    exists evs, b. split; [exact Hd|]. intros Hb.
    assert (Hdec : In (RErr IoUnexpectedEof) evs \/ ~ In (RErr IoUnexpectedEof) evs).
    { clear. induction evs as [|[n|[]] evs IH]; [right; intros []|..]; try (destruct IH; [left; right; assumption|right; intros [|]; congruence]).
      left. left. reflexivity. }
    destruct Hdec as [Hin|Hno]; [left; exists IoUnexpectedEof; split; [apply Hk; congruence|exact Hin]|].
    pose proof (stream_agrees h VH e mem Hm buffering pk {| is_rest := b; is_sched := evs |} Hno Hb t Hs) as H.
    destruct (deserialize _ _ _ _ _ _) as [r2 s2]. destruct Hp as [-> Hst].
    destruct H as [(k & Ek & Hin & _)|[Ha Hrest]]; [left; eauto|]. right. split; [exact Ha|]. intros v ->.
    cbn [is_rest is_sched] in *. pose proof (decode_spec (h_lim h) e e6 t b Ht) as Hun.
    destruct (decode t b) as [v' o| |er sure|f sure|] eqn:Ed.
    - injection Ha as ->. destruct (decode_ok_rest (h_lim h) e e6 t b v' o Ht Ed) as (c & rest & -> & _). exists rest.
      split; [reflexivity|]. intros Hbf Hpk. destruct (Hrest v' rest eq_refl) as (_ & _ & H3). rewrite <- (H3 Hbf Hpk), Hst. reflexivity.
    - destruct Ha as (? & ? & _). discriminate.
    - destruct Ha as [[? _]|(_ & ? & ? & _)]; discriminate.
    - destruct Ha as [?|(_ & ? & ? & _)]; discriminate.
    - destruct (Hun eq_refl).
  Qed.

  (** C127: if nothing follows the end the stream reports, this holds for every
      type, also those that read to the end of the input or have fields with
      `default_on_eof`. *)
  Theorem C127_ends_partial over t s r s' : ends_for_good read over ->
    read_from_any h read mem fuel e buffering t s = (r, s') -> r <> Fault Diverges ->
    exists evs b, delivers read s evs b s'
      /\ (In (RChunk 0) evs -> over s')
      /\ let (r2, s2) := deserialize h mem buffering e t {| is_rest := b; is_sched := evs |} in
         r2 = Fault Diverges \/ (r2 = r /\ sr_stream s2 = {| is_rest := []; is_sched := [] |}).
  Proof.
    intros EG E Hr. pose proof (anything_lendable t) as Hl.
    assert (Hc : forall s slice x, called read read s slice x -> read s slice = x) by (intros ? ? ? [?|?]; assumption).
    destruct (read_from_replayed read read h mem fuel fuel True over KR KR Hm Hroom
      (fun s slice r out s' Ho Hx => eg_stays _ _ EG s slice r out s' Ho (Hc _ _ _ Hx))
      (fun _ s slice out s' Hn Hx => eg_end _ _ EG s slice out s' Hn (Hc _ _ _ Hx))
      (ar_read h read mem fuel) e buffering t s r s' (fun n s => eq_refl) Hl E) as [D|(evs & b & Hd & [H1 H2] & Hp)]; [contradiction|].
    exists evs, b. split; [exact (served_delivers _ _ _ _ _ Hd)|]. split; [intros Hin; apply (H1 Hin); auto|].
    specialize (Hp [] [] (fun _ => eq_refl)). rewrite !app_nil_r in Hp.
    destruct (deserialize _ _ _ _ _ _) as [r2 s2]. destruct Hp as [[_ Hp]|Hp]; auto.
  Qed.

  (** Elements read to the end of the input have to take something, or the reading
      would not end; see [calm]. *)
  Theorem C127_ends_for_good_partial over L t s r s' : ends_for_good read over ->
    (forall s slice, fst (fst (read s slice)) <> Err (IoError IoUnexpectedEof)) ->
    L <= l_usize_max (h_lim h) -> calm h e (fun f => f <> Diverges) L (room h L false) LDefault t ->
    read_from_any h read mem fuel e buffering t s = (r, s') -> r <> Fault Diverges ->
    exists evs b, delivers read s evs b s'
      /\ (nlen b <= L -> let (r2, s2) := deserialize h mem buffering e t {| is_rest := b; is_sched := evs |} in
                         r2 = r /\ sr_stream s2 = {| is_rest := []; is_sched := [] |}).
  Proof.
    intros EG Hne HL Hc E Hr. destruct (C127_ends_partial over t s r s' EG E Hr) as (evs & b & Hd & _ & Hp).
    exists evs, b. split; [exact Hd|]. intros Hb. destruct (deserialize _ _ _ _ _ _) as [r2 s2] eqn:E2.
    destruct Hp as [->|Hp]; [exfalso|exact Hp].
    assert (Hcl : ~ In (RErr IoUnexpectedEof) evs).
    { clear -Hd Hne. induction Hd as [s|s slice n out s' evs b s'' Hs E H IH|s slice k out s' evs b s'' Hs E H IH].
      - intros [].
      - intros [|]; [discriminate|auto].
      - intros [[= ->]|]; [|auto]. apply (Hne s slice). rewrite E. reflexivity. }
    apply (C25_faults_partial h VH e L _ t b false Diverges Hb HL Hc); [|reflexivity].
    destruct buffering.
    - pose proof (of_buffered_stream h e t b mem evs Hm Hcl) as H. unfold read_from_stream_buffered in H. rewrite E2 in H. exact H.
    - pose proof (of_unbuffered_stream h e t b mem evs Hm Hcl) as H. unfold read_from_stream_unbuffered in H. rewrite E2 in H. exact H.
  Qed.
End Streams.

Print Assumptions C127_replay.
Print Assumptions C127_value_partial.
Print Assumptions C127_ends_partial.
Print Assumptions C127_ends_for_good_partial.

(* ------------------------------------------------------------------ *)
(** * Cases *)

(** A stream without end that is interrupted now and then, and delivers one byte
    more to those who have much room. *)
Definition counting : any_read N := fun s slice =>
  if s mod 4 =? 3 then (Err (IoError IoInterrupted), slice, s + 1)
  else
    let n := N.min (nlen slice) (if nlen slice <? 4 then 1 else 2) in
    (Ok n, repeat (n2b s) (N.to_nat n) ++ ndrop n slice, s + 1).

(** A stream that delivers the pieces of a list; an empty piece is a pause. *)
Definition pausing : any_read (list bytes) := fun s slice =>
  match s with
  | [] => (Ok 0, slice, [])
  | c :: s' =>
    let n := N.min (nlen c) (nlen slice) in
    (Ok n, ntake n c ++ ndrop n slice, if nlen c <=? n then s' else ndrop n c :: s')
  end.

Lemma ntake_first (d x : bytes) n : nlen d = n -> ntake n (d ++ x) = d.
Proof.
  intros <-. unfold ntake, nlen. rewrite Nat2N.id, firstn_app, Nat.sub_diag, firstn_all. apply app_nil_r.
Qed.

Lemma counting_rules : keeps_rules counting.
Proof.
  constructor.
  - intros s slice slice' H. unfold counting. rewrite <- H. destruct (s mod 4 =? 3); [repeat split; discriminate|].
    set (n := N.min _ _). assert (Hn : n <= nlen slice) by lia. assert (Hr : nlen (repeat (n2b s) (N.to_nat n)) = n) by (unfold nlen; rewrite repeat_length; lia).
    repeat split.
    + unfold nlen, ndrop in *. rewrite app_length, skipn_length. lia.
    + injection H0 as <-. exact Hn.
    + injection H0 as <-. rewrite !ntake_first by exact Hr. reflexivity.
  - intros s slice f. unfold counting. destruct (s mod 4 =? 3); discriminate.
  - intros s slice er. unfold counting. destruct (s mod 4 =? 3); cbn; [|discriminate]. intros [= <-]. eauto.
Qed.

Lemma pausing_rules : keeps_rules pausing.
Proof.
  constructor.
  - intros s slice slice' H. unfold pausing. destruct s as [|c s].
    + repeat split; injection H0 as <-; [apply N.le_0_l|reflexivity].
    + rewrite <- H. set (n := N.min _ _). assert (Hn : n <= nlen slice) by lia.
      assert (Hr : nlen (ntake n c) = n) by (unfold nlen, ntake in *; rewrite firstn_length; lia). repeat split.
      * unfold nlen, ndrop in *. rewrite app_length, skipn_length. lia.
      * injection H0 as <-. exact Hn.
      * injection H0 as <-. rewrite !ntake_first by exact Hr. reflexivity.
  - intros [|c s] slice f; discriminate.
  - intros [|c s] slice er; discriminate.
Qed.

Lemma dirty_small : small_memory host64 dirty.
Proof. intros n Hn. unfold dirty, nlen. rewrite repeat_length. cbn. lia. Qed.

(** `(u32, u16)` from the endless stream. *)
Definition counted : ty := TTuple [TP U32; TP U16].

Example C127_endless : supported host64 LE false false LDefault counted /\ no_eof false counted
  /\ read_from_any host64 counting dirty 10 LE false counted 0 = (Ok (VSeq [VInt 0x02010000; VInt 0x0504]), 6)
  /\ read_from_any host64 counting dirty 10 LE true counted 0 = (Ok (VSeq [VInt 0x01010000; VInt 0x0202]), 3).
Proof.
  split; [apply supportedb_sound; vm_compute; reflexivity|]. split; [apply no_eofb_sound; reflexivity|].
  split; vm_compute; reflexivity.
Qed.

(** struct Late { #[speedy(default_on_eof)] a: u32, b: u8 } *)
Definition late : ty := TStruct (sd 100 RRust) [(with_default (VInt 0), TP U32); (plain, TP U8)].

(** C127 does not hold for `default_on_eof` and a stream that goes on after its
    end: the default is taken for the first field and the second is read from
    what comes after the pause.  No list of events and bytes gives that. *)
Theorem C127_pauses_refuted : exists s r s', keeps_rules pausing /\ small_memory host64 dirty
  /\ read_from_any host64 pausing dirty 10 LE false late s = (Ok r, s')
  /\ forall evs b, delivers pausing s evs b s' ->
       fst (read_from_stream_unbuffered host64 dirty LE late {| is_rest := b; is_sched := evs |}) <> Ok r.
Proof.
  exists [[x01]; []; [x02]], (VSeq [VInt 0; VInt 2]), []. split; [apply pausing_rules|]. split; [apply dirty_small|].
  split; [vm_compute; reflexivity|].
  assert (Hend : forall s evs b s', delivers pausing s evs b s' -> s = [] -> b = [] /\ (evs = [] \/ exists evs', evs = RChunk 0 :: evs')).
  { induction 1 as [s|s slice n out s' evs b s'' Hs E H IH|s slice k out s' evs b s'' Hs E H IH]; intros ->.
    - auto.
    - injection E as <- <- <-. destruct (IH eq_refl) as [-> _]. split; [reflexivity|]. right. eauto.
    - discriminate E. }
  assert (Hone : forall (c : byte) (slice : bytes), slice <> [] -> N.min (nlen [c]) (nlen slice) = 1).
  { intros c [|x slice] Hs; [congruence|]. unfold nlen. cbn [length]. lia. }
  assert (Hcons : forall s evs b s'' c q, delivers pausing s evs b s'' -> s'' = [] -> s = [c] :: q ->
    exists evs' b', evs = RChunk 1 :: evs' /\ b = c :: b' /\ delivers pausing q evs' b' []).
  { intros s evs b s'' c q H Ee Es. destruct H as [s|s slice n out s' evs b s'' Hs E H|s slice k out s' evs b s'' Hs E H].
    - rewrite Ee in Es. discriminate Es.
    - rewrite Es in E. unfold pausing in E. rewrite (Hone c slice Hs) in E. injection E as <- <- <-.
      exists evs, b. split; [reflexivity|]. split; [reflexivity|]. rewrite Ee in H. exact H.
    - rewrite Es in E. discriminate E. }
  assert (Hpause : forall s evs b s'' q, delivers pausing s evs b s'' -> s'' = [] -> s = [] :: q ->
    exists evs', evs = RChunk 0 :: evs' /\ delivers pausing q evs' b []).
  { intros s evs b s'' q H Ee Es. destruct H as [s|s slice n out s' evs b s'' Hs E H|s slice k out s' evs b s'' Hs E H].
    - rewrite Ee in Es. discriminate Es.
    - assert (Hz : N.min (nlen (@nil byte)) (nlen slice) = 0) by apply N.min_0_l.
      rewrite Es in E. unfold pausing in E. rewrite Hz in E. injection E as <- <- <-. exists evs. split; [reflexivity|]. rewrite Ee in H. exact H.
    - rewrite Es in E. discriminate E. }
  intros evs b H. destruct (Hcons _ _ _ _ _ _ H eq_refl eq_refl) as (e1 & b1 & -> & -> & H1).
  destruct (Hpause _ _ _ _ _ H1 eq_refl eq_refl) as (e2 & -> & H2). destruct (Hcons _ _ _ _ _ _ H2 eq_refl eq_refl) as (e3 & b3 & -> & -> & H3).
  destruct (Hend _ _ _ _ H3 eq_refl) as (-> & [->|(e4 & ->)]); vm_compute; discriminate.
Qed.

Print Assumptions C127_pauses_refuted.
