(* Property C128: any output stream is one of those of [Writers], given by what it
   did. *)
From Verif Require Import AnyWrite ClosedWrite Hosts Samples WriteApi WriteTrace PropWrite PropStream.

Section Replay.
  Context {S : Type} (write : any_write S).

  (** What successive calls of `write` did: the events and the bytes that were
      taken. *)
  Inductive takes : S -> list write_event -> bytes -> S -> Prop :=
  | no_writes s : takes s [] [] s
  | write_took s slice n s' evs b s'' :
      write s slice = (Ok n, s') -> takes s' evs b s'' -> takes s (WAccept n :: evs) (ntake n slice ++ b) s''
  | write_failed s slice k s' evs b s'' :
      write s slice = (Err (IoError k), s') -> takes s' evs b s'' -> takes s (WErr k :: evs) b s''.

  (** The rules: no more is claimed than there was; no panics; errors are errors of
      `std::io`. *)
  Record takes_rules : Prop := {
    tr_claims : forall s slice n s', write s slice = (Ok n, s') -> n <= nlen slice;
    tr_calm : forall s slice f, fst (write s slice) <> Fault f;
    tr_io : forall s slice er, fst (write s slice) = Err er -> exists k, er = IoError k
  }.

  Lemma takes_app s e1 b1 s1 e2 b2 s2 : takes s e1 b1 s1 -> takes s1 e2 b2 s2 -> takes s (e1 ++ e2) (b1 ++ b2) s2.
  Proof.
    induction 1 as [s|s slice n s' evs b s'' E H IH|s slice k s' evs b s'' E H IH]; intros H2; cbn [app].
    - exact H2.
    - rewrite <- app_assoc. eapply write_took; eauto.
    - eapply write_failed; eauto.
  Qed.

  Context (TR : takes_rules) (h : host) (fuel : nat).

  (** An error, or taking nothing, is reported. *)
  Definition told (evs : list write_event) (r : res unit) : Prop :=
    forall ev er, In ev evs -> event_error ev = Some er -> r = Err er.

  Lemma told_nothing r : told [] r.
  Proof. intros ev er []. Qed.

  Lemma told_cons ev evs r : (forall er, event_error ev = Some er -> r = Err er) -> told evs r -> told (ev :: evs) r.
  Proof. intros H1 H2 ev' er [<-|Hin]; [apply H1|exact (H2 ev' er Hin)]. Qed.

  Lemma told_app e1 e2 r : told e1 (Ok tt) -> told e2 r -> told (e1 ++ e2) r.
  Proof. intros H1 H2 ev er Hin He. apply in_app_iff in Hin as [Hin|Hin]; [discriminate (H1 ev er Hin He)|exact (H2 ev er Hin He)]. Qed.

  Definition rewritten (m1 : M S unit) (m2 : M ostream unit) : Prop := forall s r s', m1 s = (r, s') ->
    r = Fault Diverges
    \/ exists evs b, takes s evs b s' /\ told evs r
         /\ forall out tail, m2 {| os_out := out; os_sched := evs ++ tail |} = (r, {| os_out := out ++ b; os_sched := tail |}).

  Lemma rewritten_ext (m1 m1' : M S unit) (m2 m2' : M ostream unit) :
    (forall s, m1 s = m1' s) -> (forall s, m2 s = m2' s) -> rewritten m1' m2' -> rewritten m1 m2.
  Proof.
    intros E1 E2 H s r s' E. rewrite E1 in E. destruct (H s r s' E) as [D|(evs & b & Ht & Hx & Hr)]; [auto|].
    right. exists evs, b. split; [exact Ht|]. split; [exact Hx|]. intros. rewrite E2. apply Hr.
  Qed.

  Lemma rewritten_stop (r : res unit) : rewritten (fun s => (r, s)) (fun s => (r, s)).
  Proof.
    intros s r' s' [= <- <-]. right. exists [], []. split; [constructor|]. split; [apply told_nothing|]. intros. rewrite app_nil_r. reflexivity.
  Qed.

  Lemma rewritten_bind (m1 m2 : M S unit) (n1 n2 : M ostream unit) : rewritten m1 n1 -> rewritten m2 n2 ->
    rewritten (m1 ;;; m2) (n1 ;;; n2).
  Proof.
    intros H1 H2 s r s' E. unfold bind in E. destruct (m1 s) as [q1 s1] eqn:E1.
    destruct (H1 s q1 s1 E1) as [->|(e1 & b1 & T1 & X1 & R1)]; [left; congruence|].
    destruct q1 as [[]|er|f].
    - destruct (H2 s1 r s' E) as [->|(e2 & b2 & T2 & X2 & R2)]; [auto|]. right. exists (e1 ++ e2), (b1 ++ b2).
      split; [eapply takes_app; eassumption|]. split; [apply told_app; assumption|]. intros out tail. unfold bind. rewrite <- app_assoc, R1, R2, <- app_assoc. reflexivity.
    - injection E as <- <-. right. exists e1, b1. split; [exact T1|]. split; [exact X1|]. intros out tail. unfold bind. rewrite R1. reflexivity.
    - injection E as <- <-. right. exists e1, b1. split; [exact T1|]. split; [exact X1|]. intros out tail. unfold bind. rewrite R1. reflexivity.
  Qed.

  Lemma all_rewritten k : forall b, rewritten (any_all write k b) (os_write_all b).
  Proof.
    induction k as [|k IH]; intros [|x b] s r s' E; cbn [any_all] in E;
      try (injection E as <- <-; right; exists [], []; split; [constructor|]; split; [apply told_nothing|]; intros out tail;
           unfold os_write_all; cbn [os_out os_sched app]; rewrite app_nil_r; destruct tail; reflexivity);
      [left; congruence|].
    set (bb := x :: b) in *. destruct (write s bb) as [q s1] eqn:Eq. destruct q as [n|er|f].
    - pose proof (tr_claims TR _ _ _ _ Eq) as Hn. destruct (N.eqb_spec n 0) as [Hz|Hz].
      + injection E as <- <-. right. exists [WAccept 0], []. split; [|split].
        * subst n. exact (write_took s bb 0 s1 [] [] s1 Eq (no_writes s1)).
        * apply told_cons; [intros er [= <-]; reflexivity|apply told_nothing].
        * intros out tail. rewrite app_nil_r. reflexivity.
      + destruct (N.leb_spec n (nlen bb)) as [Hle|]; [|lia].
        destruct (IH (ndrop n bb) s1 r s' E) as [->|(evs & b' & Ht & Hx & Hr)]; [auto|]. right.
        exists (WAccept n :: evs), (ntake n bb ++ b'). split; [exact (write_took s bb n s1 evs b' s' Eq Ht)|].
        split; [apply told_cons; [|exact Hx]; intros er; cbn; destruct (N.eqb_spec n 0); [lia|discriminate]|].
        intros out tail. unfold os_write_all in *. cbn [os_out os_sched app write_all_loop] in *.
        change (match bb with [] => (Ok tt, {| os_out := out; os_sched := WAccept n :: evs ++ tail |})
                | _ :: _ => if n =? 0 then (Err (IoError IoWriteZero), {| os_out := out; os_sched := evs ++ tail |})
                            else write_all_loop (ndrop n bb) (out ++ ntake n bb) (evs ++ tail) end
                = (r, {| os_out := out ++ ntake n bb ++ b'; os_sched := tail |})).
        unfold bb at 1. destruct (N.eqb_spec n 0); [lia|]. rewrite (Hr (out ++ ntake n bb) tail), <- app_assoc. reflexivity.
    - destruct (tr_io TR s bb er) as [k' ->]; [rewrite Eq; reflexivity|].
      assert (Hfail : k' <> IoInterrupted -> (r, s') = (Err (IoError k'), s1) -> r = Fault Diverges
        \/ exists evs b', takes s evs b' s' /\ told evs r /\ forall out tail,
             os_write_all bb {| os_out := out; os_sched := evs ++ tail |} = (r, {| os_out := out ++ b'; os_sched := tail |})).
      { intros Hk [= -> ->]. right. exists [WErr k'], []. split; [exact (write_failed s bb k' s1 [] [] s1 Eq (no_writes s1))|].
        split; [apply told_cons; [intros er; destruct k'; cbn; congruence|apply told_nothing]|].
        intros out tail. rewrite app_nil_r. destruct k'; try reflexivity. congruence. }
      destruct k'; try (apply Hfail; [discriminate|symmetry; exact E]). clear Hfail.
      destruct (IH bb s1 r s' E) as [->|(evs & b' & Ht & Hx & Hr)]; [auto|]. right.
      exists (WErr IoInterrupted :: evs), b'. split; [exact (write_failed s bb _ s1 evs b' s' Eq Ht)|].
      split; [apply told_cons; [discriminate|exact Hx]|].
      intros out tail. exact (Hr out tail).
    - destruct (tr_calm TR s bb f). rewrite Eq. reflexivity.
  Qed.

  Lemma write_rewritten e t v : rewritten (WriteImpl.write h (AnyWriter h write fuel e) t v) (WriteImpl.write h (WritingCollector h e) t v).
  Proof.
    apply both_write; cbn [AnyWriter WritingCollector wr_endian wr_bytes wr_u8 wr_uint wr_can]; auto.
    - exact rewritten_ext.
    - exact rewritten_bind.
    - exact rewritten_stop.
    - intros b. apply all_rewritten.
    - intros n. apply all_rewritten.
    - intros w n. apply all_rewritten.
  Qed.
End Replay.

Section Streams.
  Context {S : Type} (write : any_write S) (TR : takes_rules write).
  Context (h : host) (VH : valid_host h) (fuel : nat) (e : endian).

  (** C128: writing to a stream of any kind gives what writing to the stream of
      [Writers] that does the same gives, and sends it the same bytes.  A call that
      fails, or takes nothing, is reported; interruptions are not failures. *)
  Theorem C128_replay t v s r s' : write_to_any h write fuel e t v s = (r, s') -> r <> Fault Diverges ->
    exists evs b, takes write s evs b s'
      /\ (forall ev er, In ev evs -> event_error ev = Some er -> r = Err er)
      /\ write_to_stream h e t v {| os_out := []; os_sched := evs |} = (r, {| os_out := b; os_sched := [] |}).
  Proof.
    intros E Hr. destruct (write_rewritten write TR h fuel e t v s r s' E) as [D|(evs & b & Ht & Hx & Hw)]; [contradiction|].
    exists evs, b. split; [exact Ht|]. split; [exact Hx|]. specialize (Hw [] []). rewrite app_nil_r in Hw. exact Hw.
  Qed.

  (** C128: for every type and value, the stream has taken what a stream that takes
      everything gets, and the result is the same; or a part of it from the start,
      and its error is returned. *)
  Theorem C128_prefix t v s r s' r0 o0 : write_to_stream h e t v obedient = (r0, o0) ->
    write_to_any h write fuel e t v s = (r, s') -> r <> Fault Diverges ->
    exists evs b, takes write s evs b s'
      /\ ((r = r0 /\ b = os_out o0)
          \/ exists ev er rest, In ev evs /\ event_error ev = Some er /\ r = Err er /\ os_out o0 = b ++ rest).
  Proof.
    intros E0 E Hr. destruct (C128_replay t v s r s' E Hr) as (evs & b & Ht & _ & Hw). exists evs, b. split; [exact Ht|].
    destruct (C43_any_type h e t v _ _ _ _ _ E0 Hw) as [[-> Hb]|(ev & er & b1 & b2 & Hin & Hev & -> & Hb & Ho)].
    - left. split; [reflexivity|exact Hb].
    - right. exists ev, er, b2. cbn in Ho. subst b1. auto.
  Qed.

  (** C128: what the stream has taken is the encoding or the start of it. *)
  Theorem C128_encoding_partial t v s r s' b0 : wsup h t -> valid (h_lim h) t v ->
    encode (h_iter h) e (ipv6_order h e) t v = Ok b0 ->
    write_to_any h write fuel e t v s = (r, s') -> r <> Fault Diverges ->
    exists evs b rest, takes write s evs b s' /\ b0 = b ++ rest
      /\ ((r = Ok tt /\ rest = []) \/ exists ev er, In ev evs /\ event_error ev = Some er /\ r = Err er).
  Proof.
    intros Hs Hv Eb E Hr. destruct (C128_replay t v s r s' E Hr) as (evs & b & Ht & _ & Hw).
    destruct (C43_failed_writes h VH e t v b0 _ _ _ Hs Hv Eb Hw) as (b1 & b2 & Hb & Ho & H). cbn in Ho. subst b1.
    exists evs, b, b2. auto.
  Qed.

  (** A stream that always takes something gets everything: no call of `write_all`
      needs more calls of `write` than there are bytes. *)
  Definition eager : Prop := forall s slice, slice <> [] -> exists n s', write s slice = (Ok n, s') /\ 0 < n.

  Definition served (m1 : M S unit) (m0 : M bytes unit) : Prop := exists r b, emits m0 r b
    /\ (nlen b <= N.of_nat fuel -> forall s, exists s' evs, m1 s = (r, s') /\ takes write s evs b s').

  Lemma all_served b : eager -> served (any_all write fuel b) (fun out => (Ok tt, out ++ b)).
  Proof.
    intros HE. exists (Ok tt), b. split; [intros out; reflexivity|].
    generalize fuel. intros k. revert b. induction k as [|k IH]; intros b Hb s.
    - destruct b as [|x b]; [|unfold nlen in Hb; cbn [length] in Hb; lia]. exists s, []. split; [reflexivity|constructor].
    - destruct b as [|x b]; [exists s, []; split; [reflexivity|constructor]|]. set (bb := x :: b) in *.
      destruct (HE s bb ltac:(discriminate)) as (n & s1 & E & Hn). pose proof (tr_claims _ TR _ _ _ _ E) as Hle.
      destruct (IH (ndrop n bb)) with (s := s1) as (s' & evs & E' & Ht).
      { rewrite nlen_drop. lia. }
      exists s', (WAccept n :: evs). split.
      + change (any_all write (Datatypes.S k) bb s) with
          (let (r, s'0) := write s bb in match r with
            | Ok n => if n =? 0 then (Err (IoError IoWriteZero), s'0)
                      else if n <=? nlen bb then any_all write k (ndrop n bb) s'0 else (Fault PanicAssert, s'0)
            | Err (IoError IoInterrupted) => any_all write k bb s'0
            | Err er => (Err er, s'0) | Fault f => (Fault f, s'0) end).
        rewrite E. destruct (N.eqb_spec n 0); [lia|]. destruct (N.leb_spec n (nlen bb)); [|lia]. exact E'.
      + rewrite <- (take_drop n bb). eapply write_took; eassumption.
  Qed.

  Lemma write_served t v : eager -> served (WriteImpl.write h (AnyWriter h write fuel e) t v) (WriteImpl.write h (Plain h e) t v).
  Proof.
    intros HE. apply both_write; cbn [AnyWriter Plain wr_endian wr_bytes wr_u8 wr_uint wr_can]; auto.
    - intros m1 m1' m2 m2' E1 E2 (r & b & Em & H). exists r, b. split; [intros out; rewrite E2; apply Em|].
      intros Hb s. rewrite E1. apply H, Hb.
    - intros m1 m2 n1 n2 (r1 & b1 & Em1 & H1) (r2 & b2 & Em2 & H2). destruct r1 as [[]|er|f].
      + exists r2, (b1 ++ b2). split; [intros out; unfold bind; rewrite Em1, Em2, app_assoc; reflexivity|].
        rewrite nlen_app. intros Hb s. destruct (H1 ltac:(lia) s) as (s1 & e1 & E1 & T1). destruct (H2 ltac:(lia) s1) as (s2 & e2 & E2 & T2).
        exists s2, (e1 ++ e2). split; [unfold bind; rewrite E1; exact E2|eapply takes_app; eassumption].
      + exists (Err er), b1. split; [intros out; unfold bind; rewrite Em1; reflexivity|].
        intros Hb s. destruct (H1 Hb s) as (s1 & e1 & E1 & T1). exists s1, e1. split; [unfold bind; rewrite E1; reflexivity|exact T1].
      + exists (Fault f), b1. split; [intros out; unfold bind; rewrite Em1; reflexivity|].
        intros Hb s. destruct (H1 Hb s) as (s1 & e1 & E1 & T1). exists s1, e1. split; [unfold bind; rewrite E1; reflexivity|exact T1].
    - intros r. exists r, []. split; [intros out; rewrite app_nil_r; reflexivity|]. intros _ s. exists s, []. split; [reflexivity|constructor].
    - intros b. apply all_served, HE.
    - intros n. apply all_served, HE.
    - intros w n. apply all_served, HE.
  Qed.

  Theorem C128_everything t v s r0 o0 : write_to_stream h e t v obedient = (r0, o0) -> eager ->
    nlen (os_out o0) <= N.of_nat fuel ->
    exists s' evs, write_to_any h write fuel e t v s = (r0, s') /\ takes write s evs (os_out o0) s'.
  Proof.
    intros E0 HE Hb. destruct (write_served t v HE) as (r & b & Em & H).
    destruct (stream_tracks h e obedient t v) as (r1 & b1 & Em1 & F). destruct (obedient_emits h e t v r0 o0 r1 b1 Em1 F E0) as [-> <-].
    assert (Er : (r1, [] ++ os_out o0) = (r, [] ++ b)) by (rewrite <- Em, <- Em1; reflexivity). injection Er as -> <-.
    exact (H Hb s).
  Qed.
End Streams.

Print Assumptions C128_replay.
Print Assumptions C128_prefix.
Print Assumptions C128_encoding_partial.
Print Assumptions C128_everything.

(* ------------------------------------------------------------------ *)
(** * Cases *)

(** A stream that keeps what it is sent, and takes at most one byte more than it
    has already. *)
Definition growing : any_write bytes := fun s slice =>
  let n := N.min (nlen slice) (nlen s + 1) in (Ok n, s ++ ntake n slice).

(** A stream that has room for so many bytes; every other call is interrupted. *)
Definition narrow : any_write (N * bool) := fun s slice =>
  let (room, busy) := s in
  if busy then (Err (IoError IoInterrupted), (room, false))
  else let n := N.min (nlen slice) room in (Ok n, (room - n, true)).

Lemma growing_rules : takes_rules growing.
Proof.
  constructor; try discriminate. intros s slice n s' [= <- _]. lia.
Qed.

Lemma growing_eager : eager growing.
Proof.
  intros s [|x slice] H; [congruence|]. do 2 eexists. split; [reflexivity|]. unfold nlen. cbn [length]. lia.
Qed.

Lemma narrow_rules : takes_rules narrow.
Proof.
  constructor.
  - intros [room []] slice n s'; cbn; [discriminate|]. intros [= <- _]. lia.
  - intros [room []] slice f; discriminate.
  - intros [room []] slice er; [|discriminate]. intros [= <-]. eauto.
Qed.

Definition sent : val := VSeq [VInt 0x0201; VBytes [x61; x62; x63]].

Example C128_case :
  wsup host64 (TTuple [TP U16; TStr KString]) /\ valid (h_lim host64) (TTuple [TP U16; TStr KString]) sent
  /\ write_to_any host64 growing 10 LE (TTuple [TP U16; TStr KString]) sent []
     = (Ok tt, [x01; x02; x03; x00; x00; x00; x61; x62; x63])
  /\ write_to_any host64 narrow 10 LE (TTuple [TP U16; TStr KString]) sent (9, true) = (Ok tt, (0, true))
  /\ write_to_any host64 narrow 10 LE (TTuple [TP U16; TStr KString]) sent (8, true) = (Err (IoError IoWriteZero), (0, true)).
Proof.
  split; [cbn; tauto|]. split; [vm_compute; intuition discriminate|]. split; [|split]; vm_compute; reflexivity.
Qed.
