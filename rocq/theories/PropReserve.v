(* Property C124: what reading from a stream reserves memory for. *)
From Verif Require Import Samples Checker Entry Errors Reserve ReaderFacts VarintFacts SpecFacts PropCalls PropReaders.

(* ------------------------------------------------------------------ *)
(** * The log of a stream reader *)

Section Log.
  Context (mem : N -> bytes) (l : list allocation).
  Notation logged := (keeps (fun s => sr_log s = l)).

  Lemma logged_buffer {A} (f : cbuf -> res (A * cbuf)) : logged (on_buffer f).
  Proof. intros s Hs. unfold on_buffer. destruct (f (sr_buffer s)) as [[a c]|er|x]; exact Hs. Qed.
  Lemma logged_stream {A} (f : istream -> res A * istream) :
    logged (fun s => let (r, i) := f (sr_stream s) in (r, set_stream i s)).
  Proof. intros s Hs. destruct (f (sr_stream s)) as [r i]. exact Hs. Qed.
  Lemma logged_append size : logged (sr_append mem size).
  Proof.
    apply keeps_bind; [apply logged_buffer|]. intros slot.
    apply keeps_bind; [apply logged_stream|]. intros data. apply logged_buffer.
  Qed.
  Lemma logged_fill fuel n : logged (sr_fill mem fuel n).
  Proof.
    induction fuel as [|fuel IH]; intros s Hs; cbn [sr_fill]; destruct (_ <? _); try exact Hs.
    revert s Hs. intros s0 Hs0. revert Hs0. generalize (cb_capacity (sr_buffer s0) - cb_len (sr_buffer s0)) as size. revert s0.
    intros s0 size. revert s0. change (logged (bind (sr_append mem size) (fun written s =>
      if written =? 0 then if cb_len (sr_buffer s) <? n then (Err UnexpectedEndOfInput, s) else (Ok tt, s)
      else if n <=? cb_len (sr_buffer s) then (Ok tt, s) else sr_fill mem fuel n s))).
    apply keeps_bind; [apply logged_append|]. intros written s Hs. destruct (written =? 0); [destruct (_ <? _); exact Hs|].
    destruct (_ <=? _); [exact Hs|apply IH, Hs].
  Qed.
  Lemma logged_drain n : logged (sr_drain n).
  Proof.
    intros s Hs. unfold sr_drain. revert Hs. generalize (N.min (cb_len (sr_buffer s)) n) as m, (0 <? cb_len (sr_buffer s)) as c.
    intros m c. revert s. change (logged (
      first <- (if c then on_buffer (consume_into m) else ret []) ;;
      if n - m =? 0 then ret first
      else rest <- (fun s => let (r, i) := is_read_exact (n - m) (sr_stream s) in (r, set_stream i s)) ;; ret (first ++ rest))).
    apply keeps_bind; [destruct c; [apply logged_buffer|apply keeps_ret]|]. intros first.
    destruct (_ =? _); [apply keeps_ret|]. apply keeps_bind; [apply (logged_stream (is_read_exact (n - m)))|]. intros. apply keeps_ret.
  Qed.
  Lemma logged_read n : logged (sr_read mem n).
  Proof.
    intros s Hs. unfold sr_read. destruct (_ <=? _); [apply logged_buffer, Hs|]. unfold sr_read_slow.
    revert Hs. generalize (sr_buffering s && (n <? cb_capacity (sr_buffer s))) as c, (N.to_nat (cb_capacity (sr_buffer s))) as fuel.
    intros c fuel. revert s. change (logged ((if c then sr_fill mem fuel n else ret tt) ;;; sr_drain n)).
    apply keeps_bind; [destruct c; [apply logged_fill|apply keeps_ret]|]. intros _. apply logged_drain.
  Qed.
  Lemma logged_peek_fill fuel n : logged (sr_peek_fill mem fuel n).
  Proof.
    induction fuel as [|fuel IH]; intros s Hs; cbn [sr_peek_fill]; destruct (_ <? _); try exact Hs.
    revert Hs. generalize (n - cb_len (sr_buffer s)) as chunk, (usub (cb_capacity (sr_buffer s)) (cb_len (sr_buffer s))) as u, (sr_buffering s) as c.
    intros chunk u c. revert s. change (logged (
      more <- (if c then lift (rmap (N.max chunk) u) else ret chunk) ;;
      written <- sr_append mem more ;;
      if written =? 0 then fail UnexpectedEndOfInput else sr_peek_fill mem fuel n)).
    apply keeps_bind; [destruct c; [apply keeps_lift|apply keeps_ret]|]. intros more.
    apply keeps_bind; [apply logged_append|]. intros written. destruct (_ =? _); [apply keeps_fail|apply IH].
  Qed.
  Lemma logged_peek n : logged (sr_peek mem n).
  Proof. apply keeps_bind; [apply logged_peek_fill|]. intros _ s Hs. exact Hs. Qed.
End Log.

(** A reservation of memory for more elements than there were bytes to read. *)
Definition exceeds (a : allocation) : bool := negb (al_size a =? 0) && (al_rest a <? al_count a).

Section Reserve.
  Context (h : host) (VH : valid_host h) (e : endian).
  Context (mem : N -> bytes) (Hmem : forall n, n <= nlen (mem n)) (buffering : bool).
  Context (sched : list read_event) (Hno : no_errors sched).
  Notation holds := (fun s => exists bs, srep h buffering true sched s bs).
  Notation left := (fun s => nlen (unread s)).

  Lemma stream_ledger : ledger holds left sr_log (StreamReader mem e).
  Proof.
    constructor; cbn [StreamReader rd_read rd_read_ptr rd_peek rd_peek_ptr rd_alloc]; intros.
    - exact (logged_read mem (sr_log s) n s eq_refl).
    - exact (logged_read mem (sr_log s) n s eq_refl).
    - exact (logged_peek mem (sr_log s) n s eq_refl).
    - exact (logged_peek mem (sr_log s) n s eq_refl).
    - eexists. split; [reflexivity|]. cbn [sr_alloc sr_log]. unfold unread. cbn [sr_buffer sr_stream].
      split; [reflexivity|]. rewrite nlen_app, nlen_content. reflexivity.
  Qed.

  Lemma stream_pays t : fed h t = true -> no_eof false t ->
    pays holds left sr_log (nest t) (read h (StreamReader mem e) t).
  Proof.
    intros Hf Hn. eapply (proj1 (paid_read holds left sr_log h VH (StreamReader mem e) (stream_meter h e mem buffering sched Hmem Hno)
      eq_refl eq_refl stream_ledger t)); [exact Hf|exact Hn].
  Qed.

  (** C124: when a value is read from a stream, every reservation made on the way was
      for no more elements than there were bytes left to read; when the read fails, at
      most as many reservations exceed this as containers are nested in the type. *)
  Theorem C124_backed t bs : fed h t = true -> no_eof false t -> nlen bs <= l_usize_max (h_lim h) ->
    let (r, s) := deserialize h mem buffering e t {| is_rest := bs; is_sched := sched |} in
    (forall v, r = Ok v -> forall a, In a (sr_log s) -> al_size a <> 0 -> al_count a <= al_rest a <= nlen bs)
    /\ (length (filter exceeds (sr_log s)) <= nest t)%nat.
  Proof.
    intros Hf Hn Hl.
    pose proof (sr_start_rep h mem Hmem buffering true sched {| is_rest := bs; is_sched := sched |} eq_refl Hl) as Hs.
    unfold deserialize. destruct (stream_pays t Hf Hn _ (ex_intro _ _ Hs)) as (_ & _ & new & Hg & Hr & Hk & Hu).
    rewrite (sp_bytes _ _ _ _ _ _ Hs) in Hr. cbn [is_rest] in Hr.
    change (sr_log (sr_start mem buffering {| is_rest := bs; is_sched := sched |})) with (@nil allocation) in Hg. cbn [app] in Hg.
    destruct (read h (StreamReader mem e) t (sr_start mem buffering {| is_rest := bs; is_sched := sched |})) as [r s].
    cbn [fst snd] in *. rewrite Hg. split.
    - intros v -> a Ha Hz. specialize (Hu v eq_refl). rewrite Forall_forall in Hr. split; [|apply Hr, Ha].
      unfold unbacked in Hu. apply length_zero_iff_nil in Hu. destruct (backed a) eqn:Eb.
      + unfold backed in Eb. apply orb_true_iff in Eb as [Eb|Eb]; [apply N.leb_le, Eb|apply N.eqb_eq in Eb; contradiction].
      + assert (In a (filter (fun a => negb (backed a)) new)) as Hi by (apply filter_In; rewrite Eb; auto).
        rewrite Hu in Hi. destruct Hi.
    - revert Hk. unfold unbacked. apply Nat.le_trans. apply Nat.eq_le_incl. f_equal. apply filter_ext. intros a.
      unfold exceeds, backed. rewrite negb_orb, N.ltb_antisym, andb_comm. reflexivity.
  Qed.

  (** What a length announces is reserved before any element is read, however little
      follows: from a stream no bound by the input holds for reads that fail. *)
  Theorem C124_announced t n rest :
    fed h (TSeq KVec t) = true -> no_eof false t -> n < 2 ^ 32 ->
    min_bytes h t * n <= l_usize_max (h_lim h) -> n * h_size h t <= h_alloc_max h ->
    nlen (word e 4 n ++ rest) <= l_usize_max (h_lim h) ->
    In {| al_count := n; al_size := h_size h t; al_min := min_bytes h t; al_rest := nlen rest |}
       (sr_log (snd (deserialize h mem buffering e (TSeq KVec t) {| is_rest := word e 4 n ++ rest; is_sched := sched |}))).
  Proof.
    intros Hf Hn Hn32 Hm Ha Hl.
    pose proof (sr_start_rep h mem Hmem buffering true sched {| is_rest := word e 4 n ++ rest; is_sched := sched |} eq_refl Hl) as Hs.
    unfold deserialize. set (s0 := sr_start _ _ _) in *. cbn [is_rest] in Hs. set (R := StreamReader mem e).
    assert (E : exists s1, read_length h R BU32 s0 = (Ok n, s1) /\ srep h buffering true sched s1 rest /\ sr_log s1 = []).
    { assert (Hw : nlen (word e 4 n) = 4) by apply nlen_word.
      cbn [read_length]. unfold read_uint, bind, require, R. cbn [StreamReader rd_can rd_endian rd_read_ptr N.of_nat Pos.of_succ_nat Pos.succ].
      pose proof (logged_read mem [] 4 s0 eq_refl) as Hlog.
      destruct (sr_read mem 4 s0) as [r s1] eqn:E. exists s1. cbn [snd] in Hlog.
      destruct (sr_read_cases h mem Hmem buffering true sched 4 s0 _ r s1 Hs E) as [(er & _ & Hx)|(_ & [(H4 & -> & Hr')|(H4 & _)])].
      - destruct Hx as (k & _ & Hk & _). destruct (Hno k Hk).
      - rewrite take_app_exact, drop_app_exact in * by exact Hw. split; [|auto]. change (N.of_nat 4) with 4. rewrite E. unfold ret.
        f_equal. f_equal. rewrite swap_of_ne by (unfold nlen in Hw; lia). apply unword_word. cbn. exact Hn32.
      - rewrite nlen_app, Hw in H4. lia. }
    destruct E as (s1 & E & Hr & Hlog).
    assert (Hrd : pays holds left sr_log (nest t) (read h R t)).
    { apply stream_pays; [|exact Hn]. cbn [fed] in Hf. apply andb_true_iff in Hf. apply Hf. }
    destruct (vec_reserves holds left sr_log h R (stream_meter h e mem buffering sched Hmem Hno) stream_ledger (nest t) t
                (read h R t) n s1 (ex_intro _ _ Hr) Hrd Hm ltac:(discriminate) Ha) as (new & Hnew).
    rewrite Hlog, (sp_bytes _ _ _ _ _ _ Hr) in Hnew. cbn [app] in Hnew.
    change (read h R (TSeq KVec t) s0) with ((n <- read_length h R BU32 ;; mmap VSeq (read_vec h R t (read h R t) n)) s0).
    unfold bind at 1. rewrite E. unfold mmap, bind at 1.
    destruct (read_vec h R t (read h R t) n s1) as [[] s2]; cbn [snd ret] in *; rewrite Hnew; left; reflexivity.
  Qed.
End Reserve.

Print Assumptions C124_backed.
Print Assumptions C124_announced.

(** Four bytes that announce 2^32 - 1 numbers of eight bytes: from a stream 32 GiB are
    reserved before the read fails; from a buffer nothing is. *)
Definition many : bytes := [xff; xff; xff; xff].
Theorem C124_refuted :
  (exists a, In a (sr_log (snd (deserialize host64 dirty true LE (TSeq KVec (TP U64)) {| is_rest := many; is_sched := [] |})))
             /\ al_count a * al_size a = 34359738360 /\ al_rest a = 0)
  /\ br_log (snd (read host64 (BufferReader LE) (TSeq KVec (TP U64)) (br_start 0 many))) = [].
Proof.
  split; [|vm_compute; reflexivity]. eexists. split; [|split].
  - apply (C124_announced host64 host64_valid LE dirty dirty_enough true [] (fun k H => H) (TP U64) 4294967295 []); try reflexivity;
      try exact Logic.I; vm_compute; discriminate.
  - reflexivity.
  - reflexivity.
Qed.
Print Assumptions C124_refuted.

(** The conditions hold of the sample type, whose value is read with six reservations. *)
Example sample_reserves : fed host64 sample = true /\ no_eofb false sample = true /\ nest sample = 1%nat.
Proof. vm_compute. auto. Qed.
Example sample_log :
  match write_to_vec host64 dirty LE sample sample_value with
  | Ok b => map (fun a => (al_count a, al_rest a))
              (sr_log (snd (deserialize host64 dirty true LE sample {| is_rest := b; is_sched := [RChunk 3] |})))
  | _ => []
  end = [(2, 63); (3, 59); (1, 47); (2, 41); (2, 35); (2, 27)].
Proof. vm_compute. reflexivity. Qed.

(** A list of lists cut short: the outer reservation and the last inner one are left. *)
Example cut_log :
  let (r, s) := deserialize host64 dirty true LE (TSeq KVec (TSeq KVec (TP U16)))
                  {| is_rest := [x64; x00; x00; x00; x01; x00; x00; x00; xaa; xbb; x40; x00; x00; x00; xcc]; is_sched := [] |} in
  r = Err UnexpectedEndOfInput
  /\ map (fun a => (al_count a, al_rest a, exceeds a)) (sr_log s) = [(100, 11, true); (1, 7, false); (64, 1, true)]
  /\ nest (TSeq KVec (TSeq KVec (TP U16))) = 2%nat.
Proof. vm_compute. auto. Qed.
