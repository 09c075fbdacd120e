(* Property C112: how often a read calls its reader. *)
From Verif Require Import Samples Entry Calls ReaderFacts.

Section Calls.
  Context (h : host) (VH : valid_host h) (e : endian).

  Definition any_state {St} (_ : St) : Prop := True.
  Definition unread_bytes (s : breader) : N := nlen (br_rest s).

  Lemma meter_read n : drops any_state unread_bytes n (br_read n).
  Proof.
    intros s _. unfold br_read, any_state, unread_bytes. destruct (N.leb_spec n (nlen (br_rest s))) as [Hn|Hn]; cbn [fst snd br_advance br_rest].
    - rewrite nlen_drop. repeat split; intros; lia.
    - split; [exact I|]. split; [lia|]. discriminate.
  Qed.
  Lemma meter_peek n : drops any_state unread_bytes 0 (br_peek n).
  Proof. intros s _. unfold br_peek, any_state, unread_bytes. destruct (_ <=? _); cbn [fst snd]; repeat split; intros; lia. Qed.
  Lemma meter_borrow n : drops any_state unread_bytes n (br_borrow n).
  Proof.
    intros s _. unfold br_borrow, any_state, unread_bytes. destruct (N.leb_spec n (nlen (br_rest s))) as [Hn|Hn]; cbn [fst snd br_advance br_rest].
    - rewrite nlen_drop. repeat split; intros; lia.
    - split; [exact I|]. split; [lia|]. discriminate.
  Qed.
  Lemma meter_eof : drops any_state unread_bytes 0 br_borrow_eof.
  Proof.
    intros s _. unfold br_borrow_eof, any_state, unread_bytes. cbn [fst snd br_advance br_rest]. rewrite nlen_drop. repeat split; intros; lia.
  Qed.
  Lemma meter_alloc n size min : drops any_state unread_bytes 0 (br_alloc n size min).
  Proof. intros s _. unfold br_alloc, any_state, unread_bytes. cbn [fst snd br_rest]. repeat split; intros; lia. Qed.

  Lemma buffer_meter : meter any_state unread_bytes (BufferReader e).
  Proof.
    constructor; cbn [BufferReader rd_read rd_read_ptr rd_peek rd_peek_ptr rd_borrow rd_borrow_r rd_borrow_eof rd_alloc];
      intros; try (match goal with H : Some _ = Some _ |- _ => injection H as <- end);
      auto using meter_read, meter_peek, meter_borrow, meter_eof, meter_alloc.
  Qed.
  Lemma copying_meter : meter any_state unread_bytes (CopyingBufferReader e).
  Proof.
    constructor; cbn [CopyingBufferReader rd_read rd_read_ptr rd_peek rd_peek_ptr rd_borrow rd_borrow_r rd_borrow_eof rd_alloc];
      intros; try (match goal with H : Some _ = Some _ |- _ => injection H as <- end); try discriminate;
      auto using meter_read, meter_peek, meter_borrow, meter_eof, meter_alloc.
  Qed.

  Lemma stream_meter mem buffering sched : (forall n, n <= nlen (mem n)) -> no_errors sched ->
    meter (fun s => exists bs, srep h buffering true sched s bs) (fun s => nlen (unread s)) (StreamReader mem e).
  Proof.
    intros Hmem Hno.
    assert (Hesc : forall er, ~ sio buffering true sched er).
    { intros er (k & _ & Hk & _). exact (Hno k Hk). }
    assert (Hclean : ~ In (RErr IoUnexpectedEof) sched) by apply Hno.
    assert (Hread : forall n, drops (fun s => exists bs, srep h buffering true sched s bs) (fun s => nlen (unread s)) n (sr_read mem n)).
    { intros n s (bs & Hr). destruct (sr_read mem n s) as [r s'] eqn:E. cbn [fst snd].
      pose proof (sp_bytes _ _ _ _ _ _ Hr) as Eb.
      destruct (sr_read_cases h mem Hmem buffering true sched n s bs r s' Hr E) as [(er & _ & Hx)|(_ & [(Hn & -> & Hr')|(Hn & -> & Hr')])].
      - destruct (Hesc er Hx).
      - pose proof (sp_bytes _ _ _ _ _ _ Hr') as Eb'. rewrite Eb, Eb', nlen_drop. split; [eauto|]. split; intros; lia.
      - pose proof (sp_bytes _ _ _ _ _ _ Hr') as Eb'. rewrite Eb, Eb'. split; [eauto|]. split; [|discriminate].
        destruct (short _ _ _); unfold nlen; cbn [length]; lia. }
    assert (Hpeek : forall n, drops (fun s => exists bs, srep h buffering true sched s bs) (fun s => nlen (unread s)) 0 (sr_peek mem n)).
    { intros n s (bs & Hr). destruct (sr_peek mem n s) as [r s'] eqn:E. cbn [fst snd].
      destruct (sr_peek_cases h mem Hmem buffering true sched n s bs r s' eq_refl Hr E) as [(er & _ & Hx)|(Hr' & _ & _)].
      - destruct (Hesc er Hx).
      - rewrite (sp_bytes _ _ _ _ _ _ Hr), (sp_bytes _ _ _ _ _ _ Hr'). split; [eauto|]. split; intros; lia. }
    constructor; cbn [StreamReader rd_read rd_read_ptr rd_peek rd_peek_ptr rd_borrow rd_borrow_r rd_borrow_eof rd_alloc]; auto; try discriminate.
    intros n size min s (bs & Hr). cbn [sr_alloc fst snd]. unfold unread. cbn [sr_buffer sr_stream].
    split; [|split; intros; lia]. exists bs. destruct Hr. constructor; assumption.
  Qed.

  (** C112: reading from a buffer, counting the calls of the reader's methods, is
      reading from it, and the count is bounded by a constant and a constant for every
      byte of the input; the constants depend on the type alone. *)
  Theorem C112_buffer t addr bs : fed h t = true ->
    let (r, ns) := read h (counting (BufferReader e)) t (0, br_start addr bs) in
    (r, snd ns) = read h (BufferReader e) t (br_start addr bs) /\ fst ns <= steps t + rate t * nlen bs.
  Proof.
    intros Hf.
    destruct (proj1 (costs_read any_state unread_bytes h VH (BufferReader e) buffer_meter t) Hf _ (N.le_refl _) 0 (br_start addr bs) I)
      as (H1 & H2 & _ & H4).
    destruct (read h (counting (BufferReader e)) t (0, br_start addr bs)) as [r [n s]].
    destruct (read h (BufferReader e) t (br_start addr bs)) as [r' s']. cbn [fst snd] in *. subst. split; [reflexivity|].
    unfold unread_bytes in H4. cbn [br_start br_rest] in H4. lia.
  Qed.

  Theorem C112_copying t bs : fed h t = true ->
    let (r, ns) := read h (counting (CopyingBufferReader e)) t (0, br_start 0 bs) in
    (r, snd ns) = read h (CopyingBufferReader e) t (br_start 0 bs) /\ fst ns <= steps t + rate t * nlen bs.
  Proof.
    intros Hf.
    destruct (proj1 (costs_read any_state unread_bytes h VH (CopyingBufferReader e) copying_meter t) Hf _ (N.le_refl _) 0 (br_start 0 bs) I)
      as (H1 & H2 & _ & H4).
    destruct (read h (counting (CopyingBufferReader e)) t (0, br_start 0 bs)) as [r [n s]].
    destruct (read h (CopyingBufferReader e) t (br_start 0 bs)) as [r' s']. cbn [fst snd] in *. subst. split; [reflexivity|].
    unfold unread_bytes in H4. cbn [br_start br_rest] in H4. lia.
  Qed.

  (** The same of a stream, buffered or not, however it delivers its bytes. *)
  Theorem C112_stream t mem buffering bs sched : fed h t = true ->
    (forall n, n <= nlen (mem n)) -> no_errors sched -> nlen bs <= l_usize_max (h_lim h) ->
    let start := sr_start mem buffering {| is_rest := bs; is_sched := sched |} in
    let (r, ns) := read h (counting (StreamReader mem e)) t (0, start) in
    (r, snd ns) = deserialize h mem buffering e t {| is_rest := bs; is_sched := sched |}
    /\ fst ns <= steps t + rate t * nlen bs.
  Proof.
    intros Hf Hmem Hno Hl start.
    pose proof (sr_start_rep h mem Hmem buffering true sched {| is_rest := bs; is_sched := sched |} eq_refl Hl) as Hs.
    destruct (proj1 (costs_read _ _ h VH (StreamReader mem e) (stream_meter mem buffering sched Hmem Hno) t)
                Hf _ (N.le_refl _) 0 start (ex_intro _ _ Hs)) as (H1 & H2 & _ & H4).
    unfold deserialize. fold start.
    destruct (read h (counting (StreamReader mem e)) t (0, start)) as [r [n s]].
    destruct (read h (StreamReader mem e) t start) as [r' s']. cbn [fst snd] in *. subst. split; [reflexivity|].
    unfold start in H4. rewrite (sp_bytes _ _ _ _ _ _ Hs) in H4. cbn [is_rest] in H4. lia.
  Qed.
End Calls.

Print Assumptions C112_buffer.
Print Assumptions C112_copying.
Print Assumptions C112_stream.

(** The sample type: at most 53 calls, and 7 for every byte.  The sample value: 67 bytes,
    read from a stream in 30 calls. *)
Example sample_bound : fed host64 sample = true /\ steps sample = 53 /\ rate sample = 7.
Proof. vm_compute. auto. Qed.
Example sample_calls :
  match write_to_vec host64 dirty LE sample sample_value with
  | Ok b => (nlen b, fst (snd (read host64 (counting (StreamReader dirty LE)) sample
                                  (0, sr_start dirty true {| is_rest := b; is_sched := [RChunk 3] |}))))
  | _ => (0, 0)
  end = (67, 30).
Proof. vm_compute. reflexivity. Qed.

(** Elements that may take nothing, because their only field has a default for the end
    of the input: four bytes that announce 4000 elements are read in 4002 calls. *)
Definition soft : ty := TSeq KVec (TStruct (sd 92 RRust) [(with_default (VInt 0), TP U8)]).
Theorem C112_unfed_refuted :
  fed host64 soft = false
  /\ let (r, ns) := read host64 (counting (StreamReader dirty LE)) soft
                      (0, sr_start dirty false {| is_rest := [xa0; x0f; x00; x00]; is_sched := [] |}) in
     r = Ok (VSeq (repeat (VSeq [VInt 0]) (N.to_nat 4000)))
     /\ steps soft + rate soft * 4 < fst ns /\ fst ns = 4002.
Proof. vm_compute. repeat split; reflexivity. Qed.
Print Assumptions C112_unfed_refuted.
