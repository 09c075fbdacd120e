(* All the ways to read a value from given bytes. *)
From Verif Require Export ReadApi.

(** Same value, or both fail. *)
Definition same_value (r1 r2 : res val) : Prop := forall v, r1 = Ok v <-> r2 = Ok v.

(** A stream that delivers in chunks of any size and does not fail. *)
Definition no_errors (sched : list read_event) : Prop := forall k, ~ In (RErr k) sched.

(** Nothing worse than interruptions. *)
Definition only_interrupted (sched : list read_event) : Prop := forall k, In (RErr k) sched -> k = IoInterrupted.

(** [reading h e t bs bw r]: [r] is what one of the entry points returns for the
    bytes [bs]; [bw]: it is the one that lends slices of its input.  The size
    bounds say that the buffer or the stream's content exists in memory. *)
Inductive reading (h : host) (e : endian) (t : ty) (bs : bytes) : bool -> res val -> Prop :=
| from_buffer addr : nlen bs <= h_alloc_max h -> reading h e t bs true (read_from_buffer h e t addr bs)
| from_copied_buffer : nlen bs <= h_alloc_max h -> reading h e t bs false (read_from_buffer_copying h e t bs)
| from_buffered_stream mem sched : (forall n, n <= nlen (mem n)) -> no_errors sched ->
    nlen bs <= l_usize_max (h_lim h) ->
    reading h e t bs false (fst (read_from_stream_buffered h mem e t {| is_rest := bs; is_sched := sched |}))
| from_unbuffered_stream mem sched : (forall n, n <= nlen (mem n)) -> no_errors sched ->
    nlen bs <= l_usize_max (h_lim h) ->
    reading h e t bs false (fst (read_from_stream_unbuffered h mem e t {| is_rest := bs; is_sched := sched |})).

Section Entry.
  Context (h : host) (VH : valid_host h) (e : endian).
  Notation e6 := (ipv6_order h e).
  Notation decode := (decode (h_lim h) e e6).

  (** Refused by the check at the buffer entry points. *)
  Definition too_small (t : ty) (bs : bytes) (r : res val) : Prop :=
    nlen bs < min_bytes h t /\ r = Err (InputBufferIsTooSmall (nlen bs) (min_bytes h t)).

  Lemma stream_reading t bs mem buffering sched : (forall n, n <= nlen (mem n)) -> no_errors sched ->
    nlen bs <= l_usize_max (h_lim h) -> supported h e false true LDefault t ->
    agrees (decode t bs) (fst (deserialize h mem buffering e t {| is_rest := bs; is_sched := sched |})).
  Proof.
    intros Hmem Hsc Hl Hs.
    pose proof (stream_agrees h VH e mem Hmem buffering true {| is_rest := bs; is_sched := sched |}
      (Hsc _) Hl t Hs) as H.
    destruct (deserialize h mem buffering e t _) as [r s]. cbn [fst is_rest is_sched] in *.
    destruct H as [(k & _ & Hk & _)|[Hr _]]; [destruct (Hsc _ Hk)|exact Hr].
  Qed.

  (** Every entry point follows the format. *)
  Theorem reading_agrees t bs bw r : supported h e bw true LDefault t -> reading h e t bs bw r ->
    too_small t bs r \/ agrees (decode t bs) r.
  Proof.
    intros Hs Hr. revert Hs. destruct Hr as [addr Hl|Hl|mem sched Hmem Hsc Hl|mem sched Hmem Hsc Hl]; intros Hs.
    - destruct (N.lt_ge_cases (nlen bs) (min_bytes h t)) as [Hm|Hm].
      + left. split; [exact Hm|]. unfold read_from_buffer. rewrite buffer_small by exact Hm. reflexivity.
      + right. apply (buffer_agrees h VH e); assumption.
    - destruct (N.lt_ge_cases (nlen bs) (min_bytes h t)) as [Hm|Hm].
      + left. split; [exact Hm|]. unfold read_from_buffer_copying. rewrite copying_small by exact Hm. reflexivity.
      + right. apply (copying_agrees h VH e); assumption.
    - right. pose proof (stream_reading t bs mem true sched Hmem Hsc Hl Hs) as H.
      unfold read_from_stream_buffered. destruct (deserialize _ _ _ _ _ _). exact H.
    - right. pose proof (stream_reading t bs mem false sched Hmem Hsc Hl Hs) as H.
      unfold read_from_stream_unbuffered. destruct (deserialize _ _ _ _ _ _). exact H.
  Qed.

  (** An encoding with something behind it. *)
  Lemma reading_ok t bs bw r v o : supported h e bw true LDefault t -> reading h e t bs bw r ->
    decode t bs = DOk v o -> min_bytes h t <= nlen bs -> r = Ok v.
  Proof.
    intros Hs Hr Hd Hm. destruct (reading_agrees t bs bw r Hs Hr) as [[H _]|H]; [lia|].
    rewrite Hd in H. exact H.
  Qed.

  (** Nothing else is read. *)
  Lemma reading_decodes t bs bw v : supported h e bw true LDefault t -> reading h e t bs bw (Ok v) ->
    (exists o, decode t bs = DOk v o) \/ decode t bs = DUnspec.
  Proof.
    intros Hs Hr. destruct (reading_agrees t bs bw _ Hs Hr) as [[_ H]|H]; [discriminate|].
    destruct (decode t bs) as [w o| |er sure|f sure|]; cbn in H.
    - injection H as <-. eauto.
    - destruct H as (er & H & _). discriminate.
    - destruct H as [[H _]|[_ (er' & H & _)]]; discriminate.
    - destruct H as [H|[_ (er' & H & _)]]; discriminate.
    - auto.
  Qed.

  (** Every entry point runs [read] on a reader that follows the format. *)
  Lemma reading_via t bs bw r : reading h e t bs bw r ->
    too_small t bs r
    \/ exists St (R : reader St) rep io s, reader_ok h R true rep io /\ rd_endian R = e /\ rep s bs
         /\ (forall er, ~ io er)
         /\ (bw = true -> rd_borrow R <> None /\ rd_borrow_eof R <> None)
         /\ r = fst (read h R t s).
  Proof.
    intros Hr. destruct Hr as [addr Hl|Hl|mem sched Hmem Hsc Hl|mem sched Hmem Hsc Hl].
    - destruct (N.lt_ge_cases (nlen bs) (min_bytes h t)) as [Hm|Hm].
      + left. split; [exact Hm|]. unfold read_from_buffer. rewrite buffer_small by exact Hm. reflexivity.
      + right. exists _, (BufferReader e), (brep h), no_io, (br_start addr bs).
        split; [apply buffer_ok, VH|]. split; [reflexivity|]. split; [split; [reflexivity|exact Hl]|].
        split; [intros er []|]. split; [split; discriminate|].
        unfold read_from_buffer, read_with_length_from_buffer, with_min.
        destruct (N.ltb_spec (nlen bs) (min_bytes h t)); [lia|].
        destruct (read h (BufferReader e) t (br_start addr bs)). reflexivity.
    - destruct (N.lt_ge_cases (nlen bs) (min_bytes h t)) as [Hm|Hm].
      + left. split; [exact Hm|]. unfold read_from_buffer_copying. rewrite copying_small by exact Hm. reflexivity.
      + right. exists _, (CopyingBufferReader e), (brep h), no_io, (br_start 0 bs).
        split; [apply copying_ok, VH|]. split; [reflexivity|]. split; [split; [reflexivity|exact Hl]|].
        split; [intros er []|]. split; [discriminate|].
        unfold read_from_buffer_copying, read_with_length_from_buffer_copying, with_min.
        destruct (N.ltb_spec (nlen bs) (min_bytes h t)); [lia|].
        destruct (read h (CopyingBufferReader e) t (br_start 0 bs)). reflexivity.
    - right. exists _, (StreamReader mem e), (srep h true true sched), (sio true true sched),
        (sr_start mem true {| is_rest := bs; is_sched := sched |}).
      split; [exact (stream_ok h e mem Hmem true true sched (Hsc _))|]. split; [reflexivity|].
      split; [exact (sr_start_rep h mem Hmem true true sched {| is_rest := bs; is_sched := sched |} eq_refl Hl)|].
      split; [intros er (k & _ & Hk & _); exact (Hsc _ Hk)|]. split; [discriminate|].
      unfold read_from_stream_buffered, deserialize. destruct (read h _ t _). reflexivity.
    - right. exists _, (StreamReader mem e), (srep h false true sched), (sio false true sched),
        (sr_start mem false {| is_rest := bs; is_sched := sched |}).
      split; [exact (stream_ok h e mem Hmem false true sched (Hsc _))|]. split; [reflexivity|].
      split; [exact (sr_start_rep h mem Hmem false true sched {| is_rest := bs; is_sched := sched |} eq_refl Hl)|].
      split; [intros er (k & _ & Hk & _); exact (Hsc _ Hk)|]. split; [discriminate|].
      unfold read_from_stream_unbuffered, deserialize. destruct (read h _ t _). reflexivity.
  Qed.
End Entry.
