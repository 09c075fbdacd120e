(* Properties C15, C24, C25: what reading guarantees for every input. *)
From Verif Require Import Sane Samples.

(** [outcome h e t bs buf r]: [r] is what an entry point of the library returns
    for the input [bs]; [buf]: it reads from a buffer.  Streams deliver in chunks
    of any size and may fail at any time in any way, except by claiming
    themselves that the input has ended unexpectedly. *)
Inductive outcome (h : host) (e : endian) (t : ty) (bs : bytes) : bool -> res val -> Prop :=
| of_buffer addr : outcome h e t bs true (read_from_buffer h e t addr bs)
| of_copied_buffer : outcome h e t bs true (read_from_buffer_copying h e t bs)
| of_buffered_stream mem sched : (forall n, n <= nlen (mem n)) -> ~ In (RErr IoUnexpectedEof) sched ->
    outcome h e t bs false (fst (read_from_stream_buffered h mem e t {| is_rest := bs; is_sched := sched |}))
| of_unbuffered_stream mem sched : (forall n, n <= nlen (mem n)) -> ~ In (RErr IoUnexpectedEof) sched ->
    outcome h e t bs false (fst (read_from_stream_unbuffered h mem e t {| is_rest := bs; is_sched := sched |}))
| of_mapped_file mem oserr sched : outcome h e t bs true (read_from_file h true mem oserr e t bs sched)
| of_streamed_file mem oserr sched : (forall n, n <= nlen (mem n)) -> ~ In (RErr IoUnexpectedEof) sched ->
    outcome h e t bs false (read_from_file h false mem oserr e t bs sched).

(** A buffer is an object in memory; the length of a stream is only assumed to be
    a number. *)
Definition max_input (h : host) (buf : bool) : N := if buf then h_alloc_max h else l_usize_max (h_lim h).

(** Room for vectors, by kind of reader. *)
Definition room (h : host) (L : N) (buf : bool) : N -> N -> N -> Prop :=
  if buf then buffer_room h L else stream_room h.

Section Outcomes.
  Context (h : host) (VH : valid_host h) (e : endian) (L : N).

  (** Whatever entry point is used, [read] runs on a reader that obeys the laws. *)
  Lemma outcome_via t bs buf r allow : nlen bs <= L -> L <= max_input h buf -> outcome h e t bs buf r ->
    (exists er, r = Err er)
    \/ exists St (R : reader St) inv s, safe_reader h R inv allow L (room h L buf)
         /\ rd_endian R = e /\ inv s (nlen bs) /\ r = fst (read h R t s).
  Proof.
    intros Hl HL Hr.
    assert (Hbuf : forall R addr, safe_reader h R (binv L) allow L (buffer_room h L) -> rd_endian R = e ->
      (exists er, fst (fst (with_min h t R addr bs)) = Err er)
      \/ exists St (R' : reader St) inv s, safe_reader h R' inv allow L (room h L true)
         /\ rd_endian R' = e /\ inv s (nlen bs) /\ fst (fst (with_min h t R addr bs)) = fst (read h R' t s)).
    { intros R addr HR He. unfold with_min. destruct (_ <? _); [left; eexists; reflexivity|right].
      exists _, R, (binv L), (br_start addr bs).
      split; [exact HR|]. split; [exact He|]. split; [exact (conj eq_refl Hl)|].
      destruct (read h R t (br_start addr bs)). reflexivity. }
    assert (Hstr : forall mem sched buffering, (forall n, n <= nlen (mem n)) -> ~ In (RErr IoUnexpectedEof) sched -> L <= max_input h false ->
      exists St (R' : reader St) inv s, safe_reader h R' inv allow L (room h L false)
         /\ rd_endian R' = e /\ inv s (nlen bs)
         /\ fst (deserialize h mem buffering e t {| is_rest := bs; is_sched := sched |}) = fst (read h R' t s)).
    { intros mem sched buffering Hmem Hsc HL'. cbn [max_input] in HL'.
      exists _, (StreamReader mem e), (sinv h buffering sched L), (sr_start mem buffering {| is_rest := bs; is_sched := sched |}).
      split; [exact (stream_safe h e mem Hmem buffering sched Hsc allow L HL')|]. split; [reflexivity|].
      split; [|reflexivity]. exists bs. split; [|auto].
      apply (sr_start_rep h mem Hmem buffering true sched {| is_rest := bs; is_sched := sched |} eq_refl). cbn [is_rest]. lia. }
    destruct Hr as [addr| |mem sched Hmem Hsc|mem sched Hmem Hsc|mem oserr sched|mem oserr sched Hmem Hsc].
    - apply (Hbuf (BufferReader e) addr); [apply buffer_safe; assumption|reflexivity].
    - apply (Hbuf (CopyingBufferReader e) 0); [apply copying_safe; assumption|reflexivity].
    - right. unfold read_from_stream_buffered.
      pose proof (Hstr mem sched true Hmem Hsc HL) as H. destruct (deserialize _ _ _ _ _ _). exact H.
    - right. unfold read_from_stream_unbuffered.
      pose proof (Hstr mem sched false Hmem Hsc HL) as H. destruct (deserialize _ _ _ _ _ _). exact H.
    - destruct oserr as [k|]; [left; eexists; reflexivity|].
      apply (Hbuf (CopyingBufferReader e) 0); [apply copying_safe; assumption|reflexivity].
    - destruct oserr as [k|]; [left; eexists; reflexivity|right].
      cbn [read_from_file]. unfold read_from_stream_buffered.
      pose proof (Hstr mem sched true Hmem Hsc HL) as H. destruct (deserialize _ _ _ _ _ _). exact H.
  Qed.

  Lemma outcome_tri t bs buf r allow : nlen bs <= L -> L <= max_input h buf ->
    calm h e allow L (room h L buf) LDefault t -> outcome h e t bs buf r ->
    match r with Ok v => valid (h_lim h) t v | Err _ => True | Fault f => allow f end.
  Proof.
    intros Hl HL Hc Hr. destruct (outcome_via t bs buf r allow Hl HL Hr) as [(er & ->)|(St & R & inv & s & HR & He & Hs & ->)]; [exact I|].
    subst e.
    pose proof (read_safe h VH R inv allow L (room h L buf) HR t 0 Hc (or_introl eq_refl) s _ Hs) as H.
    destruct (read h R t s) as [[v|er|f] s']; cbn [fst]; [apply H|exact I|exact H].
  Qed.

  (* ---------------------------------------------------------------- *)
  (** ** C24 *)

  (** C24: whatever the input and the entry point, a value that is returned is a
      valid value of its type. *)
  Theorem C24_values_valid_partial t bs buf v : sane h L LDefault t -> nlen bs <= L -> L <= max_input h buf ->
    outcome h e t bs buf (Ok v) -> valid (h_lim h) t v.
  Proof.
    intros Hs Hl HL Hr.
    exact (outcome_tri t bs buf (Ok v) (fun _ => True) Hl HL (sane_calm h L e _ t LDefault Hs) Hr).
  Qed.

  (* ---------------------------------------------------------------- *)
  (** ** C25 *)

  (** C25: a read that does not return panics in one of the ways [allow]ed by the
      type: [calm] lists for each way the types that are exposed to it. *)
  Theorem C25_faults_partial allow t bs buf f : nlen bs <= L -> L <= max_input h buf ->
    calm h e allow L (room h L buf) LDefault t -> outcome h e t bs buf (Fault f) -> allow f.
  Proof. intros Hl HL Hc Hr. exact (outcome_tri t bs buf (Fault f) allow Hl HL Hc Hr). Qed.

  (** In particular there are types that never panic. *)
  Theorem C25_never_panics_partial t bs buf f : nlen bs <= L -> L <= max_input h buf ->
    calm h e (fun _ => False) L (room h L buf) LDefault t -> ~ outcome h e t bs buf (Fault f).
  Proof. intros Hl HL Hc Hr. exact (C25_faults_partial _ t bs buf f Hl HL Hc Hr). Qed.

  (* ---------------------------------------------------------------- *)
  (** ** C15 *)

  Notation min := (min_bytes h).

  (** C15: what the buffer readers consume. *)
  Theorem C15_buffer_consumes_partial t addr bs v n : least h t -> sane h L LDefault t ->
    nlen bs <= L -> L <= h_alloc_max h ->
    (read_with_length_from_buffer h e t addr bs = (Ok v, n) \/ read_with_length_from_buffer_copying h e t bs = (Ok v, n)) ->
    min t <= n <= nlen bs.
  Proof.
    intros Hm Hs Hl HL Hr.
    assert (H : forall R a, safe_reader h R (binv L) (fun _ => True) L (buffer_room h L) -> rd_endian R = e ->
      fst (with_min h t R a bs) = (Ok v, n) -> min t <= n <= nlen bs).
    { intros R a HR He. unfold with_min. destruct (_ <? _); [discriminate|]. subst e.
      pose proof (read_safe h VH R _ _ L _ HR t (min t) (sane_calm h L (rd_endian R) _ t LDefault Hs)
        (or_intror (conj Hm eq_refl)) (br_start a bs) (nlen bs) (conj eq_refl Hl)) as H.
      destruct (read h R t (br_start a bs)) as [r s]. cbn [fst]. intros E. injection E as -> <-.
      destruct H as [_ (n' & [H1 H2] & H3)]. lia. }
    destruct Hr as [Hr|Hr]; (eapply H; [| |exact Hr]); auto; [apply buffer_safe|apply copying_safe]; assumption.
  Qed.

  (** ... and the stream readers; [unread]: what is still in the buffer of the
      reader and in the stream. *)
  Theorem C15_stream_consumes_partial t bs mem buffering sched v s : least h t -> sane h L LDefault t ->
    nlen bs <= L -> L <= l_usize_max (h_lim h) -> (forall n, n <= nlen (mem n)) -> ~ In (RErr IoUnexpectedEof) sched ->
    deserialize h mem buffering e t {| is_rest := bs; is_sched := sched |} = (Ok v, s) ->
    nlen (unread s) + min t <= nlen bs.
  Proof.
    intros Hm Hs Hl HL Hmem Hsc Hr. unfold deserialize in Hr.
    pose proof (read_safe h VH (StreamReader mem e) _ _ L _ (stream_safe h e mem Hmem buffering sched Hsc (fun _ => True) L HL) t (min t)
      (sane_calm h L e _ t LDefault Hs) (or_intror (conj Hm eq_refl))) as H.
    specialize (H (sr_start mem buffering {| is_rest := bs; is_sched := sched |}) (nlen bs)).
    rewrite Hr in H. destruct H as [_ (n' & (bs' & Hrep & H1 & H2) & H3)].
    - exists bs. split; [|auto].
      apply (sr_start_rep h mem Hmem buffering true sched {| is_rest := bs; is_sched := sched |} eq_refl). cbn [is_rest]. lia.
    - rewrite (sp_bytes _ _ _ _ _ _ Hrep). lia.
  Qed.

  (** The check at the buffer entry points refuses only what cannot be read
      anyway: without it, reading does not succeed either. *)
  Theorem C15_entry_check_partial t addr bs v : least h t -> sane h L LDefault t ->
    nlen bs <= L -> L <= h_alloc_max h -> nlen bs < min t ->
    fst (read h (BufferReader e) t (br_start addr bs)) <> Ok v
    /\ fst (read h (CopyingBufferReader e) t (br_start addr bs)) <> Ok v.
  Proof.
    intros Hm Hs Hl HL Hlt.
    assert (H : forall R a, safe_reader h R (binv L) (fun _ => True) L (buffer_room h L) -> rd_endian R = e ->
      fst (read h R t (br_start a bs)) <> Ok v).
    { intros R a HR He E. subst e.
      pose proof (read_safe h VH R _ _ L _ HR t (min t) (sane_calm h L (rd_endian R) _ t LDefault Hs)
        (or_intror (conj Hm eq_refl)) (br_start a bs) (nlen bs) (conj eq_refl Hl)) as H.
      destruct (read h R t (br_start a bs)) as [r s]. cbn [fst] in E. subst r.
      destruct H as [_ (n' & [H1 H2] & H3)]. lia. }
    split; apply H; auto; [apply buffer_safe|apply copying_safe]; assumption.
  Qed.

  (** The check of [read_vec] refuses a length [n] if fewer than [n * min t] bytes
      are left: then that many elements cannot be read one after the other. *)
  Theorem C15_vector_check_partial t n addr bs vs : least h t -> sane h L LDefault t ->
    nlen bs <= L -> L <= h_alloc_max h -> nlen bs < min t * n ->
    fst (repeatM (read h (BufferReader e) t) (N.to_nat n) (br_start addr bs)) <> Ok vs
    /\ fst (repeatM (read h (CopyingBufferReader e) t) (N.to_nat n) (br_start addr bs)) <> Ok vs.
  Proof.
    intros Hm Hs Hl HL Hlt.
    assert (H : forall R a, safe_reader h R (binv L) (fun _ => True) L (buffer_room h L) -> rd_endian R = e ->
      fst (repeatM (read h R t) (N.to_nat n) (br_start a bs)) <> Ok vs).
    { intros R a HR He E. subst e.
      pose proof (tri_repeat (binv L) (fun _ => True) (min t) _ _ (N.to_nat n)
        (read_safe h VH R _ _ L _ HR t (min t) (sane_calm h L (rd_endian R) _ t LDefault Hs) (or_intror (conj Hm eq_refl)))
        (br_start a bs) (nlen bs) (conj eq_refl Hl)) as H.
      destruct (repeatM _ _ _) as [r s]. cbn [fst] in E. subst r.
      destruct H as [_ (n' & [H1 H2] & H3)]. lia. }
    split; apply H; auto; [apply buffer_safe|apply copying_safe]; assumption.
  Qed.
End Outcomes.

Print Assumptions C15_buffer_consumes_partial.
Print Assumptions C15_stream_consumes_partial.
Print Assumptions C15_entry_check_partial.
Print Assumptions C15_vector_check_partial.
Print Assumptions C24_values_valid_partial.
Print Assumptions C25_faults_partial.
Print Assumptions C25_never_panics_partial.

(* ------------------------------------------------------------------ *)
(** * Where they fail *)

(** C15: an enum read with `peek_tag` consumes nothing, its minimum is the size of
    the tag.  The four bytes of a value of this type are refused by the buffer
    readers. *)
Definition peeked : ty := TEnum {| e_tag := BU32; e_peek := true |} [(1, []); (2, [])].
Definition peeked_pair : ty := TStruct (sd 1 RRust) [(plain, peeked); (plain, TP U32)].

Theorem C15_peeked_refuted : exists h t bs v, valid_host h /\
  read_from_buffer h LE t 0 bs = Err (InputBufferIsTooSmall 4 8)
  /\ fst (read h (BufferReader LE) t (br_start 0 bs)) = Ok v.
Proof.
  exists host64, peeked_pair, [x01; x00; x00; x00]. eexists. split; [apply host64_valid|].
  split; vm_compute; reflexivity.
Qed.

(** C24: `enum Never {}` has no values; a vector with one of them can be read. *)
Definition never : ty := TEnum {| e_tag := BU32; e_peek := false |} [].

Lemma never_uninhabited lim v : ~ valid lim never v.
Proof. destruct v; cbn; auto.  Qed.

Theorem C24_uninhabited_refuted : exists h t bs v, valid_host h /\
  read_from_buffer h LE t 0 bs = Ok v /\ ~ valid (h_lim h) t v.
Proof.
  exists host64, (TSeq KVec never), [x01; x00; x00; x00; x00; x00; x00; x00]. eexists. split; [apply host64_valid|].
  split; [vm_compute; reflexivity|]. cbn [valid]. intros [H _]. inversion H as [|? ? Hv]; subst.
  exact (never_uninhabited _ _ Hv).
Qed.

(** C25: the ways to panic, one by one.  `Duration`: the sum of seconds and
    nanoseconds overflows. *)
Theorem C25_duration_refuted : exists h t bs, valid_host h /\ read_from_buffer h LE t 0 bs = Fault PanicExplicit.
Proof.
  exists host64, (TScalar SDuration), (repeat xff 12). split; [apply host64_valid|]. vm_compute. reflexivity.
Qed.

(** A vector announced by a stream is allocated before its first element is
    looked for. *)
Theorem C25_stream_capacity_refuted : exists h t bs, valid_host h /\
  fst (read_from_stream_buffered h dirty LE t {| is_rest := bs; is_sched := [] |}) = Fault PanicCapacity.
Proof.
  exists host32, (TSeq KVec (TP U16)), [xff; xff; xff; x7f]. split; [apply host32_valid|]. vm_compute. reflexivity.
Qed.

(** The same from a buffer, for elements whose minimum is zero. *)
Theorem C25_buffer_capacity_refuted : exists h t bs, valid_host h /\
  read_from_buffer h LE t 0 bs = Fault PanicCapacity.
Proof.
  exists host64,
    (TStruct (sd 1 RRust) [(with_len (LType BU64), TSeq KVec (TStruct (sd 2 RRust) [(with_skip (VInt 0), TP U32)]))]),
    (repeat xff 8).
  split; [apply host64_valid|]. vm_compute. reflexivity.
Qed.

(** `Cow<[T]>` and `HashSet<T>` of a struct without fields divide by its size. *)
Definition empty_struct : ty := TStruct (sd 1 RRust) [].
Theorem C25_zero_size_refuted : exists h t bs, valid_host h /\ read_from_buffer h LE t 0 bs = Fault PanicDivZero.
Proof.
  exists host64, (TSeq KCow empty_struct), [x01; x00; x00; x00]. split; [apply host64_valid|]. vm_compute. reflexivity.
Qed.
Theorem C25_zero_size_set_refuted : exists h t bs, valid_host h /\ read_from_buffer h LE t 0 bs = Fault PanicDivZero.
Proof.
  exists host64, (TSet CHash empty_struct), [x01; x00; x00; x00]. split; [apply host64_valid|]. vm_compute. reflexivity.
Qed.

(** The size in bytes of a `Cow<[T]>` overflows. *)
Theorem C25_overflow_refuted : exists h t bs, valid_host h /\ read_from_buffer h LE t 0 bs = Fault PanicOverflow.
Proof.
  exists host32, (TSeq KCow (TP U16)), [x00; x00; x00; x80]. split; [apply host32_valid|]. vm_compute. reflexivity.
Qed.

(** Structs of `repr(transparent)` wrappers cannot be converted to the byte order of
    the host. *)
Theorem C25_transparent_refuted : exists h t bs, valid_host h /\ read_from_buffer h BE t 0 bs = Fault PanicExplicit.
Proof.
  exists host64, (TSeq KVec (TStruct (sd 1 RRust) [(plain, TStruct (sd 2 RTransparent) [(plain, TP U8)])])), [x00; x00; x00; x01; x07].
  split; [apply host64_valid|]. vm_compute. reflexivity.
Qed.

(** A `&[u16]` at an odd address. *)
Theorem C25_misaligned_refuted : exists h t addr bs, valid_host h /\ read_from_buffer h LE t addr bs = Fault UbMisaligned.
Proof.
  exists host64, (TSeq KRef (TP U16)), 1, [x01; x00; x00; x00; x07; x00]. split; [apply host64_valid|]. vm_compute. reflexivity.
Qed.

Print Assumptions C15_peeked_refuted.
Print Assumptions C24_uninhabited_refuted.
Print Assumptions C25_duration_refuted.
Print Assumptions C25_stream_capacity_refuted.
Print Assumptions C25_buffer_capacity_refuted.
Print Assumptions C25_zero_size_refuted.
Print Assumptions C25_zero_size_set_refuted.
Print Assumptions C25_overflow_refuted.
Print Assumptions C25_transparent_refuted.
Print Assumptions C25_misaligned_refuted.

(* ------------------------------------------------------------------ *)
(** * The hypotheses are met *)

(* struct Tidy {
     count: u8,
     #[speedy(varint)] size: u64,
     #[speedy(skip)] cache: u32,
     #[speedy(length_type = u8)] samples: Vec<u16>,
     names: HashMap<u8, String>,
     points: Cow<[Point]>,
     #[speedy(constant_prefix = "SH")] shape: Option<Shape>,
     pair: Box<(char, i64)>,
     result: Result<[u16; 2], bool>,
     #[speedy(default_on_eof)] extra: u32,
     #[speedy(length = ..)] rest: Vec<NonZeroU16>,
   } *)
Definition tidy : ty :=
  TStruct (sd 2 RRust)
    [ (plain, TP U8); (with_varint, TP U64); (with_skip (VInt 0), TP U32);
      (with_len (LType BU8), TSeq KVec (TP U16));
      (plain, TMap CHash (TP U8) (TStr KString)); (plain, TSeq KCow point);
      (with_prefix [x53; x48], TOption shape); (plain, TBox (TTuple [TScalar SChar; TP I64]));
      (plain, TResult (TArr (TP U16) 2) (TScalar SBool));
      (with_default (VInt 9), TP U32); (with_len LEof, TSeq KVec (TScalar (SNonZero U16))) ].

Definition tidy_bytes : bytes :=
  [ x02; x81; x2c; x02; x01; x00; x03; x02;
    x01; x00; x00; x00; x01; x01; x00; x00; x00; x61;
    x01; x00; x00; x00; x02; x01; xfe; xff; x53; x48; x01; x03; x00;
    xac; x20; x00; x00; xff; xff; xff; xff; xff; xff; xff; xff; x01; x01; x00; x02; x00;
    x05; x00; x00; x00; x01; x00; x02; x00; x03 ].

Definition nothing (f : fault) : bool := false.

Lemma tidy_calm64 buf : calm host64 LE (allowed nothing) (2 ^ 40) (room host64 (2 ^ 40) buf) LDefault tidy.
Proof.
  destruct buf.
  - apply (calmb_sound host64 LE nothing (2 ^ 40) (buffer_roomb host64 (2 ^ 40))); [apply buffer_roomb_sound|]. vm_compute. reflexivity.
  - apply (calmb_sound host64 LE nothing (2 ^ 40) (stream_roomb host64)); [apply stream_roomb_sound|]. vm_compute. reflexivity.
Qed.

(** ... on a host with small addresses streams can announce too much. *)
Definition capacity (f : fault) : bool := match f with PanicCapacity | PanicOverflow => true | _ => false end.

Lemma tidy_calm32 : calm host32 BE (allowed capacity) 1000 (room host32 1000 false) LDefault tidy.
Proof.
  apply (calmb_sound host32 BE capacity 1000 (stream_roomb host32)); [apply stream_roomb_sound|]. vm_compute. reflexivity.
Qed.

Lemma tidy_sane64 : sane host64 (2 ^ 40) LDefault tidy.
Proof. apply saneb_sound. vm_compute. reflexivity. Qed.

Example C24_tidy : exists v, read_from_buffer host64 LE tidy 3 tidy_bytes = Ok v /\ valid (h_lim host64) tidy v.
Proof.
  assert (H : exists v, read_from_buffer host64 LE tidy 3 tidy_bytes = Ok v) by (eexists; vm_compute; reflexivity).
  destruct H as [v E]. exists v. split; [exact E|].
  apply (C24_values_valid_partial host64 host64_valid LE (2 ^ 40) tidy tidy_bytes true v tidy_sane64).
  - vm_compute. discriminate.
  - vm_compute. discriminate.
  - rewrite <- E. apply of_buffer.
Qed.

Example C25_tidy bs buf f : nlen bs <= 2 ^ 40 -> ~ outcome host64 LE tidy bs buf (Fault f).
Proof.
  intros Hl Hr.
  assert (HL : 2 ^ 40 <= max_input host64 buf) by (destruct buf; vm_compute; discriminate).
  pose proof (C25_faults_partial host64 host64_valid LE (2 ^ 40) _ tidy bs buf f Hl HL (tidy_calm64 buf) Hr) as H.
  discriminate H.
Qed.

Example C25_tidy32 bs f : nlen bs <= 1000 -> outcome host32 BE tidy bs false (Fault f) ->
  f = PanicCapacity \/ f = PanicOverflow.
Proof.
  intros Hl Hr.
  assert (HL : 1000 <= max_input host32 false) by (vm_compute; discriminate).
  pose proof (C25_faults_partial host32 host32_valid BE 1000 _ tidy bs false f Hl HL tidy_calm32 Hr) as H.
  destruct f; try discriminate H; auto.
Qed.

Lemma tidy_least : least host64 tidy.
Proof. apply leastb_sound. vm_compute. reflexivity. Qed.

Example C15_tidy : min_bytes host64 tidy = 27
  /\ snd (read_with_length_from_buffer host64 LE tidy 3 tidy_bytes) = 56.
Proof. split; vm_compute; reflexivity. Qed.

(** A length computed from an earlier field: `#[speedy(length = count as usize % 256)]`. *)
Definition low_byte (prev : list (option Z)) : option N :=
  match prev with Some z :: _ => Some (Z.to_N (z mod 256)) | _ => Some 0 end.
Definition counted_bytes : ty := TStruct (sd 1 RRust) [(plain, TP U8); (with_len (LExpr low_byte), TSeq KVec (TP U8))].

Lemma low_byte_lt prev n : low_byte prev = Some n -> n < 256.
Proof.
  destruct prev as [|[z|] r]; cbn [low_byte]; intros E; injection E as <-; try reflexivity.
  pose proof (Z.mod_pos_bound z 256 eq_refl). lia.
Qed.

Lemma counted_bytes_calm : calm host32 LE (allowed nothing) 1000 (room host32 1000 false) LDefault counted_bytes.
Proof.
  assert (Hu : forall n, n < 256 -> n <= l_usize_max (h_lim host32)).
  { change (l_usize_max (h_lim host32)) with 4294967295. lia. }
  split; [|split; [|exact I]]; (split; [discriminate|]); right.
  - split; [discriminate|]. split; [vm_compute; discriminate|exact I].
  - split; [discriminate|]. split; [vm_compute; discriminate|].
    split; [split|]; [intros prev n E; apply Hu, (low_byte_lt prev n E)|right; intros [|[z|] r]; discriminate|].
    split; [apply (elem_okb_sound host32 LE nothing); vm_compute; reflexivity|].
    split; [discriminate|]. split; [|split; [discriminate|exact I]].
    right. intros n [prev E]. apply low_byte_lt in E. unfold room, stream_room.
    change (h_size host32 (TP U8)) with 1. change (h_alloc_max host32) with 2147483647. lia.
Qed.

Example C25_counted_bytes bs f : nlen bs <= 1000 -> ~ outcome host32 LE counted_bytes bs false (Fault f).
Proof.
  intros Hl Hr.
  assert (HL : 1000 <= max_input host32 false) by (vm_compute; discriminate).
  pose proof (C25_faults_partial host32 host32_valid LE 1000 _ counted_bytes bs false f Hl HL counted_bytes_calm Hr) as H.
  discriminate H.
Qed.
