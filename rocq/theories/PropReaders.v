(* Properties C07, C08, C09, C10, C41, C42, C50: the readers agree. *)
From Verif Require Import LockReaders Entry Samples.

Section Readers.
  Context (h : host) (VH : valid_host h) (e : endian).
  Notation e6 := (ipv6_order h e).
  Notation decode := (decode (h_lim h) e e6).

  (* ---------------------------------------------------------------- *)
  (** ** The two buffer readers *)

  (** C07: the same result, value or error, and the same number of bytes, for
      every input at every address.  [owned]: no borrowed references, and no
      `Cow<[T]>` for one of the three kinds of [T] refuted below. *)
  Theorem C07_buffer_readers_agree_partial t addr bs : owned h e t -> nlen bs <= h_alloc_max h ->
    read_with_length_from_buffer h e t addr bs = read_with_length_from_buffer_copying h e t bs.
  Proof.
    intros Ho Hl. unfold read_with_length_from_buffer, read_with_length_from_buffer_copying, with_min.
    destruct (_ <? _); [reflexivity|].
    assert (Hr : same_rest h (br_start addr bs) (br_start 0 bs)) by (split; [reflexivity|exact Hl]).
    pose proof (buffers_lock h VH e t Ho _ _ Hr) as H.
    destruct (read h (BufferReader e) t (br_start addr bs)) as [r1 s1].
    destruct (read h (CopyingBufferReader e) t (br_start 0 bs)) as [r2 s2]. cbn [fst snd] in *.
    destruct H as [(er & _ & [])|[(er & _ & [])|(-> & Hs & _)]]. rewrite Hs. reflexivity.
  Qed.

  (** In particular neither depends on the address. *)
  Corollary C07_any_address_partial t addr1 addr2 bs : owned h e t -> nlen bs <= h_alloc_max h ->
    read_with_length_from_buffer h e t addr1 bs = read_with_length_from_buffer h e t addr2 bs.
  Proof. intros Ho Hl. rewrite !C07_buffer_readers_agree_partial by assumption. reflexivity. Qed.

  (* ---------------------------------------------------------------- *)
  (** ** Streams *)

  Context (mem : N -> bytes) (Hmem : forall n, n <= nlen (mem n)).

  Lemma no_errors_clean sched : no_errors sched -> ~ In (RErr IoUnexpectedEof) sched.
  Proof. intros H. apply H. Qed.

  (** The chunks in which a stream is delivered do not matter: any type, any
      content, also if reading fails. *)
  Lemma chunks_irrelevant buffering t bs sched1 sched2 :
    nlen bs <= l_usize_max (h_lim h) -> no_errors sched1 -> no_errors sched2 ->
    fst (deserialize h mem buffering e t {| is_rest := bs; is_sched := sched1 |})
    = fst (deserialize h mem buffering e t {| is_rest := bs; is_sched := sched2 |}).
  Proof.
    intros Hl H1 H2. unfold deserialize.
    pose proof (streams_lock h VH e buffering true mem mem Hmem Hmem sched1 sched2
      (no_errors_clean _ H1) (no_errors_clean _ H2) t (peeks_anything t)) as H.
    assert (Hr : same_unread h buffering true sched1 sched2
      (sr_start mem buffering {| is_rest := bs; is_sched := sched1 |})
      (sr_start mem buffering {| is_rest := bs; is_sched := sched2 |})).
    { exists bs.
      split; [apply (sr_start_rep h mem Hmem buffering true sched1 {| is_rest := bs; is_sched := sched1 |} eq_refl Hl)|].
      split; [apply (sr_start_rep h mem Hmem buffering true sched2 {| is_rest := bs; is_sched := sched2 |} eq_refl Hl)|].
      intros Hb. cbn [sr_start sr_buffer]. split; [reflexivity|]. rewrite Hb.
      pose proof (with_capacity_ok mem Hmem (8 * 1024)) as (_ & _ & ->). lia. }
    destruct (H _ _ Hr) as [(er & _ & k & _ & Hk & _)|[(er & _ & k & _ & Hk & _)|[E _]]].
    - destruct (H1 _ Hk).
    - destruct (H2 _ Hk).
    - exact E.
  Qed.

  Theorem C08_chunks_irrelevant t bs sched1 sched2 :
    nlen bs <= l_usize_max (h_lim h) -> no_errors sched1 -> no_errors sched2 ->
    fst (read_from_stream_buffered h mem e t {| is_rest := bs; is_sched := sched1 |})
    = fst (read_from_stream_buffered h mem e t {| is_rest := bs; is_sched := sched2 |}).
  Proof.
    intros Hl H1 H2. pose proof (chunks_irrelevant true t bs sched1 sched2 Hl H1 H2) as H.
    unfold read_from_stream_buffered. destruct (deserialize _ _ _ _ _ _), (deserialize _ _ _ _ _ _). exact H.
  Qed.

  Theorem C09_chunks_irrelevant t bs sched1 sched2 :
    nlen bs <= l_usize_max (h_lim h) -> no_errors sched1 -> no_errors sched2 ->
    fst (read_from_stream_unbuffered h mem e t {| is_rest := bs; is_sched := sched1 |})
    = fst (read_from_stream_unbuffered h mem e t {| is_rest := bs; is_sched := sched2 |}).
  Proof.
    intros Hl H1 H2. pose proof (chunks_irrelevant false t bs sched1 sched2 Hl H1 H2) as H.
    unfold read_from_stream_unbuffered. destruct (deserialize _ _ _ _ _ _), (deserialize _ _ _ _ _ _). exact H.
  Qed.

  (** What the format leaves undefined is only what follows a caught end of
      input. *)
  Lemma agrees_same d r1 r2 : d <> DUnspec -> agrees d r1 -> agrees d r2 -> same_value r1 r2.
  Proof.
    intros Hd H1 H2 v. destruct d as [w o| |er sure|f sure|]; cbn in *; try congruence.
    - subst. reflexivity.
    - destruct H1 as (e1 & -> & _), H2 as (e2 & -> & _). split; discriminate.
    - destruct H1 as [[-> _]|[_ (e1 & -> & _)]], H2 as [[-> _]|[_ (e2 & -> & _)]]; split; discriminate.
    - destruct H1 as [->|[_ (e1 & -> & _)]], H2 as [->|[_ (e2 & -> & _)]]; split; discriminate.
  Qed.

  Lemma stream_as_buffer buffering t addr bs sched :
    supported h e false true LDefault t -> minok h t -> decode t bs <> DUnspec ->
    nlen bs <= h_alloc_max h -> no_errors sched ->
    same_value (read_from_buffer h e t addr bs)
               (fst (deserialize h mem buffering e t {| is_rest := bs; is_sched := sched |})).
  Proof.
    intros Hs Hm Hd Hl Hsc. pose proof (vh_alloc h VH) as Hal.
    assert (Hl' : nlen bs <= l_usize_max (h_lim h)) by lia.
    pose proof (stream_agrees h VH e mem Hmem buffering true {| is_rest := bs; is_sched := sched |}
      (no_errors_clean _ Hsc) Hl' t Hs) as H.
    destruct (deserialize h mem buffering e t _) as [r s]. cbn [fst is_rest is_sched] in *.
    destruct H as [(k & _ & Hk & _)|[Hr _]]; [destruct (Hsc _ Hk)|].
    destruct (N.le_gt_cases (min_bytes h t) (nlen bs)) as [Hmin|Hmin].
    - destruct (buffer_agrees h VH e t addr bs (supported_borrow _ _ _ _ _ Hs) Hl Hmin) as [Hb _].
      eapply agrees_same; eassumption.
    - unfold read_from_buffer. rewrite buffer_small by assumption. cbn [fst].
      intros v. split; [discriminate|]. intros ->.
      destruct (decode t bs) as [w o| |er sure|f sure|] eqn:Ed; cbn in Hr.
      + exfalso. eapply (small_undecodable h VH e t bs); eassumption.
      + destruct Hr as (er & E & _). discriminate.
      + destruct Hr as [[E _]|[_ (er' & E & _)]]; discriminate.
      + destruct Hr as [E|[_ (er' & E & _)]]; discriminate.
      + congruence.
  Qed.

  (** C08, C09: the value read from a buffer, however the stream delivers its
      content.  [minok]: no enum with `peek_tag` whose variants are shorter than
      the tag; [no_eof]: no `default_on_eof` or until-the-end part. *)
  Theorem C08_buffered_stream_partial t addr bs sched :
    supported h e false true LDefault t -> minok h t -> no_eof false t ->
    nlen bs <= h_alloc_max h -> no_errors sched ->
    same_value (read_from_buffer h e t addr bs)
               (fst (read_from_stream_buffered h mem e t {| is_rest := bs; is_sched := sched |})).
  Proof.
    intros Hs Hm Hn Hl Hsc.
    pose proof (stream_as_buffer true t addr bs sched Hs Hm (decode_spec (h_lim h) e e6 t bs Hn) Hl Hsc) as H.
    unfold read_from_stream_buffered. destruct (deserialize _ _ _ _ _ _). exact H.
  Qed.

  Theorem C09_unbuffered_stream_partial t addr bs sched :
    supported h e false true LDefault t -> minok h t -> no_eof false t ->
    nlen bs <= h_alloc_max h -> no_errors sched ->
    same_value (read_from_buffer h e t addr bs)
               (fst (read_from_stream_unbuffered h mem e t {| is_rest := bs; is_sched := sched |})).
  Proof.
    intros Hs Hm Hn Hl Hsc.
    pose proof (stream_as_buffer false t addr bs sched Hs Hm (decode_spec (h_lim h) e e6 t bs Hn) Hl Hsc) as H.
    unfold read_from_stream_unbuffered. destruct (deserialize _ _ _ _ _ _). exact H.
  Qed.

  (** With such parts it holds for the inputs that decode in the documented
      format: those that do not continue after a caught end of input. *)
  Theorem C08_buffered_stream_eof_partial t addr bs sched :
    supported h e false true LDefault t -> minok h t -> decode t bs <> DUnspec ->
    nlen bs <= h_alloc_max h -> no_errors sched ->
    same_value (read_from_buffer h e t addr bs)
               (fst (read_from_stream_buffered h mem e t {| is_rest := bs; is_sched := sched |})).
  Proof.
    intros Hs Hm Hn Hl Hsc. pose proof (stream_as_buffer true t addr bs sched Hs Hm Hn Hl Hsc) as H.
    unfold read_from_stream_buffered. destruct (deserialize _ _ _ _ _ _). exact H.
  Qed.

  Theorem C09_unbuffered_stream_eof_partial t addr bs sched :
    supported h e false true LDefault t -> minok h t -> decode t bs <> DUnspec ->
    nlen bs <= h_alloc_max h -> no_errors sched ->
    same_value (read_from_buffer h e t addr bs)
               (fst (read_from_stream_unbuffered h mem e t {| is_rest := bs; is_sched := sched |})).
  Proof.
    intros Hs Hm Hn Hl Hsc. pose proof (stream_as_buffer false t addr bs sched Hs Hm Hn Hl Hsc) as H.
    unfold read_from_stream_unbuffered. destruct (deserialize _ _ _ _ _ _). exact H.
  Qed.

  (* ---------------------------------------------------------------- *)
  (** ** Taking nothing extra *)

  (** C10: reading a value that was written leaves the stream exactly behind its
      encoding; interruptions are no obstacle. *)
  Theorem C10_nothing_extra t v b rest sched :
    covered h e false false t -> no_eof false t -> value_of h e t v ->
    write_to_vec h mem e t v = Ok b -> nlen (b ++ rest) <= l_usize_max (h_lim h) ->
    only_interrupted sched ->
    exists sched', incl sched' sched /\
      read_from_stream_unbuffered h mem e t {| is_rest := b ++ rest; is_sched := sched |}
      = (Ok (norm t v), {| is_rest := rest; is_sched := sched' |}).
  Proof.
    intros [Hw Hs Hr] Hn Hv Hb Hl Hsc.
    assert (He : encode (h_iter h) e e6 t v = Ok b) by (destruct Hv as [Hv _]; eapply write_to_vec_err; eassumption).
    assert (Ho : opens false t = true -> rest = []) by (rewrite (no_eof_closed t false Hn); discriminate).
    pose proof (host_round_trip h VH e t v b rest Hr Hv He Ho) as Hd.
    assert (Hcl : ~ In (RErr IoUnexpectedEof) sched) by (intros H; apply Hsc in H; discriminate).
    pose proof (stream_agrees h VH e mem Hmem false false {| is_rest := b ++ rest; is_sched := sched |}
      Hcl Hl t Hs) as H.
    unfold read_from_stream_unbuffered.
    destruct (deserialize h mem false e t _) as [r s]. cbn [is_rest is_sched] in *.
    destruct H as [(k & _ & Hk & Hni)|[Ha Hrest]]; [apply Hsc in Hk; destruct (Hni eq_refl eq_refl Hk)|].
    destruct (Hrest _ _ Hd) as (_ & Hin & Hre). rewrite Hd in Ha. cbn in Ha. subst r.
    exists (is_sched (sr_stream s)). split; [exact Hin|]. rewrite <- (Hre eq_refl eq_refl).
    destruct (sr_stream s); reflexivity.
  Qed.

  (** Consecutive calls on one stream. *)
  Fixpoint read_all (ts : list ty) (i : istream) : list (res val) * istream :=
    match ts with
    | [] => ([], i)
    | t :: r => let (v, i1) := read_from_stream_unbuffered h mem e t i in
                let (vs, i2) := read_all r i1 in (v :: vs, i2)
    end.

  Definition written_item (tv : ty * val) (b : bytes) : Prop :=
    covered h e false false (fst tv) /\ no_eof false (fst tv) /\ value_of h e (fst tv) (snd tv)
    /\ write_to_vec h mem e (fst tv) (snd tv) = Ok b.

  Theorem C10_consecutive_reads tvs bs : Forall2 written_item tvs bs -> forall rest sched,
    nlen (concat bs ++ rest) <= l_usize_max (h_lim h) -> only_interrupted sched ->
    exists sched',
      read_all (map fst tvs) {| is_rest := concat bs ++ rest; is_sched := sched |}
      = (map (fun tv => Ok (norm (fst tv) (snd tv))) tvs, {| is_rest := rest; is_sched := sched' |}).
  Proof.
    induction 1 as [|[t v] b tvs bs (Hc & Hn & Hv & Hb) _ IH]; intros rest sched Hl Hsc; cbn [map read_all concat fst snd app].
    - exists sched. reflexivity.
    - cbn [fst snd concat] in *. rewrite <- app_assoc in *.
      destruct (C10_nothing_extra t v b (concat bs ++ rest) sched Hc Hn Hv Hb Hl Hsc) as (sc & Hin & E).
      rewrite E. destruct (IH rest sc) as (sc' & E').
      + rewrite nlen_app in Hl. lia.
      + intros k Hk. apply Hsc, Hin, Hk.
      + rewrite E'. exists sc'. reflexivity.
  Qed.

  (* ---------------------------------------------------------------- *)
  (** ** Errors of the stream *)

  (** C41: with any schedule of chunks and errors, the read fails with an error
      of the stream or does what it does without errors; for every type and
      content.  Excepted are errors of the kind `UnexpectedEof`. *)
  Lemma stream_errors buffering pk t bs sched :
    may_peek pk t -> nlen bs <= l_usize_max (h_lim h) -> ~ In (RErr IoUnexpectedEof) sched ->
    let r := fst (deserialize h mem buffering e t {| is_rest := bs; is_sched := sched |}) in
    stream_failed buffering pk {| is_rest := bs; is_sched := sched |} r
    \/ r = fst (deserialize h mem buffering e t {| is_rest := bs; is_sched := [] |}).
  Proof.
    intros Hpk Hl Hsc r. subst r. unfold deserialize.
    pose proof (streams_lock h VH e buffering pk mem mem Hmem Hmem sched [] Hsc (fun x => x) t Hpk) as H.
    assert (Hr : same_unread h buffering pk sched []
      (sr_start mem buffering {| is_rest := bs; is_sched := sched |})
      (sr_start mem buffering {| is_rest := bs; is_sched := [] |})).
    { exists bs.
      split; [apply (sr_start_rep h mem Hmem buffering pk sched {| is_rest := bs; is_sched := sched |} eq_refl Hl)|].
      split; [apply (sr_start_rep h mem Hmem buffering pk [] {| is_rest := bs; is_sched := [] |} eq_refl Hl)|].
      intros Hb. cbn [sr_start sr_buffer]. split; [reflexivity|]. rewrite Hb.
      pose proof (with_capacity_ok mem Hmem (8 * 1024)) as (_ & _ & ->). lia. }
    destruct (H _ _ Hr) as [(er & E & k & -> & Hk)|[(er & _ & k & _ & [] & _)|[E _]]]; [left|right; exact E].
    exists k. auto.
  Qed.

  Theorem C41_buffered_partial t bs sched :
    nlen bs <= l_usize_max (h_lim h) -> ~ In (RErr IoUnexpectedEof) sched ->
    let r := fst (read_from_stream_buffered h mem e t {| is_rest := bs; is_sched := sched |}) in
    (exists k, r = Err (IoError k) /\ In (RErr k) sched)
    \/ r = fst (read_from_stream_buffered h mem e t {| is_rest := bs; is_sched := [] |}).
  Proof.
    intros Hl Hsc. pose proof (stream_errors true true t bs sched (peeks_anything t) Hl Hsc) as H. cbn zeta in *.
    unfold read_from_stream_buffered. destruct (deserialize _ _ _ _ _ _), (deserialize _ _ _ _ _ _).
    destruct H as [(k & E & Hk & _)|H]; [left; exists k; auto|right; exact H].
  Qed.

  Theorem C41_unbuffered_partial t bs sched :
    nlen bs <= l_usize_max (h_lim h) -> ~ In (RErr IoUnexpectedEof) sched ->
    let r := fst (read_from_stream_unbuffered h mem e t {| is_rest := bs; is_sched := sched |}) in
    (exists k, r = Err (IoError k) /\ In (RErr k) sched)
    \/ r = fst (read_from_stream_unbuffered h mem e t {| is_rest := bs; is_sched := [] |}).
  Proof.
    intros Hl Hsc. pose proof (stream_errors false true t bs sched (peeks_anything t) Hl Hsc) as H. cbn zeta in *.
    unfold read_from_stream_unbuffered. destruct (deserialize _ _ _ _ _ _), (deserialize _ _ _ _ _ _).
    destruct H as [(k & E & Hk & _)|H]; [left; exists k; auto|right; exact H].
  Qed.

  (** C42: interruptions do not matter to the unbuffered reader as long as nothing
      is peeked at. *)
  Theorem C42_interrupted_partial t bs sched :
    no_peek t -> nlen bs <= l_usize_max (h_lim h) -> only_interrupted sched ->
    fst (read_from_stream_unbuffered h mem e t {| is_rest := bs; is_sched := sched |})
    = fst (read_from_stream_unbuffered h mem e t {| is_rest := bs; is_sched := [] |}).
  Proof.
    intros Hp Hl Hsc.
    assert (Hcl : ~ In (RErr IoUnexpectedEof) sched) by (intros H; apply Hsc in H; discriminate).
    pose proof (stream_errors false false t bs sched (no_peek_may t false Hp) Hl Hcl) as H. cbn zeta in *.
    unfold read_from_stream_unbuffered. destruct (deserialize _ _ _ _ _ _), (deserialize _ _ _ _ _ _).
    destruct H as [(k & E & Hk & Hni)|H]; [|exact H]. apply Hsc in Hk. destruct (Hni eq_refl eq_refl Hk).
  Qed.

  (* ---------------------------------------------------------------- *)
  (** ** Files *)

  (** C50: a mapped file is read like a buffer; elsewhere like a buffered
      stream. *)
  Theorem C50_mapped_file_partial t addr content sched : owned h e t -> nlen content <= h_alloc_max h ->
    read_from_file h true mem None e t content sched = read_from_buffer h e t addr content.
  Proof.
    intros Ho Hl. unfold read_from_file, read_from_buffer, read_from_buffer_copying.
    rewrite (C07_buffer_readers_agree_partial t addr content Ho Hl). reflexivity.
  Qed.

  Theorem C50_streamed_file_partial t addr content sched :
    supported h e false true LDefault t -> minok h t -> no_eof false t ->
    nlen content <= h_alloc_max h -> no_errors sched ->
    same_value (read_from_buffer h e t addr content) (read_from_file h false mem None e t content sched).
  Proof. apply C08_buffered_stream_partial. Qed.
End Readers.

Print Assumptions C07_buffer_readers_agree_partial.
Print Assumptions C07_any_address_partial.
Print Assumptions C08_chunks_irrelevant.
Print Assumptions C08_buffered_stream_partial.
Print Assumptions C08_buffered_stream_eof_partial.
Print Assumptions C09_chunks_irrelevant.
Print Assumptions C09_unbuffered_stream_partial.
Print Assumptions C09_unbuffered_stream_eof_partial.
Print Assumptions C10_nothing_extra.
Print Assumptions C10_consecutive_reads.
Print Assumptions C41_buffered_partial.
Print Assumptions C41_unbuffered_partial.
Print Assumptions C42_interrupted_partial.
Print Assumptions C50_mapped_file_partial.
Print Assumptions C50_streamed_file_partial.

(* ------------------------------------------------------------------ *)
(** * Refutations *)

(** C07 fails for slices `Cow<[Empty]>` of a derived `struct Empty;`, which counts
    as plain data: the borrowing reader divides by the size of the elements. *)
Definition empty_struct : ty := TStruct (sd 1 RRust) [].

Theorem C07_empty_struct_refuted : exists h t bs, valid_host h /\
  ~ same_value (read_from_buffer h LE t 0 bs) (read_from_buffer_copying h LE t bs).
Proof.
  exists host64, (TSeq KCow empty_struct), [x01; x00; x00; x00]. split; [apply host64_valid|].
  intros H. assert (E : read_from_buffer_copying host64 LE (TSeq KCow empty_struct) [x01; x00; x00; x00]
                         = Ok (VSeq [VSeq []])) by (vm_compute; reflexivity).
  apply (proj2 (H _)) in E. vm_compute in E. discriminate E.
Qed.

(** C07 fails on 32-bit hosts without overflow checks: the byte length of a slice
    of 2^31 u16 wraps to 0, so the borrowing reader returns the empty slice. *)
Theorem C07_wrapped_length_refuted : exists h t bs, valid_host h /\
  read_from_buffer h BE t 0 bs = Ok (VSeq []) /\ read_from_buffer_copying h BE t bs = Err UnexpectedEndOfInput.
Proof.
  exists host32be, (TSeq KCow (TP U16)), [x80; x00; x00; x00].
  split; [apply host32be_valid|]. split; vm_compute; reflexivity.
Qed.

(** C07 fails for a slice of `repr(transparent)` wrappers of bytes in the foreign
    byte order: the copying reader panics. *)
Theorem C07_transparent_refuted : exists h t bs v, valid_host h /\
  read_from_buffer h BE t 0 bs = Ok v /\ read_from_buffer_copying h BE t bs = Fault PanicExplicit.
Proof.
  exists host64, (TSeq KCow (TStruct (sd 1 RRust) [(plain, TStruct (sd 2 RTransparent) [(plain, TP U8)])])),
    [x00; x00; x00; x01; x07].
  eexists. split; [apply host64_valid|]. split; vm_compute; reflexivity.
Qed.

(** C08 and C09 fail when an enum with `peek_tag` has variants without fields: the
    tag is counted in the minimum size but never consumed. *)
Definition peeked : ty := TEnum {| e_tag := BU32; e_peek := true |} [(1, []); (2, [])].
Definition peeked_pair : ty := TStruct (sd 1 RRust) [(plain, peeked); (plain, TP U32)].

Theorem C08_peeked_minimum_refuted : exists h t bs v, valid_host h /\
  read_from_buffer h LE t 0 bs = Err (InputBufferIsTooSmall 4 8)
  /\ fst (read_from_stream_buffered h dirty LE t {| is_rest := bs; is_sched := [] |}) = Ok v.
Proof.
  exists host64, peeked_pair, [x01; x00; x00; x00]. eexists. split; [apply host64_valid|].
  split; vm_compute; reflexivity.
Qed.

Theorem C09_peeked_minimum_refuted : exists h t bs v, valid_host h /\
  read_from_buffer h LE t 0 bs = Err (InputBufferIsTooSmall 4 8)
  /\ fst (read_from_stream_unbuffered h dirty LE t {| is_rest := bs; is_sched := [] |}) = Ok v.
Proof.
  exists host64, peeked_pair, [x01; x00; x00; x00]. eexists. split; [apply host64_valid|].
  split; vm_compute; reflexivity.
Qed.

(** C08 fails for `#[speedy(default_on_eof)] Vec<char>`: a buffer too short for the
    announced length gives the default, a stream reads the elements and reports
    the first invalid one. *)
Theorem C08_default_on_eof_refuted : exists h t bs v er, valid_host h /\
  read_from_buffer h LE t 0 bs = Ok v
  /\ fst (read_from_stream_buffered h dirty LE t {| is_rest := bs; is_sched := [] |}) = Err er.
Proof.
  exists host64, (TStruct (sd 1 RRust) [(with_default (VSeq []), TSeq KVec (TScalar SChar))]),
    [x02; x00; x00; x00; x00; xd8; x00; x00].
  eexists. eexists. split; [apply host64_valid|]. split; vm_compute; reflexivity.
Qed.

(** C09 fails for two `default_on_eof` fields: an unbuffered stream has lost the
    bytes of the incomplete field, a buffer has not. *)
Theorem C09_default_on_eof_refuted : exists h t bs v w, valid_host h /\ v <> w /\
  read_from_buffer h LE t 0 bs = Ok v
  /\ fst (read_from_stream_unbuffered h dirty LE t {| is_rest := bs; is_sched := [] |}) = Ok w.
Proof.
  exists host64, (TStruct (sd 1 RRust) [(with_default (VInt 0), TP U32); (with_default (VInt 0), TP U8)]), [x05; x06].
  exists (VSeq [VInt 0; VInt 5]), (VSeq [VInt 0; VInt 0]). split; [apply host64_valid|].
  split; [discriminate|]. split; vm_compute; reflexivity.
Qed.

(** C41 fails for errors of the kind `UnexpectedEof`: they count as the end of the
    input. *)
Theorem C41_unexpected_eof_refuted : exists h t bs sched v w, valid_host h /\ v <> w /\
  In (RErr IoUnexpectedEof) sched /\
  fst (read_from_stream_buffered h dirty LE t {| is_rest := bs; is_sched := sched |}) = Ok v
  /\ fst (read_from_stream_buffered h dirty LE t {| is_rest := bs; is_sched := [] |}) = Ok w.
Proof.
  exists host64, (TStruct (sd 1 RRust) [(with_default (VInt 0), TP U32)]), [x05; x00; x00; x00].
  exists [RErr IoUnexpectedEof], (VSeq [VInt 0]), (VSeq [VInt 5]). split; [apply host64_valid|].
  split; [discriminate|]. split; [left; reflexivity|]. split; vm_compute; reflexivity.
Qed.

(** C42 fails for the buffered reader, and for peeking without a buffer. *)
Theorem C42_buffered_refuted : exists h t bs, valid_host h /\
  fst (read_from_stream_buffered h dirty LE t {| is_rest := bs; is_sched := [RErr IoInterrupted] |})
  = Err (IoError IoInterrupted).
Proof.
  exists host64, (TP U8), [x05]. split; [apply host64_valid|]. vm_compute. reflexivity.
Qed.

Theorem C42_peeking_refuted : exists h t bs, valid_host h /\
  fst (read_from_stream_unbuffered h dirty LE t {| is_rest := bs; is_sched := [RErr IoInterrupted] |})
  = Err (IoError IoInterrupted).
Proof.
  exists host64, peeked, [x01; x00; x00; x00]. split; [apply host64_valid|]. vm_compute. reflexivity.
Qed.

(** C50 fails where files are not mapped, like C08, and for `Cow<[Empty]>` where they
    are, like C07. *)
Theorem C50_streamed_refuted : exists h t bs v, valid_host h /\
  read_from_buffer h LE t 0 bs = Err (InputBufferIsTooSmall 4 8)
  /\ read_from_file h false dirty None LE t bs [] = Ok v.
Proof.
  exists host64, peeked_pair, [x01; x00; x00; x00]. eexists. split; [apply host64_valid|].
  split; vm_compute; reflexivity.
Qed.

Theorem C50_mapped_refuted : exists h t bs v, valid_host h /\
  read_from_buffer h LE t 0 bs = Fault PanicDivZero
  /\ read_from_file h true dirty None LE t bs [] = Ok v.
Proof.
  exists host64, (TSeq KCow empty_struct), [x01; x00; x00; x00]. eexists. split; [apply host64_valid|].
  split; vm_compute; reflexivity.
Qed.

Print Assumptions C07_empty_struct_refuted.
Print Assumptions C07_wrapped_length_refuted.
Print Assumptions C07_transparent_refuted.
Print Assumptions C08_peeked_minimum_refuted.
Print Assumptions C08_default_on_eof_refuted.
Print Assumptions C09_peeked_minimum_refuted.
Print Assumptions C09_default_on_eof_refuted.
Print Assumptions C41_unexpected_eof_refuted.
Print Assumptions C42_buffered_refuted.
Print Assumptions C42_peeking_refuted.
Print Assumptions C50_streamed_refuted.
Print Assumptions C50_mapped_refuted.

(* ------------------------------------------------------------------ *)
(** * The hypotheses are met *)

Lemma sample_supported32be : supported host32be LE false true LDefault sample.
Proof. apply supported_peek, (cv_read _ _ _ _ _ sample_covered32be). Qed.
Lemma sample_minok : minok host32be sample.
Proof. apply minokb_sound. vm_compute. reflexivity. Qed.
Lemma sample_no_eof : no_eof false sample.
Proof. apply no_eofb_sound. vm_compute. reflexivity. Qed.
Lemma sample_no_peek : no_peek sample.
Proof. cbn. tauto. Qed.

(** The sample type, and slices of points, whose place in memory is lent. *)
Definition lent : ty := TTuple [sample; TSeq KCow point; TStr KCowStr].

Lemma lent_owned : owned host64 LE lent.
Proof.
  apply (supported_owned _ host64_valid _ true). apply supported_peek, cv_read.
  apply coveredb_sound. vm_compute. reflexivity.
Qed.
Example points_lent : is_prim host64 point = true /\ no_conv host64 (BufferReader LE) point = true.
Proof. split; reflexivity. Qed.

Example C07_holds addr bs : nlen bs <= h_alloc_max host64 ->
  read_with_length_from_buffer host64 LE lent addr bs = read_with_length_from_buffer_copying host64 LE lent bs.
Proof. apply C07_buffer_readers_agree_partial; [apply host64_valid|apply lent_owned]. Qed.

Example C08_holds addr bs sched : nlen bs <= h_alloc_max host32be -> no_errors sched ->
  same_value (read_from_buffer host32be LE sample addr bs)
    (fst (read_from_stream_buffered host32be dirty LE sample {| is_rest := bs; is_sched := sched |})).
Proof.
  apply C08_buffered_stream_partial;
    auto using host32be_valid, dirty_enough, sample_supported32be, sample_minok, sample_no_eof.
Qed.

(** Chunks that straddle the fields. *)
Definition chopped : list read_event := [RChunk 1; RChunk 3; RChunk 2; RChunk 7; RChunk 1; RChunk 30].
Lemma chopped_no_errors : no_errors chopped.
Proof. intros k H. cbn in H. intuition discriminate. Qed.

Example C08_value : fst (read_from_stream_buffered host32be dirty LE sample
    {| is_rest := sample_bytes32be; is_sched := chopped |}) = Ok sample_back.
Proof.
  refine (proj1 (C08_holds 7 sample_bytes32be chopped _ _ sample_back) _).
  - vm_compute. discriminate.
  - apply chopped_no_errors.
  - vm_compute. reflexivity.
Qed.

Example C09_value : fst (read_from_stream_unbuffered host32be dirty LE sample
    {| is_rest := sample_bytes32be; is_sched := chopped |}) = Ok sample_back.
Proof.
  refine (proj1 (C09_unbuffered_stream_partial host32be host32be_valid LE dirty dirty_enough sample 7
    sample_bytes32be chopped sample_supported32be sample_minok sample_no_eof _ chopped_no_errors sample_back) _).
  - vm_compute. discriminate.
  - vm_compute. reflexivity.
Qed.

(** Two values one after the other, with an interruption. *)
Example C10_holds : exists sched',
  read_all host64 LE dirty [sample; TP U16]
    {| is_rest := sample_bytes64 ++ [x01; x02] ++ [x03]; is_sched := [RChunk 5; RErr IoInterrupted; RChunk 1] |}
  = ([Ok sample_back; Ok (VInt 513)], {| is_rest := [x03]; is_sched := sched' |}).
Proof.
  apply (C10_consecutive_reads host64 host64_valid LE dirty dirty_enough
           [(sample, sample_value); (TP U16, VInt 513)] [sample_bytes64; [x01; x02]]) with (rest := [x03]).
  - constructor; [|constructor; [|constructor]].
    + split; [apply sample_covered64|]. split; [apply sample_no_eof|]. split; [apply sample_value64|].
      vm_compute. reflexivity.
    + split; [apply coveredb_sound; vm_compute; reflexivity|]. split; [exact I|].
      split; [apply value_ofb_sound; vm_compute; reflexivity|]. vm_compute. reflexivity.
  - vm_compute. discriminate.
  - intros k H. cbn in H. destruct H as [H|[H|[H|[]]]]; congruence.
Qed.

(** An error after the last byte needed does not matter, an earlier one does. *)
Example C41_late : fst (read_from_stream_buffered host64 dirty LE (TP U16)
    {| is_rest := [x01; x02; x03]; is_sched := [RChunk 2; RErr (IoOther 5)] |}) = Ok (VInt 513).
Proof. vm_compute. reflexivity. Qed.
Example C41_early : fst (read_from_stream_buffered host64 dirty LE (TP U16)
    {| is_rest := [x01; x02; x03]; is_sched := [RChunk 1; RErr (IoOther 5)] |}) = Err (IoError (IoOther 5)).
Proof. vm_compute. reflexivity. Qed.

Example C42_holds bs : nlen bs <= 2 ^ 64 - 1 ->
  fst (read_from_stream_unbuffered host64 dirty LE sample
         {| is_rest := bs; is_sched := [RErr IoInterrupted; RChunk 1; RErr IoInterrupted] |})
  = fst (read_from_stream_unbuffered host64 dirty LE sample {| is_rest := bs; is_sched := [] |}).
Proof.
  intros Hl. apply C42_interrupted_partial; auto using host64_valid, dirty_enough, sample_no_peek.
  intros k H. cbn in H. destruct H as [H|[H|[H|[]]]]; congruence.
Qed.

Example C50_holds content : nlen content <= h_alloc_max host64 ->
  read_from_file host64 true dirty None LE lent content [] = read_from_buffer host64 LE lent 0 content.
Proof. apply C50_mapped_file_partial; auto using host64_valid, dirty_enough, lent_owned. Qed.
