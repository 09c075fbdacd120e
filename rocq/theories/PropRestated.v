(* Properties C74 to C84 and C86: what is true of the properties that are false as first
   stated, in full. *)
From Verif Require Import Ordinary OrdinaryHost Samples Entry ValOrder EncFacts Extend StructFacts MinFacts ReaderFacts VarintFacts.
From Verif Require Import PropRoundTrip PropWrite PropStream PropReaders PropSafe PropScalar PropVarint PropBorrowed PropBulk
  PropPeeked PropCanonical PropDefault PropAttrs PropUntil PropOrdinary.

(* ------------------------------------------------------------------ *)
(** * C74: errors of an input stream *)

Section Streams.
  Context (h : host) (VH : valid_host h) (e : endian).
  Context (mem : N -> bytes) (Hmem : forall n, n <= nlen (mem n)).

  (** Whatever the type and the content, an error other than `UnexpectedEof` is
      either returned as it is, or was never met. *)
  Theorem C74_stream_errors t bs sched : nlen bs <= l_usize_max (h_lim h) -> ~ In (RErr IoUnexpectedEof) sched ->
    (let r := fst (read_from_stream_buffered h mem e t {| is_rest := bs; is_sched := sched |}) in
     (exists k, r = Err (IoError k) /\ In (RErr k) sched)
     \/ r = fst (read_from_stream_buffered h mem e t {| is_rest := bs; is_sched := [] |}))
    /\ (let r := fst (read_from_stream_unbuffered h mem e t {| is_rest := bs; is_sched := sched |}) in
        (exists k, r = Err (IoError k) /\ In (RErr k) sched)
        \/ r = fst (read_from_stream_unbuffered h mem e t {| is_rest := bs; is_sched := [] |})).
  Proof.
    intros Hl Hs. split; [apply (C41_buffered_partial h VH e mem Hmem)|apply (C41_unbuffered_partial h VH e mem Hmem)]; assumption.
  Qed.

  (** Without peeking and without a buffer interruptions do not matter. *)
  Theorem C74_interrupted t bs sched : no_peek t -> nlen bs <= l_usize_max (h_lim h) -> only_interrupted sched ->
    fst (read_from_stream_unbuffered h mem e t {| is_rest := bs; is_sched := sched |})
    = fst (read_from_stream_unbuffered h mem e t {| is_rest := bs; is_sched := [] |}).
  Proof. apply (C42_interrupted_partial h VH e mem Hmem). Qed.

  (* ---------------------------------------------------------------- *)
  (** ** C75: files that are written *)

  (** What is in the file is a prefix of what a stream would have received, all of
      it if the file accepts it; the result is the one of writing to a stream, or
      an error of the file. *)
  Theorem C75_file t v sched r o' r0 o0 :
    write_to_stream h e t v obedient = (r0, o0) -> write_to_file h None e t v sched = (r, o') ->
    exists b2, os_out o0 = os_out o' ++ b2
      /\ (r = r0 \/ exists ev er, In ev sched /\ event_error ev = Some er /\ r = Err er)
      /\ (well_behaved sched -> r = r0 /\ b2 = []).
  Proof. apply C44_any_type_partial. Qed.
End Streams.

Print Assumptions C74_stream_errors.
Print Assumptions C74_interrupted.
Print Assumptions C75_file.

(* ------------------------------------------------------------------ *)
(** * C76: which varints can be peeked *)

Section Peeked.
  Context (h : host) (VH : valid_host h) (mem : N -> bytes) (Hmem : forall n, n <= nlen (mem n)) (e : endian).

  (** A number is peeked as itself exactly when all bytes of its encoding are
      equal, which those of the numbers below 128 are. *)
  Theorem C76_peeked n b c rest addr : n < 2 ^ 64 ->
    write_to_vec h mem e varint (as_varint n) = Ok (b :: c) -> nlen ((b :: c) ++ rest) <= h_alloc_max h ->
    (fst (peek_varint h (BufferReader e) (br_start addr ((b :: c) ++ rest))) = Ok n <-> Forall (eq b) c)
    /\ (fst (peek_varint h (CopyingBufferReader e) (br_start addr ((b :: c) ++ rest))) = Ok n <-> Forall (eq b) c).
  Proof.
    intros Hn Hw Hl. split.
    - destruct (C21_equal_bytes_partial h _ _ _ (buffer_ok h VH e true) VH mem Hmem e n b c rest (br_start addr ((b :: c) ++ rest)) Hn Hw)
        as [(er & _ & [])|H]; [split; [reflexivity|exact Hl]|exact H].
    - destruct (C21_equal_bytes_partial h _ _ _ (copying_ok h VH e true) VH mem Hmem e n b c rest (br_start addr ((b :: c) ++ rest)) Hn Hw)
        as [(er & _ & [])|H]; [split; [reflexivity|exact Hl]|exact H].
  Qed.

  Theorem C76_one_byte n : n < 2 ^ 7 -> exists b, write_to_vec h mem e varint (as_varint n) = Ok [b].
  Proof.
    intros Hn. change (2 ^ 7) with 128 in Hn.
    rewrite (varint_written h VH mem Hmem) by (num_pow; lia).
    assert (Ex : vi_extra n = 0%nat) by (unfold vi_extra; num_pow; destruct (N.ltb_spec n 128); [reflexivity|lia]).
    rewrite vi_enc_short by exact Ex. eexists. reflexivity.
  Qed.
End Peeked.

Print Assumptions C76_peeked.
Print Assumptions C76_one_byte.

(* ------------------------------------------------------------------ *)
(** * C77: system times *)

Section Times.
  Context (h : host) (VH : valid_host h) (e : endian).
  Notation t := (TScalar SSystemTime).

  (** The seconds, with the nanoseconds carried over, decide: the time, an error
      or a panic. *)
  Theorem C77_read bs bw r : reading h e t bs bw r -> 12 <= nlen bs ->
    r = if total_secs e bs <=? l_systime_max (h_lim h) then Ok (time_value e bs)
        else if total_secs e bs <? 2 ^ 64 then Err InvalidSystemTime
        else Fault PanicExplicit.
  Proof.
    intros Hr Hl. pose proof (vh_systime h VH) as Hy.
    destruct (N.leb_spec (total_secs e bs) (l_systime_max (h_lim h))) as [H|H].
    - apply (C48_read_partial h VH e bs bw r Hr Hl); [lia|exact H].
    - destruct (N.ltb_spec (total_secs e bs) (2 ^ 64)) as [H1|H1].
      + apply (C48_read_partial h VH e bs bw r Hr Hl); assumption.
      + apply (C48_read_overflow h VH e bs bw r Hr Hl H1).
  Qed.

  (** A time is written exactly if it is not before the epoch, and then read back
      to the nanosecond by everyone. *)
  Theorem C77_written mem secs nanos : (forall n, n <= nlen (mem n)) ->
    (secs <= Z.of_N (l_systime_max (h_lim h)))%Z -> nanos < 10 ^ 9 ->
    let v := VSeq [VInt secs; VInt (Z.of_N nanos)] in
    if (secs <? 0)%Z then write_to_vec h mem e t v = Err InvalidSystemTime
    else exists b, write_to_vec h mem e t v = Ok b
         /\ forall rest bw r, reading h e t (b ++ rest) bw r -> r = Ok v.
  Proof.
    intros Hm Hs Hn v. destruct (Z.ltb_spec secs 0) as [H|H].
    - apply (C48_before_epoch h e mem secs (Z.of_N nanos) [] obedient H).
    - unfold v. rewrite <- (Z2N.id secs) by lia.
      apply (C48_round_trip h VH e mem (Z.to_N secs) nanos Hm); [lia|exact Hn].
  Qed.
End Times.

Print Assumptions C77_read.
Print Assumptions C77_written.

(* ------------------------------------------------------------------ *)
(** * C78: borrowed slices *)

Section Borrowed.
  Context (h : host) (VH : valid_host h) (e : endian).

  (** In the byte order of the host: if the elements are where elements may lie, the
      result is that of reading them one by one; if not, creating the slice is
      undefined behaviour (unless the input is too short). *)
  Theorem C78_slice t n body addr bw r : zero_copyable h t -> order_matches h e t -> n < 2 ^ 32 ->
    nlen body <= h_alloc_max h -> reading h e (separately (N.to_nat n) t) body bw r ->
    (aligned h t (addr + 4) -> same_outcome (read_from_buffer h e (TSeq KRef t) addr (word e 4 n ++ body)) r)
    /\ (~ aligned h t (addr + 4) -> n * h_size h t <= nlen body ->
        read_from_buffer h e (TSeq KRef t) addr (word e 4 n ++ body) = Fault UbMisaligned).
  Proof.
    intros Hz Ho Hn Hl Hr. split.
    - intros Ha. apply (C49_slice_partial h VH e t n body addr bw); assumption.
    - intros Ha Hs. apply (C49_slice_unsafe h VH e t n body addr); assumption.
  Qed.

  Theorem C78_array t n bs addr bw r : zero_copyable h t -> order_matches h e t ->
    reading h e (separately n t) bs bw r ->
    (aligned h t addr -> same_outcome (read_from_buffer h e (TRefArr t n) addr bs) r)
    /\ (~ aligned h t addr -> h_size h t * N.of_nat n <= nlen bs ->
        read_from_buffer h e (TRefArr t n) addr bs = Fault UbMisaligned).
  Proof.
    intros Hz Ho Hr. split.
    - intros Ha. apply (C49_array_partial h VH e t n bs addr bw); assumption.
    - intros Ha Hs. apply (C49_array_unsafe h VH e t n bs addr); assumption.
  Qed.
End Borrowed.

Print Assumptions C78_slice.
Print Assumptions C78_array.

(* ------------------------------------------------------------------ *)
(** * C81: skipped fields *)

Section Skipped.
  Context (h : host).

  (** Every writer writes the struct without them, whatever their values; every
      reader reads it without them and fills in the defaults. *)
  Theorem C81_written {St} (W : writer St) d fs vs s : length fs = length vs ->
    write h W (TStruct d fs) (VSeq vs) s = write h W (TStruct d (kept fs)) (VSeq (kept_values fs vs)) s.
  Proof. apply C32_write_partial. Qed.

  Theorem C81_variant_written {St} (W : writer St) d vs i us s tag fs :
    nth_error vs i = Some (tag, fs) -> length fs = length us ->
    write h W (TEnum d vs) (VVar i us) s
    = write h W (TEnum d (map (fun v => (fst v, kept (snd v))) vs)) (VVar i (kept_values fs us)) s.
  Proof. apply C32_write_enum_partial. Qed.

  Theorem C81_read {St} (R : reader St) d fs s :
    read h R (TStruct d fs) s
    = let (r, s') := read h R (TStruct d (kept fs)) s in (rmap (on_fields (with_defaults fs)) r, s').
  Proof. apply C32_read_partial. Qed.

  Lemma needed_kept d fs vs : length fs = length vs ->
    bytes_needed h (TStruct d fs) (VSeq vs) = bytes_needed h (TStruct d (kept fs)) (VSeq (kept_values fs vs)).
  Proof. intros Hl. unfold bytes_needed. rewrite (C81_written _ d fs vs _ Hl). reflexivity. Qed.

  Theorem C81_write_to_vec mem e d fs vs : length fs = length vs ->
    write_to_vec h mem e (TStruct d fs) (VSeq vs) = write_to_vec h mem e (TStruct d (kept fs)) (VSeq (kept_values fs vs)).
  Proof.
    intros Hl. unfold write_to_vec. rewrite (needed_kept d fs vs Hl).
    destruct (bytes_needed h (TStruct d (kept fs)) (VSeq (kept_values fs vs))) as [n| |]; try reflexivity.
    cbn [rbind]. rewrite (C81_written _ d fs vs _ Hl). reflexivity.
  Qed.

  Theorem C81_read_from_buffer e d fs addr bs :
    read_from_buffer h e (TStruct d fs) addr bs
    = match read_from_buffer h e (TStruct d (kept fs)) addr bs with
      | Err (InputBufferIsTooSmall a n) => Err (InputBufferIsTooSmall a n)
      | r => rmap (on_fields (with_defaults fs)) r
      end.
  Proof. apply C32_read_from_buffer_partial. Qed.
End Skipped.

Print Assumptions C81_written.
Print Assumptions C81_variant_written.
Print Assumptions C81_read.
Print Assumptions C81_write_to_vec.
Print Assumptions C81_read_from_buffer.

(* ------------------------------------------------------------------ *)
(** * Structs and enums of ordinary fields on 64-bit hosts *)

(** Enums with `peek_tag`, apart from `tag_type = varint`. *)
Definition peeked_ordinary (d : edecl) (vs : list (N * fields)) : Prop :=
  e_peek d = true /\ e_tag d <> BVarint /\ NoDup (map fst vs)
  /\ Forall (fun v => fst v <= basic_max (e_tag d)) vs
  /\ all_variants (all_fields (ordinary_field ordinary)) vs.

(** The fields without `default_on_eof`. *)
Definition strict_fields (fs : fields) : fields := map (fun f => (strictly (fst f), snd f)) fs.

Lemma all_strict (P : fattrs -> ty -> Prop) fs : (forall a t, P (strictly a) t -> P a t) ->
  all_fields P (strict_fields fs) -> all_fields P fs.
Proof.
  intros Hp. induction fs as [|[a t] fs IH]; [auto|]. intros [H1 H2]. split; [apply Hp, H1|apply IH, H2].
Qed.

Section Fields.
  Context (h : host) (H6 : host_64 h) (e : endian).
  Context (mem : N -> bytes) (Hmem : forall n, n <= nlen (mem n)).
  Notation VH := (h6_valid h H6).
  Notation e6 := (ipv6_order h e).

  (* ---------------------------------------------------------------- *)
  (** ** C79: enums with `peek_tag` *)

  Lemma peeked_covered d vs : peeked_ordinary d vs -> compact h (TEnum d vs) -> covered h e true true (TEnum d vs) /\ covered h e false true (TEnum d vs).
  Proof.
    intros (Hp & Hg & Hd & Hm & Hf) Hc.
    assert (G : forall bw, all_variants (all_fields (sup_field h (supported h e bw true))) vs
      /\ all_variants (all_fields (wsup_field (wsup h))) vs
      /\ all_variants (rt_fields (rtok (h_lim h) e e6)) vs).
    { intros bw. clear - Hf Hc H6. cbn [compact] in Hc.
      induction vs as [|[tag fs] vs IH]; [repeat split|]. destruct Hf as [F1 F2], Hc as [C1 C2]. cbn [snd] in F1, C1.
      destruct (IH F2 C2) as (I1 & I2 & I3).
      assert (Ho : ordinary (TStruct (sd 0 RRust) fs)) by (split; [reflexivity|]; split; [left; reflexivity|exact F1]).
      destruct (ordinary_covered h H6 e bw true (TStruct (sd 0 RRust) fs) Ho C1) as [W S R].
      repeat split; assumption. }
    split; (constructor; [|split; [auto|apply G]|]).
    - split; [exact Hm|apply (G true)].
    - repeat split; try assumption. apply (G true).
    - split; [exact Hm|apply (G true)].
    - repeat split; try assumption. apply (G true).
  Qed.

  Lemma peeked_closed d vs : peeked_ordinary d vs -> no_eof false (TEnum d vs).
  Proof.
    intros (_ & _ & _ & _ & Hf). cbn [no_eof]. induction vs as [|[tag fs] vs IH]; [exact I|]. destruct Hf as [F1 F2].
    split; [|apply IH, F2].
    exact (ordinary_no_eof (TStruct (sd 0 RRust) fs) (conj eq_refl (conj (or_introl eq_refl) F1))).
  Qed.

  (** The enum is written as the fields of the variant; if these begin with the tag,
      every entry point returns the variant, whatever follows. *)
  Theorem C79_peeked d vs i tag fs us sdd b : peeked_ordinary d vs -> compact h (TEnum d vs) ->
    nth_error vs i = Some (tag, fs) -> valid (h_lim h) (TStruct sdd fs) (VSeq us) ->
    write_to_vec h mem e (TStruct sdd fs) (VSeq us) = Ok b -> begins b (enc_basic e (e_tag d) tag) ->
    write_to_vec h mem e (TEnum d vs) (VVar i us) = Ok b
    /\ forall rest bw r, reading h e (TEnum d vs) (b ++ rest) bw r -> r = Ok (VVar i (norm_fields norm fs us)).
  Proof.
    intros Hp Hc Hi Hv Hw Hb. destruct (peeked_covered d vs Hp Hc) as [C1 C2].
    assert (Hpk : e_peek d = true) by apply Hp.
    assert (Hv' : value_of h e (TStruct sdd fs) (VSeq us)).
    { apply plain_value; [|exact Hv].
      assert (Ho : all_fields (ordinary_field ordinary) fs)
        by exact (all_variants_nth (all_fields (ordinary_field ordinary)) vs i tag fs (proj2 (proj2 (proj2 (proj2 Hp)))) Hi).
      exact (ordinary_no_peek (TStruct (sd 0 RRust) fs) (conj eq_refl (conj (or_introl eq_refl) Ho))). }
    split.
    - rewrite (C51_writes_vec h mem e d vs i tag fs us sdd Hpk Hi). exact Hw.
    - intros rest bw r Hr.
      assert (C : covered h e bw true (TEnum d vs)) by (destruct bw; assumption).
      apply (C51_reads_back_prefix_partial h VH e mem Hmem bw d vs i tag fs us sdd b rest r C Hpk Hi (peeked_closed d vs Hp) Hv' Hw Hb Hr).
  Qed.

  (* ---------------------------------------------------------------- *)
  (** ** C80: `default_on_eof` *)

  Section Defaults.
    Context (d : sdecl) (fs1 fs2 : fields).
    Notation T := (TStruct d (fs1 ++ fs2)).
    Context (Ho : ordinary (TStruct d (fs1 ++ strict_fields fs2))) (Hc : compact h T).

    (** The field is skipped, or is `default_on_eof` and notices that there is nothing
        left; a container with its own length then has the empty container as its
        default (a missing length counts as zero). *)
    Definition defaulted (a : fattrs) (t : ty) : Prop :=
      f_skip a = true
      \/ (f_eof a = true
          /\ (f_prefix a <> [] \/ f_varint a = true
              \/ if sized_field a t then (exists t', t = TOption t') \/ f_default a = empty_of t else hungry t = true)).

    Lemma strict_compact : compact h (TStruct d (fs1 ++ strict_fields fs2)).
    Proof.
      cbn [compact] in *. apply all_fields_app in Hc as [C1 C2]. apply all_fields_app. split; [exact C1|].
      clear - C2. induction fs2 as [|[a t] fs IH]; [exact I|]. destruct C2 as [C C2]. split; [exact C|apply IH, C2].
    Qed.

    Lemma defaults_covered bw : covered h e bw true T.
    Proof.
      destruct (ordinary_covered h H6 e bw true _ Ho strict_compact) as [W S R]. cbn [wsup supported rtok] in *.
      apply all_fields_app in W as [W1 W2]. apply all_fields_app in S as [S1 S2].
      constructor; cbn [wsup supported rtok].
      - apply all_fields_app. split; [exact W1|]. revert W2. apply all_strict. intros a t H. exact H.
      - apply all_fields_app. split; [exact S1|]. revert S2. apply all_strict. intros a t H. exact H.
      - clear - R. induction fs1 as [|f fs IH]; cbn [app rt_fields] in *.
        + induction fs2 as [|[a t] fs IH2]; [exact I|]. destruct R as [R1 R2]. split; [|apply IH2, R2].
          destruct R1 as [R1|(R1 & R3 & R4)]; [left; exact R1|right]. split; [exact R1|]. split; [exact R3|].
          intros Hop. specialize (R4 Hop). revert R4. apply all_strict. intros a' t' H. exact H.
        + destruct R as [R1 R2]. split; [|apply IH, R2].
          destruct R1 as [R1|(R1 & R3 & R4)]; [left; exact R1|right]. split; [exact R1|]. split; [exact R3|].
          intros Hop. specialize (R4 Hop). apply all_fields_app in R4 as [R4 R5]. apply all_fields_app. split; [exact R4|].
          revert R5. apply all_strict. intros a' t' H. exact H.
    Qed.

    Lemma before_ordinary : ordinary (TStruct d fs1).
    Proof.
      destruct Ho as (O1 & O2 & O3). apply all_fields_app in O3 as [O3 _]. split; [exact O1|]. split; assumption.
    Qed.

    Lemma before_compact : compact h (TStruct d fs1).
    Proof. cbn [compact] in *. apply all_fields_app in Hc as [C _]. exact C. Qed.

    Lemma defaults_no_peek : no_peek T.
    Proof.
      pose proof (ordinary_no_peek _ Ho) as H. cbn [no_peek] in *. apply all_fields_app in H as [N1 N2].
      apply all_fields_app. split; [exact N1|]. revert N2. apply all_strict. intros a t H. exact H.
    Qed.

    Lemma defaulted_falls_back : all_fields defaulted fs2 -> forall prev, all_fall_back (h_lim h) prev fs2.
    Proof.
      destruct Ho as (_ & _ & O). apply all_fields_app in O as [_ O]. clear - O.
      induction fs2 as [|[a t] fs IH]; [intros; exact I|]. intros [D Ds] prev. destruct O as [O1 O2]. cbn [fst snd] in *.
      cbn [all_fall_back fst snd]. destruct (f_skip a) eqn:Es; [apply IH; assumption|].
      destruct D as [D|[De D]]; [congruence|]. split; [exact De|]. split; [|apply IH; assumption].
      destruct O1 as [_ [O1|(_ & O1 & _)]]; [cbn in O1; congruence|]. cbn [strictly f_len] in O1.
      destruct D as [D|[D|D]]; [left; exact D|right; left; exact D|right; right].
      destruct (sized_field a t); [right|left; auto]. destruct D as [D|D]; [left; auto|right].
      split; [reflexivity|]. split; [exact D|]. destruct (f_len a); auto; contradiction.
    Qed.

    (** If the input ends where such fields begin, they have their defaults. *)
    Theorem C80_ends_before vs1 b bw r : all_fields defaulted fs2 ->
      valid (h_lim h) (TStruct d fs1) (VSeq vs1) -> write_to_vec h mem e (TStruct d fs1) (VSeq vs1) = Ok b ->
      reading h e T b bw r -> r = Ok (VSeq (norm_fields norm fs1 vs1 ++ defaults fs2)).
    Proof.
      intros Hd Hv Hw Hr. destruct (ordinary_covered h H6 e bw true _ before_ordinary before_compact) as [W S R].
      apply (C30_written_partial h VH e mem Hmem d fs1 fs2 vs1 b bw r); auto.
      - apply (defaults_covered bw).
      - apply ordinary_value; [apply before_ordinary|exact Hv].
      - apply defaulted_falls_back, Hd.
    Qed.

    (** If it is complete, they have their values. *)
    Theorem C80_complete vs b bw r : valid (h_lim h) T (VSeq vs) -> write_to_vec h mem e T (VSeq vs) = Ok b ->
      reading h e T b bw r -> r = Ok (norm T (VSeq vs)).
    Proof.
      intros Hv Hw Hr. destruct (defaults_covered bw) as [W S R].
      assert (Hv' : value_of h e T (VSeq vs)) by (apply plain_value; [apply defaults_no_peek|exact Hv]).
      pose proof (written h VH e mem Hmem _ _ _ W Hv' Hw) as He.
      pose proof (host_round_trip h VH e _ _ b [] R Hv' He (fun _ => eq_refl)) as Hd. rewrite app_nil_r in Hd.
      eapply reading_ok; try eassumption; [apply VH|]. eapply host_min; try eassumption. apply VH.
    Qed.
  End Defaults.

  (** If the input ends inside the last field, that field has its default. *)
  Theorem C80_ends_inside d fs1 a t vs1 v b1 p q bw r :
    let T := TStruct d (fs1 ++ [(a, t)]) in
    ordinary (TStruct d (fs1 ++ [(strictly a, t)])) -> compact h T ->
    f_skip a = false -> f_eof a = true ->
    (sized_field a t = true -> match t with TOption _ => False | _ => f_default a = empty_of t end) ->
    length fs1 = length vs1 -> valid (h_lim h) T (VSeq (vs1 ++ [v])) ->
    write_to_vec h mem e (TStruct d fs1) (VSeq vs1) = Ok b1 ->
    write_to_vec h mem e T (VSeq (vs1 ++ [v])) = Ok (b1 ++ p ++ q) -> q <> [] ->
    reading h e T (b1 ++ p) bw r ->
    r = Ok (VSeq (norm_fields norm fs1 vs1 ++ [f_default a])).
  Proof.
    intros T Ho Hc Hk Hf Hcut Hlen Hv Hb1 Hb Hq Hr.
    pose proof (defaults_covered d fs1 [(a, t)] Ho Hc bw) as C.
    assert (Oa : ordinary_field ordinary (strictly a) t).
    { destruct Ho as (_ & _ & O). apply all_fields_app in O as [_ [O _]]. exact O. }
    destruct Oa as [Ot [O|(_ & O & _)]]; [cbn in O; congruence|]. cbn [strictly f_len] in O.
    change (f_default a :: []) with (f_default a :: defaults []).
    eapply (C30_ends_inside_partial h VH e mem Hmem d fs1 a t [] vs1 v [] b1 p q bw r); eauto.
    - exact I.
    - split; [apply field_closed, O|]. intros Hs _. apply Hcut, Hs.
    - apply ordinary_no_eof, Ot.
    - apply plain_value; [|exact Hv]. apply (defaults_no_peek d fs1 [(a, t)] Ho).
  Qed.

  (* ---------------------------------------------------------------- *)
  (** ** C82: constants *)

  Section Const.
    Context (d : sdecl) (fs1 : fields) (a : fattrs) (t : ty) (fs2 : fields) (Hskip : f_skip a = false).
    Notation T := (TStruct d (fs1 ++ (a, t) :: fs2)).
    Context (Ho : ordinary T) (Hc : compact h T).

    Lemma const_before : ordinary (TStruct d fs1) /\ compact h (TStruct d fs1).
    Proof.
      split; [|apply (before_compact d fs1 ((a, t) :: fs2) Hc)].
      destruct Ho as (O1 & O2 & O3). apply all_fields_app in O3 as [O3 _]. split; [exact O1|]. split; assumption.
    Qed.

    Lemma const_strict : f_eof a = false.
    Proof.
      destruct Ho as (_ & _ & O). apply all_fields_app in O as [_ [[_ O] _]]. cbn [fst] in O.
      destruct O as [O|[O _]]; [congruence|exact O].
    Qed.

    (** Writing: the constant stands before the field; the rest is as without it. *)
    Theorem C82_written vs1 v vs2 out : length fs1 = length vs1 ->
      valid (h_lim h) T (VSeq (vs1 ++ v :: vs2)) -> write_to_vec h mem e T (VSeq (vs1 ++ v :: vs2)) = Ok out ->
      exists b1 c, out = b1 ++ f_prefix a ++ c
        /\ write_to_vec h mem e (TStruct d fs1) (VSeq vs1) = Ok b1
        /\ write_to_vec h mem e (TStruct d (fs1 ++ (no_const a, t) :: fs2)) (VSeq (vs1 ++ v :: vs2)) = Ok (b1 ++ c).
    Proof.
      intros Hl Hv Hw. apply (C33_written_partial h VH e d fs1 a t fs2 Hskip mem vs1 v vs2 out Hmem Hl); auto.
      apply ordinary_wsup, Ho.
    Qed.

    (** Reading: behind the fields before, where anything else than the constant
        stands, no entry point returns a value, and unless the input is too short
        the error names the constant. *)
    Theorem C82_refuses vs1 b1 rest bw r : valid (h_lim h) (TStruct d fs1) (VSeq vs1) ->
      write_to_vec h mem e (TStruct d fs1) (VSeq vs1) = Ok b1 -> ~ begins rest (f_prefix a) ->
      reading h e T (b1 ++ rest) bw r ->
      (nlen (b1 ++ rest) < min_bytes h T /\ r = Err (InputBufferIsTooSmall (nlen (b1 ++ rest)) (min_bytes h T)))
      \/ (nlen (f_prefix a) <= nlen rest /\ r = Err (ExpectedConstant (f_prefix a)))
      \/ (nlen rest < nlen (f_prefix a) /\ exists er, r = Err er /\ is_eof er = true).
    Proof.
      intros Hv Hw Hn Hr. destruct const_before as [O1 C1].
      destruct (ordinary_covered h H6 e bw true _ O1 C1) as [W S R].
      assert (Hv' : value_of h e (TStruct d fs1) (VSeq vs1)) by (apply ordinary_value; assumption).
      pose proof (written h VH e mem Hmem _ _ _ W Hv' Hw) as He.
      pose proof (host_round_trip h VH e _ _ b1 rest R Hv' He) as Hd.
      specialize (Hd ltac:(rewrite (ordinary_opens _ O1); discriminate)). cbn [norm] in Hd.
      pose proof (cv_read _ _ _ _ _ (ordinary_covered h H6 e bw true _ Ho Hc)) as HS.
      destruct (C33_refuses_partial h VH e d fs1 a t fs2 Hskip _ bw r _ _ HS Hr Hd Hn) as [[H0 H]|[H|[H1 H2]]]; auto.
      right; right. split; [exact H1|]. destruct (H2 const_strict) as (er & E & Her). eauto.
    Qed.

    (** A value is returned only if the constant is in its place. *)
    Theorem C82_only_if bs bw w addr : reading h e T bs bw (Ok w) -> nlen bs <= h_alloc_max h ->
      exists ws n, read_with_length_from_buffer h e (TStruct d fs1) addr bs = (Ok (VSeq ws), n)
        /\ begins (ndrop n bs) (f_prefix a).
    Proof.
      clear mem Hmem. intros Hr Hl. destruct const_before as [O1 C1].
      pose proof (cv_read _ _ _ _ _ (ordinary_covered h H6 e bw true _ Ho Hc)) as HS.
      destruct (C33_only_if_partial h VH e d fs1 a t fs2 Hskip bs bw w (ordinary_no_eof _ O1) HS Hr) as (ws & rest & Hd & Hb).
      destruct Hb as [Hb|[Hb _]]; [|rewrite const_strict in Hb; discriminate].
      pose proof (cv_read _ _ _ _ _ (ordinary_covered h H6 e true true _ O1 C1)) as HS1.
      assert (Hm : min_bytes h (TStruct d fs1) <= nlen bs).
      { destruct (N.le_gt_cases (min_bytes h (TStruct d fs1)) (nlen bs)) as [H|H]; [exact H|].
        destruct (small_undecodable h VH e _ bs _ _ (ordinary_minok h _ O1) H Hd). }
      destruct (buffer_agrees h VH e (TStruct d fs1) addr bs HS1 Hl Hm) as [_ G]. specialize (G _ _ Hd).
      exists ws, (nlen bs - nlen rest). split; [exact G|].
      destruct (decode_ok_rest _ _ _ _ bs _ _ (ordinary_no_eof _ O1) Hd) as (c & r & E & ->). injection E as <-.
      replace (nlen (c ++ rest) - nlen rest) with (nlen c) by (rewrite nlen_app; lia).
      rewrite drop_app_exact by reflexivity. exact Hb.
    Qed.
  End Const.

  (* ---------------------------------------------------------------- *)
  (** ** C83: containers to the end of the input *)

  Lemma hungry_min t : ordinary t -> hungry t = true -> 0 < min_bytes h t.
  Proof.
    assert (Hb : forall b, 0 < basic_size b) by (intros []; reflexivity).
    induction t as [s|k|k t IH|t n IH|t n IH|t IH|t1 t2 IH1 IH2|ts IH|i t IH|k t IH|k tk tv IHk IHv|t IH|d fs IH|d vs IH|]
      using ty_ind'; cbn [ordinary hungry min_bytes]; intros Ho Hh; try lia; try contradiction.
    - destruct s; try discriminate; try reflexivity; try (destruct p; reflexivity).
      cbn [scalar_min]. assert (0 < N.of_nat (psize p)) by (destruct p; reflexivity).
      apply N.mul_pos_pos; [assumption|]. lia.
    - apply andb_true_iff in Hh as [Hn Hh]. apply N.mul_pos_pos; [auto|]. destruct n; [discriminate|]. lia.
    - destruct ts as [|t ts]; [discriminate|]. inversion IH as [|? ? IH1 _]; subst. destruct Ho as [Ho _].
      specialize (IH1 Ho Hh). cbn [map nsum fold_right]. lia.
    - destruct Ho as (_ & _ & Ho). induction IH as [|[a t] fs IH _ IHfs]; [discriminate|].
      destruct Ho as [Ho Hos]. cbn [first_field fst snd] in Hh. cbn [map nsum fold_right fst snd] in *.
      destruct (f_skip a) eqn:Es.
      + specialize (IHfs Hos Hh). unfold nsum in IHfs. lia.
      + apply andb_true_iff in Hh as [_ Hh]. destruct Ho as [Ho [?|(He & Hl & _ & Hv)]]; [congruence|].
        assert (0 < field_min (min_bytes h) (a, t)); [|lia].
        unfold field_min. cbn [fst snd]. rewrite He, Es. rewrite orb_false_r.
        assert (El : negb match f_len a with LDefault | LType _ => true | _ => false end = false)
          by (destruct (f_len a); try reflexivity; destruct Hl).
        rewrite El. cbn [orb]. destruct (f_prefix a) as [|c cs]; [|rewrite nlen_cons; lia].
        cbn [orb] in Hh. rewrite N.add_0_r.
        destruct (f_varint a) eqn:Ev.
        * destruct (Hv eq_refl) as [-> ->]. reflexivity.
        * cbn [orb] in Hh. apply andb_true_iff in Hh as [Hh _]. specialize (IH Ho Hh).
          destruct (f_opaque a); [exact IH|].
          destruct t; try exact IH; try (destruct (is_container _); [apply Hb|exact IH]); reflexivity.
    - destruct Ho as [-> _]. rewrite MinFacts.fold_min_0. cbn. apply Hb.
  Qed.

  (** Elements that take at least a byte. *)
  Definition until_ordinary (c : ty) : Prop :=
    is_container c = true /\ ordinary c
    /\ match c with
       | TStr _ => True
       | TSeq _ t => hungry t = true
       | TSet _ t => hungry t = true
       | TMap _ tk _ => hungry tk = true
       | _ => False
       end.

  (** The field: `#[speedy(length = ..)]`, possibly with a constant. *)
  Definition until_field (a : fattrs) : Prop :=
    f_skip a = false /\ f_varint a = false /\ f_opaque a = false /\ f_eof a = false /\ f_len a = LEof
    /\ nlen (f_prefix a) < 2 ^ 31.

  Lemma until_supported bw c : until_ordinary c -> compact h c -> supported h e bw true LEof c.
  Proof.
    intros (Hk & Ho & Hh) Hc.
    assert (Hf : forall n, fits h LEof n) by (intros n m []).
    destruct c as [| k | k t| | | | | | |k t|k tk tv| | | |]; try contradiction; cbn [ordinary compact supported] in *.
    - destruct k; auto.
    - destruct Ho as [Hk' Ho], Hc as [Hs Hc]. split; [|apply ordinary_supported; [exact H6|exact I|assumption..]].
      destruct k; cbn [seq_elem]; try contradiction; try (apply ordinary_vec_elem; assumption).
      split; [apply ordinary_vec_elem; tauto|]. intros _. split; [apply ordinary_honest, Ho|].
      split; [apply solid; assumption|apply Hf].
    - destruct Ho as (H1 & H2 & H3), Hc as [Hs Hc]. split; [|apply ordinary_supported; [exact H6|exact I|assumption..]].
      intros _. split; [apply ordinary_honest, H3|]. split; [apply solid; assumption|apply Hf].
    - destruct Ho as (H1 & H2 & H3 & H4), Hc as (Hs & Hc1 & Hc2).
      split; [|split; apply ordinary_supported; auto; exact I].
      pose proof (ordinary_pair_elem h H6 LDefault tk tv I H3 H4 H1 Hs) as Hp. intros P1 P2.
      destruct (Hp P1 P2) as (Q1 & Q2 & Q3 & Q4 & Q5 & _). repeat split; auto.
  Qed.

  Lemma until_back c : until_ordinary c -> rtok (h_lim h) e e6 true c.
  Proof.
    intros (Hk & Ho & Hh). destruct c as [| k | k t| | | | | | |k t|k tk tv| | | |]; try contradiction; cbn [ordinary rtok] in *.
    - exact I.
    - destruct Ho as [_ Ho]. split; [apply ordinary_rtok, Ho|]. split; [apply ordinary_opens, Ho|].
      intros _. apply (hungry_nothing (h_lim h) e e6 t Hh len0). left; eexists; reflexivity.
    - destruct Ho as (_ & Hx & Ho). split; [apply ordinary_rtok, Ho|]. split; [apply ordinary_opens, Ho|].
      split; [exact Hx|]. intros _. apply (hungry_nothing (h_lim h) e e6 t Hh len0). left; eexists; reflexivity.
    - destruct Ho as (_ & Hx & Ho1 & Ho2). repeat split; auto using ordinary_rtok, ordinary_opens.
      intros _. unfold ends, dpair, dbind.
      rewrite (hungry_nothing (h_lim h) e e6 tk Hh len0) by (left; eexists; reflexivity). reflexivity.
  Qed.

  Section Until.
    Context (d : sdecl) (fs : fields) (a : fattrs) (c : ty).
    Notation T := (TStruct d (fs ++ [(a, c)])).
    Context (Ho : ordinary (TStruct d fs)) (Hc : compact h T) (Ha : until_field a) (Hu : until_ordinary c).

    Lemma until_sized : sized_field a c = true /\ field_eof a c = true.
    Proof.
      destruct Ha as (_ & _ & Hop & _ & Hl & _), Hu as (Hk & _).
      assert (E : sized_field a c = true) by (unfold sized_field; rewrite Hop; destruct c; try discriminate; exact Hk).
      split; [exact E|]. unfold field_eof. rewrite E, Hl. reflexivity.
    Qed.

    Lemma until_compact : compact h (TStruct d fs) /\ compact h c.
    Proof. cbn [compact] in *. apply all_fields_app in Hc as [C1 [C2 _]]. split; assumption. Qed.

    Lemma until_covered bw : covered h e bw true T.
    Proof.
      destruct until_sized as [Hs He], until_compact as [C1 C2]. destruct Ha as (Hk & Hv & Hop & Hf & Hl & Hp).
      destruct (ordinary_covered h H6 e bw true _ Ho C1) as [W S R]. constructor.
      - apply all_fields_app. split; [exact W|]. split; [|exact I]. right. cbn [fst snd]. split; [congruence|].
        apply ordinary_wsup, Hu.
      - apply all_fields_app. split; [exact S|]. split; [|exact I]. right. cbn [fst snd]. split; [congruence|].
        split; [apply (ordinary_prefix h H6), Hp|]. rewrite Hs, Hl. apply until_supported; assumption.
      - cbn [rtok] in *. apply (rt_fields_app h e fs [(a, c)] R).
        + left. apply (ordinary_opens _ Ho).
        + split; [|exact I]. right. cbn [fst snd]. split; [congruence|]. rewrite He. split; [apply until_back, Hu|]. intros _. exact I.
    Qed.

    (** What was written is read back by every entry point, if nothing follows. *)
    Theorem C83_reads_back v b bw r : valid (h_lim h) T v -> write_to_vec h mem e T v = Ok b ->
      reading h e T b bw r -> r = Ok (norm T v).
    Proof.
      intros Hv Hw Hr. destruct (until_covered bw) as [W S R].
      assert (Hn : no_peek T).
      { apply all_fields_app. split; [apply (ordinary_no_peek _ Ho)|]. split; [|exact I]. right. apply ordinary_no_peek, Hu. }
      assert (Hv' : value_of h e T v) by (apply plain_value; assumption).
      pose proof (written h VH e mem Hmem _ _ _ W Hv' Hw) as He.
      pose proof (host_round_trip h VH e _ _ b [] R Hv' He (fun _ => eq_refl)) as Hd. rewrite app_nil_r in Hd.
      eapply reading_ok; try eassumption; [apply VH|]. eapply host_min; try eassumption. apply VH.
    Qed.

    (** Whatever the input (below 4 GiB), reading ends, and without a panic. *)
    Theorem C83_never_panics bs buf f : defaults_valid (h_lim h) T -> timeless T -> nlen bs < 2 ^ 32 ->
      ~ outcome h e T bs buf (Fault f).
    Proof.
      clear mem Hmem. intros Hd Ht Hl.
      assert (HL : nlen bs <= max_input h buf).
      { pose proof (h6_alloc h H6). pose proof (h6_usize h H6). unfold max_input. destruct buf; [rewrite H|rewrite H0];
          (eapply N.le_trans; [apply N.lt_le_incl, Hl|vm_compute; discriminate]). }
      apply (C25_never_panics_partial h VH e (nlen bs)); [apply N.le_refl|exact HL|].
      destruct until_sized as [Hs _], until_compact as [C1 C2]. destruct Ha as (Hk & Hv & Hop & Hf & Hlen & Hp).
      cbn [defaults_valid timeless] in Hd, Ht. apply all_fields_app in Hd as [D1 [[_ D2] _]].
      apply all_fields_app in Ht as [T1 [T2 _]].
      assert (Hcf : calm h e (fun _ => False) (nlen bs) (room h (nlen bs) buf) LDefault (TStruct d fs)).
      { apply (ordinary_calm h H6 e _ (nlen bs) buf (TStruct d fs) LDefault); auto. exact I. }
      cbn [calm] in *. apply all_fields_app. split; [exact Hcf|]. split; [|exact I].
      split; [cbn [fst]; rewrite Hk, Hf; discriminate|]. right. cbn [fst snd]. split; [congruence|].
      split; [apply (ordinary_prefix h H6), Hp|]. rewrite Hs, Hlen. clear - C2 D2 T2 Hl H6 Hu.
      revert Hu. intros (Hk & Ho' & Hh).
      assert (Hno : forall n, ~ possible_length h LEof n) by (intros n []).
      assert (Hft : forall n, fits h LEof n) by (intros n m []).
      assert (Hcalm : forall t, ordinary t -> compact h t -> defaults_valid (h_lim h) t -> timeless t ->
        calm h e (fun _ => False) (nlen bs) (room h (nlen bs) buf) LDefault t).
      { intros t O C D M. apply (ordinary_calm h H6 e _ (nlen bs) buf t LDefault); auto. exact I. }
      assert (Hroom : forall t, h_size h t <= 2 ^ 31 -> Safe.roomy h (nlen bs) t).
      { intros t Hsz. left. intros n Hn. rewrite (h6_alloc h H6).
        apply N.le_trans with ((2 ^ 32 - 1) * 2 ^ 31); [apply N.mul_le_mono; [num_pow; lia|exact Hsz]|vm_compute; discriminate]. }
      assert (Hfin : forall t, ordinary t -> hungry t = true -> finishes h (fun _ => False) t).
      { intros t O M. right. split; [exact (ordinary_least h H6 t O)|apply hungry_min; assumption]. }
      assert (Hel : forall t', ordinary t' -> (hollow t' -> silent t') -> elem_ok h e (fun _ => False) t').
      { intros t' O M. split; [|intros Q; exact (ordinary_elem h H6 t' O M Q)].
        intros Q. split; [exact (ordinary_image h t' O Q)|right; intros _; exact (ordinary_convertible t' O)]. }
      destruct c as [| k | k t| | | | | | |k t|k tk tv| | | |]; try contradiction; cbn [ordinary compact calm defaults_valid timeless] in *.
      - split; [exact I|].
        assert (Hct : counted h (fun _ => False) (room h (nlen bs) buf) LEof (TP U8)) by (right; intros n []).
        assert (Ham : LEof = LEof -> nlen bs <= h_alloc_max h).
        { intros _. rewrite (h6_alloc h H6). eapply N.le_trans; [apply N.lt_le_incl, Hl|vm_compute; discriminate]. }
        destruct k; cbn; auto.
      - destruct Ho' as [Hk' Ho1], C2 as [Hsz C2]. split; [exact I|].
        assert (Hct : counted h (fun _ => False) (room h (nlen bs) buf) LEof t) by (right; intros n []).
        assert (Hw : k = KCow -> cow_ok h (fun _ => False) LEof t).
        { intros -> _. split; [right; apply solid; assumption|left; apply Hft]. }
        destruct k; [..|contradiction]; (split; [apply Hel; tauto|]);
          (split; [exact Hw|]); (split; [exact Hct|]); (split; [intros _; auto|]); apply Hcalm; assumption.
      - destruct Ho' as (O1 & O2 & O3), C2 as [Hsz C2]. split; [exact I|]. split; [|split; [intros _; auto|auto]].
        intros Hp. split; [apply (image_numeric h), ordinary_image; assumption|right; right; apply solid; assumption].
      - destruct Ho' as (O1 & O2 & O3 & O4), C2 as (Hsz & C2 & C3), D2 as [D2 D3].
        split; [exact I|]. split; [|split; [intros _; left; auto|]].
        + right. intros Hp1 Hp2. split; [apply (image_numeric h), ordinary_image; assumption|].
          split; [apply (image_numeric h), ordinary_image; assumption|]. right. right.
          destruct (h6_pair h H6 tk tv) as [-> _]. pose proof (solid h H6 tk O3 O1). lia.
        + destruct T2 as [T2 T3]. split; apply Hcalm; auto.
    Qed.
  End Until.

  (** The elements returned stand one after the other; only a rest that is no
      element is left over. *)
  Theorem C83_vector k t bs bw v : k = KVec \/ k = KCow -> ordinary t -> compact h t ->
    reading h e (rest_of (TSeq k t)) bs bw (Ok v) ->
    exists vs, v = VSeq [VSeq vs] /\ elements (decode (h_lim h) e e6 t) bs vs.
  Proof.
    clear mem Hmem. intros Hk Ho Hc. apply (C35_vector_partial h VH e k t bs bw v Hk); [|apply ordinary_no_eof, Ho].
    apply ordinary_supported; [exact H6|exact I|assumption..].
  Qed.

  Theorem C83_set k t bs bw v : k = CBTree \/ k = CHash -> ordinary t -> compact h t ->
    reading h e (rest_of (TSet k t)) bs bw (Ok v) ->
    exists vs, v = VSeq [VSeq (collect k id vs)] /\ elements (decode (h_lim h) e e6 t) bs vs.
  Proof.
    clear mem Hmem. intros Hk Ho Hc. apply (C35_set_partial h VH e k t bs bw v Hk); [|apply ordinary_no_eof, Ho].
    apply ordinary_supported; [exact H6|exact I|assumption..].
  Qed.

  Theorem C83_map k tk tv bs bw v : k = CBTree \/ k = CHash -> ordinary tk -> compact h tk -> ordinary tv -> compact h tv ->
    reading h e (rest_of (TMap k tk tv)) bs bw (Ok v) ->
    exists vs, v = VSeq [VSeq (collect k pair_key vs)] /\ elements (decode (h_lim h) e e6 (TTuple [tk; tv])) bs vs.
  Proof.
    clear mem Hmem. intros Hk Ho Hc Ho' Hc'.
    apply (C35_map_partial h VH e k tk tv bs bw v Hk); try (apply ordinary_no_eof; assumption);
      (apply ordinary_supported; [exact H6|exact I|assumption..]).
  Qed.

  (* ---------------------------------------------------------------- *)
  (** ** C84: inputs that are read are the encodings of the values *)

  Theorem C84_buffer t addr bs v n : ordinary t -> compact h t -> defaults_valid (h_lim h) t -> canonical LDefault t ->
    nlen bs <= h_alloc_max h -> read_with_length_from_buffer h e t addr bs = (Ok v, n) ->
    write_to_vec h mem e t v = Ok (ntake n bs).
  Proof.
    intros Ho Hc Hd Hn Hl. apply (C46_buffer_partial h VH e mem Hmem t addr bs v n Hn); auto.
    - apply ordinary_no_eof, Ho.
    - apply ordinary_wsup, Ho.
    - apply ordinary_supported; [exact H6|exact I|assumption..].
    - apply (ordinary_sane h H6 (nlen bs) t LDefault I Ho Hd).
  Qed.

  Theorem C84_reading t bs bw buf v : ordinary t -> compact h t -> defaults_valid (h_lim h) t -> canonical LDefault t ->
    nlen bs <= max_input h buf -> reading h e t bs bw (Ok v) -> outcome h e t bs buf (Ok v) ->
    exists b rest, write_to_vec h mem e t v = Ok b /\ bs = b ++ rest.
  Proof.
    intros Ho Hc Hd Hn Hl. apply (C46_reading_partial h VH e mem Hmem t bs bw buf v Hn); auto.
    - apply ordinary_no_eof, Ho.
    - apply ordinary_wsup, Ho.
    - apply ordinary_supported; [exact H6|exact I|assumption..].
    - apply (ordinary_sane h H6 (nlen bs) t LDefault I Ho Hd).
  Qed.

  (* ---------------------------------------------------------------- *)
  (** ** C86: all readers on inputs that end early *)

  (** Data in which nothing can be wrong but that it ends too early ([q = false]);
      or whose slices have such elements ([q = true]). *)
  Fixpoint flawless (q : bool) (t : ty) : Prop :=
    match t with
    | TScalar s => q = true \/ scalar_clean s = true
    | TStr _ | TBot => q = true
    | TSeq _ t' => flawless false t'
    | TSet _ t' | TArr t' _ | TRefArr t' _ | TRange _ t' | TBox t' | TOption t' => flawless q t'
    | TMap _ t1 t2 | TResult t1 t2 => flawless q t1 /\ flawless q t2
    | TTuple ts => all_tys (flawless q) ts
    | TStruct _ fs => all_fields (fun a t' => f_skip a = true
        \/ (q = true \/ (f_prefix a = [] /\ f_len a = LDefault)) /\ flawless q t') fs
    | TEnum _ vs => q = true /\ all_variants (all_fields (fun a t' => f_skip a = true \/ flawless q t')) vs
    end.

  Lemma short_roomy lm t : Ordinary.short lm -> h_size h t <= 2 ^ 31 -> roomy h lm t.
  Proof.
    clear mem Hmem. intros Hl Hs. unfold roomy.
    assert (G : forall b n, LType b = lm \/ (lm = LDefault /\ b = BU32) -> n <= basic_max b -> l_fits (h_lim h) t n = true).
    { intros b n Hb Hn. rewrite (vh_fits h VH), (h6_alloc h H6). apply N.leb_le.
      apply N.le_trans with ((2 ^ 32 - 1) * 2 ^ 31); [|vm_compute; discriminate]. apply N.mul_le_mono; [|exact Hs].
      eapply N.le_trans; [exact Hn|].
      destruct Hb as [<-|[-> ->]]; [|vm_compute; discriminate].
      destruct b; try contradiction; vm_compute; discriminate. }
    destruct lm as [|b|f|]; try contradiction; cbn [length_prefix]; intros n _ Hn; eapply G; try exact Hn; auto.
  Qed.

  Lemma ordinary_tidy t : forall q lm, Ordinary.short lm -> q = true \/ lm = LDefault ->
    ordinary t -> compact h t -> flawless q t -> tidy h q lm t.
  Proof.
    clear mem Hmem.
    assert (Hsp : forall lm, Ordinary.short lm -> length_prefix lm <> None)
      by (intros [| | |]; cbn; try discriminate; contradiction).
    assert (Hfs : forall q (F : fattrs -> ty -> Prop) fs,
      (forall a t', F a t' -> f_skip a = true \/ (q = true \/ (f_prefix a = [] /\ f_len a = LDefault)) /\ flawless q t') ->
      Forall (fun f => forall q lm, Ordinary.short lm -> q = true \/ lm = LDefault ->
        ordinary (snd f) -> compact h (snd f) -> flawless q (snd f) -> tidy h q lm (snd f)) fs ->
      all_fields (ordinary_field ordinary) fs -> all_fields (fun _ t' => compact h t') fs -> all_fields F fs ->
      all_fields (fun a t' => f_skip a = true
        \/ (f_eof a = false /\ (q = true \/ f_prefix a = [])
            /\ (f_varint a = true \/ tidy h q (if sized_field a t' then f_len a else LDefault) t'))) fs).
    { intros q F fs HF. induction 1 as [|[a t'] fs IH _ IHfs]; [auto|]. intros [O Os] [C Cs] [X Xs].
      split; [|apply IHfs; assumption]. cbn [fst snd] in *. apply HF in X. destruct X as [X|[X1 X2]]; [left; exact X|].
      destruct O as [Ot [O|(O1 & O2 & O3 & O4)]]; [left; exact O|right]. split; [exact O1|].
      split; [destruct X1 as [X1|[X1 _]]; auto|]. right. apply IH; auto using field_mode.
      destruct X1 as [X1|[_ X1]]; [auto|]. rewrite X1. destruct (sized_field a t'); auto. }
    induction t as [s|k|k t IH|t n IH|t n IH|t IH|t1 t2 IH1 IH2|ts IH|i t IH|k t IH|k tk tv IHk IHv|t IH|d fs IH|d vs IH|]
      using ty_ind'; intros q lm Hl Hq; cbn [ordinary compact flawless tidy]; try tauto.
    - intros _ _ Hx. split; [exact Hx|]. apply short_roomy; [exact Hl|]. rewrite (vh_prim h VH). vm_compute. discriminate.
    - intros [_ Ho] [Hs Hc] Hx. split; [apply short_roomy; assumption|]. split; [exact Hq|]. apply IH; auto. exact I.
    - intros Ho Hc Hx. apply IH; auto. exact I.
    - intros Ho Hc Hx. apply IH; auto.
    - intros [O1 O2] [C1 C2] [X1 X2]. split; [apply IH1|apply IH2]; auto; exact I.
    - intros Ho Hc Hx. clear Hq Hl lm. induction IH as [|t ts IH _ IHts]; [exact I|]. destruct Ho, Hc, Hx.
      split; [apply IH; auto; exact I|auto].
    - intros Ho Hc Hx. apply IH; auto. exact I.
    - intros (_ & _ & Ho) [Hs Hc] Hx. split; [auto|]. split; [exact Hq|]. apply IH; auto. exact I.
    - intros (_ & _ & O1 & O2) (_ & C1 & C2) [X1 X2]. split; [auto|]. split; [exact Hq|].
      split; [apply IHk|apply IHv]; auto; exact I.
    - intros Ho Hc Hx. apply IH; auto. exact I.
    - intros (_ & _ & Ho) Hc Hx. revert Hx. apply Hfs; auto.
    - intros (_ & _ & _ & _ & Ho) Hc [-> Hx]. split; [reflexivity|]. clear Hq Hl lm.
      induction IH as [|v vs IH _ IHvs]; [exact I|]. destruct Ho, Hc, Hx. split; [|apply IHvs; assumption].
      eapply Hfs; eauto. cbn beta. tauto.
  Qed.

  (** If only the last field that is read has `default_on_eof`, all readers produce
      the same value from every input, wherever it ends. *)
  Theorem C86_same_value d fs1 a t fs2 bs bw1 bw2 r1 r2 :
    let T := TStruct d (fs1 ++ (a, t) :: fs2) in
    ordinary (TStruct d (fs1 ++ (strictly a, t) :: fs2)) -> compact h T -> f_skip a = false -> f_eof a = true ->
    all_fields (fun a _ => f_skip a = true) fs2 -> flawless true t ->
    reading h e T bs bw1 r1 -> reading h e T bs bw2 r2 -> same_value r1 r2.
  Proof.
    clear mem Hmem. intros T Ho Hc Hk Hf Hsk Hx.
    assert (O' : ordinary (TStruct d (fs1 ++ strict_fields ((a, t) :: fs2)))).
    { destruct Ho as (O1 & O2 & O3). split; [exact O1|]. split; [exact O2|]. apply all_fields_app in O3 as [O3 [O4 O5]].
      apply all_fields_app. split; [exact O3|]. split; [exact O4|].
      clear - O5. induction fs2 as [|[a' t'] fs IH]; [exact I|]. destruct O5 as [O5 O6]. split; [|apply IH, O6].
      destruct O5 as [O5 [O7|(O7 & O8)]]; split; auto. }
    pose proof (defaults_covered d fs1 ((a, t) :: fs2) O' Hc false) as [_ S _].
    destruct Ho as (O1 & O2 & O3). apply all_fields_app in O3 as [O3 [O4 O5]].
    assert (Ob : ordinary (TStruct d fs1)) by (repeat split; assumption).
    destruct O4 as [Ot [O4|(_ & O4 & _ & O6)]]; [cbn in O4; congruence|].
    apply (C31_last_partial h VH e d fs1 a t fs2 bs bw1 bw2 r1 r2); auto.
    - apply all_fields_app. split; [apply (ordinary_minok h _ Ob)|]. split.
      + unfold field_minok. cbn [fst]. rewrite Hf. exact I.
      + clear - Hsk. induction fs2 as [|[a' t'] fs IH]; [exact I|]. destruct Hsk as [Hs Hsk]. cbn [fst] in Hs.
        split; [|apply IH, Hsk]. unfold field_minok. cbn [fst]. rewrite Hs, orb_true_r. exact I.
    - apply (ordinary_no_eof _ Ob).
    - right. apply ordinary_tidy; auto.
      + apply field_mode, O4.
      + cbn [compact] in Hc. apply all_fields_app in Hc as [_ [Hc _]]. exact Hc.
  Qed.
End Fields.

Print Assumptions C79_peeked.
Print Assumptions C80_ends_before.
Print Assumptions C80_complete.
Print Assumptions C80_ends_inside.
Print Assumptions C82_written.
Print Assumptions C82_refuses.
Print Assumptions C82_only_if.
Print Assumptions C83_reads_back.
Print Assumptions C83_never_panics.
Print Assumptions C83_vector.
Print Assumptions C83_set.
Print Assumptions C83_map.
Print Assumptions C84_buffer.
Print Assumptions C84_reading.
Print Assumptions C86_same_value.

(* ------------------------------------------------------------------ *)
(** * The hypotheses are met *)

(** A stream that fails in between, and one that fails later. *)
Example C74_fails : let r := fst (read_from_stream_buffered host64 dirty LE letter
    {| is_rest := letter_bytes; is_sched := [RChunk 5; RErr (IoOther 5)] |}) in
  r = Err (IoError (IoOther 5)) /\ ~ In (RErr IoUnexpectedEof) [RChunk 5; RErr (IoOther 5)].
Proof. split; [vm_compute; reflexivity|]. cbn. intuition discriminate. Qed.

Example C74_interruptions bs : nlen bs <= 2 ^ 64 - 1 ->
  fst (read_from_stream_unbuffered host64 dirty BE letter
         {| is_rest := bs; is_sched := [RErr IoInterrupted; RChunk 1; RErr IoInterrupted] |})
  = fst (read_from_stream_unbuffered host64 dirty BE letter {| is_rest := bs; is_sched := [] |}).
Proof.
  intros Hl. apply C74_interrupted; auto using host64_valid, dirty_enough.
  - apply ordinary_no_peek, letter_ordinary.
  - intros k H. cbn in H. destruct H as [H|[H|[H|[]]]]; congruence.
Qed.

(** The disk is full after seven bytes. *)
Example C75_full : exists b2,
  letter_bytes = os_out (snd (write_to_file host64 None BE letter letter_value [WAccept 7; WErr (IoOther 28)])) ++ b2
  /\ nlen b2 = nlen letter_bytes - 7.
Proof.
  destruct (C75_file host64 BE letter letter_value [WAccept 7; WErr (IoOther 28)] _ _ _ _ eq_refl (surjective_pairing _))
    as (b2 & E & _).
  exists b2. assert (E' : os_out (snd (write_to_stream host64 BE letter letter_value obedient)) = letter_bytes) by (vm_compute; reflexivity).
  cbn [fst snd] in E.
  assert (E2 : letter_bytes = os_out (snd (write_to_file host64 None BE letter letter_value [WAccept 7; WErr (IoOther 28)])) ++ b2)
    by (rewrite <- E'; exact E).
  split; [exact E2|]. rewrite E2, nlen_app.
  replace (nlen (os_out (snd (write_to_file host64 None BE letter letter_value [WAccept 7; WErr (IoOther 28)])))) with 7
    by (vm_compute; reflexivity). lia.
Qed.

(** Two bytes that differ, and two equal ones. *)
Example C76_holds :
  write_to_vec host64 dirty LE varint (as_varint 129) = Ok [n2b 128; n2b 129]
  /\ fst (peek_varint host64 (BufferReader LE) (br_start 3 ([n2b 128; n2b 129] ++ [x07]))) <> Ok 129
  /\ write_to_vec host64 dirty LE varint (as_varint 128) = Ok [n2b 128; n2b 128]
  /\ fst (peek_varint host64 (BufferReader LE) (br_start 3 ([n2b 128; n2b 128] ++ [x07]))) = Ok 128.
Proof.
  assert (E1 : write_to_vec host64 dirty LE varint (as_varint 129) = Ok [n2b 128; n2b 129]) by (vm_compute; reflexivity).
  assert (E2 : write_to_vec host64 dirty LE varint (as_varint 128) = Ok [n2b 128; n2b 128]) by (vm_compute; reflexivity).
  split; [exact E1|]. split; [|split; [exact E2|]].
  - intros H. apply (C76_peeked host64 host64_valid dirty dirty_enough LE 129 _ _ [x07] 3 eq_refl E1) in H; [|vm_compute; discriminate].
    inversion H; discriminate.
  - apply (C76_peeked host64 host64_valid dirty dirty_enough LE 128 _ _ [x07] 3 eq_refl E2); [vm_compute; discriminate|].
    repeat constructor.
Qed.

Example C77_holds : exists b, write_to_vec host64 dirty BE (TScalar SSystemTime) (VSeq [VInt 1700000000; VInt 999999999]) = Ok b
  /\ forall rest bw r, reading host64 BE (TScalar SSystemTime) (b ++ rest) bw r -> r = Ok (VSeq [VInt 1700000000; VInt 999999999]).
Proof.
  exact (C77_written host64 host64_valid BE dirty 1700000000 999999999 dirty_enough ltac:(vm_compute; discriminate) eq_refl).
Qed.

Example C78_holds : zero_copyable host64 (TP U16) /\ order_matches host64 LE (TP U16)
  /\ aligned host64 (TP U16) (12 + 4) /\ ~ aligned host64 (TP U16) (13 + 4)
  /\ read_from_buffer host64 LE (TSeq KRef (TP U16)) 13 (word LE 4 2 ++ [x01; x02; x03; x04; x05]) = Fault UbMisaligned.
Proof.
  split; [split; [reflexivity|exact I]|]. split; [right; reflexivity|]. split; [vm_compute; reflexivity|].
  split; [vm_compute; discriminate|vm_compute; reflexivity].
Qed.

Example C79_ping : write_to_vec host64 dirty BE packet (VVar 0 ping) = Ok ping_bytes
  /\ forall rest bw r, reading host64 BE packet (ping_bytes ++ rest) bw r -> r = Ok (VVar 0 ping).
Proof.
  unshelve eapply (C79_peeked host64 host64_64 BE dirty dirty_enough {| e_tag := BU16; e_peek := true |} _ 0 258
    [(plain, TP U16); (plain, TStr KString)] ping (sd 49 RRust)).
  - unfold peeked_ordinary. decide_ordinary; vm_compute; reflexivity.
  - cbn. tauto.
  - reflexivity.
  - apply validb_sound. vm_compute. reflexivity.
  - vm_compute. reflexivity.
  - exists (map n2b [0; 0; 0; 2; 104; 105]). reflexivity.
Qed.

Example C80_config bw r : reading host64 BE config [x00; x02] bw r ->
  r = Ok (VSeq [VInt 2; VBytes []; VInt 0; VInt 0; VSeq []; VNone]).
Proof.
  apply (C80_ends_before host64 host64_64 BE dirty dirty_enough (sd 40 RRust) config_head config_tail) with (vs1 := [VInt 2]).
  - decide_ordinary; vm_compute; reflexivity.
  - cbn. repeat split; vm_compute; discriminate.
  - cbn [all_fields config_tail fst snd]. repeat split;
      first [left; reflexivity | right; split; [reflexivity|]; right; right; cbn; first [reflexivity | left; eexists; reflexivity | right; reflexivity]].
  - apply validb_sound. vm_compute. reflexivity.
  - vm_compute. reflexivity.
Qed.

Example C80_cut bw r : reading host64 BE pair_t [x00; x01; x00; x02; x00; x00] bw r ->
  r = Ok (VSeq [VInt 1; VSeq [VInt 7; VBytes []]]).
Proof.
  apply (C80_ends_inside host64 host64_64 BE dirty dirty_enough (sd 41 RRust) [(plain, TP U16)] pair_attr PropDefault.pair_ty
    [VInt 1] (VSeq [VInt 2; VBytes [x61; x62]]) [x00; x01] [x00; x02; x00; x00] [x00; x02; x61; x62]); try reflexivity; try discriminate.
  - decide_ordinary; vm_compute; reflexivity.
  - cbn. repeat split; vm_compute; discriminate.
  - apply validb_sound. vm_compute. reflexivity.
Qed.

Example C81_cached mem : write_to_vec host64 mem LE (TStruct (sd 30 RRust) cached) (VSeq [VInt 77; VInt 1; VBytes [x61]; VInt 2])
  = write_to_vec host64 mem LE (TStruct (sd 30 RRust) [(plain, TP U8); (plain, TP U8)]) (VSeq [VInt 1; VInt 2]).
Proof. apply (C81_write_to_vec host64 mem LE (sd 30 RRust) cached). reflexivity. Qed.

Example C82_magic bw r : reading host64 LE magic [x07; x53; x51; x02; x01; x09] bw r ->
  r = Err (ExpectedConstant [x53; x50]).
Proof.
  intros Hr.
  destruct (C82_refuses host64 host64_64 LE dirty dirty_enough (sd 32 RRust) [(plain, TP U8)]
    (with_prefix [x53; x50]) (TP U16) [(plain, TP U8)] eq_refl ltac:(decide_ordinary; vm_compute; reflexivity)
    ltac:(cbn; tauto) [VInt 7] [x07] [x53; x51; x02; x01; x09] bw r) as [[H _]|[[_ H]|[H _]]].
  - apply validb_sound. vm_compute. reflexivity.
  - vm_compute. reflexivity.
  - intros [q Hq]. discriminate.
  - exact Hr.
  - vm_compute in H. discriminate.
  - exact H.
  - vm_compute in H. discriminate.
Qed.

Example log_until : until_field (with_len LEof) /\ until_ordinary (TSeq KVec entry).
Proof.
  split; [repeat split|]. split; [reflexivity|]. split; [|reflexivity]. cbn. tauto.
Qed.

Example C83_log bw r :
  reading host64 LE (TStruct (sd 34 RRust) log) [x07; x01; x00; x00; x02; x00; x01; x03] bw r ->
  r = Ok (VSeq PropAttrs.log_value).
Proof.
  apply (C83_reads_back host64 host64_64 LE dirty dirty_enough (sd 34 RRust) [(plain, TP U8)] (with_len LEof) (TSeq KVec entry))
    with (v := VSeq PropAttrs.log_value).
  - decide_ordinary; vm_compute; reflexivity.
  - cbn [compact all_fields all_tys app entry]. repeat split; vm_compute; discriminate.
  - apply log_until.
  - apply log_until.
  - apply validb_sound. vm_compute. reflexivity.
  - vm_compute. reflexivity.
Qed.

Example C83_log_safe bs buf f : nlen bs < 2 ^ 32 -> ~ outcome host64 LE (TStruct (sd 34 RRust) log) bs buf (Fault f).
Proof.
  apply (C83_never_panics host64 host64_64 LE (sd 34 RRust) [(plain, TP U8)] (with_len LEof) (TSeq KVec entry)).
  - decide_ordinary; vm_compute; reflexivity.
  - cbn [compact all_fields all_tys app entry]. repeat split; vm_compute; discriminate.
  - apply log_until.
  - apply log_until.
  - cbn. repeat split; discriminate.
  - cbn. tauto.
Qed.

Example C84_log addr bs v n : nlen bs <= h_alloc_max host64 ->
  read_with_length_from_buffer host64 LE log_ty addr bs = (Ok v, n) -> write_to_vec host64 dirty LE log_ty v = Ok (ntake n bs).
Proof.
  apply (C84_buffer host64 host64_64 LE dirty dirty_enough).
  - decide_ordinary; vm_compute; reflexivity.
  - cbn [log_ty compact all_fields all_tys app point]. repeat split; vm_compute; discriminate.
  - cbn. repeat split; discriminate.
  - exact log_canonical.
Qed.

Example C86_msg bs bw1 bw2 r1 r2 :
  reading host64 LE msg bs bw1 r1 -> reading host64 LE msg bs bw2 r2 -> same_value r1 r2.
Proof.
  apply (C86_same_value host64 host64_64 LE (sd 46 RRust) [(plain, TP U8)]); try reflexivity.
  - decide_ordinary; try (vm_compute; reflexivity); destruct H; contradiction.
  - cbn [compact all_fields all_tys app]. repeat split; vm_compute; discriminate.
  - cbn. tauto.
Qed.
