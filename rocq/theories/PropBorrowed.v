(* Property C49: slices and arrays borrowed from the buffer. *)
From Verif Require Import Samples Entry ReadFacts PropPlain PropBulk.

Section Borrowed.
  Context (h : host) (VH : valid_host h) (e : endian).

  (** Plain data, in the byte order of the host: what `ZeroCopyable` stands for. *)
  Definition zero_copyable (t : ty) : Prop := is_prim h t = true /\ honest h t.

  (** The byte order of the input is the host's, or the elements do not have one. *)
  Definition order_matches (t : ty) : Prop := h_size h t = 1 \/ h_native h = e.

  (** The address is one at which an element may lie. *)
  Definition aligned (t : ty) (addr : N) : Prop := addr mod h_align h t = 0.

  Lemma native_dec : h_native h = e \/ conversion_necessary (h_native h) e = true.
  Proof. destruct (h_native h), e; auto. Qed.

  Lemma native_same : h_native h = e -> conversion_necessary (h_native h) e = false.
  Proof. intros ->. destruct e; reflexivity. Qed.

  Section Guard.
    Context {St : Type} (R : reader St) (He : rd_endian R = e).

    Lemma guard_passes t s : order_matches t -> endianness_guard h R t s = (Ok tt, s).
    Proof.
      intros Ho. unfold endianness_guard. rewrite He.
      destruct Ho as [-> | Ho]; [reflexivity|]. rewrite native_same, Bool.andb_false_r by exact Ho. reflexivity.
    Qed.

    Lemma guard_fails t s : ~ order_matches t -> endianness_guard h R t s = (Err EndiannessMismatch, s).
    Proof.
      intros Ho. unfold endianness_guard. rewrite He.
      destruct (N.eqb_spec (h_size h t) 1) as [E|_]; [destruct Ho; left; exact E|].
      destruct native_dec as [E|E]; [destruct Ho; right; exact E|]. rewrite E. reflexivity.
    Qed.
  End Guard.

  (* ---------------------------------------------------------------- *)
  (** ** Another byte order *)

  Lemma mismatch t bs bw r : (exists k t', t = TSeq KRef t' /\ ~ order_matches t' \/ t = TRefArr t' k /\ ~ order_matches t') ->
    min_bytes h t <= nlen bs -> reading h e t bs bw r -> r = Err EndiannessMismatch.
  Proof.
    intros Ht Hm Hr. destruct (reading_via h VH e t bs bw r Hr) as [[Hl _]|(St & R & rep & io & s & _ & He & _ & _ & _ & ->)]; [lia|].
    destruct Ht as (k & t' & [[-> Ho]|[-> Ho]]); cbn [read read_seq]; unfold read_ref_array, bind;
      rewrite (guard_fails R He t' _ Ho); reflexivity.
  Qed.

  (** C49: an input in another byte order is refused, by every reader, without
      looking at it.  (The buffer entry points first want the bytes of the length;
      the elements of an array.) *)
  Theorem C49_slice_order t bs bw r : ~ order_matches t -> 4 <= nlen bs ->
    reading h e (TSeq KRef t) bs bw r -> r = Err EndiannessMismatch.
  Proof. intros Ho Hl. apply mismatch; [exists 0%nat, t; left; auto|]. cbn. lia. Qed.

  Theorem C49_array_order t n bs bw r : ~ order_matches t -> h_size h t * N.of_nat n <= nlen bs ->
    reading h e (TRefArr t n) bs bw r -> r = Err EndiannessMismatch.
  Proof. intros Ho Hl. apply mismatch; [exists n, t; right; auto|]. cbn [min_bytes]. lia. Qed.

  (* ---------------------------------------------------------------- *)
  (** ** Readers that do not lend their input *)

  Lemma not_lent t bs r : reading h e t bs false r -> min_bytes h t <= nlen bs ->
    exists St (R : reader St) rep io s, reader_ok h R true rep io /\ rd_endian R = e /\ rep s bs
      /\ (forall er, ~ io er) /\ rd_borrow R = None /\ r = fst (read h R t s).
  Proof.
    intros Hr Hm. inversion Hr as [| Hl | mem sched Hmem Hsc Hl | mem sched Hmem Hsc Hl]; subst.
    - exists _, (CopyingBufferReader e), (brep h), no_io, (br_start 0 bs).
      split; [apply copying_ok, VH|]. split; [reflexivity|]. split; [split; [reflexivity|exact Hl]|].
      split; [intros er []|]. split; [reflexivity|].
      unfold read_from_buffer_copying, read_with_length_from_buffer_copying, with_min.
      destruct (N.ltb_spec (nlen bs) (min_bytes h t)); [lia|].
      destruct (read h (CopyingBufferReader e) t (br_start 0 bs)). reflexivity.
    - exists _, (StreamReader mem e), (srep h true true sched), (sio true true sched),
        (sr_start mem true {| is_rest := bs; is_sched := sched |}).
      split; [exact (stream_ok h e mem Hmem true true sched (Hsc _))|]. split; [reflexivity|].
      split; [exact (sr_start_rep h mem Hmem true true sched {| is_rest := bs; is_sched := sched |} eq_refl Hl)|].
      split; [intros er (k & _ & Hk & _); exact (Hsc _ Hk)|]. split; [reflexivity|].
      unfold read_from_stream_buffered, deserialize. destruct (read h _ t _). reflexivity.
    - exists _, (StreamReader mem e), (srep h false true sched), (sio false true sched),
        (sr_start mem false {| is_rest := bs; is_sched := sched |}).
      split; [exact (stream_ok h e mem Hmem false true sched (Hsc _))|]. split; [reflexivity|].
      split; [exact (sr_start_rep h mem Hmem false true sched {| is_rest := bs; is_sched := sched |} eq_refl Hl)|].
      split; [intros er (k & _ & Hk & _); exact (Hsc _ Hk)|]. split; [reflexivity|].
      unfold read_from_stream_unbuffered, deserialize. destruct (read h _ t _). reflexivity.
  Qed.

  (** C49: buffers that are copied from, and streams, cannot give slices. *)
  Theorem C49_slice_unsized t n body r : order_matches t -> n < 2 ^ 32 -> n * h_size h t <= l_usize_max (h_lim h) ->
    reading h e (TSeq KRef t) (word e 4 n ++ body) false r -> r = Err Unsized.
  Proof.
    intros Ho Hn Hu Hr. pose proof (prefix_long e n body) as Hp.
    destruct (not_lent _ _ _ Hr) as (St & R & rep & io & s & OK & He & Hs & Hio & Hb & ->); [cbn; lia|].
    cbn [read read_seq]. unfold bind. rewrite (guard_passes R He) by exact Ho.
    pose proof (read_length_sim h R true rep io OK (usize_lo h VH) BU32) as Hsim.
    destruct (Hsim s (Some (word e 4 n ++ body)) Hs) as [(er & _ & Hi)|Hpost]; [destruct (Hio _ Hi)|].
    rewrite He, length_first in Hpost by assumption. destruct Hpost as [Hok _].
    destruct (read_length h R BU32 s) as [x s']. cbn [fst] in Hok. subst x.
    unfold read_ref_slice, usize_max. destruct (N.ltb_spec (l_usize_max (h_lim h)) (n * h_size h t)); [lia|].
    unfold borrowed, bind. rewrite Hb. reflexivity.
  Qed.

  Theorem C49_array_unsized t n bs r : order_matches t -> h_size h t * N.of_nat n <= nlen bs ->
    reading h e (TRefArr t n) bs false r -> r = Err Unsized.
  Proof.
    intros Ho Hl Hr. destruct (not_lent _ _ _ Hr) as (St & R & rep & io & s & OK & He & Hs & Hio & Hb & ->); [cbn; lia|].
    cbn [read]. unfold read_ref_array, bind. rewrite (guard_passes R He) by exact Ho.
    unfold borrowed. rewrite Hb. reflexivity.
  Qed.

  (* ---------------------------------------------------------------- *)
  (** ** Borrowing *)

  Lemma buffer_length addr n body : n < 2 ^ 32 ->
    read_length h (BufferReader e) BU32 (br_start addr (word e 4 n ++ body))
    = (Ok n, {| br_addr := addr + 4; br_rest := body; br_log := [] |}).
  Proof.
    intros Hn. pose proof (prefix_long e n body) as Hp. pose proof (nlen_word e 4 n) as Hw.
    cbn [read_length]. unfold read_uint, require, bind, ret.
    cbn [rd_can rd_read_ptr rd_endian BufferReader br_start]. unfold br_can, br_read. cbn [br_rest].
    unfold br_start. cbn [br_rest].
    destruct (N.leb_spec (N.of_nat 4) (nlen (word e 4 n ++ body))) as [Hq|]; [|lia].
    cbn [br_rest]. apply N.leb_le in Hq. rewrite Hq. apply N.leb_le in Hq.
    rewrite swap_of_ne by (apply nlen_nat; rewrite nlen_take; lia).
    rewrite take_app_exact by exact Hw. rewrite unword_word by (num_pow; lia).
    unfold br_advance. cbn [br_addr br_rest br_log]. rewrite drop_app_exact by exact Hw. reflexivity.
  Qed.

  (** What `&[T]` gives, for every content and every address. *)
  Lemma slice_cases t n body addr : zero_copyable t -> order_matches t -> n < 2 ^ 32 ->
    read_from_buffer h e (TSeq KRef t) addr (word e 4 n ++ body)
    = if l_usize_max (h_lim h) <? n * h_size h t then Err OutOfRangeLength
      else if n * h_size h t <=? nlen body then
        if (addr + 4) mod h_align h t =? 0 then
          Ok (VSeq (map (mem_read h t) (chunks (N.to_nat (h_size h t)) (N.to_nat n) (ntake (n * h_size h t) body))))
        else Fault UbMisaligned
      else Err UnexpectedEndOfInput.
  Proof.
    intros Hz Ho Hn. pose proof (prefix_long e n body) as Hp.
    pose proof (prim_plain h VH _ (proj2 Hz) (proj1 Hz)) as Hpl.
    unfold read_from_buffer, read_with_length_from_buffer, with_min. cbn [min_bytes].
    destruct (N.ltb_spec (nlen (word e 4 n ++ body)) 4); [lia|].
    cbn [read read_seq]. unfold bind at 1. rewrite (guard_passes (BufferReader e) eq_refl) by exact Ho.
    unfold bind at 1. rewrite buffer_length by exact Hn. unfold read_ref_slice, usize_max.
    destruct (N.ltb_spec (l_usize_max (h_lim h)) (n * h_size h t)); [reflexivity|].
    unfold bind, borrowed. cbn [rd_borrow BufferReader]. unfold br_borrow. cbn [br_rest br_addr].
    destruct (N.leb_spec (n * h_size h t) (nlen body)); [|reflexivity].
    unfold cast_slice. cbn [fst snd]. rewrite (plain_all_ok h) by exact Hpl. destruct ((addr + 4) mod h_align h t =? 0); reflexivity.
  Qed.

  (** C49: the elements that reading them one by one would give, if the address is
      aligned.  In particular nothing but a value or an error. *)
  Theorem C49_slice_partial t n body addr bw r : zero_copyable t -> order_matches t -> n < 2 ^ 32 ->
    aligned t (addr + 4) -> reading h e (separately (N.to_nat n) t) body bw r ->
    same_outcome (read_from_buffer h e (TSeq KRef t) addr (word e 4 n ++ body)) r.
  Proof.
    intros Hz Ho Hn Ha Hr. rewrite slice_cases by assumption. destruct Hz as [Hprim Hh].
    pose proof (prim_plain h VH _ Hh Hprim) as Hp.
    pose proof (separate_plain h VH e _ t body bw r Hp Hr) as Hs. rewrite N2Nat.id in Hs.
    assert (Hb : nlen body <= l_usize_max (h_lim h)).
    { pose proof (vh_alloc h VH). inversion Hr; lia. }
    unfold aligned in Ha. rewrite Ha. cbn [N.eqb].
    destruct (N.leb_spec (n * h_size h t) (nlen body)) as [Hl|Hl].
    - destruct (N.ltb_spec (l_usize_max (h_lim h)) (n * h_size h t)); [lia|]. left. eexists. split; [reflexivity|].
      rewrite Hs. f_equal. f_equal. symmetry. apply (raw_chunks h e t); [exact Hp| |].
      + destruct Ho as [Ho|Ho]; [left; lia|right; exact Ho].
      + rewrite N2Nat.id, nlen_take. lia.
    - destruct Hs as (er & ->). right.
      destruct (N.ltb_spec (l_usize_max (h_lim h)) (n * h_size h t)); eexists _, _; split; reflexivity.
  Qed.

  Lemma array_cases t n bs addr : zero_copyable t -> order_matches t ->
    read_from_buffer h e (TRefArr t n) addr bs
    = if h_size h t * N.of_nat n <=? nlen bs then
        if addr mod h_align h t =? 0 then
          Ok (VSeq (map (mem_read h t) (chunks (N.to_nat (h_size h t)) n (ntake (h_size h t * N.of_nat n) bs))))
        else Fault UbMisaligned
      else Err (InputBufferIsTooSmall (nlen bs) (h_size h t * N.of_nat n)).
  Proof.
    intros Hz Ho. pose proof (prim_plain h VH _ (proj2 Hz) (proj1 Hz)) as Hpl.
    unfold read_from_buffer, read_with_length_from_buffer, with_min. cbn [min_bytes].
    rewrite N.ltb_antisym. destruct (N.leb_spec (h_size h t * N.of_nat n) (nlen bs)) as [Hl|Hl]; [|reflexivity].
    cbn [negb read]. unfold read_ref_array, bind at 1. rewrite (guard_passes (BufferReader e) eq_refl) by exact Ho.
    unfold bind, borrowed. cbn [rd_borrow BufferReader]. unfold br_borrow. cbn [br_rest br_addr br_start].
    destruct (N.leb_spec (h_size h t * N.of_nat n) (nlen bs)); [|lia].
    unfold cast_slice. cbn [fst snd]. rewrite Nat2N.id, (plain_all_ok h) by exact Hpl. destruct (addr mod h_align h t =? 0); reflexivity.
  Qed.

  Theorem C49_array_partial t n bs addr bw r : zero_copyable t -> order_matches t ->
    aligned t addr -> reading h e (separately n t) bs bw r ->
    same_outcome (read_from_buffer h e (TRefArr t n) addr bs) r.
  Proof.
    intros Hzc Ho Ha Hr. rewrite array_cases by assumption. destruct Hzc as [Hprim Hh]. pose proof (prim_plain h VH _ Hh Hprim) as Hp.
    pose proof (separate_plain h VH e _ t bs bw r Hp Hr) as Hs.
    unfold aligned in Ha. rewrite Ha, (N.mul_comm (h_size h t)). cbn [N.eqb].
    destruct (N.leb_spec (N.of_nat n * h_size h t) (nlen bs)) as [Hl|Hl].
    - left. eexists. split; [reflexivity|].
      rewrite Hs. f_equal. f_equal. symmetry. apply (raw_chunks h e t); [exact Hp| |].
      + destruct Ho as [Ho|Ho]; [left; lia|right; exact Ho].
      + rewrite nlen_take. lia.
    - destruct Hs as (er & ->). right. eexists _, _; split; reflexivity.
  Qed.

  (** Elements with no alignment (bytes, packed structs) can lie anywhere. *)
  Theorem C49_packed t n body addr bw r : zero_copyable t -> h_align h t = 1 -> order_matches t -> n < 2 ^ 32 ->
    reading h e (separately (N.to_nat n) t) body bw r ->
    same_outcome (read_from_buffer h e (TSeq KRef t) addr (word e 4 n ++ body)) r.
  Proof.
    intros Hz H1 Ho Hn Hr. apply (C49_slice_partial t n body addr bw r); try assumption.
    unfold aligned. rewrite H1. apply N.mod_1_r.
  Qed.

  (** C49: at any other address the reference handed out is misaligned, which is
      undefined behaviour, however few elements there are. *)
  Theorem C49_slice_unsafe t n body addr : zero_copyable t -> order_matches t -> n < 2 ^ 32 ->
    n * h_size h t <= nlen body -> nlen body <= h_alloc_max h -> ~ aligned t (addr + 4) ->
    read_from_buffer h e (TSeq KRef t) addr (word e 4 n ++ body) = Fault UbMisaligned.
  Proof.
    intros Hz Ho Hn Hl Hb Ha. rewrite slice_cases by assumption. pose proof (vh_alloc h VH).
    destruct (N.ltb_spec (l_usize_max (h_lim h)) (n * h_size h t)); [lia|].
    destruct (N.leb_spec (n * h_size h t) (nlen body)); [|lia].
    destruct (N.eqb_spec ((addr + 4) mod h_align h t) 0); [contradiction|reflexivity].
  Qed.

  Theorem C49_array_unsafe t n bs addr : zero_copyable t -> order_matches t ->
    h_size h t * N.of_nat n <= nlen bs -> ~ aligned t addr ->
    read_from_buffer h e (TRefArr t n) addr bs = Fault UbMisaligned.
  Proof.
    intros Hz Ho Hl Ha. rewrite array_cases by assumption.
    destruct (N.leb_spec (h_size h t * N.of_nat n) (nlen bs)); [|lia].
    destruct (N.eqb_spec (addr mod h_align h t) 0); [contradiction|reflexivity].
  Qed.
End Borrowed.

Print Assumptions C49_slice_order.
Print Assumptions C49_array_order.
Print Assumptions C49_slice_unsized.
Print Assumptions C49_array_unsized.
Print Assumptions C49_slice_partial.
Print Assumptions C49_array_partial.
Print Assumptions C49_packed.
Print Assumptions C49_slice_unsafe.
Print Assumptions C49_array_unsafe.

(** REFUTED as stated: not always memory safe. *)
Theorem C49_slice_refuted : exists h t addr bs, valid_host h /\ is_prim h t = true
  /\ read_from_buffer h (h_native h) (TSeq KRef t) addr bs = Fault UbMisaligned.
Proof.
  exists host64, (TP U16), 1, (word LE 4 0). split; [apply host64_valid|]. split; vm_compute; reflexivity.
Qed.

Theorem C49_array_refuted : exists h t addr bs, valid_host h /\ is_prim h t = true
  /\ read_from_buffer h (h_native h) (TRefArr t 2) addr bs = Fault UbMisaligned.
Proof.
  exists host64, (TP U32), 2, [x01; x00; x00; x00; x02; x00; x00; x00].
  split; [apply host64_valid|]. split; vm_compute; reflexivity.
Qed.

Print Assumptions C49_slice_refuted.
Print Assumptions C49_array_refuted.

(* ------------------------------------------------------------------ *)
(** ** The theorems at work *)

Example slice_lent :
  zero_copyable host64 (TP U16) /\ order_matches host64 LE (TP U16) /\ aligned host64 (TP U16) (12 + 4)
  /\ read_from_buffer host64 LE (TSeq KRef (TP U16)) 12 (word LE 4 2 ++ [x01; x02; x03; x04; x05])
     = Ok (VSeq [VInt 513; VInt 1027]).
Proof.
  split; [split; [reflexivity|exact I]|]. split; [right; reflexivity|]. split; vm_compute; reflexivity.
Qed.

Example slice_wrong_order : ~ order_matches host64 BE (TP U16)
  /\ read_from_buffer host64 BE (TSeq KRef (TP U16)) 12 (word BE 4 2 ++ [x01; x02; x03; x04; x05]) = Err EndiannessMismatch.
Proof. split; [intros [H|H]; discriminate|vm_compute; reflexivity]. Qed.

Example slice_of_bytes : order_matches host64 BE (TP U8)
  /\ read_from_buffer host64 BE (TSeq KRef (TP U8)) 3 (word BE 4 2 ++ [x01; x02; x03]) = Ok (VSeq [VInt 1; VInt 2]).
Proof. split; [left; reflexivity|vm_compute; reflexivity]. Qed.

Example slice_copied :
  read_from_buffer_copying host64 LE (TSeq KRef (TP U16)) (word LE 4 2 ++ [x01; x02; x03; x04]) = Err Unsized.
Proof. vm_compute. reflexivity. Qed.
