(* Types the round trip theorems exclude although the derive macro and the
   compiler accept them: each exclusion is necessary.  Refutations of C01, C02,
   C04, C05, C06, C10, C13, C14, C45 and C52 as stated. *)
From Verif Require Import Samples Entry Recursive PropRoundTrip PropPlain PropBulk PropRecursive.

(* ------------------------------------------------------------------ *)
(** * Elements without size *)

(* enum Only { It }: no memory, four bytes of tag on the wire.  `read_vec` runs
   its loop over memory, so it reads no tags. *)
Definition only : ty := TEnum {| e_tag := BU32; e_peek := false |} [(0, [])].
Definition onlys_and_byte : ty := TTuple [TSeq KVec only; TP U8].
Definition one_and_seven : val := VSeq [VSeq [VVar 0 []]; VInt 7].

Theorem C01_lost_tags_refuted : exists h t v b w, valid_host h /\ valid (h_lim h) t v /\ exact t
  /\ write_to_vec h dirty LE t v = Ok b /\ read_from_buffer h LE t 0 b = Ok w /\ w <> v.
Proof.
  exists host64, onlys_and_byte, one_and_seven. do 2 eexists.
  split; [apply host64_valid|]. split; [apply validb_sound; vm_compute; reflexivity|].
  split; [apply exactb_sound; vm_compute; reflexivity|].
  split; [vm_compute; reflexivity|]. split; [vm_compute; reflexivity|]. discriminate.
Qed.

(** The length reported is too small. *)
Theorem C02_lost_tags_refuted : exists h t v b r n, valid_host h /\ valid (h_lim h) t v /\ no_eof false t
  /\ write_to_vec h dirty LE t v = Ok b
  /\ read_with_length_from_buffer h LE t 0 b = (r, n) /\ n <> nlen b.
Proof.
  exists host64, (TSeq KVec only), (VSeq [VVar 0 []]). do 3 eexists.
  split; [apply host64_valid|]. split; [apply validb_sound; vm_compute; reflexivity|].
  split; [apply no_eofb_sound; vm_compute; reflexivity|].
  split; [vm_compute; reflexivity|]. split; [vm_compute; reflexivity|]. discriminate.
Qed.

(** The tags stay in the stream. *)
Theorem C10_lost_tags_refuted : exists h t v b r o, valid_host h /\ valid (h_lim h) t v /\ no_eof false t
  /\ write_to_vec h dirty LE t v = Ok b
  /\ read_from_stream_unbuffered h dirty LE t {| is_rest := b; is_sched := [] |} = (Ok r, o)
  /\ is_rest o <> [].
Proof.
  exists host64, (TSeq KVec only), (VSeq [VVar 0 []]). do 3 eexists.
  split; [apply host64_valid|]. split; [apply validb_sound; vm_compute; reflexivity|].
  split; [apply no_eofb_sound; vm_compute; reflexivity|].
  split; [vm_compute; reflexivity|]. split; [vm_compute; reflexivity|]. discriminate.
Qed.

(** Truncated input is accepted, by buffers and streams. *)
Theorem C13_lost_tags_refuted : exists h t v p q w, valid_host h /\ valid (h_lim h) t v /\ no_eof false t
  /\ q <> [] /\ write_to_vec h dirty LE t v = Ok (p ++ q) /\ read_from_buffer h LE t 0 p = Ok w.
Proof.
  exists host64, onlys_and_byte, one_and_seven, [x01; x00; x00; x00; x00; x00; x00; x00], [x07]. eexists.
  split; [apply host64_valid|]. split; [apply validb_sound; vm_compute; reflexivity|].
  split; [apply no_eofb_sound; vm_compute; reflexivity|]. split; [discriminate|].
  split; vm_compute; reflexivity.
Qed.

Theorem C14_lost_tags_refuted : exists h t v p q r, valid_host h /\ valid (h_lim h) t v /\ no_eof false t
  /\ q <> [] /\ write_to_vec h dirty LE t v = Ok (p ++ q)
  /\ fst (deserialize h dirty true LE t {| is_rest := p; is_sched := [] |}) = r /\ ~ ran_out r.
Proof.
  exists host64, (TSeq KVec only), (VSeq [VVar 0 []]), [x01; x00; x00; x00], [x00; x00; x00; x00]. eexists.
  split; [apply host64_valid|]. split; [apply validb_sound; vm_compute; reflexivity|].
  split; [apply no_eofb_sound; vm_compute; reflexivity|]. split; [discriminate|].
  split; [vm_compute; reflexivity|]. split; [vm_compute; reflexivity|]. intros (er & C & _). discriminate.
Qed.

(** A set of empty structs, which are plain data without size, is read as
    empty. *)
Theorem C01_empty_set_refuted : exists h t v b w, valid_host h /\ valid (h_lim h) t v /\ exact t
  /\ write_to_vec h dirty LE t v = Ok b /\ read_from_buffer h LE t 0 b = Ok w /\ w <> v.
Proof.
  exists host64, (TSet CBTree (TStruct (sd 1 RRust) [])), (VSeq [VSeq []]). do 2 eexists.
  split; [apply host64_valid|]. split; [apply validb_sound; vm_compute; reflexivity|].
  split; [apply exactb_sound; vm_compute; reflexivity|].
  split; [vm_compute; reflexivity|]. split; [vm_compute; reflexivity|]. discriminate.
Qed.

(* ------------------------------------------------------------------ *)
(** * Ranges *)

(** The flag of an exhausted `RangeInclusive` (part of its equality) is not
    written. *)
Theorem C01_range_refuted : exists h t v b w, valid_host h /\ valid (h_lim h) t v
  /\ write_to_vec h dirty LE t v = Ok b /\ read_from_buffer h LE t 0 b = Ok w /\ w <> v.
Proof.
  exists host64, (TRange true (TP U8)), (VSeq [VInt 1; VInt 1; VBool true]). do 2 eexists.
  split; [apply host64_valid|]. split; [apply validb_sound; vm_compute; reflexivity|].
  split; [vm_compute; reflexivity|]. split; [vm_compute; reflexivity|]. discriminate.
Qed.

Theorem C45_range_refuted : exists h t v1 v2 b, valid_host h /\ valid (h_lim h) t v1 /\ valid (h_lim h) t v2
  /\ write_to_vec h dirty LE t v1 = Ok b /\ write_to_vec h dirty LE t v2 = Ok b /\ v1 <> v2.
Proof.
  exists host64, (TRange true (TP U8)), (VSeq [VInt 1; VInt 1; VBool true]), (VSeq [VInt 1; VInt 1; VBool false]). eexists.
  split; [apply host64_valid|]. split; [apply validb_sound; vm_compute; reflexivity|].
  split; [apply validb_sound; vm_compute; reflexivity|].
  split; [vm_compute; reflexivity|]. split; [vm_compute; reflexivity|]. discriminate.
Qed.

(* ------------------------------------------------------------------ *)
(** * Until the end of the input, in the middle *)

(* struct Tail { #[speedy(length = ..)] text: String }
   struct Tails { first: Tail, second: Tail } *)
Definition tail : ty := TStruct (sd 61 RRust) [(with_len LEof, TStr KString)].
Definition tails : ty := TStruct (sd 62 RRust) [(plain, tail); (plain, tail)].

Theorem C01_inner_eof_refuted : exists h t v b w, valid_host h /\ valid (h_lim h) t v /\ exact t
  /\ write_to_vec h dirty LE t v = Ok b /\ read_from_buffer h LE t 0 b = Ok w /\ w <> v.
Proof.
  exists host64, tails, (VSeq [VSeq [VBytes [x61]]; VSeq [VBytes [x62]]]). do 2 eexists.
  split; [apply host64_valid|]. split; [apply validb_sound; vm_compute; reflexivity|].
  split; [apply exactb_sound; vm_compute; reflexivity|].
  split; [vm_compute; reflexivity|]. split; [vm_compute; reflexivity|]. discriminate.
Qed.

Theorem C45_inner_eof_refuted : exists h t v1 v2 b, valid_host h /\ valid (h_lim h) t v1 /\ valid (h_lim h) t v2
  /\ exact t /\ write_to_vec h dirty LE t v1 = Ok b /\ write_to_vec h dirty LE t v2 = Ok b /\ v1 <> v2.
Proof.
  exists host64, tails, (VSeq [VSeq [VBytes [x61]]; VSeq [VBytes [x62]]]), (VSeq [VSeq [VBytes [x61; x62]]; VSeq [VBytes []]]). eexists.
  split; [apply host64_valid|]. split; [apply validb_sound; vm_compute; reflexivity|].
  split; [apply validb_sound; vm_compute; reflexivity|]. split; [apply exactb_sound; vm_compute; reflexivity|].
  split; [vm_compute; reflexivity|]. split; [vm_compute; reflexivity|]. discriminate.
Qed.

(* struct Chain { next: Option<Box<Chain>>, #[speedy(length = ..)] text: String } *)
Definition chain : ty :=
  TStruct (sd 63 RRust) [(plain, TOption (TBox TBot)); (with_len LEof, TStr KString)].

(** One link round trips, two do not. *)
Theorem C52_inner_eof_refuted : exists h d v b w, valid_host h
  /\ valid (h_lim h) (unroll d 3) v /\ exact (unroll d 3)
  /\ write_to_vec h dirty LE (unroll d 3) v = Ok b
  /\ read_from_buffer h LE (unroll d 3) 0 b = Ok w /\ w <> v.
Proof.
  exists host64, chain, (VSeq [VSome (VSeq [VNone; VBytes [x61]]); VBytes [x62]]). do 2 eexists.
  split; [apply host64_valid|]. split; [apply validb_sound; vm_compute; reflexivity|].
  split; [apply exactb_sound; vm_compute; reflexivity|].
  split; [vm_compute; reflexivity|]. split; [vm_compute; reflexivity|]. discriminate.
Qed.

(* ------------------------------------------------------------------ *)
(** * Plain data that is not what it claims *)

(** `repr(transparent)` with `varint` inside a vector, in the byte order that is
    not the host's: elements are written one by one, and read as memory. *)
Theorem C01_transparent_refuted : exists h t v b er, valid_host h /\ valid (h_lim h) t v
  /\ write_to_vec h dirty BE t v = Ok b /\ read_from_buffer h BE t 0 b = Err er.
Proof.
  exists host64, (TStruct (sd 64 RRust) [(plain, TSeq KVec varint_id)]), (VSeq [VSeq [VSeq [VInt 5]]]). do 2 eexists.
  split; [apply host64_valid|]. split; [apply validb_sound; vm_compute; reflexivity|].
  split; [vm_compute; reflexivity|]. vm_compute. reflexivity.
Qed.

(** With debug assertions, writing it panics. *)
Theorem C04_assertion_refuted : exists h t v, valid_host h /\ valid (h_lim h) t v
  /\ write_to_vec h dirty BE t v = Fault PanicAssert.
Proof.
  exists host32, (TSeq KVec varint_id), (VSeq [VSeq [VInt 5]]).
  split; [apply host32_valid|]. split; [apply validb_sound; vm_compute; reflexivity|]. vm_compute. reflexivity.
Qed.

(** Bytes are announced that are not written. *)
Theorem C04_transparent_refuted : exists h t v n o o', valid_host h /\ valid (h_lim h) t v
  /\ bytes_needed h t v = Ok n /\ write_to_stream h BE t v o = (Ok tt, o') /\ os_out o = []
  /\ nlen (os_out o') <> n.
Proof.
  exists host64, (TSeq KVec varint_id), (VSeq [VSeq [VInt 5]]). eexists. exists {| os_out := []; os_sched := [] |}. eexists.
  split; [apply host64_valid|]. split; [apply validb_sound; vm_compute; reflexivity|].
  split; [vm_compute; reflexivity|]. split; [vm_compute; reflexivity|]. split; [reflexivity|]. discriminate.
Qed.

(** The buffer is long enough, the stream accepts the value, and yet writing to
    the buffer fails. *)
(* #[repr(transparent)] struct Marked( #[speedy(constant_prefix = "M")] u8 ); *)
Definition marked : ty := TStruct (sd 65 RTransparent) [(with_prefix [x4d], TP U16)].
Theorem C05_transparent_refuted : exists h t v n buffer buffer' er, valid_host h /\ valid (h_lim h) t v
  /\ bytes_needed h t v = Ok n /\ n <= nlen buffer
  /\ write_to_buffer h BE t v buffer = (Err er, buffer') /\ buffer' <> buffer.
Proof.
  exists host64, (TSeq KVec marked), (VSeq [VSeq [VInt 5]]). eexists. exists (repeat xaa 20). do 2 eexists.
  split; [apply host64_valid|]. split; [apply validb_sound; vm_compute; reflexivity|].
  split; [vm_compute; reflexivity|]. split; [vm_compute; discriminate|]. split; [vm_compute; reflexivity|]. discriminate.
Qed.

Theorem C06_transparent_refuted : exists h t v er o o', valid_host h /\ valid (h_lim h) t v
  /\ write_to_vec h dirty BE t v = Err er /\ write_to_stream h BE t v o = (Ok tt, o').
Proof.
  exists host64, (TSeq KVec marked), (VSeq [VSeq [VInt 5]]). eexists. exists {| os_out := []; os_sched := [] |}. eexists.
  split; [apply host64_valid|]. split; [apply validb_sound; vm_compute; reflexivity|].
  split; vm_compute; reflexivity.
Qed.

(** Maps of plain data are read through a `repr(packed)` struct, whose field order
    is up to the compiler. *)
Theorem C01_map_refuted : exists h t v b w, valid_host h /\ valid (h_lim h) t v /\ exact t
  /\ write_to_vec h dirty LE t v = Ok b /\ read_from_buffer h LE t 0 b = Ok w /\ w <> v.
Proof.
  exists packs_backwards, (TMap CBTree (TP U8) (TP U16)), (VSeq [VSeq [VInt 1; VInt 770]]). do 2 eexists.
  split; [apply packs_backwards_valid|]. split; [apply validb_sound; vm_compute; reflexivity|].
  split; [apply exactb_sound; vm_compute; reflexivity|].
  split; [vm_compute; reflexivity|]. split; [vm_compute; reflexivity|]. discriminate.
Qed.

(** Structs of `repr(transparent)` wrappers cannot be converted in place. *)
Theorem C01_conversion_refuted : exists h t v b f, valid_host h /\ valid (h_lim h) t v /\ exact t
  /\ write_to_vec h dirty BE t v = Ok b /\ read_from_buffer h BE t 0 b = Fault f.
Proof.
  exists host64, (TSeq KVec wrapping), (VSeq [VSeq [VSeq [VInt 7]]]). do 2 eexists.
  split; [apply host64_valid|]. split; [apply validb_sound; vm_compute; reflexivity|].
  split; [apply exactb_sound; vm_compute; reflexivity|]. split; vm_compute; reflexivity.
Qed.

(** Borrowed slices at a bad address. *)
Theorem C01_misaligned_refuted : exists h t v b addr, valid_host h /\ valid (h_lim h) t v /\ exact t
  /\ write_to_vec h dirty LE t v = Ok b /\ read_from_buffer h LE t addr b = Fault UbMisaligned.
Proof.
  exists host64, (TSeq KRef (TP U16)), (VSeq [VInt 7]). eexists. exists 1.
  split; [apply host64_valid|]. split; [apply validb_sound; vm_compute; reflexivity|].
  split; [apply exactb_sound; vm_compute; reflexivity|]. split; vm_compute; reflexivity.
Qed.

Print Assumptions C01_lost_tags_refuted.
Print Assumptions C02_lost_tags_refuted.
Print Assumptions C10_lost_tags_refuted.
Print Assumptions C13_lost_tags_refuted.
Print Assumptions C14_lost_tags_refuted.
Print Assumptions C01_empty_set_refuted.
Print Assumptions C01_range_refuted.
Print Assumptions C45_range_refuted.
Print Assumptions C01_inner_eof_refuted.
Print Assumptions C45_inner_eof_refuted.
Print Assumptions C52_inner_eof_refuted.
Print Assumptions C01_transparent_refuted.
Print Assumptions C04_assertion_refuted.
Print Assumptions C04_transparent_refuted.
Print Assumptions C05_transparent_refuted.
Print Assumptions C06_transparent_refuted.
Print Assumptions C01_map_refuted.
Print Assumptions C01_conversion_refuted.
Print Assumptions C01_misaligned_refuted.
