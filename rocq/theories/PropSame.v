(* Property C103: the same data has the same encoding, and what is written as a
   value of one type is read back as the same data of another. *)
From Verif Require Import Same Ordinary OrdinaryHost Entry EncFacts Samples PropRoundTrip PropWrite PropOrdinary.

Section SameData.
  Context (h : host) (VH : valid_host h) (e : endian).
  Context (mem : N -> bytes) (Hmem : forall n, n <= nlen (mem n)).
  Notation same := (same (h_iter h) len0).

  (** The same bytes are written. *)
  Theorem C103_bytes t v t' v' b : same t v t' v' ->
    wsup h t -> valid (h_lim h) t v -> wsup h t' -> valid (h_lim h) t' v' ->
    (write_to_vec h mem e t v = Ok b <-> write_to_vec h mem e t' v' = Ok b).
  Proof.
    intros Hs W V W' V'.
    rewrite (C03_wire_format h VH e mem t v b Hmem W V), (C03_wire_format h VH e mem t' v' b Hmem W' V').
    rewrite (same_enc (h_iter h) (vh_iter h VH) e (ipv6_order h e) t v t' v' Hs). reflexivity.
  Qed.

  (** What is written as one type is read as another, from a buffer at any
      address.  See C01 about [norm]. *)
  Theorem C103_read t v t' v' b addr : same t v t' v' ->
    wsup h t -> valid (h_lim h) t v -> covered h e true true t' -> value_of h e t' v' ->
    write_to_vec h mem e t v = Ok b -> nlen b <= h_alloc_max h ->
    read_from_buffer h e t' addr b = Ok (norm t' v').
  Proof.
    intros Hs W V C' V' Hw Hl. apply (C01_round_trip h VH e mem Hmem); try assumption.
    apply (C103_bytes t v t' v' b Hs W V (cv_write _ _ _ _ _ C') (proj1 V')), Hw.
  Qed.
End SameData.

(** Every entry point reads it, with anything behind it, if the type it is read
    as is ordinary. *)
Theorem C103_every_entry_point h (H6 : host_64 h) e mem t v t' v' b rest bw r :
  (forall n, n <= nlen (mem n)) -> same (h_iter h) len0 t v t' v' ->
  wsup h t -> valid (h_lim h) t v -> ordinary t' -> compact h t' -> valid (h_lim h) t' v' ->
  write_to_vec h mem e t v = Ok b -> nlen (b ++ rest) <= h_alloc_max h ->
  reading h e t' (b ++ rest) bw r -> r = Ok (norm t' v').
Proof.
  intros Hm Hs W V O' K' V' Hw Hl Hr.
  apply (C65_every_entry_point h H6 e mem Hm t' O' K' v' b rest bw r V'); try assumption.
  apply (C103_bytes h (h6_valid h H6) e mem Hm t v t' v' b Hs W V (ordinary_wsup h t' O') V'), Hw.
Qed.

(* ------------------------------------------------------------------ *)
(** * A case *)

Definition last_number (prev : list (option Z)) : option N :=
  match rev prev with Some z :: _ => Some (Z.to_N z) | _ => None end.

(* enum Old { #[speedy(tag = 7)] Off, #[speedy(tag = 2)] On(u16, String) } *)
Definition old_kind : ty := TEnum {| e_tag := BU16; e_peek := false |}
  [(7, []); (2, [(plain, TP U16); (plain, TStr KString)])].

(* enum New { #[speedy(tag = 9)] Broken(char),
     #[speedy(tag = 2)] On { level: i16, #[speedy(skip)] seen: bool, name: Cow<str> },
     #[speedy(tag = 7)] Off } *)
Definition new_kind : ty := TEnum {| e_tag := BU16; e_peek := false |}
  [(9, [(plain, TScalar SChar)]);
   (2, [(plain, TP I16); (with_skip (VBool false), TScalar SBool); (plain, TStr KCowStr)]); (7, [])].

(* struct Sent { id: u32, tags: HashSet<u16>, #[speedy(skip)] cache: u32,
     note: Option<Box<str>>, result: Result<u16, ()>, from: Ipv4Addr, delta: i64,
     kind: Box<Old>, #[speedy(varint)] size: u64, names: BTreeMap<u8, bool>,
     count: u16, #[speedy(length = count)] data: Vec<u8> } *)
Definition sent : ty := TStruct (sd 79 RRust)
  [ (plain, TP U32); (plain, TSet CHash (TP U16)); (with_skip (VInt 0), TP U32);
    (plain, TOption (TStr KBoxStr)); (plain, TResult (TP U16) (TScalar SUnit)); (plain, TScalar SIpv4); (plain, TP I64);
    (plain, TBox old_kind); (with_varint, TP U64); (plain, TMap CBTree (TP U8) (TScalar SBool));
    (plain, TP U16); (with_len (LExpr last_number), TSeq KVec (TP U8)) ].

Definition sent_value : val :=
  VSeq [ VInt 70000; VSeq [VInt 1; VInt 515]; VInt 77;
         VSome (VBytes [x68; x69]); VOk (VInt 9); VBytes [xc0; xa8; x00; x01]; VInt (-2);
         VVar 1 [VInt 40000; VBytes [x6f]]; VInt 300; VSeq [VSeq [VInt 1; VBool true]; VSeq [VInt 4; VBool false]];
         VInt 3; VSeq (map number [x61; x62; x63]) ].

(* struct Got { id: NonZeroU32, tags: Vec<u16>, note: Option<String>,
     result: Option<u16>, from: u32, delta: u64, kind: New, size: VarInt64,
     names: Vec<(u8, bool)>, #[speedy(skip)] local: u8,
     #[speedy(length_type = u16)] data: String } *)
Definition got : ty := TStruct (sd 80 RRust)
  [ (plain, TScalar (SNonZero U32)); (plain, TSeq KVec (TP U16));
    (plain, TOption (TStr KString)); (plain, TOption (TP U16)); (plain, TP U32); (plain, TP U64);
    (plain, new_kind); (plain, TScalar SVarint); (plain, TSeq KVec (TTuple [TP U8; TScalar SBool]));
    (with_skip (VInt 5), TP U8); (with_len (LType BU16), TStr KString) ].

Definition got_value : val :=
  VSeq [ VInt 70000; VSeq (iter_order (h_iter host64) CHash [VInt 1; VInt 515]);
         VSome (VBytes [x68; x69]); VSome (VInt 9); VInt 3232235521; VInt 18446744073709551614;
         VVar 1 [VInt (-25536); VBool false; VBytes [x6f]]; VInt 300;
         VSeq [VSeq [VInt 1; VBool true]; VSeq [VInt 4; VBool false]]; VInt 5; VBytes [x61; x62; x63] ].

Ltac next := eapply same_fields_cons; [reflexivity..|split; reflexivity| |].

Lemma kinds_same it : same it len0 (TBox old_kind) (VVar 1 [VInt 40000; VBytes [x6f]])
  new_kind (VVar 1 [VInt (-25536); VBool false; VBytes [x6f]]).
Proof.
  eapply same_trans; [apply same_box|]. eapply same_variant; [reflexivity..|].
  next. { exact (same_signed it len0 (SPrim U16) (SPrim I16) U16 I16 40000 (-1) eq_refl eq_refl eq_refl). }
  apply same_fields_skip'; [reflexivity|]. next; [apply same_str|]. apply same_fields_nil.
Qed.

Example sent_got : same (h_iter host64) len0 sent sent_value got got_value.
Proof.
  (* through a `Vec<u8>` with a length prefix *)
  pose (mid := TStruct (sd 81 RRust)
    [ (plain, TScalar (SNonZero U32)); (plain, TSeq KVec (TP U16));
      (plain, TOption (TStr KString)); (plain, TOption (TP U16)); (plain, TP U32); (plain, TP U64);
      (plain, new_kind); (plain, TScalar SVarint); (plain, TSeq KVec (TTuple [TP U8; TScalar SBool]));
      (with_skip (VInt 5), TP U8); (with_len (LType BU16), TSeq KVec (TP U8)) ]).
  pose (mid_value := VSeq
    [ VInt 70000; VSeq (iter_order (h_iter host64) CHash [VInt 1; VInt 515]);
      VSome (VBytes [x68; x69]); VSome (VInt 9); VInt 3232235521; VInt 18446744073709551614;
      VVar 1 [VInt (-25536); VBool false; VBytes [x6f]]; VInt 300;
      VSeq [VSeq [VInt 1; VBool true]; VSeq [VInt 4; VBool false]]; VInt 5; VSeq (map number [x61; x62; x63]) ]).
  apply same_trans with (t' := mid) (v' := mid_value).
  - apply same_struct.
    next. { apply (same_number _ _ _ _ _ 4); [reflexivity..|]. split; reflexivity || discriminate. }
    next. { apply same_set. }
    apply same_fields_skip; [reflexivity|].
    next. { apply same_some, same_str. }
    next. { apply same_sym, same_some_ok. }
    next. { exact (same_ipv4 _ len0 xc0 xa8 x00 x01). }
    next. { exact (same_signed _ len0 (SPrim I64) (SPrim U64) I64 U64 (-2) 1 eq_refl eq_refl eq_refl). }
    next. { apply kinds_same. }
    apply same_fields_varint; [reflexivity..|].
    next. { apply (same_map _ len0 CBTree). repeat constructor; do 2 eexists; reflexivity. }
    apply same_fields_skip'; [reflexivity|].
    eapply (same_fields_count _ _ _ _ _ _ BU16 _ _ 3); try reflexivity.
    + right. left. reflexivity.
    + apply same_fields_nil.
  - apply same_struct. do 9 (next; [apply same_refl|]). apply same_fields_skip; [reflexivity|].
    apply same_fields_skip'; [reflexivity|]. next; [apply same_sym, same_bytes|]. apply same_fields_nil.
Qed.

Definition sent_bytes : bytes :=
  match encode (h_iter host64) BE (ipv6_order host64 BE) sent sent_value with Ok b => b | _ => [] end.

(** In big endian, on a little-endian host. *)
Example C103_case addr : read_from_buffer host64 BE got addr sent_bytes = Ok got_value.
Proof.
  change (Ok got_value) with (Ok (norm got got_value)).
  apply (C103_read host64 host64_valid BE dirty dirty_enough sent sent_value got got_value);
    [exact sent_got|apply wsupb_sound|apply validb_sound|apply coveredb_sound|apply value_ofb_sound| |];
    vm_compute; reflexivity || discriminate.
Qed.

Example C103_case_anywhere rest bw r : nlen rest <= 1000 ->
  reading host64 BE got (sent_bytes ++ rest) bw r -> r = Ok got_value.
Proof.
  intros Hl. change (Ok got_value) with (Ok (norm got got_value)).
  apply (C103_every_entry_point host64 host64_64 BE dirty sent sent_value got got_value);
    [exact dirty_enough|exact sent_got| | | | | | |].
  - apply wsupb_sound. vm_compute. reflexivity.
  - apply validb_sound. vm_compute. reflexivity.
  - decide_ordinary; try (vm_compute; reflexivity); match goal with H : hollow _ |- _ => destruct H as [[] _] end.
  - cbn [got new_kind compact all_fields all_tys all_variants]. repeat split; vm_compute; discriminate.
  - apply validb_sound. vm_compute. reflexivity.
  - vm_compute. reflexivity.
  - assert (Hb : nlen sent_bytes <= 1000) by (vm_compute; discriminate).
    assert (Ha : 2000 <= h_alloc_max host64) by (vm_compute; discriminate). rewrite nlen_app. lia.
Qed.

(** An IPv4 address is a number on the wire, an IPv6 address is not: on a
    big-endian host one of its byte orders is reversed. *)
Theorem C103_ipv6_refuted : exists h e v n b b',
  valid_host h /\ valid (h_lim h) (TScalar SIpv6) (VBytes v) /\ n = le_num (rev v)
  /\ write_to_vec h dirty e (TScalar SIpv6) (VBytes v) = Ok b
  /\ write_to_vec h dirty e (TP U128) (VInt (Z.of_N n)) = Ok b' /\ b <> b'.
Proof.
  exists host32be, LE, [x20; x01; x0d; xb8; x00; x00; x00; x00; x00; x00; x00; x00; x00; x00; x00; x01]. do 3 eexists.
  split; [apply host32be_valid|]. split; [reflexivity|]. split; [reflexivity|].
  split; [vm_compute; reflexivity|]. split; [vm_compute; reflexivity|]. discriminate.
Qed.

Print Assumptions C103_bytes.
Print Assumptions C103_read.
Print Assumptions C103_every_entry_point.
Print Assumptions C103_ipv6_refuted.
