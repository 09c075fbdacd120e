(* Property C51: enums with `peek_tag`. *)
From Verif Require Import StructFacts PropRoundTrip.

Lemma all_variants_nth P vs : forall i tag fs, all_variants P vs -> nth_error vs i = Some (tag, fs) -> P fs.
Proof.
  induction vs as [|[g gs] vs IH]; intros [|i] tag fs H Hi; try discriminate; cbn in Hi; destruct H as [H1 H2].
  - injection Hi as -> ->. exact H1.
  - eapply IH; eassumption.
Qed.

Section Writes.
  Context (h : host).

  (** C51, writing: an enum with `peek_tag` writes, through any writer, what a
      struct with the fields of the variant writes, and nothing else. *)
  Theorem C51_writes {St} (W : writer St) d vs i tag fs us sdd s :
    e_peek d = true -> nth_error vs i = Some (tag, fs) ->
    write h W (TEnum d vs) (VVar i us) s = write h W (TStruct sdd fs) (VSeq us) s.
  Proof.
    intros Hp. cbn [write]. revert i. induction vs as [|[g gs] vs IH]; intros [|i] Hi; try discriminate; cbn in Hi.
    - injection Hi as -> ->. cbn [write_variant fst snd]. rewrite Hp. reflexivity.
    - cbn [write_variant]. apply IH, Hi.
  Qed.

  Theorem C51_writes_vec mem e d vs i tag fs us sdd :
    e_peek d = true -> nth_error vs i = Some (tag, fs) ->
    write_to_vec h mem e (TEnum d vs) (VVar i us) = write_to_vec h mem e (TStruct sdd fs) (VSeq us).
  Proof.
    intros Hp Hi. unfold write_to_vec, bytes_needed.
    rewrite (C51_writes (SizeCalculator h) d vs i tag fs us sdd 0 Hp Hi).
    destruct (write h (SizeCalculator h) (TStruct sdd fs) (VSeq us) 0) as [[a|er|f] n]; try reflexivity.
    cbn [rbind]. rewrite (C51_writes _ d vs i tag fs us sdd _ Hp Hi). reflexivity.
  Qed.
End Writes.

Section Reads.
  Context (h : host) (VH : valid_host h) (e : endian).
  Context (mem : N -> bytes) (Hmem : forall n, n <= nlen (mem n)).
  Notation e6 := (ipv6_order h e).

  Lemma peeked_value d vs i tag fs us sdd b : nth_error vs i = Some (tag, fs) ->
    value_of h e (TStruct sdd fs) (VSeq us) -> encode (h_iter h) e e6 (TStruct sdd fs) (VSeq us) = Ok b ->
    begins b (enc_basic e (e_tag d) tag) ->
    value_of h e (TEnum d vs) (VVar i us).
  Proof.
    unfold Spec.encode. cbn [enc].
    intros Hi [Hv Ht] He Hb. split; cbn [valid tagged] in *; revert i Hi.
    - induction vs as [|[g gs] vs IH]; intros [|i] Hi; try discriminate; cbn in *.
      + injection Hi as -> ->. exact Hv.
      + apply IH, Hi.
    - induction vs as [|[g gs] vs IH]; intros [|i] Hi; try discriminate; cbn in *.
      + injection Hi as -> ->. split; [|exact Ht]. intros _ b' E. rewrite He in E. injection E as <-. exact Hb.
      + apply IH, Hi.
  Qed.

  Lemma norm_nth vs : forall i (tag : N) fs us, nth_error vs i = Some (tag, fs) ->
    norm_variant norm vs i us = norm_fields norm fs us.
  Proof.
    induction vs as [|[g gs] vs IH]; intros [|i] tag fs us Hi; try discriminate; cbn in *.
    - injection Hi as -> ->. reflexivity.
    - eapply IH, Hi.
  Qed.

  (** C51, reading: if what the fields of the variant are written as begins with
      the tag, every reader gives the variant back.  [covered] leaves out
      `tag_type = varint`, see below. *)
  Theorem C51_reads_back_partial bw d vs i tag fs us sdd b r :
    covered h e bw true (TEnum d vs) -> e_peek d = true -> nth_error vs i = Some (tag, fs) ->
    value_of h e (TStruct sdd fs) (VSeq us) ->
    write_to_vec h mem e (TStruct sdd fs) (VSeq us) = Ok b ->
    begins b (enc_basic e (e_tag d) tag) ->
    write_to_vec h mem e (TEnum d vs) (VVar i us) = Ok b
    /\ (reading h e (TEnum d vs) b bw r -> r = Ok (VVar i (norm_fields norm fs us))).
  Proof.
    intros [Hw Hs Hr] Hp Hi Hv Hb Hg.
    assert (Hw' : wsup h (TStruct sdd fs)) by (exact (all_variants_nth (all_fields (wsup_field (wsup h))) vs i tag fs (proj2 Hw) Hi)).
    pose proof (written h VH e mem Hmem _ _ _ Hw' Hv Hb) as He'.
    pose proof (peeked_value d vs i tag fs us sdd b Hi Hv He' Hg) as Hv'.
    assert (Hb' : write_to_vec h mem e (TEnum d vs) (VVar i us) = Ok b)
      by (rewrite (C51_writes_vec h mem e d vs i tag fs us sdd Hp Hi); exact Hb).
    split; [exact Hb'|]. intros Hrd.
    pose proof (written h VH e mem Hmem _ _ _ Hw Hv' Hb') as He.
    pose proof (host_round_trip h VH e _ _ _ [] Hr Hv' He (fun _ => eq_refl)) as Hd. rewrite app_nil_r in Hd.
    rewrite (reading_ok h VH e _ b bw r _ _ Hs Hrd Hd (host_min h VH e _ _ _ _ _ Hs Hv' He)).
    cbn [norm]. rewrite (norm_nth vs i tag fs us Hi). reflexivity.
  Qed.

  (** With more bytes behind it. *)
  Theorem C51_reads_back_prefix_partial bw d vs i tag fs us sdd b rest r :
    covered h e bw true (TEnum d vs) -> e_peek d = true -> nth_error vs i = Some (tag, fs) ->
    no_eof false (TEnum d vs) ->
    value_of h e (TStruct sdd fs) (VSeq us) ->
    write_to_vec h mem e (TStruct sdd fs) (VSeq us) = Ok b ->
    begins b (enc_basic e (e_tag d) tag) ->
    reading h e (TEnum d vs) (b ++ rest) bw r -> r = Ok (VVar i (norm_fields norm fs us)).
  Proof.
    intros [Hw Hs Hr] Hp Hi Hn Hv Hb Hg Hrd.
    assert (Hw' : wsup h (TStruct sdd fs)) by (exact (all_variants_nth (all_fields (wsup_field (wsup h))) vs i tag fs (proj2 Hw) Hi)).
    pose proof (written h VH e mem Hmem _ _ _ Hw' Hv Hb) as He'.
    pose proof (peeked_value d vs i tag fs us sdd b Hi Hv He' Hg) as Hv'.
    assert (Hb' : write_to_vec h mem e (TEnum d vs) (VVar i us) = Ok b)
      by (rewrite (C51_writes_vec h mem e d vs i tag fs us sdd Hp Hi); exact Hb).
    pose proof (written h VH e mem Hmem _ _ _ Hw Hv' Hb') as He.
    assert (Ho : opens false (TEnum d vs) = true -> rest = []) by (rewrite (no_eof_closed _ false Hn); discriminate).
    pose proof (host_round_trip h VH e _ _ _ rest Hr Hv' He Ho) as Hd.
    assert (Hm : min_bytes h (TEnum d vs) <= nlen (b ++ rest)).
    { rewrite nlen_app. pose proof (host_min h VH e _ _ _ _ _ Hs Hv' He). lia. }
    rewrite (reading_ok h VH e _ _ bw r _ _ Hs Hrd Hd Hm).
    cbn [norm]. rewrite (norm_nth vs i tag fs us Hi). reflexivity.
  Qed.
End Reads.

Print Assumptions C51_writes.
Print Assumptions C51_writes_vec.
Print Assumptions C51_reads_back_partial.
Print Assumptions C51_reads_back_prefix_partial.

(* ------------------------------------------------------------------ *)
(** * The hypotheses are met *)

(** `#[speedy(tag_type = u16, peek_tag)] enum Packet { #[speedy(tag = 258)] Ping
    { opcode: u16, name: String }, #[speedy(tag = 7)] Pong { opcode: u16, at: u32 } }` *)
Definition packet : ty :=
  TEnum {| e_tag := BU16; e_peek := true |}
    [(258, [(plain, TP U16); (plain, TStr KString)]); (7, [(plain, TP U16); (plain, TP U32)])].

Definition ping : list val := [VInt 258; VBytes (map n2b [104; 105])].
Definition ping_bytes : bytes := map n2b [1; 2; 0; 0; 0; 2; 104; 105].

Lemma packet_covered : covered host64 BE false true packet.
Proof. apply coveredb_sound. vm_compute. reflexivity. Qed.

Lemma ping_value : value_of host64 BE (TStruct (sd 49 RRust) [(plain, TP U16); (plain, TStr KString)]) (VSeq ping).
Proof. apply plain_value; [cbn; tauto|]. apply validb_sound. vm_compute. reflexivity. Qed.

Example ping_reads_back r : reading host64 BE packet (ping_bytes ++ [x2a]) false r ->
  r = Ok (VVar 0 ping).
Proof.
  intros Hr.
  eapply (C51_reads_back_prefix_partial host64 host64_valid BE dirty dirty_enough false _ _ 0%nat _ _ ping (sd 49 RRust)
    ping_bytes [x2a] r packet_covered eq_refl eq_refl); try exact Hr.
  - cbn. tauto.
  - exact ping_value.
  - vm_compute. reflexivity.
  - exists (map n2b [0; 0; 0; 2; 104; 105]). reflexivity.
Qed.

(** REFUTED for `tag_type = varint`: `peek_u64_varint` sees another number than
    `read_u64_varint` as soon as the tag takes more than one byte, so a variant
    whose fields begin with its tag is not recognised. *)
Definition peeked_varint : ty :=
  TEnum {| e_tag := BVarint; e_peek := true |} [(300, [(with_varint, TP U64); (plain, TP U8)])].

Theorem C51_varint_refuted :
  exists b,
    write_to_vec host64 dirty LE peeked_varint (VVar 0 [VInt 300; VInt 5]) = Ok b
    /\ begins b (enc_basic LE BVarint 300)
    /\ read_from_buffer host64 LE peeked_varint 0 b = Err InvalidEnumVariant
    /\ read_from_buffer host64 LE (TEnum {| e_tag := BVarint; e_peek := true |} [(1, [(with_varint, TP U64)])]) 0
         [x01] = Ok (VVar 0 [VInt 1]).
Proof.
  exists (map n2b [129; 44; 5]).
  split; [vm_compute; reflexivity|].
  split; [exists [x05]; reflexivity|].
  split; vm_compute; reflexivity.
Qed.
Print Assumptions C51_varint_refuted.
