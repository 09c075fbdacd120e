(* Property C122: numbers, lengths and tags stand on the wire as their digits to
   the base 256.

   What a byte string stands for is said here by division and remainder, with
   widths and ranges in plain tables. *)
From Verif Require Import Entry Extend Samples PropRoundTrip Checker Conditions Weight.

(* ------------------------------------------------------------------ *)
(** * Digits *)

(** Where the digit of weight 256^i stands. *)
Definition place (e : endian) (w i : nat) : nat :=
  match e with LE => i | BE => w - 1 - i end.

(** The bytes are the digits of the number, in the order [e]. *)
Definition digits (e : endian) (b : bytes) (n : N) : Prop :=
  n < 256 ^ N.of_nat (length b)
  /\ forall i, (i < length b)%nat ->
     Byte.to_N (nth (place e (length b) i) b x00) = (n / 256 ^ N.of_nat i) mod 256.

(** The number of bytes of a number, and its range. *)
Definition bytes_of (p : prim) : nat :=
  match p with
  | U8 => 1 | U16 => 2 | U32 => 4 | U64 => 8 | U128 => 16
  | I8 => 1 | I16 => 2 | I32 => 4 | I64 => 8 | I128 => 16
  | F32 => 4 | F64 => 8
  end%nat.

(** Floats are their bit patterns. *)
Definition least (p : prim) : Z :=
  match p with
  | I8 => -128 | I16 => -32768 | I32 => -2147483648 | I64 => -9223372036854775808
  | I128 => -170141183460469231731687303715884105728
  | _ => 0
  end%Z.

Definition greatest (p : prim) : Z :=
  match p with
  | U8 => 255 | U16 => 65535 | U32 => 4294967295 | U64 => 18446744073709551615
  | U128 => 340282366920938463463374607431768211455
  | I8 => 127 | I16 => 32767 | I32 => 2147483647 | I64 => 9223372036854775807
  | I128 => 170141183460469231731687303715884105727
  | F32 => 4294967295 | F64 => 18446744073709551615
  end%Z.

(** Negative numbers stand for themselves plus 256^w: two's complement. *)
Definition on_wire (w : nat) (z : Z) (n : N) : Prop :=
  Z.of_N n = if (z <? 0)%Z then (z + 256 ^ Z.of_nat w)%Z else z.

(** The width of a length prefix or a tag, where it is fixed. *)
Definition fixed_width (b : basic) (w : nat) : Prop :=
  match b with
  | BU7 | BU8 => w = 1 | BU16 => w = 2 | BU32 => w = 4 | BU64 => w = 8 | BVarint => False
  end%nat.

(* ------------------------------------------------------------------ *)
(** * Facts *)

Lemma le_nth w : forall n i, (i < w)%nat -> nth i (le_bytes w n) x00 = n2b (n / 256 ^ N.of_nat i).
Proof.
  induction w as [|w IH]; intros n i Hi; [lia|]. cbn [le_bytes]. destruct i as [|i]; cbn [nth].
  - rewrite N.pow_0_r, N.div_1_r. reflexivity.
  - rewrite IH by lia. f_equal. rewrite pow256_S, N.div_div by (try lia; apply N.pow_nonzero; lia). reflexivity.
Qed.

Lemma word_digits e w n : n < 256 ^ N.of_nat w -> digits e (word e w n) n.
Proof.
  intros Hn. unfold digits. rewrite word_length. split; [exact Hn|]. intros i Hi.
  assert (H : nth (place e w i) (word e w n) x00 = n2b (n / 256 ^ N.of_nat i)).
  { destruct e; cbn [place word].
    - apply le_nth, Hi.
    - rewrite rev_nth by (rewrite le_bytes_length; lia). rewrite le_bytes_length.
      replace (w - S (w - 1 - i))%nat with i by lia. apply le_nth, Hi. }
  rewrite H. fold (b2n (n2b (n / 256 ^ N.of_nat i))). apply b2n_n2b.
Qed.

(** The digits determine the number: [digits] leaves no choice. *)
Lemma digits_unique e b n m : digits e b n -> digits e b m -> n = m.
Proof.
  intros [Hn Dn] [Hm Dm].
  assert (H : le_bytes (length b) n = le_bytes (length b) m).
  { apply (nth_ext _ _ x00 x00); [rewrite !le_bytes_length; reflexivity|]. intros i Hi.
    rewrite le_bytes_length in Hi. rewrite !le_nth by exact Hi. apply b2n_inj. rewrite !b2n_n2b.
    rewrite <- (Dn i Hi), <- (Dm i Hi). reflexivity. }
  exact (le_bytes_inj _ _ _ Hn Hm H).
Qed.

Lemma unword_digits e b : digits e b (unword e b).
Proof.
  rewrite <- (word_unword e (length b) b eq_refl) at 1. apply word_digits.
  pose proof (unword_lt e b) as H. exact H.
Qed.

Lemma range_ok p z : (least p <= z <= greatest p)%Z <-> prim_ok p z = true.
Proof. destruct p; cbv [prim_ok psigned pmod psize least greatest]; rewrite andb_true_iff, Z.leb_le, Z.ltb_lt; cbn; lia. Qed.

Lemma width_ok p : psize p = bytes_of p.
Proof. destruct p; reflexivity. Qed.

Lemma bits_wire p z : (least p <= z <= greatest p)%Z -> on_wire (bytes_of p) z (to_bits p z) /\ to_bits p z < 256 ^ N.of_nat (bytes_of p).
Proof.
  intros H. unfold on_wire, to_bits.
  assert (E : Z.of_N (pmod p) = (256 ^ Z.of_nat (bytes_of p))%Z) by (destruct p; reflexivity).
  assert (P : (0 < 256 ^ Z.of_nat (bytes_of p))%Z) by (apply Z.pow_pos_nonneg; lia).
  assert (B : (- 256 ^ Z.of_nat (bytes_of p) <= z < 256 ^ Z.of_nat (bytes_of p))%Z).
  { destruct p; cbv [least greatest bytes_of] in H |- *; cbn; lia. }
  rewrite E, Z2N.id by (apply Z.mod_pos_bound; exact P). split.
  - destruct (z <? 0)%Z eqn:Ez.
    + apply Z.ltb_lt in Ez. symmetry. apply (Z.mod_unique _ _ (-1)); [left; lia|lia].
    + apply Z.ltb_ge in Ez. apply Z.mod_small. lia.
  - apply N2Z.inj_lt. rewrite Z2N.id by (apply Z.mod_pos_bound; exact P).
    rewrite N2Z.inj_pow, nat_N_Z. apply Z.mod_pos_bound. exact P.
Qed.

Lemma wire_bits p n : n < 256 ^ N.of_nat (bytes_of p) ->
  (least p <= of_bits p n <= greatest p)%Z /\ on_wire (bytes_of p) (of_bits p n) n.
Proof.
  intros H. apply N2Z.inj_lt in H. rewrite N2Z.inj_pow, nat_N_Z in H. unfold on_wire, of_bits.
  assert (E : Z.of_N (pmod p) = (256 ^ Z.of_nat (bytes_of p))%Z) by (destruct p; reflexivity).
  assert (E2 : Z.of_N (pmod p / 2) = (256 ^ Z.of_nat (bytes_of p) / 2)%Z) by (rewrite N2Z.inj_div, E; reflexivity).
  assert (T : psigned p = true -> (least p = - (256 ^ Z.of_nat (bytes_of p) / 2) /\ greatest p = 256 ^ Z.of_nat (bytes_of p) / 2 - 1)%Z)
    by (destruct p; intros; try discriminate; split; reflexivity).
  assert (F : psigned p = false -> (least p = 0 /\ greatest p = 256 ^ Z.of_nat (bytes_of p) - 1)%Z)
    by (destruct p; intros; try discriminate; split; reflexivity).
  assert (V : exists m, (256 ^ Z.of_nat (bytes_of p) = 2 * m)%Z).
  { destruct p; [exists 128%Z|exists (2^15)%Z|exists (2^31)%Z|exists (2^63)%Z|exists (2^127)%Z|exists 128%Z|exists (2^15)%Z|exists (2^31)%Z|exists (2^63)%Z|exists (2^127)%Z|exists (2^31)%Z|exists (2^63)%Z]; reflexivity. }
  destruct V as [m V]. rewrite V in *. rewrite (Z.mul_comm 2 m), Z.div_mul in * by lia.
  destruct (psigned p); cbn [andb]; [|destruct (F eq_refl) as [-> ->]; destruct (Z.ltb_spec (Z.of_N n) 0); lia].
  destruct (T eq_refl) as [-> ->]. rewrite E.
  destruct (N.leb_spec (pmod p / 2) n) as [L|L]; [apply N2Z.inj_le in L|apply N2Z.inj_lt in L]; rewrite E2 in L;
    match goal with |- context [(?x <? 0)%Z] => destruct (Z.ltb_spec x 0) end; lia.
Qed.

(* ------------------------------------------------------------------ *)
(** * Numbers *)

Section Numbers.
  Context (h : host) (VH : valid_host h) (e : endian).

  (** C122: a number is written as its digits in the order of the context. *)
  Theorem C122_write mem p z : (forall n, n <= nlen (mem n)) -> (least p <= z <= greatest p)%Z ->
    exists b n, write_to_vec h mem e (TP p) (VInt z) = Ok b
      /\ length b = bytes_of p /\ on_wire (bytes_of p) z n /\ digits e b n.
  Proof.
    intros Hmem Hz. destruct (bits_wire p z Hz) as [Hw Hn].
    exists (word e (bytes_of p) (to_bits p z)), (to_bits p z).
    split; [|split; [apply word_length|split; [exact Hw|apply word_digits, Hn]]].
    apply (write_to_vec_ok h VH e (TP p) (VInt z) Logic.I (proj1 (range_ok p z) Hz) mem _ Hmem).
    rewrite <- width_ok. reflexivity.
  Qed.

  Lemma prim_decodes p b : length b = bytes_of p ->
    decode (h_lim h) e (ipv6_order h e) (TP p) b = DOk (VInt (of_bits p (unword e b))) (Some []).
  Proof.
    intros Hl. unfold decode. cbn [TP decl dec_scalar]. unfold dmap, dbind, dprim, dmap, dbind.
    rewrite <- (app_nil_r b) at 1. rewrite width_ok, dword_app by exact Hl. reflexivity.
  Qed.

  (** C122: every sequence of bytes of the right length is read as the number of
      the type that it stands for. *)
  Theorem C122_read p b bw r : length b = bytes_of p -> reading h e (TP p) b bw r ->
    exists z n, r = Ok (VInt z) /\ (least p <= z <= greatest p)%Z /\ on_wire (bytes_of p) z n /\ digits e b n.
  Proof.
    intros Hl Hr. pose proof (unword_lt e b) as Hn. unfold nlen in Hn. rewrite Hl in Hn.
    destruct (wire_bits p _ Hn) as [H1 H2]. exists (of_bits p (unword e b)), (unword e b).
    split; [|split; [exact H1|split; [exact H2|apply unword_digits]]].
    apply (reading_ok h VH e (TP p) b bw r _ _ Logic.I Hr (prim_decodes p b Hl)).
    assert (E : min_bytes h (TP p) = N.of_nat (psize p)) by (destruct p; reflexivity).
    rewrite E, width_ok, <- Hl. unfold nlen. lia.
  Qed.
End Numbers.

(* ------------------------------------------------------------------ *)
(** * Lengths and tags *)

Lemma basic_digits e b w n : fixed_width b w -> n <= basic_max b ->
  length (enc_basic e b n) = w /\ digits e (enc_basic e b n) n.
Proof.
  intros Hw Hn. destruct b; cbn [fixed_width] in Hw; try contradiction; subst w; cbn [enc_basic];
    (split; [apply word_length|apply word_digits]); cbn [basic_max] in Hn; cbn; num_pow; lia.
Qed.

Lemma rapp_inv a c b : rapp a c = Ok b -> exists x y, a = Ok x /\ c = Ok y /\ b = x ++ y.
Proof.
  unfold rapp. intros H. apply rbind_ok in H as (x & -> & H). apply rmap_ok in H as (y & -> & ->). eauto.
Qed.

(** The number of elements of a container, or of bytes of a string. *)
Definition elements (v : val) : option N :=
  match v with VBytes b => Some (N.of_nat (length b)) | VSeq vs => Some (N.of_nat (length vs)) | _ => None end.

(** Types whose values are given by a length and their elements. *)
Definition counted_type (t : ty) : bool :=
  match t with TStr _ | TSeq _ _ | TSet _ _ | TMap _ _ _ => true | _ => false end.

Section Lengths.
  Context (h : host) (VH : valid_host h) (e : endian) (mem : N -> bytes) (Hmem : forall n, n <= nlen (mem n)).

  Lemma prefix_digits b w lenient n x : fixed_width b w -> enc_len e (LenPrefix b lenient) n = Ok x ->
    length x = w /\ digits e x n.
  Proof.
    intros Hw H. cbn [enc_len] in H. destruct (N.leb_spec n (basic_max b)) as [L|L]; [|discriminate].
    injection H as <-. apply basic_digits; assumption.
  Qed.

  Lemma counted_prefix it e6 b t v c : counted_type t = true -> enc it e e6 (LenPrefix b false) t v = Ok c ->
    exists n x y, elements v = Some n /\ c = x ++ y /\ enc_len e (LenPrefix b false) n = Ok x.
  Proof.
    intros Ht H. destruct t; try discriminate Ht; destruct v; try discriminate H; cbn [enc] in H;
      apply rapp_inv in H as (x & y & H1 & _ & ->); do 3 eexists; (split; [reflexivity|split; [reflexivity|exact H1]]).
  Qed.

  (** C122: a container begins with the number of its elements in four bytes. *)
  Theorem C122_length t v c : counted_type t = true -> wsup h t -> value_of h e t v ->
    write_to_vec h mem e t v = Ok c ->
    exists n x y, elements v = Some n /\ c = x ++ y /\ length x = 4%nat /\ digits e x n.
  Proof.
    intros Ht Hs Hv Hc. apply (written h VH e mem Hmem t v c Hs Hv) in Hc.
    destruct (counted_prefix _ _ BU32 t v c Ht Hc) as (n & x & y & Hn & -> & Hx). exists n, x, y.
    destruct (prefix_digits BU32 4%nat _ _ _ eq_refl Hx). auto.
  Qed.

  (** C122: with `length_type`, in the bytes of that type, in a struct of one such
      field. *)
  Theorem C122_length_type d a t v b w c : counted_type t = true -> is_container t = true ->
    f_skip a = false -> f_varint a = false -> f_opaque a = false -> f_prefix a = [] -> f_len a = LType b -> fixed_width b w ->
    wsup h (TStruct d [(a, t)]) -> value_of h e (TStruct d [(a, t)]) (VSeq [v]) ->
    write_to_vec h mem e (TStruct d [(a, t)]) (VSeq [v]) = Ok c ->
    exists n x y, elements v = Some n /\ c = x ++ y /\ length x = w /\ digits e x n.
  Proof.
    intros Ht Hc Hsk Hva Hop Hp Hl Hw Hs Hv Hb. apply (written h VH e mem Hmem _ _ c Hs Hv) in Hb.
    unfold encode in Hb. cbn [enc enc_fields fst snd] in Hb. rewrite Hsk in Hb.
    apply rapp_inv in Hb as (x1 & x2 & Hb & Hr & ->). injection Hr as <-.
    unfold enc_field in Hb. rewrite Hp, Hva in Hb. apply rmap_ok in Hb as (x & Hb & ->).
    assert (E : field_len false [] a t = LenPrefix b false).
    { unfold field_len, sized_field. rewrite Hop. destruct t; try discriminate Hc; cbn [negb andb];
        rewrite Hc; unfold resolve; rewrite Hl; reflexivity. }
    rewrite E in Hb. destruct (counted_prefix _ _ b t v x Ht Hb) as (n & p & y & Hn & -> & Hx).
    exists n, p, y. destruct (prefix_digits b w _ _ _ Hw Hx). cbn [app]. rewrite app_nil_r. auto.
  Qed.

  (** C122: an enum begins with the tag of its variant, in the bytes of
      `tag_type`. *)
  Theorem C122_tag d vs i us w c tag fs : e_peek d = false -> fixed_width (e_tag d) w ->
    nth_error vs i = Some (tag, fs) ->
    wsup h (TEnum d vs) -> value_of h e (TEnum d vs) (VVar i us) ->
    write_to_vec h mem e (TEnum d vs) (VVar i us) = Ok c ->
    exists x y, c = x ++ y /\ length x = w /\ digits e x tag.
  Proof.
    intros Hp Hw Hi Hs Hv Hb. apply (written h VH e mem Hmem _ _ c Hs Hv) in Hb.
    assert (Htag : tag <= basic_max (e_tag d)).
    { destruct Hs as [Hs _]. rewrite Forall_forall in Hs. exact (Hs _ (nth_error_In _ _ Hi)). }
    unfold encode in Hb. cbn [enc] in Hb.
    assert (H : exists y, c = enc_basic e (e_tag d) tag ++ y).
    { clear -Hb Hi Hp. revert i Hi Hb. induction vs as [|v r IH]; intros [|i] Hi Hb; cbn [nth_error] in Hi; try discriminate.
      - injection Hi as ->. cbn [enc_variant] in Hb. rewrite Hp in Hb. apply rmap_ok in Hb as (y & _ & ->). eauto.
      - exact (IH i Hi Hb). }
    destruct H as [y ->]. exists (enc_basic e (e_tag d) tag), y.
    destruct (basic_digits e _ w tag Hw Htag). auto.
  Qed.
End Lengths.

(** C122: of a slice or string that begins with the digits of [n], [n] elements
    are read. *)
Theorem C122_read_length h e t x c n bw v : valid_host h ->
  match t with TStr _ | TSeq _ _ => True | _ => False end ->
  supported h e bw true LDefault t -> no_eof false t ->
  length x = 4%nat -> digits e x n -> reading h e t (x ++ c) bw (Ok v) -> elements v = Some n.
Proof.
  intros VH Ht Hs Hne Hl Hx Hr.
  assert (En : unword e x = n) by exact (digits_unique e x _ _ (unword_digits e x) Hx).
  assert (Hn : n < 2 ^ 32) by (destruct Hx as [Hx _]; rewrite Hl in Hx; exact Hx).
  pose proof (vh_usize_lo h VH) as Hu.
  destruct (reading_decodes h VH e t _ bw v Hs Hr) as [(o & Hd)|Hd]; [|exfalso; exact (decode_spec _ _ _ _ _ Hne Hd)].
  assert (Hp : dprefix (h_lim h) e BU32 (Some (x ++ c)) = DOk n (Some c)).
  { unfold dprefix, dbind. cbn [dbasic]. rewrite dword_app, En by exact Hl.
    destruct (N.leb_spec n (l_usize_max (h_lim h))); [reflexivity|lia]. }
  unfold decode in Hd. destruct t as [| |sk t| | | | | | | | | | | |]; try contradiction; cbn [decl len0 dlen] in Hd; unfold dmap, dbind in Hd; rewrite Hp in Hd.
  - unfold dsized, dunsure, dread in Hd. destruct (l_fits (h_lim h) (TP U8) n); [|discriminate].
    assert (Hk : forall b o', nlen b = n -> dstr (h_lim h) k b o' = DOk v o -> elements v = Some n).
    { intros b o' Hb H. unfold dstr in H. destruct (utf8_valid b); [|discriminate].
      assert (Ev : v = VBytes b) by (destruct k; try (injection H as <- _; reflexivity);
        destruct (l_regex_ok (h_lim h) b); [injection H as <- _; reflexivity|discriminate]).
      subst v. cbn [elements]. f_equal. exact Hb. }
    destruct (N.eqb_spec n 0) as [->|Hn0]; [exact (Hk [] _ eq_refl Hd)|].
    destruct (N.leb_spec n (nlen c)) as [L|L]; [|discriminate].
    refine (Hk _ _ _ Hd). rewrite nlen_take. lia.
  - unfold dsized, dunsure in Hd. destruct (l_fits (h_lim h) t n); [|discriminate].
    destruct (drepeat _ _ (Some c)) as [xs o1| | | |] eqn:E; try discriminate. injection Hd as <- _.
    cbn [elements]. rewrite (repeat_length _ _ _ _ _ E), N2Nat.id. reflexivity.
Qed.

Print Assumptions C122_write.
Print Assumptions C122_read.
Print Assumptions C122_length.
Print Assumptions C122_length_type.
Print Assumptions C122_tag.
Print Assumptions C122_read_length.

(* ------------------------------------------------------------------ *)
(** * Concrete cases *)

(** -2 is 254 + 255 * 256 + ...; the same bytes in the other order are another
    number. *)
Example C122_holds :
  write_to_vec host64 dirty LE (TP I32) (VInt (-2)) = Ok [xfe; xff; xff; xff]
  /\ digits LE [xfe; xff; xff; xff] 4294967294 /\ on_wire 4 (-2) 4294967294
  /\ read_from_buffer host64 BE (TP I32) 0 [xfe; xff; xff; xff] = Ok (VInt (-16777217))
  /\ digits BE [xfe; xff; xff; xff] 4278190079 /\ on_wire 4 (-16777217) 4278190079
  /\ (least I32 <= -2 <= greatest I32)%Z.
Proof.
  split; [vm_compute; reflexivity|]. split; [exact (unword_digits LE [xfe; xff; xff; xff])|].
  split; [reflexivity|]. split; [vm_compute; reflexivity|]. split; [exact (unword_digits BE [xfe; xff; xff; xff])|].
  split; [reflexivity|]. vm_compute. split; discriminate.
Qed.

(** Three names with their lengths in two bytes. *)
Definition names_type : ty := TStruct (sd 1 RRust) [(with_len (LType BU16), TSeq KVec (TStr KString))].
Definition names_value : val := VSeq [VSeq [VBytes [x61]; VBytes []; VBytes [x62; x63]]].

Example C122_length_holds :
  wsup host64 names_type /\ value_of host64 BE names_type names_value
  /\ write_to_vec host64 dirty BE names_type names_value
     = Ok [x00; x03; x00; x00; x00; x01; x61; x00; x00; x00; x00; x00; x00; x00; x02; x62; x63]
  /\ digits BE [x00; x03] 3 /\ digits BE [x00; x00; x00; x02] 2
  /\ supported host64 BE true true LDefault (TStr KString) /\ no_eof false (TStr KString)
  /\ read_from_buffer host64 BE (TStr KString) 0 [x00; x00; x00; x02; x62; x63] = Ok (VBytes [x62; x63]).
Proof.
  split; [apply wsupb_sound; vm_compute; reflexivity|]. split; [apply value_ofb_sound; vm_compute; reflexivity|].
  split; [vm_compute; reflexivity|]. split; [exact (unword_digits BE [x00; x03])|].
  split; [exact (unword_digits BE [x00; x00; x00; x02])|].
  split; [exact Logic.I|]. split; [apply no_eofb_sound; reflexivity|]. vm_compute. reflexivity.
Qed.

Definition codes : ty := TEnum {| e_tag := BU16; e_peek := false |} [(3, [(plain, TP U8)]); (700, [])].

Example C122_tag_holds :
  wsup host64 codes /\ value_of host64 LE codes (VVar 1 [])
  /\ write_to_vec host64 dirty LE codes (VVar 1 []) = Ok [xbc; x02] /\ digits LE [xbc; x02] 700.
Proof.
  split; [apply wsupb_sound; vm_compute; reflexivity|]. split; [apply value_ofb_sound; vm_compute; reflexivity|].
  split; [vm_compute; reflexivity|]. exact (unword_digits LE [xbc; x02]).
Qed.
