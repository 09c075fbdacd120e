(* Variable length integers: src/varint.rs. *)
From Verif Require Export Reader.

(** `u8::leading_zeros`, `u64::leading_zeros` *)
Definition leading_zeros (bits : N) (x : N) : N := bits - N.size x.

(** `x << k` on u64, `k < 64`. *)
Definition shl64 (x k : N) : N := N.shiftl x k mod 2 ^ 64.

(* ------------------------------------------------------------------ *)
(** * Reading *)

(** src/varint.rs 109: length of the tail announced by the first byte. *)
Definition vi_length (first_byte : N) : N :=
  leading_zeros 8 (N.lxor first_byte 255).

(** src/varint.rs 111-112; `wrapping_shl` masks its argument with 63. *)
Definition vi_upper (first_byte : N) : N :=
  let length := vi_length first_byte in
  let upper_mask := N.shiftr 255 length in
  shl64 (N.land upper_mask first_byte) ((length * 8) mod 64).

(** src/varint.rs 114-124: fill the first [count] bytes of a zeroed u64, then
    `to_le`. *)
Definition vi_value (native : endian) (tail : bytes) : N :=
  let mem := tail ++ repeat x00 (8 - length tail) in
  swap_if native LE 8 (of_ne native mem).

Section Read.
  Context {St : Type} (h : host) (R : reader St).

  (** src/varint.rs 106-147 [impl_read!] *)
  Definition vi_impl (read_u8 : M St N) (read_bytes : N -> M St bytes) : M St N :=
    first_byte <- read_u8 ;;
    tail <- read_bytes (vi_length first_byte) ;;
    ret (N.lor (vi_upper first_byte) (vi_value (h_native h) tail)).

  (** src/varint.rs 149-153 [read_from], src/reader.rs 703-706 [read_u64_varint] *)
  Definition read_varint : M St N := vi_impl (read_u8 R) (rd_read R).

  (** src/varint.rs 161-169 [peek_from], src/reader.rs 709-712 [peek_u64_varint] *)
  Definition peek_varint : M St N := vi_impl (peek_u8 R) (rd_peek R).
End Read.

(* ------------------------------------------------------------------ *)
(** * Writing *)

(** src/varint.rs 172-187 [get_length_slow], what the tests compare [get_length]
    with; [None] is `unreachable!()`. *)
Definition get_length_slow (leading_zeros : N) : option N :=
  let bits_required := 64 - leading_zeros in
  if bits_required <=? 7 then Some 0
  else if bits_required <=? 14 then Some 1
  else if bits_required <=? 21 then Some 2
  else if bits_required <=? 28 then Some 3
  else if bits_required <=? 35 then Some 4
  else if bits_required <=? 42 then Some 5
  else if bits_required <=? 49 then Some 6
  else if bits_required <=? 56 then Some 7
  else if bits_required <=? 64 then Some 8
  else None.

(** src/varint.rs 188-193 [get_length] *)
Definition get_length (leading_zeros : N) : N :=
  let bits_required := 64 - leading_zeros in
  let x := N.shiftr bits_required 3 in
  N.shiftr (N.lxor (x + bits_required) x) 3.

Definition vi_write_length (value : N) : N := get_length (leading_zeros 64 value).

(** src/varint.rs 217-268: marker bits of the first byte, by tail length. *)
Definition vi_marker (length : N) : N :=
  match length with
  | 0 => 0 | 1 => 128 | 2 => 192 | 3 => 224 | 4 => 240 | 5 => 248 | 6 => 252 | 7 => 254
  | _ => 255
  end.

(** The first byte: `0b1..10..0 | (value >> (8 * length)) as u8`; for length 8 the
    constant 0xFF. *)
Definition vi_first (value : N) : N :=
  let length := vi_write_length value in
  if length =? 8 then 255
  else N.lor (vi_marker length) (N.shiftr value (8 * length) mod 256).

(** The tail: the first [length] bytes of `value.to_le()` in memory. *)
Definition vi_tail (native : endian) (value : N) : bytes :=
  ntake (vi_write_length value) (to_ne native 8 (swap_if native LE 8 value)).

(** src/varint.rs 278-280 [bytes_needed] *)
Definition vi_bytes_needed (value : N) : N := vi_write_length value + 1.

(* ------------------------------------------------------------------ *)
(** * Conversions *)

(** `x as iN`, for [bits] = N. *)
Definition wrap_signed (bits : Z) (z : Z) : Z :=
  let m := (2 ^ bits)%Z in
  let r := (z mod m)%Z in
  if (m / 2 <=? r)%Z then (r - m)%Z else r.

(** src/varint.rs 59-89 [From<i64>], [From<i32>], [From<i16>], [From<i8>]:
    `((value << 1) ^ (value >> (bits-1))) as uN as u64` *)
Definition zigzag (bits : Z) (value : Z) : N :=
  let v := Z.lxor (wrap_signed bits (Z.shiftl value 1)) (Z.shiftr value (bits - 1)) in
  Z.to_N (v mod 2 ^ bits).

(** src/varint.rs 98-104 [From<VarInt64> for i64]:
    `((value >> 1) ^ (value << 15)) as i64` *)
Definition varint_to_i64 (value : N) : Z :=
  wrap_signed 64 (Z.of_N (N.lxor (N.shiftr value 1) (shl64 value 15))).
