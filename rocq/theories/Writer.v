(* The Writer trait: src/writer.rs. *)
From Verif Require Export Varint.

(** A writer over state [St]: `write_bytes` (9), `can_write_at_least` (15-17),
    `write_u8` (20-23), `write_u16` .. `write_u128` (26-51, [wr_uint] takes the
    width), and the byte order of `endianness()` (89-91). *)
Record writer (St : Type) := mkWriter {
  wr_endian : endian;
  wr_bytes : bytes -> M St unit;
  wr_can : N -> St -> option bool;
  wr_u8 : N -> M St unit;
  wr_uint : nat -> N -> M St unit
}.
Arguments wr_endian {St} _.
Arguments wr_bytes {St} _ _ _.
Arguments wr_can {St} _ _ _.
Arguments wr_u8 {St} _ _ _.
Arguments wr_uint {St} _ _ _ _.

(** src/writer.rs 20-23 *)
Definition default_u8 {St} (write_bytes : bytes -> M St unit) (value : N) : M St unit :=
  write_bytes (le_bytes 1 value).

(** src/writer.rs 26-51: swap to the context's byte order, write the bytes the
    value has in memory. *)
Definition default_uint {St} (h : host) (e : endian) (write_bytes : bytes -> M St unit)
    (w : nat) (value : N) : M St unit :=
  write_bytes (to_ne (h_native h) w (swap_if (h_native h) e w value)).

Section Defaults.
  Context {St : Type} (h : host) (W : writer St).

  (** src/writer.rs 54-86 and src/writable_impl.rs 125-166: the writer method of
      each primitive type. *)
  Definition write_prim (p : prim) (z : Z) : M St unit :=
    match p with
    | U8 | I8 => wr_u8 W (to_bits p z)
    | _ => wr_uint W (psize p) (to_bits p z)
    end.

  (** src/varint.rs 205-275 [write_to], src/writer.rs 125-127 *)
  Definition write_varint (value : N) : M St unit :=
    fun s =>
      match wr_can W (vi_write_length value + 1) s with
      | Some false => (Err UnexpectedEndOfOutputBuffer, s)
      | _ =>
        (if vi_write_length value =? 0 then wr_u8 W (value mod 256)
         else wr_u8 W (vi_first value) ;;; wr_bytes W (vi_tail (h_native h) value)) s
      end.

  (** src/private.rs 58-128 [write_length_u64_varint] .. [write_length_u7] *)
  Definition write_length (b : basic) (n : N) : M St unit :=
    match b with
    | BVarint => write_varint n
    | BU64 => wr_uint W 8 n
    | BU32 => if 0xFFFFFFFF <? n then fail OutOfRangeLength else wr_uint W 4 n
    | BU16 => if 0xFFFF <? n then fail OutOfRangeLength else wr_uint W 2 n
    | BU8 => if 0xFF <? n then fail OutOfRangeLength else wr_u8 W n
    | BU7 => if 0x7F <? n then fail OutOfRangeLength else wr_u8 W n
    end.

  (** speedy-derive/src/lib.rs 2418-2426: the tag writer of a derived enum. *)
  Definition write_tag (b : basic) (tag : N) : M St unit :=
    match b with
    | BU64 => wr_uint W 8 tag
    | BU32 => wr_uint W 4 tag
    | BU16 => wr_uint W 2 tag
    | BU8 | BU7 => wr_u8 W tag
    | BVarint => write_varint tag
    end.

  (** `for item in items { item.write_to( writer )? }` *)
  Fixpoint write_each (wr : val -> M St unit) (vs : list val) : M St unit :=
    match vs with
    | [] => ret tt
    | v :: r => wr v ;;; write_each wr r
    end.

  (** src/writer.rs 99-111 [write_slice] *)
  Definition write_slice (t : ty) (wr : val -> M St unit) (vs : list val) : M St unit :=
    if is_prim h t && ((h_size h t =? 1)
                       || negb (conversion_necessary (h_native h) (wr_endian W)))
    then wr_bytes W (concat (map (mem_write h t) vs))
    else write_each wr vs.
End Defaults.
