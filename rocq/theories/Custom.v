(* Readers and writers written by users of the crate.  `Reader` and `Writer` are
   public traits; the code here is what an implementation gets that provides the
   required methods and leaves the provided ones alone. *)
From Verif Require Export ReadImpl WriteImpl.

(** src/reader.rs 55-60: `read_bytes`, `peek_bytes` into a slice of length [n], and
    the byte order of `context()`; and, as the one provided method worth
    overriding, `can_read_at_least` (94-96, by default always [None]). *)
Record user_reader (St : Type) := {
  ur_endian : endian;
  ur_read : N -> M St bytes;
  ur_peek : N -> M St bytes;
  ur_can : N -> St -> option bool
}.
Arguments ur_endian {St} _.
Arguments ur_read {St} _ _ _.
Arguments ur_peek {St} _ _ _.
Arguments ur_can {St} _ _ _.

(** src/reader.rs 62-111: the provided methods: the pointer variants go through
    slices, skipping reads chunks, nothing is borrowed.  [fuel]: ghost, bounds the
    rounds of reading until the end of the input. *)
Definition hand_written {St} (fuel : St -> nat) (u : user_reader St) : reader St :=
  {| rd_endian := ur_endian u;
     rd_read := ur_read u; rd_read_ptr := ur_read u;
     rd_peek := ur_peek u; rd_peek_ptr := ur_peek u;
     rd_skip := default_skip (ur_read u); rd_can := ur_can u;
     rd_borrow := None; rd_borrow_r := None; rd_borrow_eof := None;
     rd_alloc := fun _ _ _ => ret tt; rd_fuel := fuel |}.

(** src/writer.rs 8-12: `write_bytes` and the byte order of `context()`. *)
Record user_writer (St : Type) := {
  uw_endian : endian;
  uw_write : bytes -> M St unit
}.
Arguments uw_endian {St} _.
Arguments uw_write {St} _ _ _.

(** src/writer.rs 14-51: the provided methods. *)
Definition hand_written_writer {St} (h : host) (u : user_writer St) : writer St :=
  {| wr_endian := uw_endian u; wr_bytes := uw_write u; wr_can := fun _ _ => None;
     wr_u8 := default_u8 (uw_write u); wr_uint := default_uint h (uw_endian u) (uw_write u) |}.
