(* The Reader trait: src/reader.rs.  A reader is a record of the operations an
   implementation may override; the remaining methods are defined on top. *)
From Verif Require Export TypeInfo.

(** A reader over state [St].

    - [rd_read n], [rd_peek n]: `read_bytes` / `peek_bytes` into a slice of
      length [n] (57-58), returning the bytes stored;
    - [rd_read_ptr], [rd_peek_ptr] (62-74), [rd_skip] (77-91), [rd_can] =
      `can_read_at_least` (94-96);
    - [rd_borrow], [rd_borrow_r], [rd_borrow_eof]: `read_bytes_borrowed`,
      `read_bytes_borrowed_from_reader`, `read_bytes_borrowed_until_eof`
      (99-111); [None] when the reader never supports it (simplification: the
      Rust signature would allow the answer to change between calls).  A
      borrowed slice is shown as its address and content;
    - [rd_endian]: the byte order of the context (515-517);
    - ghost: [rd_alloc n size min] is called for every `Vec::with_capacity( n )`
      of elements of [size] bytes whose encoding takes at least [min] bytes; it
      only records;
    - ghost: [rd_fuel] bounds the iterations of a read-until-end loop. *)
Record reader (St : Type) := mkReader {
  rd_endian : endian;
  rd_read : N -> M St bytes;
  rd_read_ptr : N -> M St bytes;
  rd_peek : N -> M St bytes;
  rd_peek_ptr : N -> M St bytes;
  rd_skip : N -> M St unit;
  rd_can : N -> St -> option bool;
  rd_borrow : option (N -> M St (N * bytes));
  rd_borrow_r : option (N -> M St bytes);
  rd_borrow_eof : option (M St (N * bytes));
  rd_alloc : N -> N -> N -> M St unit;
  rd_fuel : St -> nat
}.
Arguments rd_endian {St} _.
Arguments rd_read {St} _ _ _.
Arguments rd_read_ptr {St} _ _ _.
Arguments rd_peek {St} _ _ _.
Arguments rd_peek_ptr {St} _ _ _.
Arguments rd_skip {St} _ _ _.
Arguments rd_can {St} _ _ _.
Arguments rd_borrow {St} _.
Arguments rd_borrow_r {St} _.
Arguments rd_borrow_eof {St} _.
Arguments rd_alloc {St} _ _ _ _ _.
Arguments rd_fuel {St} _ _.

(** src/reader.rs 77-91 [skip_bytes], the default: read chunks of 1024 bytes
    into a scratch buffer.  [k] bounds the number of chunks. *)
Fixpoint skip_loop {St} (read_ptr : N -> M St bytes) (k : nat) (length : N) : M St unit :=
  if length =? 0 then ret tt else
  match k with
  | O => crash Diverges
  | S k' =>
    let chunk_size := if length <? 1024 then length else 1024 in
    read_ptr chunk_size ;;; skip_loop read_ptr k' (length - chunk_size)
  end.

Definition default_skip {St} (read_ptr : N -> M St bytes) (length : N) : M St unit :=
  skip_loop read_ptr (N.to_nat ((length + 1023) / 1024)) length.

Section Defaults.
  Context {St : Type} (h : host) (R : reader St).

  (** `if self.can_read_at_least( n ) == Some( false ) { return Err( end_of_input ) }` *)
  Definition require (n : N) : M St unit :=
    fun s => match rd_can R n s with
             | Some false => (Err UnexpectedEndOfInput, s)
             | _ => (Ok tt, s)
             end.

  (** src/reader.rs 114-124 [read_u8], 127-137 [peek_u8] *)
  Definition read_u8 : M St N :=
    require 1 ;;; b <- rd_read_ptr R 1 ;; ret (le_num b).
  Definition peek_u8 : M St N :=
    require 1 ;;; b <- rd_peek_ptr R 1 ;; ret (le_num b).

  (** src/reader.rs 150-507 [read_u16], [peek_u16] .. [read_u128], [peek_u128];
      `MaybeUninit` storage of [w] bytes reinterpreted on the host, then
      swapped if the context's byte order differs. *)
  Definition read_uint (w : nat) : M St N :=
    require (N.of_nat w) ;;;
    b <- rd_read_ptr R (N.of_nat w) ;;
    ret (swap_if (h_native h) (rd_endian R) w (of_ne (h_native h) b)).
  Definition peek_uint (w : nat) : M St N :=
    require (N.of_nat w) ;;;
    b <- rd_peek_ptr R (N.of_nat w) ;;
    ret (swap_if (h_native h) (rd_endian R) w (of_ne (h_native h) b)).

  (** src/reader.rs 139-507: the reader method of each primitive type; signed
      and float methods reinterpret the same bits. *)
  Definition read_prim (p : prim) : M St Z :=
    n <- match p with U8 | I8 => read_u8 | _ => read_uint (psize p) end ;;
    ret (of_bits p n).
  Definition peek_prim (p : prim) : M St Z :=
    n <- match p with U8 | I8 => peek_u8 | _ => peek_uint (psize p) end ;;
    ret (of_bits p n).

  (** Vec::with_capacity( n ): panics when the size exceeds isize::MAX, and is
      recorded in the ghost log. *)
  Definition alloc (n size min : N) : M St unit :=
    if h_alloc_max h <? n * size then crash PanicCapacity else rd_alloc R n size min.
End Defaults.
