(* Bytes, machine words, results and the error type.

   Everything here is a total, computable definition. *)
From Coq Require Export List ZArith NArith Lia Bool.
From Coq Require Export Strings.Byte.
Export ListNotations.
Open Scope N_scope.

Notation bytes := (list byte).

(* ------------------------------------------------------------------ *)
(** * Bytes and little-endian words *)

(** The numeric value of a byte. *)
Definition b2n (b : byte) : N := Byte.to_N b.

(** `x as u8`: the low eight bits. *)
Definition n2b (n : N) : byte :=
  match Byte.of_N (n mod 256) with Some b => b | None => x00 end.

(** Length of a byte string as a number ([slice.len()]). *)
Definition nlen {A} (l : list A) : N := N.of_nat (length l).

Definition ntake {A} (n : N) (l : list A) : list A := firstn (N.to_nat n) l.
Definition ndrop {A} (n : N) (l : list A) : list A := skipn (N.to_nat n) l.

(** Least significant byte first. *)
Fixpoint le_bytes (w : nat) (n : N) : bytes :=
  match w with
  | O => []
  | S w' => n2b n :: le_bytes w' (n / 256)
  end.

Fixpoint le_num (bs : bytes) : N :=
  match bs with
  | [] => 0
  | b :: r => b2n b + 256 * le_num r
  end.

(* ------------------------------------------------------------------ *)
(** * Endianness: src/endianness.rs *)

(** src/endianness.rs 2-5 *)
Inductive endian := LE | BE.

Definition endian_eqb (a b : endian) : bool :=
  match a, b with LE, LE => true | BE, BE => true | _, _ => false end.

(** src/endianness.rs 7-13 [NATIVE] and 17-19 [conversion_necessary]: the
    context's byte order differs from the target's (a `cfg(target_endian)`
    constant). *)
Definition conversion_necessary (native e : endian) : bool :=
  negb (endian_eqb native e).

(** In-memory image of a [w]-byte integer on the host (language semantics). *)
Definition to_ne (native : endian) (w : nat) (n : N) : bytes :=
  match native with LE => le_bytes w n | BE => rev (le_bytes w n) end.

Definition of_ne (native : endian) (bs : bytes) : N :=
  match native with LE => le_num bs | BE => le_num (rev bs) end.

(** `uN::swap_bytes`. *)
Definition swap_bytes (w : nat) (n : N) : N := le_num (rev (le_bytes w n)).

(** src/endianness.rs 28-68 [emit_wrapper!] (swap_u16 .. swap_i128) and 79-125
    (floats, swapped as bit patterns). *)
Definition swap_if (native e : endian) (w : nat) (n : N) : N :=
  if conversion_necessary native e then swap_bytes w n else n.

(* ------------------------------------------------------------------ *)
(** * Errors: src/error.rs *)

(** `std::io::ErrorKind`, only as far as the crate distinguishes kinds. *)
Inductive io_kind :=
  IoUnexpectedEof | IoInterrupted | IoWriteZero | IoWouldBlock | IoInvalidData | IoOther (code : N).

(** src/error.rs 7-38 [ErrorKind].  The field name carried by
    [LengthIsNotTheSameAsLengthAttribute] is not modelled. *)
Inductive error :=
| InvalidChar
| InvalidEnumVariant
| InvalidUtf8
| InvalidSystemTime
| ZeroNonZero
| OutOfRangeLength
| OutOfRangeUsize
| UnexpectedEndOfInput
| UnexpectedEndOfOutputBuffer
| InputBufferIsTooSmall (actual expected : N)
| OutputBufferIsTooSmall (actual expected : N)
| LengthIsNotTheSameAsLengthAttribute
| ExpectedConstant (c : bytes)
| IoError (k : io_kind)
| Unsized
| EndiannessMismatch.

(** src/error.rs 127-139 [is_eof] *)
Definition is_eof (e : error) : bool :=
  match e with
  | UnexpectedEndOfInput | UnexpectedEndOfOutputBuffer => true
  | IoError IoUnexpectedEof => true
  | _ => false
  end.

(** Abnormal ends: panics of safe code, and undefined behaviour. *)
Inductive fault :=
| PanicDivZero            (* attempt to divide by zero *)
| PanicOverflow           (* arithmetic overflow with overflow checks on *)
| PanicAssert             (* failed assertion, slice index out of range *)
| PanicExplicit           (* panic!() / expect() *)
| PanicCapacity           (* capacity overflow / allocation refused *)
| UbMisaligned            (* a misaligned reference is created *)
| UbInvalid               (* bytes are taken for a value of a type they are no value of *)
| UbUnreachable           (* unreachable_unchecked() is reached *)
| Diverges                (* no bound on the number of loop iterations *)
| IllTyped.               (* model only: the value does not have the type *)

Inductive res (A : Type) :=
| Ok (a : A)
| Err (e : error)
| Fault (f : fault).
Arguments Ok {A} a.
Arguments Err {A} e.
Arguments Fault {A} f.

Definition rmap {A B} (f : A -> B) (r : res A) : res B :=
  match r with Ok a => Ok (f a) | Err e => Err e | Fault x => Fault x end.

Definition rbind {A B} (r : res A) (k : A -> res B) : res B :=
  match r with Ok a => k a | Err e => Err e | Fault x => Fault x end.

Fixpoint rmapM {A B} (f : A -> res B) (l : list A) : res (list B) :=
  match l with
  | [] => Ok []
  | a :: r => rbind (f a) (fun b => rmap (cons b) (rmapM f r))
  end.

(* ------------------------------------------------------------------ *)
(** * Stateful computations (Rust functions taking [&mut self]) *)

Definition M (S A : Type) : Type := S -> res A * S.

Definition ret {S A} (a : A) : M S A := fun s => (Ok a, s).
Definition fail {S A} (e : error) : M S A := fun s => (Err e, s).
Definition crash {S A} (f : fault) : M S A := fun s => (Fault f, s).
Definition lift {S A} (r : res A) : M S A := fun s => (r, s).

(** The `?` operator. *)
Definition bind {S A B} (m : M S A) (k : A -> M S B) : M S B :=
  fun s => match m s with
           | (Ok a, s') => k a s'
           | (Err e, s') => (Err e, s')
           | (Fault f, s') => (Fault f, s')
           end.

Declare Scope m_scope.
Delimit Scope m_scope with m.
Notation "x <- m ;; k" := (bind m (fun x => k))
  (at level 61, m at next level, right associativity) : m_scope.
Notation "m ;;; k" := (bind m (fun _ => k))
  (at level 61, right associativity) : m_scope.
Open Scope m_scope.

Definition mmap {S A B} (f : A -> B) (m : M S A) : M S B := x <- m ;; ret (f x).

(** `for _ in 0..n { v.push( m()? ) }` *)
Fixpoint repeatM {S A} (m : M S A) (n : nat) : M S (list A) :=
  match n with
  | O => ret []
  | S n' => x <- m ;; xs <- repeatM m n' ;; ret (x :: xs)
  end.

(** Chop a byte string into [n] pieces of [sz] bytes (pointer arithmetic of a
    `*const T` walking over a byte buffer). *)
Fixpoint chunks (sz : nat) (n : nat) (bs : bytes) : list bytes :=
  match n with
  | O => []
  | S n' => firstn sz bs :: chunks sz n' (skipn sz bs)
  end.

(* ------------------------------------------------------------------ *)
(** * UTF-8 validity, as `core::str::from_utf8` checks it (std contract) *)

Definition in_range (x lo hi : N) : bool := (lo <=? x) && (x <=? hi).
Definition is_cont (b : byte) : bool := in_range (b2n b) 0x80 0xBF.

Fixpoint utf8_valid (bs : bytes) : bool :=
  match bs with
  | [] => true
  | b0 :: r0 =>
    let x0 := b2n b0 in
    if x0 <? 0x80 then utf8_valid r0 else
    match r0 with
    | [] => false
    | b1 :: r1 =>
      let x1 := b2n b1 in
      if in_range x0 0xC2 0xDF then is_cont b1 && utf8_valid r1 else
      match r1 with
      | [] => false
      | b2 :: r2 =>
        if in_range x0 0xE0 0xEF then
          (if x0 =? 0xE0 then in_range x1 0xA0 0xBF
           else if x0 =? 0xED then in_range x1 0x80 0x9F
           else is_cont b1) && is_cont b2 && utf8_valid r2
        else
        match r2 with
        | [] => false
        | b3 :: r3 =>
          if in_range x0 0xF0 0xF4 then
            (if x0 =? 0xF0 then in_range x1 0x90 0xBF
             else if x0 =? 0xF4 then in_range x1 0x80 0x8F
             else is_cont b1) && is_cont b2 && is_cont b3 && utf8_valid r3
          else false
        end
      end
    end
  end.

(** Unicode scalar values: `char::from_u32` succeeds (std contract). *)
Definition is_scalar (n : N) : bool :=
  (n <? 0xD800) || ((0xDFFF <? n) && (n <=? 0x10FFFF)).
