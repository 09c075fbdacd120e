(* Conversions of errors (src/error.rs) and the methods of Endianness
   (src/endianness.rs). *)
From Verif Require Export Types.

(* ------------------------------------------------------------------ *)
(** * src/error.rs *)

(** 46-53 [Error::custom]; the text is not modelled, `std::io::ErrorKind::Other`
    is [IoOther 0]. *)
Definition custom : error := IoError (IoOther 0).

(** 55-61 [from_io_error] *)
Definition from_io_error (k : io_kind) : error := IoError k.

(** 64-80 `impl From< Error > for std::io::Error`, as far as the kind of the
    result goes. *)
Definition io_error_from (e : error) : io_kind :=
  match e with
  | IoError k => k
  | _ => if is_eof e then IoUnexpectedEof else IoInvalidData
  end.

(* ------------------------------------------------------------------ *)
(** * src/endianness.rs *)

Section Endianness.
  Context (native e : endian).

  (** 31-48 and 82-90: [read_u16] .. [read_f64].  (There are none for single
      bytes.) *)
  Definition endian_read (p : prim) (bs : bytes) : res Z :=
    if nlen bs =? N.of_nat (psize p)
    then Ok (of_bits p (swap_if native e (psize p) (of_ne native bs)))
    else Fault PanicAssert.

  (** 50-55 and 92-108: [swap_u16] .. [swap_f64] *)
  Definition endian_swap (p : prim) (z : Z) : Z :=
    of_bits p (swap_if native e (psize p) (to_bits p z)).

  (** 19-24 (single bytes), 57-64, 110-126 *)
  Fixpoint endian_swap_slice (p : prim) (zs : list Z) : list Z :=
    match p with
    | U8 | I8 => zs
    | _ =>
      if conversion_necessary native e then
        match zs with
        | [] => []
        | z :: r => endian_swap p z :: endian_swap_slice p r
        end
      else zs
    end.
End Endianness.
