(* WritingCollector (src/writable.rs 59-85) over any implementation of
   `std::io::Write`.  [Writers] has the same code for streams given by a list of
   what they will do. *)
From Verif Require Export Writers.

(** `Write::write`, any safe code: given bytes it returns how many it claims to
    have taken, and its next state. *)
Definition any_write (S : Type) := S -> bytes -> res N * S.

Section Any.
  Context {S : Type} (h : host) (write : any_write S).
  (** [fuel] bounds the calls of `write` in one `write_all`. *)
  Context (fuel : nat).

  (** `Write::write_all` (std's default method).  A claim of more bytes than there
      were is a slice index out of range. *)
  Fixpoint any_all (fuel : nat) (b : bytes) (s : S) : res unit * S :=
    match b with
    | [] => (Ok tt, s)
    | _ =>
      match fuel with
      | O => (Fault Diverges, s)
      | Datatypes.S fuel =>
        let (r, s') := write s b in
        match r with
        | Ok n =>
          if n =? 0 then (Err (IoError IoWriteZero), s')
          else if n <=? nlen b then any_all fuel (ndrop n b) s'
          else (Fault PanicAssert, s')
        | Err (IoError IoInterrupted) => any_all fuel b s'
        | Err er => (Err er, s')
        | Fault f => (Fault f, s')
        end
      end
    end.

  (** writable.rs 65-85 *)
  Definition AnyWriter (e : endian) : writer S :=
    let all := any_all fuel in
    {| wr_endian := e; wr_bytes := all; wr_can := fun _ _ => None;
       wr_u8 := default_u8 all; wr_uint := default_uint h e all |}.

  (** writable.rs 221-230 [write_to_stream_with_ctx] *)
  Definition write_to_any (e : endian) (t : ty) (v : val) (s : S) : res unit * S :=
    WriteImpl.write h (AnyWriter e) t v s.
End Any.
