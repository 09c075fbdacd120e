(* StreamReader (src/readable.rs 292-416) over any implementation of
   `std::io::Read`, also one that breaks the rules of the trait, and with the
   slices that are handed to it: their old content is whatever the memory held.
   [Readers] has the same code for streams that keep to the rules. *)
From Verif Require Export Readers.

(** `Read::read`, any safe code: given the content of the slice it returns what
    it claims, what it leaves in the slice, and its next state. *)
Definition any_read (S : Type) := S -> bytes -> res N * bytes * S.

(** It was written in Rust: a slice keeps its length. *)
Definition keeps_length {S} (read : any_read S) : Prop :=
  forall s slice, nlen (snd (fst (read s slice))) = nlen slice.

Record areader (S : Type) := { ar_stream : S; ar_buffer : cbuf; ar_buffering : bool }.
Arguments ar_stream {S} _.
Arguments ar_buffer {S} _.
Arguments ar_buffering {S} _.
Arguments Build_areader {S} _ _ _.

Section Any.
  Context {S : Type} (h : host) (read : any_read S).
  (** [mem n]: the content of a fresh allocation of at least [n] bytes; [fuel]
      bounds the calls of `read` in `read_exact` and of the loops that read to
      the end. *)
  Context (mem : N -> bytes) (fuel : nat).

  (** `Read::read_exact` (std's default method) into [todo]; [done] is filled. *)
  Fixpoint any_exact (fuel : nat) (s : S) (done todo : bytes) : res bytes * S :=
    match todo with
    | [] => (Ok done, s)
    | _ =>
      match fuel with
      | O => (Fault Diverges, s)
      | Datatypes.S fuel =>
        let '(r, out, s') := read s todo in
        match r with
        | Ok n =>
          if n =? 0 then (Err (IoError IoUnexpectedEof), s')
          else if n <=? nlen out then any_exact fuel s' (done ++ ntake n out) (ndrop n out)
          else (Fault PanicAssert, s')
        | Err (IoError IoInterrupted) => any_exact fuel s' done out
        | Err er => (Err er, s')
        | Fault f => (Fault f, s')
        end
      end
    end.

  Definition ar_set (c : cbuf) (s : areader S) : areader S :=
    {| ar_stream := ar_stream s; ar_buffer := c; ar_buffering := ar_buffering s |}.
  Definition ar_set_stream (i : S) (s : areader S) : areader S :=
    {| ar_stream := i; ar_buffer := ar_buffer s; ar_buffering := ar_buffering s |}.

  Definition ar_on {A} (f : cbuf -> res (A * cbuf)) : M (areader S) A := fun s =>
    match f (ar_buffer s) with
    | Ok (a, c) => (Ok a, ar_set c s)
    | Err e => (Err e, s)
    | Fault x => (Fault x, s)
    end.

  (** `self.length += bytes_written` (circular_buffer.rs 295), unchecked; [out] is
      what the slice holds now. *)
  Definition claimed (r : range) (out : bytes) (n : N) (c : cbuf) : res cbuf :=
    let new length := {| cb_buffer := overlay (cb_buffer c) (r_start r) out; cb_position := cb_position c;
                         cb_length := length |} in
    let sum := cb_length c + n in
    if l_usize_max (h_lim h) <? sum then
      if h_overflow_checks h then Fault PanicOverflow else Ok (new (sum mod (l_usize_max (h_lim h) + 1)))
    else Ok (new sum).

  (** circular_buffer.rs 289-297 [try_append_with], with `reader.read` *)
  Definition ar_append (size : N) : M (areader S) N :=
    slot <- ar_on (append_slot mem size) ;;
    fun s =>
      match index (cb_buffer (ar_buffer s)) slot with
      | Ok slice =>
        let '(r, out, i) := read (ar_stream s) slice in
        let s := ar_set_stream i s in
        match r with
        | Ok n => ar_on (fun c => rmap (pair n) (claimed slot out n c)) s
        | Err er => (Err er, ar_set {| cb_buffer := overlay (cb_buffer (ar_buffer s)) (r_start slot) out;
                                       cb_position := cb_position (ar_buffer s); cb_length := cb_length (ar_buffer s) |} s)
        | Fault f => (Fault f, s)
        end
      | Err er => (Err er, s)
      | Fault f => (Fault f, s)
      end.

  (** readable.rs 303-324 *)
  Fixpoint ar_fill (fuel : nat) (n : N) : M (areader S) unit := fun s =>
    let c := ar_buffer s in
    if cb_len c <? cb_capacity c then
      match fuel with
      | O => (Fault Diverges, s)
      | Datatypes.S fuel' =>
        (written <- ar_append (cb_capacity c - cb_len c) ;;
         fun s =>
           if written =? 0 then
             if cb_len (ar_buffer s) <? n then (Err UnexpectedEndOfInput, s) else (Ok tt, s)
           else if n <=? cb_len (ar_buffer s) then (Ok tt, s)
           else ar_fill fuel' n s) s
      end
    else (Ok tt, s).

  (** readable.rs 326-340; `output` is memory that was not written before. *)
  Definition ar_drain (n : N) : M (areader S) bytes := fun s =>
    let length := N.min (cb_len (ar_buffer s)) n in
    (first <- (if 0 <? cb_len (ar_buffer s) then ar_on (consume_into length) else ret []) ;;
     if n - length =? 0 then ret first
     else
       rest <- (fun s => let (r, i) := any_exact fuel (ar_stream s) [] (ntake (n - length) (mem (n - length))) in
                         (r, ar_set_stream i s)) ;;
       ret (first ++ rest)) s.

  (** readable.rs 302-341, 347-354 *)
  Definition ar_read_slow (n : N) : M (areader S) bytes := fun s =>
    let cap := cb_capacity (ar_buffer s) in
    ((if ar_buffering s && (n <? cap) then ar_fill (N.to_nat cap) n else ret tt) ;;;
     ar_drain n) s.
  Definition ar_read (n : N) : M (areader S) bytes := fun s =>
    if n <=? cb_len (ar_buffer s) then ar_on (consume_into n) s
    else ar_read_slow n s.

  (** readable.rs 356-386 *)
  Fixpoint ar_peek_fill (fuel : nat) (n : N) : M (areader S) unit := fun s =>
    let c := ar_buffer s in
    if cb_len c <? n then
      match fuel with
      | O => (Fault Diverges, s)
      | Datatypes.S fuel' =>
        let chunk := n - cb_len c in
        (more <- (if ar_buffering s
                  then lift (rmap (N.max chunk) (usub (cb_capacity c) (cb_len c)))
                  else ret chunk) ;;
         written <- ar_append more ;;
         if written =? 0 then fail UnexpectedEndOfInput else ar_peek_fill fuel' n) s
      end
    else (Ok tt, s).
  Definition ar_peek (n : N) : M (areader S) bytes :=
    ar_peek_fill (N.to_nat n) n ;;;
    fun s => (rbind (as_slices_of_length n (ar_buffer s)) (join n), s).

  (** readable.rs 344-399 *)
  Definition AnyReader (e : endian) : reader (areader S) :=
    {| rd_endian := e; rd_read := ar_read; rd_read_ptr := ar_read;
       rd_peek := ar_peek; rd_peek_ptr := ar_peek; rd_skip := default_skip ar_read;
       rd_can := fun _ _ => None;
       rd_borrow := None; rd_borrow_r := None; rd_borrow_eof := None;
       rd_alloc := fun _ _ _ => ret tt; rd_fuel := fun _ => fuel |}.

  (** readable.rs 402-416 [deserialize], as called by `read_from_stream_buffered_with_ctx`
      and `read_from_stream_unbuffered_with_ctx` (538-546); also shows the stream
      afterwards. *)
  Definition read_from_any (e : endian) (buffering : bool) (t : ty) (s : S) : res val * S :=
    let (r, s') := ReadImpl.read h (AnyReader e) t
                     {| ar_stream := s; ar_buffer := with_capacity mem (if buffering then 8 * 1024 else 0);
                        ar_buffering := buffering |} in
    (r, ar_stream s').
End Any.
