(* StreamReader (src/readable.rs 292-416) over a stream that has its own
   `Read::read_exact`, as `&[u8]`, `Cursor`, `BufReader` and others do.
   [AnyRead] has the same code with std's default method. *)
From Verif Require Export AnyRead.

(** `Read::read_exact`, any safe code: given the content of the slice it returns
    its result, what it leaves in the slice, and its next state. *)
Definition any_exact_read (S : Type) := S -> bytes -> res unit * bytes * S.

Section Own.
  Context {S : Type} (h : host) (read : any_read S) (exact : any_exact_read S).
  Context (mem : N -> bytes) (fuel : nat).

  (** readable.rs 336-340, 328-334: what is missing is read with `read_exact`
      straight into the caller's memory. *)
  Definition own_drain (n : N) : M (areader S) bytes := fun s =>
    let length := N.min (cb_len (ar_buffer s)) n in
    (first <- (if 0 <? cb_len (ar_buffer s) then ar_on (consume_into length) else ret []) ;;
     if n - length =? 0 then ret first
     else
       rest <- (fun s => let '(r, out, i) := exact (ar_stream s) (ntake (n - length) (mem (n - length))) in
                         (rmap (fun _ => out) r, ar_set_stream i s)) ;;
       ret (first ++ rest)) s.

  (** readable.rs 302-341, 347-354 *)
  Definition own_read_slow (n : N) : M (areader S) bytes := fun s =>
    let cap := cb_capacity (ar_buffer s) in
    ((if ar_buffering s && (n <? cap) then ar_fill h read mem (N.to_nat cap) n else ret tt) ;;;
     own_drain n) s.
  Definition own_read (n : N) : M (areader S) bytes := fun s =>
    if n <=? cb_len (ar_buffer s) then ar_on (consume_into n) s
    else own_read_slow n s.

  (** readable.rs 344-399; peeking does not use `read_exact` (356-386). *)
  Definition OwnReader (e : endian) : reader (areader S) :=
    {| rd_endian := e; rd_read := own_read; rd_read_ptr := own_read;
       rd_peek := ar_peek h read mem; rd_peek_ptr := ar_peek h read mem; rd_skip := default_skip own_read;
       rd_can := fun _ _ => None;
       rd_borrow := None; rd_borrow_r := None; rd_borrow_eof := None;
       rd_alloc := fun _ _ _ => ret tt; rd_fuel := fun _ => fuel |}.

  (** readable.rs 402-416 [deserialize] *)
  Definition read_from_own (e : endian) (buffering : bool) (t : ty) (s : S) : res val * S :=
    let (r, s') := ReadImpl.read h (OwnReader e) t
                     {| ar_stream := s; ar_buffer := with_capacity mem (if buffering then 8 * 1024 else 0);
                        ar_buffering := buffering |} in
    (r, ar_stream s').
End Own.
