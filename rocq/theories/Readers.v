(* The three readers of src/readable.rs, and input streams. *)
From Verif Require Export CircularBuffer.

(* ------------------------------------------------------------------ *)
(** * Readers over a buffer *)

(** One entry of the ghost allocation log: elements asked for, size of an
    element, least number of input bytes an element takes, and the number of
    input bytes still unread. *)
Record allocation := { al_count : N; al_size : N; al_min : N; al_rest : N }.

(** BufferReader (28-33) and CopyingBufferReader (173-178): the address of the
    next byte and the bytes up to the end.  [br_log] is ghost. *)
Record breader := { br_addr : N; br_rest : bytes; br_log : list allocation }.

(** `self.ptr = self.ptr.add( n )` *)
Definition br_advance (n : N) (s : breader) : breader :=
  {| br_addr := br_addr s + n; br_rest := ndrop n (br_rest s); br_log := br_log s |}.

(** 158-160, 276-278 [can_read_at_least] *)
Definition br_can (n : N) (s : breader) : option bool := Some (n <=? nlen (br_rest s)).

(** 46-72, 188-214 [read_bytes], [read_bytes_into_ptr] *)
Definition br_read (n : N) : M breader bytes := fun s =>
  if n <=? nlen (br_rest s) then (Ok (ntake n (br_rest s)), br_advance n s)
  else (Err UnexpectedEndOfInput, s).

(** 74-98, 216-240 [peek_bytes], [peek_bytes_into_ptr] *)
Definition br_peek (n : N) : M breader bytes := fun s =>
  if n <=? nlen (br_rest s) then (Ok (ntake n (br_rest s)), s)
  else (Err UnexpectedEndOfInput, s).

(** 100-110, 242-252 [skip_bytes] *)
Definition br_skip (n : N) : M breader unit := fun s =>
  if n <=? nlen (br_rest s) then (Ok tt, br_advance n s)
  else (Err UnexpectedEndOfInput, s).

(** 112-126 [read_bytes_borrowed] *)
Definition br_borrow (n : N) : M breader (N * bytes) := fun s =>
  if n <=? nlen (br_rest s)
  then (Ok (br_addr s, ntake n (br_rest s)), br_advance n s)
  else (Err UnexpectedEndOfInput, s).

(** 128-142, 254-273 [read_bytes_borrowed_from_reader] *)
Definition br_borrow_r (n : N) : M breader bytes := br_read n.

(** 144-156 [read_bytes_borrowed_until_eof] *)
Definition br_borrow_eof : M breader (N * bytes) := fun s =>
  (Ok (br_addr s, br_rest s), br_advance (nlen (br_rest s)) s).

Definition br_alloc (n size min : N) : M breader unit := fun s =>
  (Ok tt, {| br_addr := br_addr s; br_rest := br_rest s;
             br_log := br_log s ++ [{| al_count := n; al_size := size; al_min := min;
                                       al_rest := nlen (br_rest s) |}] |}).

Definition br_fuel (s : breader) : nat := S (length (br_rest s)).

(** 45-171 [Reader for BufferReader] *)
Definition BufferReader (e : endian) : reader breader :=
  {| rd_endian := e; rd_read := br_read; rd_read_ptr := br_read;
     rd_peek := br_peek; rd_peek_ptr := br_peek; rd_skip := br_skip; rd_can := br_can;
     rd_borrow := Some br_borrow; rd_borrow_r := Some br_borrow_r;
     rd_borrow_eof := Some br_borrow_eof;
     rd_alloc := br_alloc; rd_fuel := br_fuel |}.

(** 187-289 [Reader for CopyingBufferReader] *)
Definition CopyingBufferReader (e : endian) : reader breader :=
  {| rd_endian := e; rd_read := br_read; rd_read_ptr := br_read;
     rd_peek := br_peek; rd_peek_ptr := br_peek; rd_skip := br_skip; rd_can := br_can;
     rd_borrow := None; rd_borrow_r := Some br_borrow_r; rd_borrow_eof := None;
     rd_alloc := br_alloc; rd_fuel := br_fuel |}.

(* ------------------------------------------------------------------ *)
(** * Input streams *)

(** What the next call of `Read::read` does: deliver at most so many bytes (at
    least one, unless nothing is left), or fail. *)
Inductive read_event := RChunk (k : N) | RErr (k : io_kind).

(** A stream: the bytes it still holds, and how it will behave.  After the
    schedule it delivers as much as is asked for.  (Streams that report end of
    input and later deliver more are not modelled.) *)
Record istream := { is_rest : bytes; is_sched : list read_event }.

Definition is_take (n : N) (sched : list read_event) (s : istream) : res bytes * istream :=
  (Ok (ntake n (is_rest s)), {| is_rest := ndrop n (is_rest s); is_sched := sched |}).

(** `Read::read` into a slice of length [n]. *)
Definition is_read (n : N) (s : istream) : res bytes * istream :=
  match is_sched s with
  | [] => is_take n [] s
  | RChunk k :: r => is_take (N.min n (N.max 1 k)) r s
  | RErr k :: r => (Err (IoError k), {| is_rest := is_rest s; is_sched := r |})
  end.

(** `Read::read_exact` (std's default method): interrupted reads are retried,
    end of input is `UnexpectedEof`. *)
Fixpoint read_exact_loop (n : N) (rest : bytes) (sched : list read_event) {struct sched}
  : res bytes * istream :=
  let here := {| is_rest := rest; is_sched := sched |} in
  if n =? 0 then (Ok [], here) else
  let step (c : N) (k : N -> bytes -> res bytes * istream) :=
    let got := ntake c rest in
    if nlen got =? 0 then (Err (IoError IoUnexpectedEof), snd (is_read n here))
    else let (r, s') := k (n - nlen got) (ndrop c rest) in (rmap (app got) r, s') in
  match sched with
  | [] => step n (fun n' rest' =>
            (if n' =? 0 then Ok [] else Err (IoError IoUnexpectedEof),
             {| is_rest := rest'; is_sched := [] |}))
  | RChunk c :: r => step (N.min n (N.max 1 c)) (fun n' rest' => read_exact_loop n' rest' r)
  | RErr IoInterrupted :: r => read_exact_loop n rest r
  | RErr k :: r => (Err (IoError k), {| is_rest := rest; is_sched := r |})
  end.

Definition is_read_exact (n : N) (s : istream) : res bytes * istream :=
  read_exact_loop n (is_rest s) (is_sched s).

(* ------------------------------------------------------------------ *)
(** * StreamReader *)

(** 292-297; [sr_log] is ghost. *)
Record sreader := {
  sr_stream : istream;
  sr_buffer : cbuf;
  sr_buffering : bool;
  sr_log : list allocation
}.

Section Stream.
  Context (mem : N -> bytes).

  Definition set_buffer (c : cbuf) (s : sreader) : sreader :=
    {| sr_stream := sr_stream s; sr_buffer := c; sr_buffering := sr_buffering s;
       sr_log := sr_log s |}.
  Definition set_stream (i : istream) (s : sreader) : sreader :=
    {| sr_stream := i; sr_buffer := sr_buffer s; sr_buffering := sr_buffering s;
       sr_log := sr_log s |}.

  (** Run a ring buffer operation. *)
  Definition on_buffer {A} (f : cbuf -> res (A * cbuf)) : M sreader A := fun s =>
    match f (sr_buffer s) with
    | Ok (a, c) => (Ok a, set_buffer c s)
    | Err e => (Err e, s)
    | Fault x => (Fault x, s)
    end.
  Definition see_buffer {A} (f : cbuf -> res A) : M sreader A := fun s =>
    (f (sr_buffer s), s).

  (** `self.buffer.try_append_with( size, |chunk| reader.read( chunk ) )`,
      errors converted by `Error::from_io_error`; returns the byte count. *)
  Definition sr_append (size : N) : M sreader N :=
    slot <- on_buffer (append_slot mem size) ;;
    data <- (fun s => let (r, i) := is_read (r_len slot) (sr_stream s) in (r, set_stream i s)) ;;
    on_buffer (fun c => Ok (nlen data, append_done slot data c)).

  (** 303-324: the refill loop of [read_bytes_slow]. *)
  Fixpoint sr_fill (fuel : nat) (n : N) : M sreader unit := fun s =>
    let c := sr_buffer s in
    if cb_len c <? cb_capacity c then
      match fuel with
      | O => (Fault Diverges, s)
      | S fuel' =>
        (written <- sr_append (cb_capacity c - cb_len c) ;;
         fun s =>
           if written =? 0 then
             if cb_len (sr_buffer s) <? n then (Err UnexpectedEndOfInput, s) else (Ok tt, s)
           else if n <=? cb_len (sr_buffer s) then (Ok tt, s)
           else sr_fill fuel' n s) s
      end
    else (Ok tt, s).

  (** 326-340: what follows the refill. *)
  Definition sr_drain (n : N) : M sreader bytes := fun s =>
    let length := N.min (cb_len (sr_buffer s)) n in
    (first <- (if 0 <? cb_len (sr_buffer s) then on_buffer (consume_into length) else ret []) ;;
     if n - length =? 0 then ret first
     else
       rest <- (fun s => let (r, i) := is_read_exact (n - length) (sr_stream s) in
                         (r, set_stream i s)) ;;
       ret (first ++ rest)) s.

  (** 302-341 [read_bytes_slow] *)
  Definition sr_read_slow (n : N) : M sreader bytes := fun s =>
    let cap := cb_capacity (sr_buffer s) in
    ((if sr_buffering s && (n <? cap) then sr_fill (N.to_nat cap) n else ret tt) ;;;
     sr_drain n) s.

  (** 347-354 [read_bytes] *)
  Definition sr_read (n : N) : M sreader bytes := fun s =>
    if n <=? cb_len (sr_buffer s) then on_buffer (consume_into n) s
    else sr_read_slow n s.

  (** 357-374: the refill loop of [peek_bytes]. *)
  Fixpoint sr_peek_fill (fuel : nat) (n : N) : M sreader unit := fun s =>
    let c := sr_buffer s in
    if cb_len c <? n then
      match fuel with
      | O => (Fault Diverges, s)
      | S fuel' =>
        let chunk := n - cb_len c in
        (more <- (if sr_buffering s
                  then lift (rmap (N.max chunk) (usub (cb_capacity c) (cb_len c)))
                  else ret chunk) ;;
         written <- sr_append more ;;
         if written =? 0 then fail UnexpectedEndOfInput else sr_peek_fill fuel' n) s
      end
    else (Ok tt, s).

  (** 356-386 [peek_bytes] *)
  Definition sr_peek (n : N) : M sreader bytes :=
    sr_peek_fill (N.to_nat n) n ;;;
    see_buffer (fun c => rbind (as_slices_of_length n c) (join n)).

  Definition sr_alloc (n size min : N) : M sreader unit := fun s =>
    (Ok tt, {| sr_stream := sr_stream s; sr_buffer := sr_buffer s;
               sr_buffering := sr_buffering s;
               sr_log := sr_log s ++
                 [{| al_count := n; al_size := size; al_min := min;
                     al_rest := cb_len (sr_buffer s) + nlen (is_rest (sr_stream s)) |}] |}).

  Definition sr_fuel (s : sreader) : nat :=
    S (N.to_nat (cb_len (sr_buffer s)) + length (is_rest (sr_stream s))).

  (** 344-399 [Reader for StreamReader]: everything else is the trait's default. *)
  Definition StreamReader (e : endian) : reader sreader :=
    {| rd_endian := e; rd_read := sr_read; rd_read_ptr := sr_read;
       rd_peek := sr_peek; rd_peek_ptr := sr_peek; rd_skip := default_skip sr_read;
       rd_can := fun _ _ => None;
       rd_borrow := None; rd_borrow_r := None; rd_borrow_eof := None;
       rd_alloc := sr_alloc; rd_fuel := sr_fuel |}.

  (** 404-416: the reader [deserialize] builds. *)
  Definition sr_start (buffering : bool) (i : istream) : sreader :=
    {| sr_stream := i; sr_buffer := with_capacity mem (if buffering then 8 * 1024 else 0);
       sr_buffering := buffering; sr_log := [] |}.
End Stream.
