(* The ring buffer of StreamReader: src/circular_buffer.rs. *)
From Verif Require Export ReadImpl.

(** src/circular_buffer.rs 9-13 *)
Record cbuf := { cb_buffer : bytes; cb_position : N; cb_length : N }.

(** 239-245 [len], [capacity] *)
Definition cb_len (c : cbuf) : N := cb_length c.
Definition cb_capacity (c : cbuf) : N := nlen (cb_buffer c).

(** A range [start..end]. *)
Record range := { r_start : N; r_end : N }.
Definition r_len (r : range) : N := r_end r - r_start r.

(** `a - b` on usize; underflow panics (overflow checks on) . *)
Definition usub (a b : N) : res N := if b <=? a then Ok (a - b) else Fault PanicOverflow.

(** `&buffer[ range ]` *)
Definition index (buf : bytes) (r : range) : res bytes :=
  if (r_start r <=? r_end r) && (r_end r <=? nlen buf)
  then Ok (slice buf (r_start r) (r_end r - r_start r)) else Fault PanicAssert.

(** `buffer[ at.. ].copy_from_slice( src )` into a range of the same length. *)
Definition copy_into (buf : bytes) (r : range) (src : bytes) : res bytes :=
  if (r_start r <=? r_end r) && (r_end r <=? nlen buf) && (r_len r =? nlen src)
  then Ok (overlay buf (r_start r) src) else Fault PanicAssert.

(** 15-29 *)
Definition occupied (position length capacity : N) : res (range * option range) :=
  if position + length <=? capacity then
    Ok ({| r_start := position; r_end := position + length |}, None)
  else
    let a := {| r_start := position; r_end := capacity |} in
    rbind (usub length (r_len a)) (fun n =>
    Ok (a, Some {| r_start := 0; r_end := n |})).

(** 31-73 *)
Definition empty (position length capacity max : N) : res (range * option range) :=
  if position =? 0 then
    let a := {| r_start := length; r_end := capacity |} in
    let a := if max <? r_len a then {| r_start := length; r_end := length + max |} else a in
    Ok (a, None)
  else if capacity <=? position + length then
    rbind (usub capacity position) (fun right_chunk_length =>
    rbind (usub length right_chunk_length) (fun left_chunk_length =>
    rbind (usub capacity right_chunk_length) (fun e =>
    let a := {| r_start := left_chunk_length; r_end := e |} in
    let a := if max <? r_len a
             then {| r_start := left_chunk_length; r_end := left_chunk_length + max |} else a in
    Ok (a, None))))
  else
    let a := {| r_start := position + length; r_end := capacity |} in
    let b := {| r_start := 0; r_end := position |} in
    let chunk_length := r_len a in
    if max <=? chunk_length then
      Ok ({| r_start := position + length; r_end := position + length + max |}, None)
    else
      let max := max - chunk_length in
      let b := if max <=? r_len b then {| r_start := 0; r_end := max |} else b in
      Ok (a, Some b).

Section Cb.
  (** A fresh allocation asked to hold [n] bytes, with whatever the memory
      happened to hold; it may be longer. *)
  Context (mem : N -> bytes).

  (** 217-231 *)
  Definition with_capacity (capacity : N) : cbuf :=
    {| cb_buffer := ntake capacity (mem capacity); cb_position := 0; cb_length := 0 |}.

  (** 265-286, the second half of [reserve_impl]: moving to a new buffer *)
  Definition reallocate (new_buffer : bytes) (c : cbuf) : res cbuf :=
    rbind (occupied (cb_position c) (cb_length c) (nlen (cb_buffer c))) (fun ab =>
    let (a, b) := ab in
    rbind (index (cb_buffer c) a) (fun src_a =>
    rbind (copy_into new_buffer {| r_start := 0; r_end := r_len a |} src_a) (fun nb =>
    rbind (match b with
           | None => Ok nb
           | Some b =>
             rbind (index (cb_buffer c) b) (fun src_b =>
             copy_into nb {| r_start := r_len a; r_end := cb_length c |} src_b)
           end) (fun nb =>
    Ok {| cb_buffer := nb; cb_position := 0; cb_length := cb_length c |})))).

  (** 252-287 [reserve], [reserve_impl] with `is_exact = false` *)
  Definition reserve (size : N) (c : cbuf) : res cbuf :=
    let new_capacity := cb_length c + size in
    if new_capacity <=? nlen (cb_buffer c) then Ok c else reallocate (mem new_capacity) c.

  (** 289-297 [try_append_with], first half: the slice handed to the callback. *)
  Definition append_slot (size : N) (c : cbuf) : res (range * cbuf) :=
    rbind (reserve size c) (fun c =>
    rbind (empty (cb_position c) (cb_length c) (nlen (cb_buffer c)) size) (fun ab =>
    let r := fst ab in
    rbind (index (cb_buffer c) r) (fun _ => Ok (r, c)))).

  (** second half: the callback stored [data] at the start of the slice and
      returned its length.  (The `Read` contract: it never returns more than
      the slice holds.) *)
  Definition append_done (r : range) (data : bytes) (c : cbuf) : cbuf :=
    {| cb_buffer := overlay (cb_buffer c) (r_start r) data;
       cb_position := cb_position c;
       cb_length := cb_length c + nlen data |}.

  (** 300-304 [as_slices] *)
  Definition as_slices (c : cbuf) : res (bytes * option bytes) :=
    rbind (occupied (cb_position c) (cb_length c) (nlen (cb_buffer c))) (fun ab =>
    let (a, b) := ab in
    rbind (index (cb_buffer c) a) (fun sa =>
    match b with
    | None => Ok (sa, None)
    | Some b => rbind (index (cb_buffer c) b) (fun sb => Ok (sa, Some sb))
    end)).

  (** 307-315 [as_slices_of_length] *)
  Definition as_slices_of_length (length : N) (c : cbuf) : res (bytes * option bytes) :=
    if length <=? cb_length c then
      rbind (as_slices c) (fun ab =>
      let (a, b) := ab in
      if length <=? nlen a then Ok (ntake length a, None)
      else match b with
           | None => Ok (a, None)
           | Some b => rbind (index b {| r_start := 0; r_end := length - nlen a |})
                             (fun b' => Ok (a, Some b'))
           end)
    else Fault PanicAssert.

  (** Copying a pair of slices into an output of [n] bytes
      (`output[ ..a.len() ]`, `output[ a.len().. ]`). *)
  Definition join (n : N) (ab : bytes * option bytes) : res bytes :=
    let (a, b) := ab in
    match b with
    | None => if nlen a <=? n then Ok (a ++ repeat x00 (N.to_nat (n - nlen a)))
              else Fault PanicAssert
    | Some b => if nlen a + nlen b =? n then Ok (a ++ b) else Fault PanicAssert
    end.

  (** 344-352 [consume] *)
  Definition consume (length : N) (c : cbuf) : res cbuf :=
    if length <=? cb_length c then
      if nlen (cb_buffer c) =? 0 then Fault PanicDivZero else
      let l := cb_length c - length in
      let p := (cb_position c + length) mod nlen (cb_buffer c) in
      Ok {| cb_buffer := cb_buffer c; cb_position := if l =? 0 then 0 else p; cb_length := l |}
    else Fault PanicAssert.

  (** 372-386 [consume_into_slow] *)
  Definition consume_into_slow (n : N) (c : cbuf) : res (bytes * cbuf) :=
    if n =? 0 then Ok ([], c) else
    if n <=? cb_length c then
      rbind (as_slices_of_length n c) (fun ab =>
      rbind (join n ab) (fun out =>
      rbind (consume n c) (fun c' => Ok (out, c'))))
    else Fault PanicAssert.

  (** 355-369 [consume_into] an output of [n] bytes.  When the output is longer
      than the content, the fast path fills only its beginning; the result shows
      the bytes stored. *)
  Definition consume_into (n : N) (c : cbuf) : res (bytes * cbuf) :=
    let length := N.min (cb_length c) n in
    if cb_position c + length <? nlen (cb_buffer c) then
      rbind (index (cb_buffer c) {| r_start := cb_position c; r_end := cb_position c + length |})
        (fun out =>
         let l := cb_length c - length in
         Ok (out, {| cb_buffer := cb_buffer c;
                     cb_position := if l =? 0 then 0 else cb_position c + length;
                     cb_length := l |}))
    else consume_into_slow n c.
End Cb.
