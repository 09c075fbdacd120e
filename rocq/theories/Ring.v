(* The rest of src/circular_buffer.rs: the methods that only the crate's own tests
   use, and the debug assertions. *)
From Verif Require Export CircularBuffer.

Section Ring.
  (** As in [CircularBuffer]: what a fresh allocation for [n] bytes holds; with
      [reserve_exact], too, the allocator may give more than was asked for. *)
  Context (mem : N -> bytes).

  (** 209-215 [new] *)
  Definition cb_new : cbuf := {| cb_buffer := []; cb_position := 0; cb_length := 0 |}.

  (** 233-236 [is_empty] *)
  Definition cb_is_empty (c : cbuf) : bool := cb_length c =? 0.

  (** 256-287 [reserve_impl] *)
  Definition reserve_impl (size : N) (is_exact : bool) (c : cbuf) : res cbuf :=
    let new_capacity := cb_length c + size in
    if negb is_exact && (new_capacity <=? nlen (cb_buffer c)) then Ok c else
    if is_exact && (nlen (cb_buffer c) =? new_capacity) then Ok c else
    reallocate (mem new_capacity) c.

  (** 247-250 [reserve_exact] *)
  Definition reserve_exact (size : N) (c : cbuf) : res cbuf := reserve_impl size true c.

  (** 317-328 [to_vec] *)
  Definition to_vec (c : cbuf) : res bytes :=
    rbind (as_slices c) (fun ab =>
    let (a, b) := ab in Ok (a ++ match b with Some b => b | None => [] end)).

  (** 330-341 [extend_from_slice] *)
  Definition extend_from_slice (src : bytes) (c : cbuf) : res cbuf :=
    rbind (reserve mem (nlen src) c) (fun c =>
    rbind (empty (cb_position c) (cb_length c) (nlen (cb_buffer c)) (nlen src)) (fun ab =>
    let (range_1, range_2) := ab in
    rbind (index src {| r_start := 0; r_end := r_len range_1 |}) (fun src_1 =>
    rbind (copy_into (cb_buffer c) range_1 src_1) (fun buf =>
    rbind (match range_2 with
           | None => Ok buf
           | Some range_2 =>
             rbind (index src {| r_start := r_len range_1; r_end := nlen src |}) (fun src_2 =>
             copy_into buf range_2 src_2)
           end) (fun buf =>
    Ok {| cb_buffer := buf; cb_position := cb_position c; cb_length := cb_length c + nlen src |}))))).
End Ring.

(** `debug_assert_eq!` *)
Definition debug_assert_eq {A} (x y : N) (k : res A) : res A := if x =? y then k else Fault PanicAssert.

(** 15-29 [occupied] with its assertions *)
Definition occupied_debug (position length capacity : N) : res (range * option range) :=
  if position + length <=? capacity then
    let a := {| r_start := position; r_end := position + length |} in
    debug_assert_eq (r_len a) length (Ok (a, None))
  else
    let a := {| r_start := position; r_end := capacity |} in
    rbind (usub length (r_len a)) (fun n =>
    let b := {| r_start := 0; r_end := n |} in
    debug_assert_eq (r_len a + r_len b) length (Ok (a, Some b))).

(** 31-73 [empty] with its assertions (and the subtractions in them) *)
Definition empty_debug (position length capacity max : N) : res (range * option range) :=
  if position =? 0 then
    let a := {| r_start := length; r_end := capacity |} in
    rbind (usub capacity length) (fun room =>
    debug_assert_eq (r_len a) room (
    let a := if max <? r_len a then {| r_start := length; r_end := length + max |} else a in
    Ok (a, None)))
  else if capacity <=? position + length then
    rbind (usub capacity position) (fun right_chunk_length =>
    rbind (usub length right_chunk_length) (fun left_chunk_length =>
    rbind (usub capacity right_chunk_length) (fun e =>
    let a := {| r_start := left_chunk_length; r_end := e |} in
    rbind (usub capacity length) (fun room =>
    debug_assert_eq (r_len a) room (
    let a := if max <? r_len a
             then {| r_start := left_chunk_length; r_end := left_chunk_length + max |} else a in
    Ok (a, None))))))
  else
    let a := {| r_start := position + length; r_end := capacity |} in
    let b := {| r_start := 0; r_end := position |} in
    rbind (usub capacity length) (fun room =>
    debug_assert_eq (r_len a + r_len b) room (
    let chunk_length := r_len a in
    if max <=? chunk_length then
      Ok ({| r_start := position + length; r_end := position + length + max |}, None)
    else
      let max := max - chunk_length in
      let b := if max <=? r_len b then {| r_start := 0; r_end := max |} else b in
      Ok (a, Some b))).

(** 300-304 [as_slices] with its assertion *)
Definition as_slices_debug (c : cbuf) : res (bytes * option bytes) :=
  rbind (occupied_debug (cb_position c) (cb_length c) (nlen (cb_buffer c))) (fun ab =>
  let (a, b) := ab in
  debug_assert_eq (r_start a) (cb_position c) (
  rbind (index (cb_buffer c) a) (fun sa =>
  match b with
  | None => Ok (sa, None)
  | Some b => rbind (index (cb_buffer c) b) (fun sb => Ok (sa, Some sb))
  end))).
