(* Memory of a container while it is being read: the element loops of `read_vec`
   (src/reader.rs 533-570) and of arrays (src/readable_impl.rs 601-641), which
   write to uninitialised memory and have to clean up when reading fails. *)
From Verif Require Export ReadImpl.

(** One element's worth of memory. *)
Inductive slot := Uninit | Live (v : val) | Gone.

(** The memory of a container, and the values dropped so far. *)
Record mem := { m_slots : list slot; m_dropped : list val }.

Definition fresh (n : nat) : mem := {| m_slots := repeat Uninit n; m_dropped := [] |}.

Fixpoint set_slot (l : list slot) (i : nat) (x : slot) : option (list slot) :=
  match l, i with
  | [], _ => None
  | _ :: r, O => Some (x :: r)
  | y :: r, S i' => option_map (cons y) (set_slot r i' x)
  end.

(** `core::ptr::write`, and assignment to a `MaybeUninit`: whatever was there is
    overwritten without being dropped.  [None]: out of bounds. *)
Definition mem_store (m : mem) (i : N) (v : val) : option mem :=
  option_map (fun l => {| m_slots := l; m_dropped := m_dropped m |})
             (set_slot (m_slots m) (N.to_nat i) (Live v)).

(** Drop the values in the first [n] slots.  [None]: a slot holds no value, or is
    out of bounds. *)
Fixpoint drop_slots (l : list slot) (n : nat) : option (list slot * list val) :=
  match n, l with
  | O, _ => Some (l, [])
  | S n', Live v :: r => option_map (fun p => (Gone :: fst p, v :: snd p)) (drop_slots r n')
  | S _, _ => None
  end.
Definition mem_drop (m : mem) (n : N) : option mem :=
  option_map (fun p => {| m_slots := fst p; m_dropped := m_dropped m ++ snd p |})
             (drop_slots (m_slots m) (N.to_nat n)).

(** Hand out the first [n] slots as initialised. *)
Fixpoint take_slots (l : list slot) (n : nat) : option (list slot * list val) :=
  match n, l with
  | O, _ => Some (l, [])
  | S n', Live v :: r => option_map (fun p => (Gone :: fst p, v :: snd p)) (take_slots r n')
  | S _, _ => None
  end.

(** Values still in a memory when it is released are lost. *)
Fixpoint left_over (l : list slot) : list val :=
  match l with
  | [] => []
  | Live v :: r => v :: left_over r
  | _ :: r => left_over r
  end.

Section Loops.
  Context {St : Type} (rd : M St val).

  (** How a read ends: its result, the values it dropped and the values it
      lost.  [Bad]: a slot was written out of bounds, or was dropped or handed out
      without holding a value. *)
  Inductive ending :=
  | Bad
  | Done (r : res (list val)) (s : St) (dropped lost : list val).

  Definition release (r : res (list val)) (s : St) (m : mem) : ending :=
    Done r s (m_dropped m) (left_over (m_slots m)).

  (** `vec.set_len( length ); Ok( vec )` *)
  Definition hand_out (m : mem) (n : N) (s : St) : ending :=
    match take_slots (m_slots m) (N.to_nat n) with
    | Some (l, vs) => release (Ok vs) s {| m_slots := l; m_dropped := m_dropped m |}
    | None => Bad
    end.

  (** reader.rs 536-545 `drop_vec`; then the error is returned. *)
  Definition drop_vec (er : error) (s : St) (m : mem) (count : N) : ending :=
    match mem_drop m count with
    | Some m' => release (Err er) s m'
    | None => Bad
    end.

  (** reader.rs 547-569.  [p], [e]: addresses; [size]: of an element.  If reading an element
      panics the vector, whose length is still zero, is released without
      dropping anything. *)
  Fixpoint vec_loop (size base length : N) (fuel : nat) (p e count : N) (m : mem) (s : St) : ending :=
    if p <? e then
      match fuel with
      | O => Bad
      | S fuel' =>
        match rd s with
        | (Ok v, s') =>
          match mem_store m ((p - base) / size) v with
          | Some m' => vec_loop size base length fuel' (p + size) e (count + 1) m' s'
          | None => Bad
          end
        | (Err er, s') => drop_vec er s' m count
        | (Fault f, s') => release (Fault f) s' m
        end
      end
    else hand_out m length s.

  Definition vec_slots (size base length : N) (s : St) : ending :=
    vec_loop size base length (N.to_nat length) base (base + length * size) 0
             (fresh (N.to_nat length)) s.

  (** readable_impl.rs 624-641.  [State::drop] (610-622) runs when `?` returns and
      when reading an element panics; with `needs_drop::<T>() == false` it does nothing, and
      nothing is lost since dropping would have done nothing. *)
  Definition drop_state (r : res (list val)) (s : St) (m : mem) (count : N) : ending :=
    match mem_drop m count with
    | Some m' => release r s m'
    | None => Bad
    end.

  Fixpoint arr_loop (n : N) (fuel : nat) (count : N) (m : mem) (s : St) : ending :=
    if count <? n then
      match fuel with
      | O => Bad
      | S fuel' =>
        match rd s with
        | (Ok v, s') =>
          match mem_store m count v with
          | Some m' => arr_loop n fuel' (count + 1) m' s'
          | None => Bad
          end
        | (Err er, s') => drop_state (Err er) s' m count
        | (Fault f, s') => drop_state (Fault f) s' m count
        end
      end
    else hand_out m n s.      (* `mem::forget( state )`, `slice.assume_init()` *)

  Definition arr_slots (n : nat) (s : St) : ending :=
    arr_loop (N.of_nat n) n 0 (fresh n) s.
End Loops.
Arguments Bad {St}.
Arguments Done {St} _ _ _ _.
