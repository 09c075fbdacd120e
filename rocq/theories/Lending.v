(* Readers written by users of the crate that also lend: `Reader` is a public trait
   without `unsafe`, and its provided methods `skip_bytes`, `read_bytes_borrowed`,
   `read_bytes_borrowed_from_reader` and `read_bytes_borrowed_until_eof` can be
   overridden. *)
From Verif Require Export Custom.

(** src/reader.rs 77-111: the provided methods, as overridden ([None]: left alone).
    An implementation that lends in some calls and not in others is not modelled.  A
    lent slice is its address and its bytes. *)
Record lending_reader (St : Type) := {
  lr_own : user_reader St;
  lr_skip : option (N -> M St unit);
  lr_borrow : option (N -> M St (N * bytes));
  lr_borrow_r : option (N -> M St bytes);
  lr_borrow_eof : option (M St (N * bytes))
}.
Arguments lr_own {St} _.
Arguments lr_skip {St} _.
Arguments lr_borrow {St} _.
Arguments lr_borrow_r {St} _.
Arguments lr_borrow_eof {St} _.

(** src/reader.rs 56-111.  [fuel]: ghost, as in Custom.v. *)
Definition lends {St} (fuel : St -> nat) (l : lending_reader St) : reader St :=
  let u := lr_own l in
  {| rd_endian := ur_endian u;
     rd_read := ur_read u; rd_read_ptr := ur_read u;
     rd_peek := ur_peek u; rd_peek_ptr := ur_peek u;
     rd_skip := match lr_skip l with Some f => f | None => default_skip (ur_read u) end;
     rd_can := ur_can u;
     rd_borrow := lr_borrow l; rd_borrow_r := lr_borrow_r l; rd_borrow_eof := lr_borrow_eof l;
     rd_alloc := fun _ _ _ => ret tt; rd_fuel := fuel |}.

(* ------------------------------------------------------------------ *)
(** * What is done with a slice that was lent, whatever its length *)

(** [Beyond]: memory behind the end of the lent slice is read, or a reference to it is
    made. *)
Inductive touched (A : Type) :=
| Within (r : res A)
| Beyond.
Arguments Within {A} _.
Arguments Beyond {A}.

(** `let bytes = bytes?;` and then [use]. *)
Definition after {St A B} (m : M St A) (use : A -> touched B) (s : St) : touched B :=
  match fst (m s) with Ok a => use a | Err er => Within (Err er) | Fault f => Within (Fault f) end.

Section Uses.
  Context (h : host).
  Notation usize_max := (l_usize_max (h_lim h)).

  (** [n] values of [t] are taken from the address of the slice on. *)
  Definition elements_of (t : ty) (n : N) (bs : bytes) : list bytes :=
    chunks (N.to_nat (h_size h t)) (N.to_nat n) bs.

  (** src/reader.rs 653-656 and 680-683: `RawCopyIter { pointer, end: pointer.add( length ) }`
      (20-54): the length is the one that was asked for. *)
  Definition lent_raw (k : colkind) (key : val -> val) (t : ty) (length : N) (bs : bytes) : touched val :=
    if h_size h t =? 0 then
      Within match k with CBTree => Ok (VSeq []) | CHash | CIndex => Fault PanicDivZero end
    else if nlen bs <? length * h_size h t then Beyond
    else Within (Ok (VSeq (collect k key (map (mem_read h t) (elements_of t length bs))))).

  (** src/readable_unsized_impl.rs 44-47 `from_raw_parts( bytes.as_ptr() as *const T, length )`
      and 57-61, 70-72 `cast_slice`; speedy-derive/src/lib.rs 1574-1588 emits the former. *)
  Definition lent_ref (t : ty) (length : N) (b : N * bytes) : touched val :=
    if negb (fst b mod h_align h t =? 0) then Within (Fault UbMisaligned)
    else if nlen (snd b) <? length * h_size h t then Beyond
    else Within (if forallb (mem_ok h t) (elements_of t length (snd b))
                 then Ok (VSeq (map (mem_read h t) (elements_of t length (snd b)))) else Fault UbInvalid).

  (** src/reader.rs 602-617: the length is compared, the product being that of 601. *)
  Definition lent_cow (t : ty) (length : N) (b : N * bytes) : touched (list val) :=
    let size := h_size h t in
    let bs := snd b in
    if negb (nlen bs =? length * size mod (usize_max + 1)) then Within (Fault PanicAssert)
    else if (h_align h t =? 1) || (fst b mod h_align h t =? 0) then
      (* `speedy_slice_from_bytes` (src/readable_impl.rs 149-156): as many elements as there are *)
      match slice_count h t (nlen bs) with
      | Ok n => if nlen bs <? n * size then Beyond else Within (Ok (map (mem_read h t) (elements_of t n bs)))
      | Err er => Within (Err er)
      | Fault f => Within (Fault f)
      end
    else if h_alloc_max h <? length * size then Within (Fault PanicCapacity)
    else if nlen bs <? length * size then Beyond (* `set_len( length )` *)
    else Within (Ok (map (mem_read h t) (elements_of t length bs))).

  (** src/readable_unsized_impl.rs 17 `from_utf8( bytes )` *)
  Definition lent_str (b : N * bytes) : touched val :=
    Within (if utf8_valid (snd b) then Ok (VBytes (snd b)) else Err InvalidUtf8).

  (** src/private.rs 240-241 `result? == constant` *)
  Definition lent_constant (c : bytes) (b : N * bytes) : touched unit :=
    Within (if list_eq_dec Byte.byte_eq_dec (snd b) c then Ok tt else Err (ExpectedConstant c)).

  Context {St : Type}.

  (** src/reader.rs 641-660, once the reader lends. *)
  Definition touch_collection (k : colkind) (key : val -> val) (t : ty) (length : N)
      (borrow : N -> M St bytes) (s : St) : touched val :=
    if usize_max <? length * h_size h t then Within (Err OutOfRangeUsize)
    else after (borrow (length * h_size h t)) (lent_raw k key t length) s.

  (** src/readable_unsized_impl.rs 42-48 *)
  Definition touch_ref_slice (t : ty) (length : N) (borrow : N -> M St (N * bytes)) (s : St) : touched val :=
    if usize_max <? length * h_size h t then Within (Err OutOfRangeLength)
    else after (borrow (length * h_size h t)) (lent_ref t length) s.

  (** src/readable_unsized_impl.rs 70-73; the product is below isize::MAX, because it is
      the size of a type. *)
  Definition touch_ref_array (t : ty) (n : nat) (borrow : N -> M St (N * bytes)) (s : St) : touched val :=
    after (borrow (h_size h t * N.of_nat n)) (lent_ref t (N.of_nat n)) s.

  (** src/reader.rs 601-617 *)
  Definition touch_cow (t : ty) (length : N) (borrow : N -> M St (N * bytes)) (s : St) : touched (list val) :=
    if (usize_max <? length * h_size h t) && h_overflow_checks h then Within (Fault PanicOverflow)
    else after (borrow (length * h_size h t mod (usize_max + 1))) (lent_cow t length) s.
End Uses.
