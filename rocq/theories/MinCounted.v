(* `minimum_bytes_needed` with the arithmetic of `usize`, and what uses it: the entry
   points for buffers and `read_vec`.  [TypeInfo.min_bytes] has the same sums without a
   bound. *)
From Verif Require Export Counting.

Section MinCounted.
  Context (h : host).
  (** The variants of enums that take part: those with fields, none of them possibly
      recursive (speedy-derive/src/lib.rs 2266-2270). *)
  Context (part : fields -> bool).
  Notation umax := (l_usize_max (h_lim h)).
  Notation plus := (plus h).
  Notation times := (times h).

  (** speedy-derive/src/lib.rs 2030-2041 [sum]; readable_impl.rs 405-411 *)
  Definition count_sum {A} (f : A -> res N) : N -> list A -> res N :=
    fix go (out : N) (l : list A) : res N :=
    match l with
    | [] => Ok out
    | x :: r => rbind (f x) (fun n => rbind (plus out n) (fun out => go out r))
    end.

  (** speedy-derive/src/lib.rs 2043-2054 [min] *)
  Definition count_min (f : fields -> res N) : N -> list (N * fields) -> res N :=
    fix go (out : N) (l : list (N * fields)) : res N :=
    match l with
    | [] => Ok out
    | v :: r => if part (snd v) then rbind (f (snd v)) (fun n => go (N.min out n) r) else go out r
    end.

  (** speedy-derive/src/lib.rs 1972-2028 [get_minimum_bytes]; nothing is added for
      fields without a minimum. *)
  Definition field_counted (m : ty -> res N) (f : fattrs * ty) : res N :=
    let a := fst f in
    if f_eof a || negb (match f_len a with LDefault | LType _ => true | _ => false end)
       || f_skip a then Ok 0
    else
      rbind
        (if f_opaque a then m (snd f)
         else match snd f with
              | TOption _ => Ok 1
              | TArr t n => rbind (m t) (fun x => times x (N.of_nat n))
              | _ => if is_container (snd f) then Ok (basic_size (length_type (f_len a)))
                     else if f_varint a then Ok 1 else m (snd f)
              end)
        (fun x => match f_prefix a with [] => Ok x | p => plus x (nlen p) end).

  (** As [min_bytes], same lines. *)
  Fixpoint min_counted (t : ty) : res N :=
    match t with
    | TScalar (SGlam p n) => times (N.of_nat (psize p)) (N.of_nat n)   (* ext_glam.rs 26-33, 144-146 *)
    | TScalar s => Ok (scalar_min s)
    | TStr _ | TSeq _ _ | TSet _ _ | TMap _ _ _ => Ok 4
    | TArr t n => rbind (min_counted t) (fun x => times x (N.of_nat n))
    | TRefArr t n => times (h_size h t) (N.of_nat n)
    | TOption _ | TResult _ _ => Ok 1
    | TTuple ts => count_sum min_counted 0 ts
    | TRange _ t => rbind (min_counted t) (fun x => times x 2)
    | TBox t => min_counted t
    | TStruct _ fs => count_sum (field_counted min_counted) 0 fs
    | TEnum d vs =>
      rbind (count_min (count_sum (field_counted min_counted) 0) 0 vs)
        (fun x => if e_peek d then Ok (N.max x (basic_size (e_tag d))) else plus x (basic_size (e_tag d)))
    | TBot => Ok 0
    end.

  (** src/readable.rs 499-510, 523-534, as [Api.with_min] *)
  Definition with_counted (t : ty) (R : reader breader) (addr : N) (bs : bytes) : res val * N * breader :=
    match min_counted t with
    | Ok m =>
      if nlen bs <? m then (Err (InputBufferIsTooSmall (nlen bs) m), 0, br_start addr bs)
      else let (r, s) := read h R t (br_start addr bs) in (r, nlen bs - nlen (br_rest s), s)
    | Err er => (Err er, 0, br_start addr bs)
    | Fault f => (Fault f, 0, br_start addr bs)
    end.

  (** src/reader.rs 519-573, as [ReadImpl.read_vec]: `overflowing_mul` reports overflow in
      every build. *)
  Definition read_vec_counted {St} (R : reader St) (t : ty) (rd : M St val) (length : N) : M St (list val) :=
    m <- lift (min_counted t) ;;
    let size := h_size h t in
    let required := m * length in
    (if umax <? required then fail UnexpectedEndOfInput else require R required) ;;;
    alloc h R length size m ;;;
    if is_prim h t then
      bs <- rd_read_ptr R (h_capacity h length size * size) ;;
      lift (rmapM (conv h (rd_endian R) t)
              (map (mem_read h t) (chunks (N.to_nat size) (N.to_nat length) bs)))
    else if size =? 0 then ret (repeat (zst_val t) (N.to_nat length))
    else repeatM rd (N.to_nat length).
End MinCounted.
