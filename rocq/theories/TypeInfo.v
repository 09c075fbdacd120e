(* Type-level trait items: speedy_is_primitive, speedy_flip_endianness,
   speedy_convert_slice_endianness, speedy_slice_from_bytes,
   minimum_bytes_needed; and the memory image of plain data. *)
From Verif Require Export Types.

(* ------------------------------------------------------------------ *)
(** * speedy_is_primitive *)

(** speedy-derive/src/lib.rs 2121: `repr(transparent)` with exactly one field. *)
Definition is_transparent (d : sdecl) (fs : fields) : bool :=
  match sd_repr d, fs with RTransparent, [_] => true | _, _ => false end.

Definition is_packed (d : sdecl) : bool :=
  match sd_repr d with RPacked => true | _ => false end.

Definition is_c (d : sdecl) : bool :=
  match sd_repr d with RC => true | _ => false end.

Definition no_len (l : lenmode) : bool := match l with LDefault => true | _ => false end.

(** speedy-derive/src/lib.rs 751-758 [Field::can_be_primitive] *)
Definition can_be_primitive (a : fattrs) : bool :=
  negb (f_eof a) && no_len (f_len a) && negb (f_skip a) && negb (f_varint a)
  && match f_prefix a with [] => true | _ => false end.

(** speedy-derive/src/lib.rs 760-762 [Field::is_simple]: the type is spelled as
    the name of a primitive. *)
Definition is_simple (f : fattrs * ty) : bool :=
  negb (f_opaque (fst f)) &&
  match snd f with TScalar (SPrim _) => true | _ => false end.

(** speedy-derive/src/lib.rs 2119-2143 [check_is_primitive],
    [is_ty_potentially_primitive] *)
Definition potentially_primitive (d : sdecl) (fs : fields) : bool :=
  (sd_forced d || forallb (fun f => can_be_primitive (fst f)) fs)
  && (sd_forced d || is_transparent d fs || is_packed d || is_c d
      || forallb is_simple fs
      || (negb (sd_generic d) && (length fs <=? 4)%nat)).

(** speedy-derive/src/lib.rs 2124 [check_order] *)
Definition check_order (d : sdecl) (fs : fields) : bool :=
  negb (is_transparent d fs) && negb (is_packed d) && negb (is_c d).

Fixpoint ascending (l : list N) : bool :=
  match l with
  | a :: ((b :: _) as r) => (a <=? b) && ascending r
  | _ => true
  end.

Definition nsum (l : list N) : N := fold_right N.add 0 l.

(** Offsets of the fields of a struct, in declaration order. *)
Definition offsets (h : host) (d : sdecl) (fs : fields) : list N :=
  map (h_offset h d fs) (seq 0 (length fs)).

(** `speedy_is_primitive`, for Readable and Writable alike:
    src/readable_impl.rs 143-147, src/readable.rs 661-663 (default),
    speedy-derive/src/lib.rs 2056-2108 [generate_is_primitive], 2166-2171
    (transparent structs ask the field's type whatever its attributes are). *)
Fixpoint is_prim (h : host) (t : ty) : bool :=
  match t with
  | TScalar (SPrim _) => true
  | TStruct d fs =>
    if is_transparent d fs then forallb (fun f => is_prim h (snd f)) fs
    else if potentially_primitive d fs then
      match fs with
      | [] => true
      | _ =>
        sd_forced d ||
        (forallb (fun f => is_prim h (snd f)) fs
         && (nsum (map (fun f => h_size h (snd f)) fs) =? h_size h t)
         && (negb (check_order d fs) || ascending (offsets h d fs)))
      end
    else false
  | _ => false
  end.

(* ------------------------------------------------------------------ *)
(** * Memory images of plain data (language semantics) *)

Definition slice {A} (l : list A) (off len : N) : list A := ntake len (ndrop off l).

(** Overwrite a range of a memory image. *)
Definition overlay (img : bytes) (off : N) (b : bytes) : bytes :=
  ntake off img ++ b ++ ndrop (off + nlen b) img.

(** Reinterpret `size_of::<T>()` bytes of memory as a [T].  Only numbers, `bool`,
    `char`, arrays and structs of these are given a meaning; `unsafe_is_primitive`
    on a struct with other fields is outside the model. *)
Fixpoint mem_read (h : host) (t : ty) (bs : bytes) : val :=
  match t with
  | TScalar (SPrim p) => VInt (of_bits p (of_ne (h_native h) bs))
  | TScalar (SNonZero p | SAtomic p) => VInt (of_bits p (of_ne (h_native h) bs))
  | TScalar (SUsize | SChar) => VInt (Z.of_N (of_ne (h_native h) bs))
  | TScalar SBool => VBool (negb (of_ne (h_native h) bs =? 0))
  | TArr t' n => VSeq (map (mem_read h t') (chunks (N.to_nat (h_size h t')) n bs))
  | TStruct d fs =>
    VSeq ((fix go (i : nat) (l : fields) : list val :=
             match l with
             | [] => []
             | f :: r =>
               mem_read h (snd f) (slice bs (h_offset h d fs i) (h_size h (snd f)))
               :: go (S i) r
             end) 0%nat fs)
  | _ => VUnit
  end.

(** Whether the bytes are a value of [T] at all: every bit pattern is a number, but
    only 0 and 1 are a `bool`, and a `char` is a Unicode scalar value.  No bytes of
    an input are a value of a type with pointers in it.  The layout of any other
    type is left to the compiler, so it counts as having no values either. *)
Fixpoint mem_ok (h : host) (t : ty) (bs : bytes) : bool :=
  match t with
  | TScalar (SPrim _ | SAtomic _ | SUsize | SUnit) => true
  | TScalar (SNonZero _) => negb (of_ne (h_native h) bs =? 0)
  | TScalar SBool => of_ne (h_native h) bs <? 2
  | TScalar SChar => is_scalar (of_ne (h_native h) bs)
  | TArr t' n => forallb (mem_ok h t') (chunks (N.to_nat (h_size h t')) n bs)
  | TStruct d fs =>
    (fix go (i : nat) (l : fields) : bool :=
       match l with
       | [] => true
       | f :: r =>
         mem_ok h (snd f) (slice bs (h_offset h d fs i) (h_size h (snd f))) && go (S i) r
       end) 0%nat fs
  | _ => false
  end.

(** The bytes a value occupies in memory; padding is shown as zero. *)
Fixpoint mem_write (h : host) (t : ty) (v : val) : bytes :=
  match t, v with
  | TScalar (SPrim p), VInt z => to_ne (h_native h) (psize p) (to_bits p z)
  | TStruct d fs, VSeq vs =>
    (fix go (i : nat) (l : fields) (us : list val) (img : bytes) : bytes :=
       match l, us with
       | f :: r, u :: ur =>
         go (S i) r ur (overlay img (h_offset h d fs i) (mem_write h (snd f) u))
       | _, _ => img
       end) 0%nat fs vs (repeat x00 (N.to_nat (h_size h t)))
  | _, _ => []
  end.

(* ------------------------------------------------------------------ *)
(** * Byte order conversion in place *)

(** `speedy_flip_endianness`: src/readable_impl.rs 160-166 (numbers);
    speedy-derive/src/lib.rs 2188-2202 (each field of a struct that may be
    plain data); the transparent branch 2166-2187 defines none, so the default
    of src/readable.rs 671-675 panics. *)
Fixpoint flip (h : host) (t : ty) (v : val) : res val :=
  match t, v with
  | TScalar (SPrim p), VInt z =>
    Ok (VInt (of_bits p (swap_bytes (psize p) (to_bits p z))))
  | TStruct d fs, VSeq vs =>
    if is_transparent d fs then Fault PanicExplicit
    else if potentially_primitive d fs then
      rmap VSeq
        ((fix go (l : fields) (us : list val) : res (list val) :=
            match l, us with
            | [], [] => Ok []
            | f :: r, u :: ur =>
              rbind (flip h (snd f) u) (fun u' => rmap (cons u') (go r ur))
            | _, _ => Fault IllTyped
            end) fs vs)
    else Fault PanicExplicit
  | _, _ => Fault PanicExplicit
  end.

(** One element of `speedy_convert_slice_endianness`: src/readable_impl.rs
    168-173 with src/endianness.rs 57-64 (numbers); speedy-derive/src/lib.rs
    2179-2185 (transparent: the field's), 2223-2232 (flip when the byte order
    differs); src/readable.rs 677-682 (default: panic). *)
Fixpoint conv (h : host) (e : endian) (t : ty) (v : val) : res val :=
  match t, v with
  | TScalar (SPrim p), VInt z =>
    if conversion_necessary (h_native h) e
    then Ok (VInt (of_bits p (swap_bytes (psize p) (to_bits p z))))
    else Ok (VInt z)
  | TStruct d fs, VSeq vs =>
    if is_transparent d fs then
      match fs, vs with
      | [f], [u] => rmap (fun u' => VSeq [u']) (conv h e (snd f) u)
      | _, _ => Fault IllTyped
      end
    else if potentially_primitive d fs then
      if conversion_necessary (h_native h) e then flip h t v else Ok v
    else Fault PanicExplicit
  | _, _ => Fault PanicExplicit
  end.

(** `speedy_slice_from_bytes`: number of elements in [n] bytes.
    src/readable_impl.rs 149-156, speedy-derive/src/lib.rs 2173-2177 and
    2210-2214, default src/readable.rs 666-669. *)
Fixpoint slice_count (h : host) (t : ty) (n : N) : res N :=
  match t with
  | TScalar (SPrim p) => Ok (n / N.of_nat (psize p))
  | TStruct d fs =>
    if is_transparent d fs then
      match fs with [f] => slice_count h (snd f) n | _ => Fault IllTyped end
    else if potentially_primitive d fs then
      if h_size h t =? 0 then Fault PanicDivZero else Ok (n / h_size h t)
    else Fault PanicExplicit
  | _ => Fault PanicExplicit
  end.

(* ------------------------------------------------------------------ *)
(** * minimum_bytes_needed *)

(** speedy-derive/src/lib.rs 2273-2280 and 1996-2001 *)
Definition basic_size (b : basic) : N :=
  match b with BU7 | BU8 | BVarint => 1 | BU16 => 2 | BU32 => 4 | BU64 => 8 end.

(** `length_type.unwrap_or( DEFAULT_LENGTH_TYPE )` *)
Definition length_type (l : lenmode) : basic :=
  match l with LType b => b | _ => BU32 end.

(** The numbers of bytes the fixed types report (src/readable_impl.rs, passim;
    src/varint.rs 154-158; the ext_*.rs files). *)
Definition scalar_min (s : scalar) : N :=
  match s with
  | SPrim p | SNonZero p | SAtomic p => N.of_nat (psize p)
  | SUsize => 8 | SBool => 1 | SChar => 4 | SEndian => 1 | SUnit => 0
  | SVarint => 1
  | SIpv4 => 4 | SIpv6 => 16 | SIpAddr => 5
  | SDuration => 12 | SSystemTime => 12
  | SUuid => 16 | SDateTime => 12
  | SGlam p n => N.of_nat (psize p) * N.of_nat n
  | SBVec _ => 1
  end.

(** speedy-derive/src/lib.rs 1972-2028 [get_minimum_bytes]; [m] is
    `minimum_bytes_needed` of a type. *)
Definition field_min (m : ty -> N) (f : fattrs * ty) : N :=
  let a := fst f in
  if f_eof a || negb (match f_len a with LDefault | LType _ => true | _ => false end)
     || f_skip a then 0
  else
    (if f_opaque a then m (snd f)
     else match snd f with
          | TOption _ => 1
          | TArr t n => m t * N.of_nat n
          | _ => if is_container (snd f) then basic_size (length_type (f_len a))
                 else if f_varint a then 1 else m (snd f)
          end) + nlen (f_prefix a).

(** `Readable::minimum_bytes_needed`.  Sums and products are taken in
    unbounded arithmetic (the code uses usize). *)
Fixpoint min_bytes (h : host) (t : ty) : N :=
  match t with
  | TScalar s => scalar_min s
  | TStr _ => 4                     (* readable_impl.rs 211, 226, 693; readable_unsized_impl.rs 30; ext_regex.rs *)
  | TSeq _ _ => 4                   (* readable_impl.rs 241, 255, 675; readable_unsized_impl.rs 52; ext_smallvec.rs *)
  | TArr t n => min_bytes h t * N.of_nat n         (* readable_impl.rs 644 *)
  | TRefArr t n => h_size h t * N.of_nat n         (* readable_unsized_impl.rs 77 *)
  | TOption _ => 1                  (* readable_impl.rs 354 *)
  | TResult _ _ => 1                (* readable_impl.rs 373 *)
  | TTuple ts => nsum (map (min_bytes h) ts)       (* readable_impl.rs 405-411 *)
  | TRange _ t => min_bytes h t * 2                (* readable_impl.rs 322, 336 *)
  | TSet _ _ => 4                   (* readable_impl.rs 57, 94 *)
  | TMap _ _ _ => 4                 (* readable_impl.rs 40, 76 *)
  | TBox t => min_bytes h t         (* readable_impl.rs 661 *)
  | TStruct _ fs => nsum (map (field_min (min_bytes h)) fs)   (* lib.rs 1680-1707, 2030-2041 *)
  | TEnum d vs =>
    (* lib.rs 2043-2054 [min] folds from 0, so which variants take part
       (2266-2270) cannot matter; 2305-2311 adds the tag or takes the maximum. *)
    let m := fold_left N.min
               (map (fun v => nsum (map (field_min (min_bytes h)) (snd v))) vs) 0 in
    if e_peek d then N.max m (basic_size (e_tag d)) else m + basic_size (e_tag d)
  | TBot => 0
  end.

(** The only value of a type without size (what a `Vec` of such a type holds
    after `set_len`). *)
Fixpoint zst_val (t : ty) : val :=
  match t with
  | TScalar SUnit => VUnit
  | TScalar (SGlam _ _) => VSeq []
  | TArr t n => VSeq (repeat (zst_val t) n)
  | TTuple ts => VSeq (map zst_val ts)
  | TStruct _ fs => VSeq (map (fun f => zst_val (snd f)) fs)
  | TEnum _ ((_, fs) :: _) => VVar 0 (map (fun f => zst_val (snd f)) fs)
  | TBox t => zst_val t
  | _ => VUnit
  end.
