(* `bytes_needed` with the arithmetic of `usize`: src/writable_impl.rs, the ext_*.rs
   files and SizeCalculatorCollector (src/writable.rs 87-142).  [Writers.bytes_needed]
   has the same sums without a bound. *)
From Verif Require Export Api.

Section Counting.
  Context (h : host).
  Notation umax := (l_usize_max (h_lim h)).

  (** `a + b`, `a * b` on `usize`: a panic with overflow checks, else modulo its
      size. *)
  Definition in_usize (n : N) : res N :=
    if n <=? umax then Ok n else if h_overflow_checks h then Fault PanicOverflow else Ok (n mod (umax + 1)).
  Definition plus (a b : N) : res N := in_usize (a + b).
  Definition times (a b : N) : res N := in_usize (a * b).

  (** `for item in self { size += item.bytes_needed()?; }` *)
  Definition count_each (f : val -> res N) : N -> list val -> res N :=
    fix go (size : N) (vs : list val) : res N :=
    match vs with
    | [] => Ok size
    | v :: r => rbind (f v) (fun n => rbind (plus size n) (fun size => go size r))
    end.

  (** writable_impl.rs 469-477 *)
  Definition count_tuple (f : ty -> val -> res N) : N -> list ty -> list val -> res N :=
    fix go (size : N) (ts : list ty) (vs : list val) : res N :=
    match ts, vs with
    | [], [] => Ok size
    | t :: tr, v :: vr => rbind (f t v) (fun n => rbind (plus size n) (fun size => go size tr vr))
    | _, _ => Fault IllTyped
    end.

  (** writable_impl.rs 45, 94 *)
  Definition count_pair (fk fv : val -> res N) (v : val) : res N :=
    match v with
    | VSeq [k; x] => rbind (fk k) (fun n => rbind (fv x) (plus n))
    | _ => Fault IllTyped
    end.

  (** writable.rs 91-127 *)
  Definition count_bytes (n : N) : M N unit := fun s =>
    match plus s n with Ok s' => (Ok tt, s') | Err er => (Err er, s) | Fault f => (Fault f, s) end.
  Definition CountingCollector : writer N :=
    {| wr_endian := h_native h; wr_bytes := fun b => count_bytes (nlen b); wr_can := fun _ _ => None;
       wr_u8 := fun _ => count_bytes 1; wr_uint := fun w _ => count_bytes (N.of_nat w) |}.

  (** The additions of constants to constants cannot overflow: [scalar_bytes_needed].
      ext_glam.rs 50-56, 163-169 add up the components. *)
  Definition count_scalar (s : scalar) (v : val) : res N :=
    match s, v with
    | SGlam p _, VSeq vs => count_each (fun _ => Ok (N.of_nat (psize p))) 0 vs
    | _, _ => scalar_bytes_needed s v
    end.

  (** As [bytes_needed], same lines. *)
  Fixpoint bytes_counted (t : ty) (v : val) : res N :=
    match t with
    | TScalar s => count_scalar s v
    | TStr _ =>
      match v with
      | VBytes b => rbind (is_length (nlen b)) (fun _ => rbind (times (nlen b) 1) (plus 4))
      | _ => Fault IllTyped
      end
    | TSeq _ t' =>
      match v with
      | VSeq vs =>
        rbind (is_length (nlen vs)) (fun _ =>
        if is_prim h t' then rbind (times (nlen vs) (h_size h t')) (plus 4)
        else count_each (bytes_counted t') 4 vs)
      | _ => Fault IllTyped
      end
    | TArr t' _ | TRefArr t' _ =>
      match v with VSeq vs => count_each (bytes_counted t') 0 vs | _ => Fault IllTyped end
    | TOption t' =>
      match v with
      | VSome u => rbind (bytes_counted t' u) (plus 1)
      | VNone => Ok 1
      | _ => Fault IllTyped
      end
    | TResult t1 t2 =>
      match v with
      | VOk u => rbind (bytes_counted t1 u) (plus 1)
      | VErr u => rbind (bytes_counted t2 u) (plus 1)
      | _ => Fault IllTyped
      end
    | TTuple ts => match v with VSeq vs => count_tuple bytes_counted 0 ts vs | _ => Fault IllTyped end
    | TRange _ t' =>
      match v with
      | VSeq (a :: b :: _) => rbind (bytes_counted t' a) (fun n => rbind (bytes_counted t' b) (plus n))
      | _ => Fault IllTyped
      end
    | TSet _ t' =>
      match v with
      | VSeq vs => rbind (is_length (nlen vs)) (fun _ => count_each (bytes_counted t') 4 vs)
      | _ => Fault IllTyped
      end
    | TMap _ tk tv =>
      match v with
      | VSeq vs => rbind (is_length (nlen vs)) (fun _ =>
                   count_each (count_pair (bytes_counted tk) (bytes_counted tv)) 4 vs)
      | _ => Fault IllTyped
      end
    | TBox t' => bytes_counted t' v
    | TStruct _ _ | TEnum _ _ =>
      match write h CountingCollector t v 0 with
      | (Ok _, n) => Ok n
      | (Err e, _) => Err e
      | (Fault f, _) => Fault f
      end
    | TBot => Fault IllTyped
    end.

  (** writable.rs 175-187 *)
  Definition counted_to_buffer (e : endian) (t : ty) (v : val) (buffer : bytes) : res unit * bytes :=
    match bytes_counted t v with
    | Err er => (Err er, buffer)
    | Fault f => (Fault f, buffer)
    | Ok n =>
      if n <=? nlen buffer then
        let (r, s) := write h (BufferCollector h e) t v
                        {| bc_buffer := ntake n buffer; bc_position := 0 |} in
        (r, bc_buffer s ++ ndrop n buffer)
      else (Err (OutputBufferIsTooSmall (nlen buffer) n), buffer)
    end.

  (** writable.rs 195-219; `Vec::with_capacity` refuses what cannot be allocated. *)
  Definition counted_to_vec (mem : N -> bytes) (e : endian) (t : ty) (v : val) : res bytes :=
    rbind (bytes_counted t v) (fun capacity =>
    if h_alloc_max h <? capacity then Fault PanicCapacity
    else
      let (r, s) := write h (BufferCollector h e) t v
                      {| bc_buffer := ntake capacity (mem capacity); bc_position := 0 |} in
      rbind r (fun _ =>
      if h_overflow_checks h && negb (bc_position s =? capacity) then Fault PanicAssert
      else Ok (ntake (bc_position s) (bc_buffer s)))).
End Counting.
