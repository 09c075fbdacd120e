(* `Readable` and `Writable` implementations as values: hand-written types inside the
   containers of src/readable_impl.rs and src/writable_impl.rs and inside derived types
   (speedy-derive/src/lib.rs 1392-1847, 1972-2054, 2145-2455).

   `ReadImpl.read` and `WriteImpl.write` follow a description of a type; here the generic
   code is given the implementations of its type parameters instead, whatever these are.
   Only what happens for types that are not `speedy_is_primitive`, which hand-written types
   are not (src/readable.rs 659-664): for primitive elements see `read_vec` and others
   in `ReadImpl`. *)
From Verif Require Export Programs.

(** What the generic code knows of a type: src/readable.rs 420-427, src/writable.rs
    243-254, and its size. *)
Record impl := {
  i_size : N;                                            (* mem::size_of *)
  i_only : val;                                          (* the value, if the size is 0 *)
  i_min : N;                                             (* minimum_bytes_needed *)
  i_read : forall St, reader St -> M St val;             (* read_from *)
  i_write : forall St, writer St -> val -> M St unit;    (* write_to *)
  i_needed : val -> res N                                (* bytes_needed *)
}.
Arguments i_read X {St} R : rename.
Arguments i_write X {St} W v : rename.

Section Impls.
  Context (h : host).

  (** src/writable.rs 244-251: the default `bytes_needed`. *)
  Definition size_by_writing (w : forall St, writer St -> val -> M St unit) (v : val) : res N :=
    let (r, n) := w N (SizeCalculator h) v 0 in rmap (fun _ => n) r.

  (** A type of the model. *)
  Definition of_ty (t : ty) : impl :=
    {| i_size := h_size h t; i_only := zst_val t; i_min := min_bytes h t;
       i_read := fun St R => read h R t; i_write := fun St W => write h W t;
       i_needed := bytes_needed h t |}.

  (** A hand-written type that does not ask for the context. *)
  Definition by_hand (size : N) (only : val) (min : N) (p : rprog unit) (q : val -> wprog unit) : impl :=
    {| i_size := size; i_only := only; i_min := min;
       i_read := fun St R => perform h (fun _ => R) tt p;
       i_write := fun St W v => run h (fun _ => W) None (q v);
       i_needed := fun v => size_of_program h (q v) |}.

  (* ---------------------------------------------------------------- *)
  (** ** Containers *)

  (** src/reader.rs 521-573 [read_vec].  Elements without size are not read. *)
  Definition read_elements {St} (R : reader St) (X : impl) (length : N) : M St (list val) :=
    (if usize_max h <? i_min X * length then fail UnexpectedEndOfInput
     else require R (i_min X * length)) ;;;
    alloc h R length (i_size X) (i_min X) ;;;
    if i_size X =? 0 then ret (repeat (i_only X) (N.to_nat length))
    else repeatM (i_read X R) (N.to_nat length).

  (** src/reader.rs 641-660, 663-686 *)
  Definition read_items {St} (k : colkind) (key : val -> val) (rd : M St val) (length : N) : M St val :=
    xs <- repeatM rd (N.to_nat length) ;; ret (VSeq (collect k key xs)).

  (** src/writable_impl.rs 261-276, 38-48 *)
  Definition needed_each (bn : val -> res N) (vs : list val) : res N :=
    rbind (is_length (nlen vs)) (fun _ => rmap (N.add 4) (rsum (rmapM bn vs))).

  (** `Vec<T>`, `Box<[T]>`, `Cow<[T]>`, `SmallVec`: src/readable_impl.rs 234-260,
      664-680, ext_smallvec.rs; src/writable_impl.rs 254-276 *)
  Definition vec_of (size : N) (X : impl) : impl :=
    {| i_size := size; i_only := VUnit; i_min := 4;
       i_read := fun St R => n <- read_length h R BU32 ;; mmap VSeq (read_elements R X n);
       i_write := fun St W v =>
         match v with VSeq vs => write_length h W BU32 (nlen vs) ;;; write_each (i_write X W) vs | _ => ill end;
       i_needed := fun v => match v with VSeq vs => needed_each (i_needed X) vs | _ => Fault IllTyped end |}.

  (** Sets: src/readable_impl.rs 43-57, 80-97, ext_indexmap.rs; src/writable_impl.rs 52-74,
      101-123 *)
  Definition set_of (size : N) (k : colkind) (X : impl) : impl :=
    {| i_size := size; i_only := VUnit; i_min := 4;
       i_read := fun St R => n <- read_length h R BU32 ;; read_items k id (i_read X R) n;
       i_write := fun St W v => match v with VSeq vs => write_col h W k (i_write X W) vs | _ => ill end;
       i_needed := fun v => match v with VSeq vs => needed_each (i_needed X) vs | _ => Fault IllTyped end |}.

  (** Maps: src/readable_impl.rs 28-41, 60-77, ext_indexmap.rs; src/writable_impl.rs 28-50,
      76-99 *)
  Definition map_of (size : N) (k : colkind) (X Y : impl) : impl :=
    {| i_size := size; i_only := VUnit; i_min := 4;
       i_read := fun St R => n <- read_length h R BU32 ;; read_items k pair_key (read_pair (i_read X R) (i_read Y R)) n;
       i_write := fun St W v =>
         match v with VSeq vs => write_col h W k (write_pair (i_write X W) (i_write Y W)) vs | _ => ill end;
       i_needed := fun v =>
         match v with VSeq vs => needed_each (needed_pair (i_needed X) (i_needed Y)) vs | _ => Fault IllTyped end |}.

  (** `[T; N]`: src/readable_impl.rs 588-648, src/writable_impl.rs 682-700 *)
  Definition arr_of (X : impl) (n : nat) : impl :=
    {| i_size := i_size X * N.of_nat n; i_only := VSeq (repeat (i_only X) n); i_min := i_min X * N.of_nat n;
       i_read := fun St R => mmap VSeq (repeatM (i_read X R) n);
       i_write := fun St W v => match v with VSeq vs => write_each (i_write X W) vs | _ => ill end;
       i_needed := fun v => match v with VSeq vs => rsum (rmapM (i_needed X) vs) | _ => Fault IllTyped end |}.

  (** `Option<T>`: src/readable_impl.rs 341-358, src/writable_impl.rs 395-414 *)
  Definition option_of (size : N) (X : impl) : impl :=
    {| i_size := size; i_only := VNone; i_min := 1;
       i_read := fun St R => flag <- read_u8 R ;; if flag =? 0 then ret VNone else mmap VSome (i_read X R);
       i_write := fun St W v =>
         match v with VSome u => wr_u8 W 1 ;;; i_write X W u | VNone => wr_u8 W 0 | _ => ill end;
       i_needed := fun v =>
         match v with VSome u => rmap (N.add 1) (i_needed X u) | VNone => Ok 1 | _ => Fault IllTyped end |}.

  (** `Result<T, E>`: src/readable_impl.rs 360-377, src/writable_impl.rs 416-442 *)
  Definition result_of (size : N) (X Y : impl) : impl :=
    {| i_size := size; i_only := VUnit; i_min := 1;
       i_read := fun St R =>
         flag <- read_u8 R ;; if flag =? 0 then mmap VErr (i_read Y R) else mmap VOk (i_read X R);
       i_write := fun St W v =>
         match v with
         | VOk u => wr_u8 W 1 ;;; i_write X W u
         | VErr u => wr_u8 W 0 ;;; i_write Y W u
         | _ => ill
         end;
       i_needed := fun v =>
         match v with
         | VOk u => rmap (N.add 1) (i_needed X u)
         | VErr u => rmap (N.add 1) (i_needed Y u)
         | _ => Fault IllTyped
         end |}.

  (** Tuples: src/readable_impl.rs 391-426, src/writable_impl.rs 456-493 *)
  Fixpoint read_each {St} (R : reader St) (Xs : list impl) : M St (list val) :=
    match Xs with
    | [] => ret []
    | X :: r => v <- i_read X R ;; vs <- read_each R r ;; ret (v :: vs)
    end.
  Fixpoint write_tuple_of {St} (W : writer St) (Xs : list impl) (vs : list val) : M St unit :=
    match Xs, vs with
    | [], [] => ret tt
    | X :: xr, v :: vr => i_write X W v ;;; write_tuple_of W xr vr
    | _, _ => ill
    end.
  Fixpoint needed_tuple_of (Xs : list impl) (vs : list val) : res N :=
    match Xs, vs with
    | [], [] => Ok 0
    | X :: xr, v :: vr => rbind (i_needed X v) (fun n => rmap (N.add n) (needed_tuple_of xr vr))
    | _, _ => Fault IllTyped
    end.
  Definition tuple_of (size : N) (Xs : list impl) : impl :=
    {| i_size := size; i_only := VSeq (map i_only Xs); i_min := nsum (map i_min Xs);
       i_read := fun St R => mmap VSeq (read_each R Xs);
       i_write := fun St W v => match v with VSeq vs => write_tuple_of W Xs vs | _ => ill end;
       i_needed := fun v => match v with VSeq vs => needed_tuple_of Xs vs | _ => Fault IllTyped end |}.

  (** `Box<T>`: src/readable_impl.rs 651-662, src/writable_impl.rs 702-714 *)
  Definition box_of (size : N) (X : impl) : impl :=
    {| i_size := size; i_only := VUnit; i_min := i_min X;
       i_read := fun St R => i_read X R; i_write := fun St W => i_write X W; i_needed := i_needed X |}.

  (* ---------------------------------------------------------------- *)
  (** ** Derived types *)

  (** The types `parse_special_ty` tells apart (speedy-derive/src/lib.rs 952-1182), here with
      implementations for their parameters; [hash]: a hash set or map, otherwise a B-tree. *)
  Inductive inner :=
  | NOwn (X : impl)                     (* Ty::Ty: anything else *)
  | NVec (X : impl)                     (* Ty::Vec *)
  | NSet (hash : bool) (X : impl)       (* Ty::HashSet, Ty::BTreeSet *)
  | NMap (hash : bool) (X Y : impl)     (* Ty::HashMap, Ty::BTreeMap *)
  | NArr (X : impl) (n : nat).          (* Ty::Array *)

  (** The type of a field: one of the model with everything this may contain, or one
      that involves implementations. *)
  Inductive member :=
  | MTy (t : ty)
  | MPlain (i : inner)                  (* Opt::Plain *)
  | MOption (i : inner).                (* Opt::Option *)

  Definition members : Type := list (fattrs * member).

  Definition table (hash : bool) : colkind := if hash then CHash else CBTree.

  (** speedy-derive/src/lib.rs 1434-1668 *)
  Definition read_inner {St} (R : reader St) (prev : list (option Z)) (a : fattrs) (i : inner) : M St val :=
    match i with
    | NOwn X => i_read X R
    | NVec X => with_length h R prev a (fun n => mmap VSeq (read_elements R X n))
                  (mmap VSeq (read_until_eof R (i_read X R)))
    | NSet k X => with_length h R prev a (read_items (table k) id (i_read X R))
                    (vs <- read_until_eof R (i_read X R) ;; ret (VSeq (collect (table k) id vs)))
    | NMap k X Y => with_length h R prev a (read_items (table k) pair_key (read_pair (i_read X R) (i_read Y R)))
                      (vs <- read_until_eof R (read_pair (i_read X R) (i_read Y R)) ;;
                       ret (VSeq (collect (table k) pair_key vs)))
    | NArr X n => mmap VSeq (repeatM (i_read X R) n)
    end.

  (** speedy-derive/src/lib.rs 1392-1678 *)
  Definition read_member {St} (R : reader St) (prev : list (option Z)) (a : fattrs) (m : member) : M St val :=
    match m with
    | MTy t => read_field h R (read h R) prev a t
    | MPlain i | MOption i =>
      let body :=
        (match f_prefix a with [] => ret tt | p => read_constant h R p end) ;;;
        match m with
        | MOption _ => flag <- read_u8 R ;; if flag =? 0 then ret VNone else mmap VSome (read_inner R prev a i)
        | _ => read_inner R prev a i
        end in
      if f_eof a then catch_eof (f_default a) body else body
    end.

  (** speedy-derive/src/lib.rs 1680-1707 *)
  Fixpoint read_members {St} (R : reader St) (prev : list (option Z)) (ms : members) : M St (list val) :=
    match ms with
    | [] => ret []
    | (a, m) :: r =>
      if f_skip a then mmap (cons (f_default a)) (read_members R prev r)
      else v <- read_member R prev a m ;; vs <- read_members R (prev ++ [proj v]) r ;; ret (v :: vs)
    end.

  (** speedy-derive/src/lib.rs 1735-1793 *)
  Definition write_inner {St} (W : writer St) (prev : list (option Z)) (a : fattrs) (i : inner) (v : val) : M St unit :=
    match i, v with
    | NOwn X, _ => i_write X W v
    | NVec X, VSeq vs => write_length_body h W prev (f_len a) (nlen vs) ;;; write_each (i_write X W) vs
    | NSet k X, VSeq vs => write_length_body h W prev (f_len a) (nlen vs) ;;;
                           write_each (i_write X W) (iter_order (h_iter h) (table k) vs)
    | NMap k X Y, VSeq vs => write_length_body h W prev (f_len a) (nlen vs) ;;;
                             write_each (write_pair (i_write X W) (i_write Y W)) (iter_order (h_iter h) (table k) vs)
    | NArr X n, VSeq vs => write_each (i_write X W) vs
    | _, _ => ill
    end.

  (** speedy-derive/src/lib.rs 1709-1815 *)
  Definition write_member {St} (W : writer St) (prev : list (option Z)) (a : fattrs) (m : member) (v : val) : M St unit :=
    match m with
    | MTy t => write_field h W (write h W) prev a t v
    | MPlain i => (match f_prefix a with [] => ret tt | p => write_bytes_slice h W p end) ;;; write_inner W prev a i v
    | MOption i =>
      (match f_prefix a with [] => ret tt | p => write_bytes_slice h W p end) ;;;
      match v with
      | VSome u => wr_u8 W 1 ;;; write_inner W prev a i u
      | VNone => wr_u8 W 0
      | _ => ill
      end
    end.

  (** speedy-derive/src/lib.rs 1817-1847 *)
  Fixpoint write_members {St} (W : writer St) (prev : list (option Z)) (ms : members) (vs : list val) : M St unit :=
    match ms, vs with
    | [], [] => ret tt
    | (a, m) :: mr, v :: vr =>
      if f_skip a then write_members W prev mr vr
      else write_member W prev a m v ;;; write_members W (prev ++ [proj v]) mr vr
    | _, _ => ill
    end.

  (** speedy-derive/src/lib.rs 1972-2028 *)
  Definition inner_min (a : fattrs) (i : inner) : N :=
    match i with
    | NOwn X => i_min X
    | NArr X n => i_min X * N.of_nat n
    | _ => basic_size (length_type (f_len a))
    end.
  Definition member_min (m : fattrs * member) : N :=
    let a := fst m in
    match snd m with
    | MTy t => field_min (min_bytes h) (a, t)
    | MPlain i | MOption i =>
      if f_eof a || negb (match f_len a with LDefault | LType _ => true | _ => false end) || f_skip a then 0
      else (match snd m with MOption _ => 1 | _ => inner_min a i end) + nlen (f_prefix a)
    end.
  Definition members_min (ms : members) : N := nsum (map member_min ms).

  (** speedy-derive/src/lib.rs 2145-2195, 2365-2412 *)
  Definition struct_of (size : N) (only : val) (ms : members) : impl :=
    let wr := fun St (W : writer St) v => match v with VSeq vs => write_members W [] ms vs | _ => ill end in
    {| i_size := size; i_only := only; i_min := members_min ms;
       i_read := fun St R => mmap VSeq (read_members R [] ms);
       i_write := wr; i_needed := size_by_writing wr |}.

  (** speedy-derive/src/lib.rs 2298-2304 *)
  Fixpoint read_variant_of {St} (R : reader St) (tag : N) (i : nat) (vs : list (N * members)) : M St val :=
    match vs with
    | [] => fail InvalidEnumVariant
    | (g, ms) :: r => if g =? tag then mmap (VVar i) (read_members R [] ms) else read_variant_of R tag (S i) r
    end.
  (** speedy-derive/src/lib.rs 2420-2455 *)
  Fixpoint write_variant_of {St} (W : writer St) (d : edecl) (vs : list (N * members)) (i : nat) (us : list val)
    : M St unit :=
    match vs, i with
    | [], _ => ill
    | (g, ms) :: _, O => (if e_peek d then ret tt else write_tag h W (e_tag d) g) ;;; write_members W [] ms us
    | _ :: r, S i' => write_variant_of W d r i' us
    end.
  (** speedy-derive/src/lib.rs 2282-2311 *)
  Definition enum_of (size : N) (only : val) (d : edecl) (vs : list (N * members)) : impl :=
    let wr := fun St (W : writer St) v => match v with VVar i us => write_variant_of W d vs i us | _ => ill end in
    let m := fold_left N.min (map (fun v => members_min (snd v)) vs) 0 in
    {| i_size := size; i_only := only;
       i_min := if e_peek d then N.max m (basic_size (e_tag d)) else m + basic_size (e_tag d);
       i_read := fun St R => tag <- read_tag h R d ;; read_variant_of R tag 0 vs;
       i_write := wr; i_needed := size_by_writing wr |}.

  (** The type whose implementation is never reached: see `Recursive`. *)
  Definition no_impl (size : N) : impl :=
    {| i_size := size; i_only := VUnit; i_min := 0; i_read := fun St R => crash IllTyped;
       i_write := fun St W v => ill; i_needed := fun v => Fault IllTyped |}.

  (* ---------------------------------------------------------------- *)
  (** ** Entry points *)

  Section Write.
    Context (e : endian) (X : impl) (v : val).

    (** src/writable.rs 175-187 *)
    Definition impl_to_buffer (buffer : bytes) : res unit * bytes :=
      match i_needed X v with
      | Err er => (Err er, buffer)
      | Fault f => (Fault f, buffer)
      | Ok n =>
        if n <=? nlen buffer then
          let (r, s) := i_write X (BufferCollector h e) v {| bc_buffer := ntake n buffer; bc_position := 0 |} in
          (r, bc_buffer s ++ ndrop n buffer)
        else (Err (OutputBufferIsTooSmall (nlen buffer) n), buffer)
      end.

    (** src/writable.rs 197-219 *)
    Definition impl_to_vec (mem : N -> bytes) : res bytes :=
      rbind (i_needed X v) (fun capacity =>
      let (r, s) := i_write X (BufferCollector h e) v
                      {| bc_buffer := ntake capacity (mem capacity); bc_position := 0 |} in
      rbind r (fun _ =>
      if h_overflow_checks h && negb (bc_position s =? capacity) then Fault PanicAssert
      else Ok (ntake (bc_position s) (bc_buffer s)))).

    (** src/writable.rs 223-230 *)
    Definition impl_to_stream (o : ostream) : res unit * ostream := i_write X (WritingCollector h e) v o.
  End Write.

  Section Read.
    Context (e : endian) (X : impl).

    (** src/readable.rs 499-510, 523-534: the result and the number of bytes consumed. *)
    Definition impl_from (R : reader breader) (addr : N) (bs : bytes) : res val * N :=
      if nlen bs <? i_min X then (Err (InputBufferIsTooSmall (nlen bs) (i_min X)), 0)
      else let (r, s) := i_read X R (br_start addr bs) in (r, nlen bs - nlen (br_rest s)).
    Definition impl_from_buffer := impl_from (BufferReader e).
    Definition impl_from_copied (bs : bytes) := impl_from (CopyingBufferReader e) 0 bs.

    (** src/readable.rs 402-417, 536-546 *)
    Definition impl_from_stream (mem : N -> bytes) (buffering : bool) (i : istream) : res val * sreader :=
      i_read X (StreamReader mem e) (sr_start mem buffering i).
  End Read.
End Impls.
