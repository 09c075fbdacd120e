(* Readable: the generic methods of src/reader.rs 519-712, src/readable_impl.rs,
   src/readable_unsized_impl.rs, src/private.rs, the ext_*.rs files, and the
   code the derive macro generates (speedy-derive/src/lib.rs 1392-1707,
   2145-2341). *)
From Verif Require Export WriteImpl.

(** The bytes of a `Vec<u8>`. *)
Definition as_bytes (vs : list val) : bytes :=
  map (fun v => match v with VInt z => n2b (Z.to_N z) | _ => x00 end) vs.

(** The packed `Pair` struct of src/reader.rs 668-669. *)
Definition pair_decl : sdecl :=
  {| sd_id := 0; sd_repr := RPacked; sd_forced := false; sd_generic := true |}.
Definition pair_ty (tk tv : ty) : ty := TStruct pair_decl [(plain, tk); (plain, tv)].

(** `core::time::Duration::new` (std contract): carries whole seconds, panics
    when the seconds overflow a u64. *)
Definition duration_new (secs nanos : N) : res val :=
  let s := secs + nanos / 1000000000 in
  if s <? 2 ^ 64
  then Ok (VSeq [VInt (Z.of_N s); VInt (Z.of_N (nanos mod 1000000000))])
  else Fault PanicExplicit.

(** src/ext_glam.rs 91-99: component i is bit i of the mask. *)
Definition bvec_of_mask (n : nat) (mask : N) : list val :=
  map (fun i => VBool (N.testbit mask (N.of_nat i))) (seq 0 n).

Section Read.
  Context {St : Type} (h : host) (R : reader St).

  Definition usize_max : N := l_usize_max (h_lim h).

  (** mem::size_of::<T>() == 1 || !endianness.conversion_necessary() *)
  Definition no_conv (t : ty) : bool :=
    (h_size h t =? 1) || negb (conversion_necessary (h_native h) (rd_endian R)).

  (* ---------------------------------------------------------------- *)
  (** ** Lengths: src/private.rs 131-198 *)

  Definition read_length (b : basic) : M St N :=
    match b with
    | BVarint =>
      n <- read_varint h R ;;
      if usize_max <? n then fail OutOfRangeLength else ret n
    | BU64 =>
      n <- read_uint h R 8 ;;
      if usize_max <? n then fail OutOfRangeLength else ret n
    | BU32 => read_uint h R 4
    | BU16 => read_uint h R 2
    | BU8 => read_u8 R
    | BU7 => n <- read_u8 R ;; if 0x7F <? n then fail OutOfRangeLength else ret n
    end.

  (* ---------------------------------------------------------------- *)
  (** ** Generic methods of Reader *)

  (** src/reader.rs 519-573 [read_vec].  A vector of elements without size runs
      no iteration of the loop (its end pointer equals its start) and is then
      given its length. *)
  Definition read_vec (t : ty) (rd : M St val) (length : N) : M St (list val) :=
    let size := h_size h t in
    let required := min_bytes h t * length in
    (if usize_max <? required then fail UnexpectedEndOfInput else require R required) ;;;
    alloc h R length size (min_bytes h t) ;;;
    if is_prim h t then
      bs <- rd_read_ptr R (h_capacity h length size * size) ;;
      lift (rmapM (conv h (rd_endian R) t)
              (map (mem_read h t) (chunks (N.to_nat size) (N.to_nat length) bs)))
    else if size =? 0 then ret (repeat (zst_val t) (N.to_nat length))
    else repeatM rd (N.to_nat length).

  (** src/reader.rs 578-592 [read_vec_until_eof], 688-700
      [read_collection_until_eof]: read elements until one ends in
      end-of-input. *)
  Fixpoint until_eof_loop (rd : M St val) (k : nat) : M St (list val) :=
    match k with
    | O => crash Diverges
    | S k' => fun s =>
      match rd s with
      | (Ok v, s') => mmap (cons v) (until_eof_loop rd k') s'
      | (Err e, s') => if is_eof e then (Ok [], s') else (Err e, s')
      | (Fault f, s') => (Fault f, s')
      end
    end.
  Definition read_until_eof (rd : M St val) : M St (list val) :=
    fun s => until_eof_loop rd (rd_fuel R s) s.

  (** src/reader.rs 597-621 [read_cow].  The product `length * size_of` is
      computed in usize: it panics or wraps. *)
  Definition read_cow (t : ty) (rd : M St val) (length : N) : M St (list val) :=
    match (if is_prim h t && no_conv t then rd_borrow R else None) with
    | Some borrow =>
      let size := h_size h t in
      (if (usize_max <? length * size) && h_overflow_checks h
       then crash PanicOverflow else ret tt) ;;;
      b <- borrow (length * size mod (usize_max + 1)) ;;
      let (addr, bs) := (b : N * bytes) in
      if (h_align h t =? 1) || (addr mod h_align h t =? 0) then
        n <- lift (slice_count h t (nlen bs)) ;;
        ret (map (mem_read h t) (chunks (N.to_nat size) (N.to_nat n) bs))
      else
        alloc h R length size size ;;;
        ret (map (mem_read h t) (chunks (N.to_nat size) (N.to_nat length) bs))
    | None => read_vec t rd length
    end.

  (** `RawCopyIter { .. }.collect()` (src/reader.rs 20-54): with elements
      without size the pointers coincide, so `next` ends at once; hash and index
      containers first ask for the length, which divides by the size.
      B-tree containers do not. *)
  Definition raw_collect (k : colkind) (key : val -> val) (t : ty) (length : N) (bs : bytes)
    : M St val :=
    if h_size h t =? 0 then
      match k with CBTree => ret (VSeq []) | CHash | CIndex => crash PanicDivZero end
    else
      ret (VSeq (collect k key
                   (map (mem_read h t)
                        (chunks (N.to_nat (h_size h t)) (N.to_nat length) bs)))).

  (** src/reader.rs 641-660 [read_collection] *)
  Definition read_collection (k : colkind) (key : val -> val) (t : ty) (rd : M St val)
      (length : N) : M St val :=
    let slow := xs <- repeatM rd (N.to_nat length) ;; ret (VSeq (collect k key xs)) in
    if is_prim h t && no_conv t then
      let bytesize := length * h_size h t in
      if usize_max <? bytesize then fail OutOfRangeUsize else
      match rd_borrow_r R with
      | Some borrow => bs <- borrow bytesize ;; raw_collect k key t length bs
      | None => slow
      end
    else slow.

  (** A key and a value, as the tuple (K, V). *)
  Definition read_pair (rk rv : M St val) : M St val :=
    a <- rk ;; b <- rv ;; ret (VSeq [a; b]).

  (** src/reader.rs 663-686 [read_key_value_collection]; the fallback reads a
      collection of tuples, which are never primitive. *)
  Definition read_kv (k : colkind) (tk tv : ty) (rk rv : M St val) (length : N) : M St val :=
    let slow := xs <- repeatM (read_pair rk rv) (N.to_nat length) ;;
                ret (VSeq (collect k pair_key xs)) in
    if is_prim h tk && is_prim h tv
       && (((h_size h tk =? 1) && (h_size h tv =? 1))
           || negb (conversion_necessary (h_native h) (rd_endian R))) then
      let bytesize := length * h_size h (pair_ty tk tv) in
      if usize_max <? bytesize then fail OutOfRangeUsize else
      match rd_borrow_r R with
      | Some borrow => bs <- borrow bytesize ;; raw_collect k pair_key (pair_ty tk tv) length bs
      | None => slow
      end
    else slow.

  (** Maps: readable_impl.rs 28-97 (B-tree and hash maps); ext_indexmap.rs 17-20
      reads a collection of tuples. *)
  Definition read_map (k : colkind) (tk tv : ty) (rk rv : M St val) (length : N) : M St val :=
    match k with
    | CIndex => xs <- repeatM (read_pair rk rv) (N.to_nat length) ;;
                ret (VSeq (collect k pair_key xs))
    | _ => read_kv k tk tv rk rv length
    end.

  (* ---------------------------------------------------------------- *)
  (** ** Scalars *)

  Definition of_n (n : N) : val := VInt (Z.of_N n).

  (** src/readable_impl.rs 512-541 *)
  Definition read_ipv4 : M St val :=
    n <- read_uint h R 4 ;; ret (VBytes (rev (le_bytes 4 n))).
  Definition read_ipv6 : M St val :=
    octets <- rd_read R 16 ;;
    ret (VBytes (if negb (conversion_necessary (h_native h) (rd_endian R))
                 then rev octets else octets)).

  (** src/readable_impl.rs 560-572 *)
  Definition read_duration : M St val :=
    secs <- read_uint h R 8 ;;
    nanos <- read_uint h R 4 ;;
    lift (duration_new secs nanos).

  Definition read_scalar (s : scalar) : M St val :=
    match s with
    | SPrim p => z <- read_prim h R p ;; ret (VInt z)                       (* 129-184 *)
    | SUsize =>                                                            (* 186-201 *)
      n <- read_uint h R 8 ;;
      if usize_max <? n then fail OutOfRangeUsize else ret (of_n n)
    | SBool => n <- read_u8 R ;; ret (VBool (negb (n =? 0)))               (* 99-114 *)
    | SChar =>                                                             (* 116-127 *)
      n <- read_uint h R 4 ;;
      if is_scalar n then ret (of_n n) else fail InvalidChar
    | SEndian =>                                                           (* 428-443 *)
      n <- read_u8 R ;;
      if n =? 0 then ret (VVar 0 []) else if n =? 1 then ret (VVar 1 [])
      else fail InvalidEnumVariant
    | SUnit => ret VUnit                                                   (* 379-389 *)
    | SNonZero p =>                                                        (* 445-460 *)
      z <- read_prim h R p ;;
      if (z =? 0)%Z then fail ZeroNonZero else ret (VInt z)
    | SAtomic p => z <- read_prim h R p ;; ret (VInt z)                     (* 471-486 *)
    | SVarint => n <- read_varint h R ;; ret (of_n n)
    | SIpv4 => read_ipv4
    | SIpv6 => read_ipv6
    | SIpAddr =>                                                           (* 543-558 *)
      n <- read_u8 R ;;
      if n =? 0 then v <- read_ipv4 ;; ret (VVar 0 [v])
      else if n =? 1 then v <- read_ipv6 ;; ret (VVar 1 [v])
      else fail InvalidEnumVariant
    | SDuration => read_duration
    | SSystemTime =>                                                       (* 574-586 *)
      d <- read_duration ;;
      match d with
      | VSeq (VInt secs :: _) =>
        if (Z.of_N (l_systime_max (h_lim h)) <? secs)%Z then fail InvalidSystemTime else ret d
      | _ => crash IllTyped
      end
    | SUuid => b <- rd_read R 16 ;; ret (VBytes b)                         (* ext_uuid.rs 20-24 *)
    | SDateTime =>                                                         (* ext_chrono.rs 20-24 *)
      secs <- read_prim h R I64 ;;
      nanos <- read_uint h R 4 ;;
      if l_chrono_ok (h_lim h) secs nanos
      then ret (VSeq [VInt secs; of_n nanos]) else crash PanicExplicit
    | SGlam p n => vs <- repeatM (z <- read_prim h R p ;; ret (VInt z)) n ;; ret (VSeq vs)
    | SBVec n => m <- read_u8 R ;; ret (VSeq (bvec_of_mask n m))
    end.

  (* ---------------------------------------------------------------- *)
  (** ** Strings *)

  (** src/private.rs 36-56 [vec_to_string], [cow_bytes_to_cow_str]. *)
  Definition to_str (bs : bytes) : M St val :=
    if utf8_valid bs then ret (VBytes bs) else fail InvalidUtf8.

  (** `u8::read_from` *)
  Definition read_elem_u8 : M St val := z <- read_prim h R U8 ;; ret (VInt z).

  Definition read_vec_u8 (length : N) : M St bytes :=
    mmap as_bytes (read_vec TU8 read_elem_u8 length).
  Definition read_cow_u8 (length : N) : M St bytes :=
    mmap as_bytes (read_cow TU8 read_elem_u8 length).

  (** `reader.read_bytes_borrowed( n ).ok_or_else( error_unsized )??` *)
  Definition borrowed (n : N) : M St (N * bytes) :=
    match rd_borrow R with Some b => b n | None => fail Unsized end.

  (** src/private.rs 234-253 [read_constant] *)
  Definition read_constant (c : bytes) : M St unit :=
    data <- match rd_borrow R with
            | Some b => mmap snd (b (nlen c))
            | None => read_vec_u8 (nlen c)
            end ;;
    if list_eq_dec Byte.byte_eq_dec data c then ret tt else fail (ExpectedConstant c).

  (* ---------------------------------------------------------------- *)
  (** ** Borrowed slices: src/readable_unsized_impl.rs *)

  (** Reinterpreting borrowed bytes as `&[T]` of [n] elements needs an aligned
      address, and bytes that are values of [T]. *)
  Definition cast_slice (t : ty) (n : N) (b : N * bytes) : M St val :=
    if fst b mod h_align h t =? 0 then
      let l := chunks (N.to_nat (h_size h t)) (N.to_nat n) (snd b) in
      if forallb (mem_ok h t) l then ret (VSeq (map (mem_read h t) l)) else crash UbInvalid
    else crash UbMisaligned.

  Definition endianness_guard (t : ty) : M St unit :=
    if negb (h_size h t =? 1) && conversion_necessary (h_native h) (rd_endian R)
    then fail EndiannessMismatch else ret tt.

  (** 34-49: what follows once the length is known; speedy-derive/src/lib.rs
      1574-1588 emits the same. *)
  Definition read_ref_slice (t : ty) (length : N) : M St val :=
    if usize_max <? length * h_size h t then fail OutOfRangeLength else
    b <- borrowed (length * h_size h t) ;; cast_slice t length b.

  (** 63-74 *)
  Definition read_ref_array (t : ty) (n : nat) : M St val :=
    endianness_guard t ;;;
    b <- borrowed (h_size h t * N.of_nat n) ;; cast_slice t (N.of_nat n) b.

  (* ---------------------------------------------------------------- *)
  (** ** Implementations for the containers *)

  (** readable_impl.rs 203-232, 682-697; readable_unsized_impl.rs 13-19;
      ext_regex.rs 18-23 *)
  Definition read_str (k : strkind) : M St val :=
    n <- read_length BU32 ;;
    match k with
    | KString | KBoxStr => b <- read_vec_u8 n ;; to_str b
    | KCowStr => b <- read_cow_u8 n ;; to_str b
    | KRefStr => b <- borrowed n ;; to_str (snd b)
    | KRegex =>
      b <- read_cow_u8 n ;; v <- to_str b ;;
      if l_regex_ok (h_lim h) b then ret v else fail (IoError (IoOther 0))
    end.

  (** readable_impl.rs 234-260, 664-680; readable_unsized_impl.rs 34-49;
      ext_smallvec.rs 21-26 *)
  Definition read_seq (k : seqkind) (t : ty) (rd : M St val) : M St val :=
    match k with
    | KVec | KBoxSlice | KSmallVec => n <- read_length BU32 ;; mmap VSeq (read_vec t rd n)
    | KCow => n <- read_length BU32 ;; mmap VSeq (read_cow t rd n)
    | KRef => endianness_guard t ;;; n <- read_length BU32 ;; read_ref_slice t n
    end.

  (** readable_impl.rs 588-648 *)
  Definition read_array (t : ty) (rd : M St val) (n : nat) : M St val :=
    if is_prim h t then
      bs <- rd_read_ptr R (N.of_nat n * h_size h t) ;;
      mmap VSeq (lift (rmapM (conv h (rd_endian R) t)
                         (map (mem_read h t) (chunks (N.to_nat (h_size h t)) n bs))))
    else mmap VSeq (repeatM rd n).

  Definition read_tuple (rd : ty -> M St val) : list ty -> M St (list val) :=
    fix go (ts : list ty) : M St (list val) :=
      match ts with
      | [] => ret []
      | t :: r => v <- rd t ;; vs <- go r ;; ret (v :: vs)
      end.

  (* ---------------------------------------------------------------- *)
  (** ** Derived code *)

  (** speedy-derive/src/lib.rs 1392-1400 [default_on_eof_body] *)
  Definition catch_eof {A} (dflt : A) (m : M St A) : M St A :=
    fun s => match m s with
             | (Err e, s') => if is_eof e then (Ok dflt, s') else (Err e, s')
             | r => r
             end.

  (** speedy-derive/src/lib.rs 1409-1432: the length of a container field, then
      the reader that takes it, or the one that reads to the end of the input. *)
  Definition with_length (prev : list (option Z)) (a : fattrs)
      (k : N -> M St val) (until_eof : M St val) : M St val :=
    match f_len a with
    | LEof => until_eof
    | LExpr f => match f prev with Some n => k n | None => crash PanicOverflow end
    | l => n <- (if f_eof a then catch_eof 0 (read_length (length_type l))
                 else read_length (length_type l)) ;; k n
    end.

  (** speedy-derive/src/lib.rs 1434-1608: the readers of the containers
      `parse_special_ty` recognises; 1610-1623 [read_array] element by element;
      1642-1668 the choice among them. *)
  Definition read_field_inner (rd : ty -> M St val) (prev : list (option Z)) (a : fattrs)
      (varint : bool) (t : ty) : M St val :=
    match t with
    | TStr KString =>
      with_length prev a (fun n => b <- read_vec_u8 n ;; to_str b)
        (vs <- read_until_eof read_elem_u8 ;; to_str (as_bytes vs))
    | TStr KCowStr =>
      with_length prev a (fun n => b <- read_cow_u8 n ;; to_str b)
        (vs <- read_until_eof read_elem_u8 ;; to_str (as_bytes vs))
    | TStr KRefStr =>
      with_length prev a (fun n => b <- borrowed n ;; to_str (snd b))
        (b <- match rd_borrow_eof R with Some b => b | None => fail Unsized end ;;
         to_str (snd b))
    | TSeq KVec t' =>
      with_length prev a (fun n => mmap VSeq (read_vec t' (rd t') n))
        (mmap VSeq (read_until_eof (rd t')))
    | TSeq KCow t' =>
      with_length prev a (fun n => mmap VSeq (read_cow t' (rd t') n))
        (mmap VSeq (read_until_eof (rd t')))
    | TSeq KRef t' =>
      endianness_guard t' ;;;
      with_length prev a (read_ref_slice t')
        (b <- match rd_borrow_eof R with Some b => b | None => fail Unsized end ;;
         if h_size h t' =? 0 then crash PanicDivZero
         else cast_slice t' (nlen (snd b) / h_size h t') b)
    | TSet ((CBTree | CHash) as k) t' =>
      with_length prev a (read_collection k id t' (rd t'))
        (vs <- read_until_eof (rd t') ;; ret (VSeq (collect k id vs)))
    | TMap ((CBTree | CHash) as k) tk tv =>
      with_length prev a (read_kv k tk tv (rd tk) (rd tv))
        (vs <- read_until_eof (read_pair (rd tk) (rd tv)) ;; ret (VSeq (collect k pair_key vs)))
    | TArr t' n => mmap VSeq (repeatM (rd t') n)
    | TScalar (SPrim _) =>
      if varint then n <- read_varint h R ;; ret (of_n n) else rd t
    | _ => rd t
    end.

  (** speedy-derive/src/lib.rs 1402-1678 [read_field_body].  (`&[u8]`, 1540-1552,
      skips the byte order test and the multiplication, which cannot fail for
      elements of one byte.) *)
  Definition read_field (rd : ty -> M St val) (prev : list (option Z)) (a : fattrs) (t : ty)
    : M St val :=
    let body :=
      (match f_prefix a with [] => ret tt | p => read_constant p end) ;;;
      if f_opaque a then rd t else
      match t with
      | TOption t' =>
        flag <- read_u8 R ;;
        if flag =? 0 then ret VNone
        else mmap VSome (read_field_inner rd prev a false t')
      | _ => read_field_inner rd prev a (f_varint a) t
      end in
    if f_eof a then catch_eof (f_default a) body else body.

  (** speedy-derive/src/lib.rs 1680-1707 [readable_body] *)
  Definition read_fields (rd : ty -> M St val)
    : list (option Z) -> fields -> M St (list val) :=
    fix go (prev : list (option Z)) (fs : fields) : M St (list val) :=
      match fs with
      | [] => ret []
      | f :: r =>
        if f_skip (fst f) then mmap (cons (f_default (fst f))) (go prev r)
        else
          v <- read_field rd prev (fst f) (snd f) ;;
          vs <- go (prev ++ [proj v]) r ;;
          ret (v :: vs)
      end.

  (** speedy-derive/src/lib.rs 2282-2296: the tag reader of a derived enum. *)
  Definition read_tag (d : edecl) : M St N :=
    match e_tag d with
    | BU64 => if e_peek d then peek_uint h R 8 else read_uint h R 8
    | BU32 => if e_peek d then peek_uint h R 4 else read_uint h R 4
    | BU16 => if e_peek d then peek_uint h R 2 else read_uint h R 2
    | BU8 | BU7 => if e_peek d then peek_u8 R else read_u8 R
    | BVarint => if e_peek d then peek_varint h R else read_varint h R
    end.

  (** speedy-derive/src/lib.rs 2298-2304: the match on the tag. *)
  Definition read_variant (rd : ty -> M St val) (tag : N)
    : nat -> list (N * fields) -> M St val :=
    fix go (i : nat) (vs : list (N * fields)) : M St val :=
      match vs with
      | [] => fail InvalidEnumVariant
      | v :: r =>
        if fst v =? tag then mmap (VVar i) (read_fields rd [] (snd v))
        else go (Datatypes.S i) r
      end.

  (* ---------------------------------------------------------------- *)
  (** ** `Readable::read_from` of every type *)

  Fixpoint read (t : ty) : M St val :=
    match t with
    | TScalar s => read_scalar s
    | TStr k => read_str k
    | TSeq k t' => read_seq k t' (read t')
    | TArr t' n => read_array t' (read t') n
    | TRefArr t' n => read_ref_array t' n
    | TOption t' =>                                                        (* 341-358 *)
      flag <- read_u8 R ;;
      if flag =? 0 then ret VNone else mmap VSome (read t')
    | TResult t1 t2 =>                                                     (* 360-377 *)
      flag <- read_u8 R ;;
      if flag =? 0 then mmap VErr (read t2) else mmap VOk (read t1)
    | TTuple ts => mmap VSeq (read_tuple read ts)                          (* 391-426 *)
    | TRange incl t' =>                                                    (* 313-339 *)
      a <- read t' ;; b <- read t' ;;
      ret (VSeq (if incl then [a; b; VBool false] else [a; b]))
    | TSet k t' => n <- read_length BU32 ;; read_collection k id t' (read t') n
    | TMap k tk tv => n <- read_length BU32 ;; read_map k tk tv (read tk) (read tv) n
    | TBox t' => read t'                                                   (* 651-662 *)
    | TStruct _ fs => mmap VSeq (read_fields read [] fs)
    | TEnum d vs => tag <- read_tag d ;; read_variant read tag 0 vs
    | TBot => crash IllTyped
    end.
End Read.
