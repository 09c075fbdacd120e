(* Contexts written by users: src/context.rs 3-6.  Their error type is made from the
   crate's errors (`From`) and says which errors mean the end of the input (`IsEof`).
   Every error the crate reports is built by `error_*()`, which convert at once
   (src/error.rs 143-222), so that a user's error is the image of one of the crate's; the
   only question ever asked about it is `is_eof` (src/reader.rs 586, 696,
   speedy-derive/src/lib.rs 1396). *)
From Verif Require Export Api.

(** What a user sees of a read. *)
Inductive seen (E A : Type) :=
| SOk (a : A)
| SErr (x : E)
| SFault (f : fault).
Arguments SOk {E A} a.
Arguments SErr {E A} x.
Arguments SFault {E A} f.
Definition shown {E A} (conv : error -> E) (r : res A) : seen E A :=
  match r with Ok a => SOk a | Err er => SErr (conv er) | Fault f => SFault f end.

(** The readers of ReadImpl that ask whether an error is the end of the input, with the
    answer as a parameter. *)
Section With.
  Context {St : Type} (h : host) (R : reader St) (eof : error -> bool).

  (** src/reader.rs 575-592, 688-700 *)
  Fixpoint until_eof_loop_with (rd : M St val) (k : nat) : M St (list val) :=
    match k with
    | O => crash Diverges
    | S k' => fun s =>
      match rd s with
      | (Ok v, s') => mmap (cons v) (until_eof_loop_with rd k') s'
      | (Err e, s') => if eof e then (Ok [], s') else (Err e, s')
      | (Fault f, s') => (Fault f, s')
      end
    end.
  Definition read_until_eof_with (rd : M St val) : M St (list val) :=
    fun s => until_eof_loop_with rd (rd_fuel R s) s.

  (** speedy-derive/src/lib.rs 1392-1400 *)
  Definition catch_eof_with {A} (dflt : A) (m : M St A) : M St A :=
    fun s => match m s with
             | (Err e, s') => if eof e then (Ok dflt, s') else (Err e, s')
             | r => r
             end.

  (** speedy-derive/src/lib.rs 1409-1432 *)
  Definition with_length_with (prev : list (option Z)) (a : fattrs)
      (k : N -> M St val) (until_eof : M St val) : M St val :=
    match f_len a with
    | LEof => until_eof
    | LExpr f => match f prev with Some n => k n | None => crash PanicOverflow end
    | l => n <- (if f_eof a then catch_eof_with 0 (read_length h R (length_type l))
                 else read_length h R (length_type l)) ;; k n
    end.

  (** speedy-derive/src/lib.rs 1434-1668 *)
  Definition read_field_inner_with (rd : ty -> M St val) (prev : list (option Z)) (a : fattrs)
      (varint : bool) (t : ty) : M St val :=
    match t with
    | TStr KString =>
      with_length_with prev a (fun n => b <- read_vec_u8 h R n ;; to_str b)
        (vs <- read_until_eof_with (read_elem_u8 h R) ;; to_str (as_bytes vs))
    | TStr KCowStr =>
      with_length_with prev a (fun n => b <- read_cow_u8 h R n ;; to_str b)
        (vs <- read_until_eof_with (read_elem_u8 h R) ;; to_str (as_bytes vs))
    | TStr KRefStr =>
      with_length_with prev a (fun n => b <- borrowed R n ;; to_str (snd b))
        (b <- match rd_borrow_eof R with Some b => b | None => fail Unsized end ;;
         to_str (snd b))
    | TSeq KVec t' =>
      with_length_with prev a (fun n => mmap VSeq (read_vec h R t' (rd t') n))
        (mmap VSeq (read_until_eof_with (rd t')))
    | TSeq KCow t' =>
      with_length_with prev a (fun n => mmap VSeq (read_cow h R t' (rd t') n))
        (mmap VSeq (read_until_eof_with (rd t')))
    | TSeq KRef t' =>
      endianness_guard h R t' ;;;
      with_length_with prev a (read_ref_slice h R t')
        (b <- match rd_borrow_eof R with Some b => b | None => fail Unsized end ;;
         if h_size h t' =? 0 then crash PanicDivZero
         else cast_slice h t' (nlen (snd b) / h_size h t') b)
    | TSet ((CBTree | CHash) as k) t' =>
      with_length_with prev a (read_collection h R k id t' (rd t'))
        (vs <- read_until_eof_with (rd t') ;; ret (VSeq (collect k id vs)))
    | TMap ((CBTree | CHash) as k) tk tv =>
      with_length_with prev a (read_kv h R k tk tv (rd tk) (rd tv))
        (vs <- read_until_eof_with (read_pair (rd tk) (rd tv)) ;; ret (VSeq (collect k pair_key vs)))
    | TArr t' n => mmap VSeq (repeatM (rd t') n)
    | TScalar (SPrim _) =>
      if varint then n <- read_varint h R ;; ret (of_n n) else rd t
    | _ => rd t
    end.

  (** speedy-derive/src/lib.rs 1402-1678 *)
  Definition read_field_with (rd : ty -> M St val) (prev : list (option Z)) (a : fattrs) (t : ty)
    : M St val :=
    let body :=
      (match f_prefix a with [] => ret tt | p => read_constant h R p end) ;;;
      if f_opaque a then rd t else
      match t with
      | TOption t' =>
        flag <- read_u8 R ;;
        if flag =? 0 then ret VNone
        else mmap VSome (read_field_inner_with rd prev a false t')
      | _ => read_field_inner_with rd prev a (f_varint a) t
      end in
    if f_eof a then catch_eof_with (f_default a) body else body.

  (** speedy-derive/src/lib.rs 1680-1707 *)
  Definition read_fields_with (rd : ty -> M St val)
    : list (option Z) -> fields -> M St (list val) :=
    fix go (prev : list (option Z)) (fs : fields) : M St (list val) :=
      match fs with
      | [] => ret []
      | f :: r =>
        if f_skip (fst f) then mmap (cons (f_default (fst f))) (go prev r)
        else
          v <- read_field_with rd prev (fst f) (snd f) ;;
          vs <- go (prev ++ [proj v]) r ;;
          ret (v :: vs)
      end.

  (** speedy-derive/src/lib.rs 2298-2304 *)
  Definition read_variant_with (rd : ty -> M St val) (tag : N)
    : nat -> list (N * fields) -> M St val :=
    fix go (i : nat) (vs : list (N * fields)) : M St val :=
      match vs with
      | [] => fail InvalidEnumVariant
      | v :: r =>
        if fst v =? tag then mmap (VVar i) (read_fields_with rd [] (snd v))
        else go (Datatypes.S i) r
      end.

  (** `Readable::read_from` of every type *)
  Fixpoint read_with (t : ty) : M St val :=
    match t with
    | TScalar s => read_scalar h R s
    | TStr k => read_str h R k
    | TSeq k t' => read_seq h R k t' (read_with t')
    | TArr t' n => read_array h R t' (read_with t') n
    | TRefArr t' n => read_ref_array h R t' n
    | TOption t' =>
      flag <- read_u8 R ;;
      if flag =? 0 then ret VNone else mmap VSome (read_with t')
    | TResult t1 t2 =>
      flag <- read_u8 R ;;
      if flag =? 0 then mmap VErr (read_with t2) else mmap VOk (read_with t1)
    | TTuple ts => mmap VSeq (read_tuple read_with ts)
    | TRange incl t' =>
      a <- read_with t' ;; b <- read_with t' ;;
      ret (VSeq (if incl then [a; b; VBool false] else [a; b]))
    | TSet k t' => n <- read_length h R BU32 ;; read_collection h R k id t' (read_with t') n
    | TMap k tk tv => n <- read_length h R BU32 ;; read_map h R k tk tv (read_with tk) (read_with tv) n
    | TBox t' => read_with t'
    | TStruct _ fs => mmap VSeq (read_fields_with read_with [] fs)
    | TEnum d vs => tag <- read_tag h R d ;; read_variant_with read_with tag 0 vs
    | TBot => crash IllTyped
    end.
End With.

(** A read with a user's context: the result as the user sees it, and the reader. *)
Definition read_in {St E} (h : host) (R : reader St) (conv : error -> E) (is_eof : E -> bool) (t : ty) (s : St)
  : seen E val * St :=
  let (r, s') := read_with h R (fun er => is_eof (conv er)) t s in (shown conv r, s').

(** src/readable.rs 493-510 [read_from_buffer_with_ctx], of a buffer at an address *)
Definition read_from_buffer_in {E} (h : host) (conv : error -> E) (is_eof : E -> bool) (e : endian) (t : ty)
    (addr : N) (bs : bytes) : seen E val :=
  if nlen bs <? min_bytes h t
  then SErr (conv (InputBufferIsTooSmall (nlen bs) (min_bytes h t)))
  else fst (read_in h (BufferReader e) conv is_eof t (br_start addr bs)).

(** src/readable.rs 402-417, 536-546: streams *)
Definition read_from_stream_in {E} (h : host) (conv : error -> E) (is_eof : E -> bool) (mem : N -> bytes)
    (buffering : bool) (e : endian) (t : ty) (i : istream) : seen E val * istream :=
  let (r, s) := read_in h (StreamReader mem e) conv is_eof t (sr_start mem buffering i) in (r, sr_stream s).
