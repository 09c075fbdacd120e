(* Rust types, values, attributes and the host, as plain data.

   [ty] is a deep embedding of the Rust types the crate implements its traits
   for.  A derived struct or enum carries the list of its fields with the
   attributes the derive macro recognised. *)
From Verif Require Export Base.

(* ------------------------------------------------------------------ *)
(** * Primitive numbers *)

(** The types handled by `impl_for_primitive!` (src/readable_impl.rs 129-184,
    src/writable_impl.rs 125-166).  Floats are their bit patterns. *)
Inductive prim := U8 | U16 | U32 | U64 | U128 | I8 | I16 | I32 | I64 | I128 | F32 | F64.

(** `mem::size_of` of a primitive. *)
Definition psize (p : prim) : nat :=
  match p with
  | U8 | I8 => 1 | U16 | I16 => 2 | U32 | I32 | F32 => 4
  | U64 | I64 | F64 => 8 | U128 | I128 => 16
  end%nat.

Definition psigned (p : prim) : bool :=
  match p with I8 | I16 | I32 | I64 | I128 => true | _ => false end.

Definition pmod (p : prim) : N := 2 ^ (8 * N.of_nat (psize p)).

(** The range of a primitive type. *)
Definition prim_ok (p : prim) (z : Z) : bool :=
  let m := Z.of_N (pmod p) in
  if psigned p then ((- (m / 2) <=? z) && (z <? m / 2))%Z
  else ((0 <=? z) && (z <? m))%Z.

(** `x as uN` (two's complement). *)
Definition to_bits (p : prim) (z : Z) : N := Z.to_N (z mod Z.of_N (pmod p)).

(** `x as iN`. *)
Definition of_bits (p : prim) (n : N) : Z :=
  if psigned p && (pmod p / 2 <=? n) then (Z.of_N n - Z.of_N (pmod p))%Z
  else Z.of_N n.

(* ------------------------------------------------------------------ *)
(** * Values *)

(** Every Rust value as an untyped tree.

    - numbers, `char`, usize: [VInt]; strings, octets: [VBytes];
    - tuples, structs, slices, arrays: [VSeq];
    - sets: [VSeq] of elements, maps: [VSeq] of pairs [VSeq [k; v]], hash and
      B-tree containers sorted by key (a canonical representative; the order a
      hash table is iterated in is [h_iter] below), index containers in
      insertion order;
    - `Range`: [VSeq [start; end]]; `RangeInclusive`:
      [VSeq [start; end; VBool exhausted]];
    - `Duration`, `SystemTime`, `DateTime<Utc>`: [VSeq [VInt secs; VInt nanos]];
    - `IpAddr`, `Endianness` and derived enums: [VVar index fields]. *)
Inductive val :=
| VUnit
| VBool (b : bool)
| VInt (z : Z)
| VBytes (b : bytes)
| VSeq (vs : list val)
| VNone
| VSome (v : val)
| VOk (v : val)
| VErr (v : val)
| VVar (i : nat) (vs : list val).

Definition byte_cmp (a b : byte) : comparison := N.compare (b2n a) (b2n b).

Definition lex_cmp {A} (cmp : A -> A -> comparison) : list A -> list A -> comparison :=
  fix go (l1 l2 : list A) : comparison :=
    match l1, l2 with
    | [], [] => Eq
    | [], _ :: _ => Lt
    | _ :: _, [] => Gt
    | a :: r1, b :: r2 => match cmp a b with Eq => go r1 r2 | c => c end
    end.

Definition vrank (v : val) : N :=
  match v with
  | VUnit => 0 | VBool _ => 1 | VInt _ => 2 | VBytes _ => 3 | VSeq _ => 4
  | VNone => 5 | VSome _ => 6 | VOk _ => 7 | VErr _ => 8 | VVar _ _ => 9
  end.

(** The order std and `#[derive(Ord)]` give: numbers numerically, strings and
    sequences lexicographically, `None < Some`, `Ok < Err`, variants by position.
    User-written `Ord`, `Eq` and `Hash` implementations are not modelled. *)
Fixpoint val_cmp (a b : val) : comparison :=
  match a, b with
  | VBool x, VBool y =>
    match x, y with false, true => Lt | true, false => Gt | _, _ => Eq end
  | VInt x, VInt y => Z.compare x y
  | VBytes x, VBytes y => lex_cmp byte_cmp x y
  | VSeq x, VSeq y => lex_cmp val_cmp x y
  | VSome x, VSome y => val_cmp x y
  | VOk x, VOk y => val_cmp x y
  | VErr x, VErr y => val_cmp x y
  | VVar i x, VVar j y =>
    match Nat.compare i j with Eq => lex_cmp val_cmp x y | c => c end
  | _, _ => N.compare (vrank a) (vrank b)
  end.

(* ------------------------------------------------------------------ *)
(** * Types *)

(** Types without type parameters. *)
Inductive scalar :=
| SPrim (p : prim)
| SUsize | SBool | SChar | SEndian | SUnit
| SNonZero (p : prim) | SAtomic (p : prim)
| SVarint                      (* VarInt64 *)
| SIpv4 | SIpv6 | SIpAddr
| SDuration | SSystemTime
| SUuid                        (* src/ext_uuid.rs *)
| SDateTime                    (* src/ext_chrono.rs *)
| SGlam (p : prim) (n : nat)   (* src/ext_glam.rs: vectors, quaternions, matrices *)
| SBVec (n : nat).             (* src/ext_glam.rs: boolean vectors *)

(** speedy-derive/src/lib.rs 350-357 [BasicType] *)
Inductive basic := BU7 | BU8 | BU16 | BU32 | BU64 | BVarint.

(** String types: String, Box<str>, Cow<str>, &str, regex::Regex. *)
Inductive strkind := KString | KBoxStr | KCowStr | KRefStr | KRegex.
(** Slice types: Vec<T>, Box<[T]>, SmallVec, Cow<[T]>, &[T]. *)
Inductive seqkind := KVec | KBoxSlice | KSmallVec | KCow | KRef.
(** Collection types: BTreeSet/BTreeMap, HashSet/HashMap, IndexSet/IndexMap
    (and `Cow` of the first two, which read and write the same way). *)
Inductive colkind := CBTree | CHash | CIndex.

(** Field attributes `length` and `length_type`
    (speedy-derive/src/lib.rs 814-830, 1184-1390).  A length expression is a
    function of the integers held by the earlier non-skipped fields and of the lengths
    of those that have one ([None] for any other field); it yields the value after `as usize`, or
    [None] when its evaluation overflows. *)
Inductive lenmode :=
| LDefault
| LType (b : basic)
| LExpr (f : list (option Z) -> option N)
| LEof.

(** What a length expression can see of an earlier field: an integer, or how many
    elements or bytes it has (`.len()`). *)
Definition proj (v : val) : option Z :=
  match v with
  | VInt z => Some z
  | VBytes b => Some (Z.of_N (nlen b))
  | VSeq vs => Some (Z.of_N (nlen vs))
  | _ => None
  end.

(** speedy-derive/src/lib.rs 737-748 [Field].  [f_opaque]: the field's type is
    written in a form `parse_special_ty` (1060-1182) does not recognise (an alias
    or a longer path).  [f_default] is the `Default::default()` of the field's
    type.  An absent constant prefix is the empty string (1255-1259). *)
Record fattrs := {
  f_eof : bool;
  f_skip : bool;
  f_varint : bool;
  f_opaque : bool;
  f_len : lenmode;
  f_prefix : bytes;
  f_default : val
}.

Definition plain : fattrs :=
  {| f_eof := false; f_skip := false; f_varint := false; f_opaque := false;
     f_len := LDefault; f_prefix := []; f_default := VUnit |}.

(** `#[repr(..)]` as `check_repr` (speedy-derive/src/lib.rs 566-592) sees it. *)
Inductive repr := RRust | RC | RPacked | RTransparent.

(** What the derive macro knows about a struct besides its fields:
    [sd_forced] is `unsafe_is_primitive = always`, [sd_generic] is
    [uses_generics] (71-75).  [sd_id] lets layouts of distinct declarations
    differ. *)
Record sdecl := { sd_id : N; sd_repr : repr; sd_forced : bool; sd_generic : bool }.

(** Enum attributes `tag_type` and `peek_tag`. *)
Record edecl := { e_tag : basic; e_peek : bool }.

Inductive ty :=
| TScalar (s : scalar)
| TStr (k : strkind)
| TSeq (k : seqkind) (t : ty)
| TArr (t : ty) (n : nat)
| TRefArr (t : ty) (n : nat)               (* &[T; N] *)
| TOption (t : ty)
| TResult (t1 t2 : ty)
| TTuple (ts : list ty)
| TRange (incl : bool) (t : ty)
| TSet (k : colkind) (t : ty)
| TMap (k : colkind) (tk tv : ty)
| TBox (t : ty)
| TStruct (d : sdecl) (fs : list (fattrs * ty))
| TEnum (d : edecl) (vs : list (N * list (fattrs * ty)))
| TBot.                                    (* end of a finite unrolling of a recursive type *)

Notation fields := (list (fattrs * ty)).

Definition TP (p : prim) : ty := TScalar (SPrim p).

(** Whether `parse_special_ty` (speedy-derive/src/lib.rs 1060-1182) recognises a
    bare spelling of the type as a container with a length. *)
Definition is_container (t : ty) : bool :=
  match t with
  | TStr (KString | KCowStr | KRefStr) => true
  | TSeq (KVec | KCow | KRef) _ => true
  | TSet (CBTree | CHash) _ => true
  | TMap (CBTree | CHash) _ _ => true
  | _ => false
  end.

(* ------------------------------------------------------------------ *)
(** * The host *)

(** Limits that decide which values exist: `usize::MAX`, which numbers of
    elements of a type a single allocation can hold, the last second a
    `SystemTime` can hold, `chrono`'s and `regex`'s validity checks. *)
Record limits := {
  l_usize_max : N;
  l_fits : ty -> N -> bool;
  l_systime_max : N;
  l_chrono_ok : Z -> N -> bool;
  l_regex_ok : bytes -> bool
}.

(** Everything chosen by the compiler, target and standard library. *)
Record host := {
  h_native : endian;
  h_lim : limits;
  h_overflow_checks : bool;                       (* `-C overflow-checks` *)
  h_size : ty -> N;                               (* size_of *)
  h_align : ty -> N;                              (* align_of *)
  h_offset : sdecl -> fields -> nat -> N;         (* offset_of!( Self, field ) *)
  h_capacity : N -> N -> N;                       (* Vec::<T>::with_capacity( n ).capacity(), for n and size_of T *)
  h_iter : list val -> list val;                  (* hash table iteration order *)
  h_alloc_max : N                                 (* isize::MAX, the largest allocation *)
}.

(* ------------------------------------------------------------------ *)
(** * Containers (std and indexmap contracts) *)

Definition pair_key (v : val) : val :=
  match v with VSeq (k :: _) => k | _ => v end.

(** Insert into a list sorted by key; an equal key is replaced. *)
Fixpoint sorted_insert (key : val -> val) (x : val) (l : list val) : list val :=
  match l with
  | [] => [x]
  | y :: r =>
    match val_cmp (key x) (key y) with
    | Lt => x :: y :: r
    | Eq => x :: r
    | Gt => y :: sorted_insert key x r
    end
  end.

(** IndexMap::insert: an existing key keeps its position and gets the value. *)
Fixpoint index_insert (key : val -> val) (x : val) (l : list val) : list val :=
  match l with
  | [] => [x]
  | y :: r =>
    match val_cmp (key x) (key y) with
    | Eq => x :: r
    | _ => y :: index_insert key x r
    end
  end.

Definition container_insert (k : colkind) (key : val -> val) (l : list val) (x : val) : list val :=
  match k with
  | CIndex => index_insert key x l
  | CBTree | CHash => sorted_insert key x l
  end.

(** `iter.collect()` into a set or map. *)
Definition collect (k : colkind) (key : val -> val) (xs : list val) : list val :=
  fold_left (container_insert k key) xs [].

(** The order in which `.iter()` walks a container. *)
Definition iter_order (it : list val -> list val) (k : colkind) (xs : list val) : list val :=
  match k with CHash => it xs | CBTree | CIndex => xs end.
