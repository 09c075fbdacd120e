(* The front end of the derive macro, from the syntax tree of a declaration:
   recognition of type spellings, attributes, literals, `repr`, and the bounds of the
   generated impls.  speedy-derive/src/lib.rs.

   The syntax trees are those of `syn`, cut down to what the macro inspects.  Names
   are strings; a raw identifier r#x is the name "r#x", as in `proc_macro2`.  Spans
   and messages are not modelled. *)
From Coq Require Export String.
From Verif Require Export Derive WriteImpl ReadImpl ZeroCopy.
Export ListNotations.
Open Scope string_scope.
Open Scope N_scope.
Open Scope list_scope.

(* ------------------------------------------------------------------ *)
(** * Spellings of types *)

(** `syn::GenericArgument`; [ids] are the identifiers inside the parts the macro
    does not look at. *)
Inductive garg (A : Type) :=
| GLifetime (l : string)
| GType (t : A)
| GAssocType (name : string) (t : A)
| GOther (ids : list string).            (* constants, constraints *)
Arguments GLifetime {A}. Arguments GType {A}. Arguments GAssocType {A}. Arguments GOther {A}.

(** `syn::PathArguments`; [turbofish] is `colon2_token`. *)
Inductive pargs (A : Type) :=
| NoArgs
| Angle (turbofish : bool) (l : list (garg A))
| Parenthesized (ids : list string).     (* Fn( A ) -> B *)
Arguments NoArgs {A}. Arguments Angle {A}. Arguments Parenthesized {A}.

(** `syn::Expr` as the length of an array. *)
Inductive alen :=
| LenInt (n : N) (attrs : bool)          (* an integer literal, perhaps with attributes *)
| LenLit                                 (* another literal *)
| LenExpr (ids : list string).           (* any other expression *)

(** `syn::Type`. *)
Inductive spelled :=
| YPath (qself : bool) (colon : bool) (segments : list (string * pargs spelled))
| YSlice (t : spelled)
| YArray (t : spelled) (n : alen)
| YTuple (ts : list spelled)
| YRef (lifetime : option string) (mutable : bool) (t : spelled)
| YPtr (t : spelled)
| YParen (t : spelled)
| YGroup (t : spelled)                   (* invisible delimiters: a `$ty` of macro_rules *)
| YNever
| YOther (ids : list string).            (* functions, trait objects, macros, `_` *)

(** A name on its own. *)
Definition bare_name (name : string) : spelled := YPath false false [(name, NoArgs)].
(** A name with arguments. *)
Definition name_with (name : string) (args : list (garg spelled)) : spelled := YPath false false [(name, Angle false args)].

Definition named (l : list string) (x : string) : bool := existsb (String.eqb x) l.

(** lib.rs 77-125 *)
Fixpoint possibly_uses_generic_ty (generics : list string) (t : spelled) : bool :=
  match t with
  | YPath false false segments =>
    existsb (fun s => named generics (fst s)
                      || match snd s with
                         | NoArgs => false
                         | Angle _ args =>
                           existsb (fun a => match a with
                                             | GLifetime _ => false
                                             | GType u | GAssocType _ u => possibly_uses_generic_ty generics u
                                             | GOther _ => true
                                             end) args
                         | Parenthesized _ => true
                         end) segments
  | YSlice u | YRef _ _ u | YParen u | YPtr u | YGroup u => possibly_uses_generic_ty generics u
  | YTuple ts => existsb (possibly_uses_generic_ty generics) ts
  | YArray u n =>
    possibly_uses_generic_ty generics u || match n with LenInt _ _ | LenLit => false | LenExpr _ => true end
  | YNever => false
  | _ => true
  end.

(** lib.rs 172-175 *)
Definition known_names : list string :=
  ["String"; "Vec"; "BTreeSet"; "BTreeMap"; "HashSet"; "HashMap"; "u8"; "u16"; "u32"; "u64"; "i8"; "i16"; "i32";
   "i64"; "usize"; "isize"; "str"].

(** lib.rs 161-216 *)
Fixpoint is_guaranteed_non_recursive (t : spelled) : bool :=
  match t with
  | YPath false false [s] =>
    named known_names (fst s)
    && match snd s with
       | NoArgs => true
       | Angle _ args =>
         forallb (fun a => match a with
                           | GLifetime _ => true
                           | GType u | GAssocType _ u => is_guaranteed_non_recursive u
                           | GOther _ => false
                           end) args
       | Parenthesized _ => false
       end
  | YSlice u | YRef _ _ u | YParen u | YPtr u | YGroup u => is_guaranteed_non_recursive u
  | YTuple ts => forallb is_guaranteed_non_recursive ts
  | YArray u n =>
    is_guaranteed_non_recursive u && match n with LenInt _ _ | LenLit => true | LenExpr _ => false end
  | YNever => true
  | _ => false
  end.

(** lib.rs 266-279 *)
Definition prim_named (name : string) : option prim :=
  if (name =? "u8")%string then Some U8 else if (name =? "u16")%string then Some U16
  else if (name =? "u32")%string then Some U32 else if (name =? "u64")%string then Some U64
  else if (name =? "u128")%string then Some U128 else if (name =? "i8")%string then Some I8
  else if (name =? "i16")%string then Some I16 else if (name =? "i32")%string then Some I32
  else if (name =? "i64")%string then Some I64 else if (name =? "i128")%string then Some I128
  else if (name =? "f32")%string then Some F32 else if (name =? "f64")%string then Some F64
  else None.

(** lib.rs 257-282 *)
Definition parse_primitive_ty (t : spelled) : option prim :=
  match t with YPath false false [s] => prim_named (fst s) | _ => None end.

(** lib.rs 961-990 [Ty]; lifetimes play no role. *)
Inductive kind (A : Type) :=
| TyString
| TyVec (t : A)
| TyCowSlice (t : A)
| TyCowStr
| TyHashMap (k v : A)
| TyHashSet (t : A)
| TyBTreeMap (k v : A)
| TyBTreeSet (t : A)
| TyCowHashMap (k v : A)
| TyCowHashSet (t : A)
| TyCowBTreeMap (k v : A)
| TyCowBTreeSet (t : A)
| TyRefSliceU8
| TyRefSlice (t : A)
| TyRefStr
| TyArray (t : A) (n : N)
| TyPrimitive (p : prim)
| TyTy (t : A).
Arguments TyString {A}. Arguments TyVec {A}. Arguments TyCowSlice {A}. Arguments TyCowStr {A}.
Arguments TyHashMap {A}. Arguments TyHashSet {A}. Arguments TyBTreeMap {A}. Arguments TyBTreeSet {A}.
Arguments TyCowHashMap {A}. Arguments TyCowHashSet {A}. Arguments TyCowBTreeMap {A}. Arguments TyCowBTreeSet {A}.
Arguments TyRefSliceU8 {A}. Arguments TyRefSlice {A}. Arguments TyRefStr {A}. Arguments TyArray {A}.
Arguments TyPrimitive {A}. Arguments TyTy {A}.

(** lib.rs 945-959 [Opt] *)
Inductive opt (A : Type) := Plain (t : A) | Opt (t : A).
Arguments Plain {A}. Arguments Opt {A}.
Definition opt_inner {A} (o : opt A) : A := match o with Plain t | Opt t => t end.

(** lib.rs 992-1001 *)
Definition extract_inner_ty {A} (args : list (garg A)) : option A :=
  match args with [GType t] => Some t | _ => None end.

(** lib.rs 1003-1019 *)
Definition extract_inner_ty_2 {A} (args : list (garg A)) : option (A * A) :=
  match args with [GType t; GType u] => Some (t, u) | _ => None end.

(** lib.rs 1021-1037 *)
Definition extract_lifetime_and_inner_ty {A} (args : list (garg A)) : option A :=
  match args with [GLifetime _; GType t] => Some t | _ => None end.

(** lib.rs 1039-1046 *)
Definition extract_slice_inner_ty (t : spelled) : option spelled :=
  match t with YSlice u => Some u | _ => None end.

(** lib.rs 1048-1055 *)
Definition is_bare_ty (t : spelled) (name : string) : bool :=
  match t with
  | YPath false false [s] => (fst s =? name)%string && match snd s with NoArgs => true | _ => false end
  | _ => false
  end.

(** lib.rs 1057-1074 *)
Definition extract_option_inner_ty (t : spelled) : option spelled :=
  match t with
  | YPath false false [s] =>
    if (fst s =? "Option")%string then match snd s with Angle false [GType u] => Some u | _ => None end else None
  | _ => None
  end.

Definition omap {A B} (f : A -> B) (o : option A) : option B := match o with Some a => Some (f a) | None => None end.

(** lib.rs 1105-1124: `Cow` of a collection. *)
Definition parse_cow_collection (t : spelled) : option (kind spelled) :=
  match t with
  | YPath false false [s] =>
    match snd s with
    | Angle false args =>
      if (fst s =? "HashSet")%string then omap TyCowHashSet (extract_inner_ty args)
      else if (fst s =? "BTreeSet")%string then omap TyCowBTreeSet (extract_inner_ty args)
      else if (fst s =? "HashMap")%string then omap (fun p => TyCowHashMap (fst p) (snd p)) (extract_inner_ty_2 args)
      else if (fst s =? "BTreeMap")%string then omap (fun p => TyCowBTreeMap (fst p) (snd p)) (extract_inner_ty_2 args)
      else None
    | _ => None
    end
  | _ => None
  end.

(** lib.rs 1080-1182 *)
Definition parse_special_ty (t : spelled) : option (kind spelled) :=
  match parse_primitive_ty t with
  | Some p => Some (TyPrimitive p)
  | None =>
    match t with
    | YPath false false [s] =>
      match snd s with
      | NoArgs => if (fst s =? "String")%string then Some TyString else None
      | Angle false args =>
        if (fst s =? "Vec")%string then omap TyVec (extract_inner_ty args)
        else if (fst s =? "HashSet")%string then omap TyHashSet (extract_inner_ty args)
        else if (fst s =? "BTreeSet")%string then omap TyBTreeSet (extract_inner_ty args)
        else if (fst s =? "Cow")%string then
          match extract_lifetime_and_inner_ty args with
          | None => None
          | Some u =>
            match extract_slice_inner_ty u with
            | Some w => Some (TyCowSlice w)
            | None => if is_bare_ty u "str" then Some TyCowStr else parse_cow_collection u
            end
          end
        else if (fst s =? "HashMap")%string then omap (fun p => TyHashMap (fst p) (snd p)) (extract_inner_ty_2 args)
        else if (fst s =? "BTreeMap")%string then omap (fun p => TyBTreeMap (fst p) (snd p)) (extract_inner_ty_2 args)
        else None
      | _ => None
      end
    | YArray u (LenInt n false) => if n <? 2 ^ 32 then Some (TyArray u n) else None
    | YRef (Some _) false u =>
      if is_bare_ty u "str" then Some TyRefStr
      else match extract_slice_inner_ty u with
           | Some w => Some (if is_bare_ty w "u8" then TyRefSliceU8 else TyRefSlice w)
           | None => None
           end
    | _ => None
    end
  end.

(** lib.rs 1076-1078 *)
Definition parse_ty (t : spelled) : kind spelled :=
  match parse_special_ty t with Some k => k | None => TyTy t end.

(** lib.rs 1266-1270 *)
Definition parse_field_ty (t : spelled) : opt (kind spelled) :=
  match extract_option_inner_ty t with Some u => Opt (parse_ty u) | None => Plain (parse_ty t) end.

(* ------------------------------------------------------------------ *)
(** * Attributes *)

(** `syn::Lit`.  A string is its UTF-8 bytes, a `char` its number. *)
Inductive literal :=
| LStr (b : bytes) | LByteStr (b : bytes) | LByte (b : byte) | LChar (c : N) | LBool (b : bool)
| LInt (n : N) (suffix : string)
| LFloat | LVerbatim.

(** `syn::Expr` as the value of an attribute. *)
Inductive sexpr :=
| ELit (l : literal)
| ENeg (e : sexpr)
| EName (x : string)
| EOther (ids : list string).

(** What the macro makes of an attribute: a value, a compile error with a message,
    or a panic inside the macro. *)
Inductive parsed (A : Type) := Parsed (a : A) | Rejected | MacroPanics.
Arguments Parsed {A}. Arguments Rejected {A}. Arguments MacroPanics {A}.

(** UTF-8 (std contract: `format!( "{}", c )`). *)
Definition utf8_char (c : N) : bytes :=
  map n2b (if c <? 0x80 then [c]
           else if c <? 0x800 then [0xC0 + c / 0x40; 0x80 + c mod 0x40]
           else if c <? 0x10000 then [0xE0 + c / 0x1000; 0x80 + c / 0x40 mod 0x40; 0x80 + c mod 0x40]
           else [0xF0 + c / 0x40000; 0x80 + c / 0x1000 mod 0x40; 0x80 + c / 0x40 mod 0x40; 0x80 + c mod 0x40]).

(** lib.rs 888-934: the value of `constant_prefix`. *)
Definition parse_constant (e : sexpr) : parsed bytes :=
  match e with
  | ELit (LStr b) | ELit (LByteStr b) => Parsed b
  | ELit (LByte b) => Parsed [b]
  | ELit (LChar c) => Parsed (utf8_char c)
  | ELit (LBool b) => Parsed [if b then x01 else x00]
  | ELit (LInt n suffix) =>
    if (suffix =? "u8")%string then if n <? 256 then Parsed [n2b n] else MacroPanics   (* unwrap *)
    else Rejected
  | ENeg (ELit (LInt n suffix)) =>
    if (suffix =? "i8")%string
    then if n <? 128 then Parsed [n2b ((256 - n) mod 256)] else MacroPanics            (* unwrap *)
    else Rejected
  | _ => Rejected
  end.

(** lib.rs 362-388 *)
Definition parse_basic (e : sexpr) : option basic :=
  match e with
  | EName x =>
    if (x =? "u7")%string then Some BU7 else if (x =? "u8")%string then Some BU8
    else if (x =? "u16")%string then Some BU16 else if (x =? "u32")%string then Some BU32
    else if (x =? "u64")%string then Some BU64 else if (x =? "u64_varint")%string then Some BVarint
    else None
  | _ => None
  end.

(** One item of `#[speedy( … )]`: a key and what stands behind `=`. *)
Inductive avalue := NoValue | DotDot | Value (e : sexpr).

Section Attributes.
  (** What the expression of a `length` attribute computes from the fields before. *)
  Context (eval : sexpr -> list (option Z) -> option N).

  (** lib.rs 819-830, 857-943; 594-613: what is left over behind an item is an
      error. *)
  Definition parse_field_attr (key : string) (v : avalue) : parsed field_attr :=
    if (key =? "default_on_eof")%string then match v with NoValue => Parsed ADefaultOnEof | _ => Rejected end
    else if (key =? "length")%string then
      match v with DotDot => Parsed ALengthEof | Value e => Parsed (ALengthExpr (eval e)) | NoValue => Rejected end
    else if (key =? "length_type")%string then
      match v with
      | Value e => match parse_basic e with Some b => Parsed (ALengthType b) | None => Rejected end
      | _ => Rejected
      end
    else if (key =? "skip")%string then match v with NoValue => Parsed ASkip | _ => Rejected end
    else if (key =? "constant_prefix")%string then
      match v with
      | Value e => match parse_constant e with
                   | Parsed b => Parsed (AConstantPrefix b)
                   | Rejected => Rejected
                   | MacroPanics => MacroPanics
                   end
      | _ => Rejected
      end
    else if (key =? "varint")%string then match v with NoValue => Parsed AVarint | _ => Rejected end
    else Rejected.

  Fixpoint parse_field_attrs (l : list (string * avalue)) : parsed (list field_attr) :=
    match l with
    | [] => Parsed []
    | (k, v) :: r =>
      match parse_field_attr k v with
      | Parsed a => match parse_field_attrs r with
                    | Parsed l => Parsed (a :: l)
                    | Rejected => Rejected
                    | MacroPanics => MacroPanics
                    end
      | Rejected => Rejected
      | MacroPanics => MacroPanics
      end
    end.
End Attributes.

(* ------------------------------------------------------------------ *)
(** * Fields *)

(** `syn::Field` *)
Record sfield := {
  sf_attrs : list (string * avalue);
  sf_ty : spelled;
  sf_default : val                       (* `Default::default()` of its type *)
}.

(** lib.rs 737-748 [Field].  [f_opaque] of the attributes is not used here. *)
Record field := {
  fd_attrs : fattrs;
  fd_kind : opt (kind spelled);
  fd_raw : spelled
}.

(** The containers with a length: lib.rs 1278-1293, 1323-1338, 1980-1995. *)
Definition is_sequence {A} (k : kind A) : bool :=
  match k with TyArray _ _ | TyPrimitive _ | TyTy _ => false | _ => true end.

Definition is_opaque {A} (k : kind A) : bool := match k with TyTy _ => true | _ => false end.

(** lib.rs 1202-1252, one attribute; `varint` wants the spelling `u64`. *)
Definition sadd_attr (t : spelled) (a : field_attr) (s : attr_state) : option attr_state :=
  match a with
  | AVarint =>
    match parse_primitive_ty t with
    | Some U64 => Some {| as_eof := as_eof s; as_length := as_length s; as_type := as_type s;
                          as_skip := as_skip s; as_varint := true; as_prefix := as_prefix s |}
    | _ => None
    end
  | ADefaultOnEof =>
    if as_eof s then None
    else Some {| as_eof := true; as_length := as_length s; as_type := as_type s; as_skip := as_skip s;
                 as_varint := as_varint s; as_prefix := as_prefix s |}
  | ALengthExpr _ | ALengthEof =>
    match as_length s with
    | Some _ => None
    | None => Some {| as_eof := as_eof s;
                      as_length := Some (match a with ALengthExpr g => LExpr g | _ => LEof end);
                      as_type := as_type s; as_skip := as_skip s; as_varint := as_varint s; as_prefix := as_prefix s |}
    end
  | ALengthType b =>
    match as_type s with
    | Some _ => None
    | None => Some {| as_eof := as_eof s; as_length := as_length s; as_type := Some b; as_skip := as_skip s;
                      as_varint := as_varint s; as_prefix := as_prefix s |}
    end
  | ASkip => Some {| as_eof := as_eof s; as_length := as_length s; as_type := as_type s; as_skip := true;
                     as_varint := as_varint s; as_prefix := as_prefix s |}
  | AConstantPrefix p =>
    match as_prefix s with
    | Some _ => None
    | None => Some {| as_eof := as_eof s; as_length := as_length s; as_type := as_type s; as_skip := as_skip s;
                      as_varint := as_varint s; as_prefix := Some p |}
    end
  end.

Fixpoint sadd_attrs (t : spelled) (l : list field_attr) (s : attr_state) : option attr_state :=
  match l with
  | [] => Some s
  | a :: r => match sadd_attr t a s with Some s' => sadd_attrs t r s' | None => None end
  end.

(** lib.rs 1255-1386: what follows the loop over the attributes of a field. *)
Definition finish_field (f : sfield) (s : attr_state) : option field :=
  let k := parse_field_ty (sf_ty f) in
  let out lm :=
    Some {| fd_attrs := {| f_eof := as_eof s; f_skip := as_skip s; f_varint := as_varint s;
                           f_opaque := is_opaque (opt_inner k); f_len := lm;
                           f_prefix := match as_prefix s with Some p => p | None => [] end;
                           f_default := sf_default f |};
            fd_kind := k; fd_raw := sf_ty f |} in
  match as_length s, as_type s with
  | Some _, Some _ => None
  | Some lm, None => match k with Plain k' => if is_sequence k' then out lm else None | Opt _ => None end
  | None, Some b => if is_sequence (opt_inner k) then out (LType b) else None
  | None, None => out LDefault
  end.

Section Parse.
  Context (eval : sexpr -> list (option Z) -> option N).

  Definition parse_field (f : sfield) : parsed field :=
    match parse_field_attrs eval (sf_attrs f) with
    | Rejected => Rejected
    | MacroPanics => MacroPanics
    | Parsed l =>
      match sadd_attrs (sf_ty f) l no_attrs with
      | None => Rejected
      | Some s => match finish_field f s with Some d => Parsed d | None => Rejected end
      end
    end.

  (** lib.rs 1184-1390 *)
  Fixpoint parse_fields_from (seen : bool) (l : list sfield) : parsed (list field) :=
    match l with
    | [] => Parsed []
    | f :: r =>
      if seen then Rejected
      else match parse_field f with
           | Rejected => Rejected
           | MacroPanics => MacroPanics
           | Parsed d =>
             match parse_fields_from (is_until_eof (fd_attrs d)) r with
             | Rejected => Rejected
             | MacroPanics => MacroPanics
             | Parsed ds => Parsed (d :: ds)
             end
           end
    end.
  Definition parse_fields (l : list sfield) : parsed (list field) := parse_fields_from false l.
End Parse.

(* ------------------------------------------------------------------ *)
(** * `repr` and generics *)

(** `syn::Attribute` as `check_repr` sees it: its path, and the tokens between its
    parentheses if it has any. *)
Record sattribute := { sa_path : string; sa_list : option (list string) }.

(** lib.rs 566-580; the text of a token stream is a single word only if the stream
    is that word. *)
Definition check_repr (attrs : list sattribute) (value : string) : bool :=
  fold_left (fun result a =>
    if (sa_path a =? "repr")%string then
      match sa_list a with
      | Some tokens => match tokens with [x] => (x =? value)%string | _ => false end
      | None => result
      end
    else result) attrs false.

(** lib.rs 582-592 *)
Definition spelled_transparent (attrs : list sattribute) : bool := check_repr attrs "transparent".
Definition spelled_packed (attrs : list sattribute) : bool := check_repr attrs "packed".
Definition spelled_c (attrs : list sattribute) : bool := check_repr attrs "C".

(** The three answers as one. *)
Definition repr_of (attrs : list sattribute) : repr :=
  if spelled_packed attrs then RPacked else if spelled_transparent attrs then RTransparent
  else if spelled_c attrs then RC else RRust.

(** `syn::Generics` *)
Record sgenerics := { sg_lifetimes : list string; sg_types : list string; sg_consts : list string }.

(** lib.rs 71-75 *)
Definition uses_generics (g : sgenerics) : bool :=
  negb (match sg_types g with [] => true | _ => false end)
  || negb (match sg_lifetimes g with [] => true | _ => false end)
  || negb (match sg_consts g with [] => true | _ => false end).

(* ------------------------------------------------------------------ *)
(** * Bounds *)

(** lib.rs 782-806 *)
Definition bound_types (d : field) : list spelled :=
  match opt_inner (fd_kind d) with
  | TyArray t _ | TyVec t | TyHashSet t | TyBTreeSet t | TyCowHashSet t | TyCowBTreeSet t
  | TyCowSlice t | TyRefSlice t => [t]
  | TyHashMap k v | TyBTreeMap k v | TyCowHashMap k v | TyCowBTreeMap k v => [k; v]
  | TyRefSliceU8 | TyRefStr | TyString | TyCowStr | TyPrimitive _ => []
  | TyTy _ => [fd_raw d]
  end.

(** lib.rs 64-69 [Trait] *)
Inductive derived_trait := ForReadable | ForWritable | ForZeroCopyable (packed forced : bool).

(** lib.rs 306-320: the bounds added for the types of the fields. *)
Definition constraints (g : sgenerics) (tr : derived_trait) (types : list spelled) : list spelled :=
  filter (fun t => match tr with
                   | ForReadable | ForWritable => possibly_uses_generic_ty (sg_types g) t
                   | ForZeroCopyable packed forced =>
                     negb (forced || (packed && match parse_primitive_ty t with Some _ => true | None => false end))
                   end) types.

(** lib.rs 1680-1707 (all fields), 1817-1847 (all but the skipped), 2160-2163 (the
    raw types). *)
Definition readable_bounds (g : sgenerics) (ds : list field) : list spelled :=
  constraints g ForReadable (flat_map bound_types ds).
Definition writable_bounds (g : sgenerics) (ds : list field) : list spelled :=
  constraints g ForWritable (flat_map bound_types (filter (fun d => negb (f_skip (fd_attrs d))) ds)).
Definition zero_copy_bounds (g : sgenerics) (packed forced : bool) (ds : list field) : list spelled :=
  constraints g (ForZeroCopyable packed forced) (map fd_raw ds).

(* ------------------------------------------------------------------ *)
(** * Generated code *)

(** The generated code asks the compiler to infer types: it depends on the types
    the spellings denote, [kind ty]. *)

Section ReadField.
  Context (h : host) {St : Type} (R : reader St) (rd : ty -> M St val) (prev : list (option Z)) (a : fattrs).
  Notation with_length := (with_length h R prev a).

  (** lib.rs 1434-1630, 1642-1668 *)
  Definition read_kind (k : kind ty) : M St val :=
    match k with
    | TyString =>                                                           (* 1434-1448 *)
      with_length (fun n => b <- read_vec_u8 h R n ;; to_str b)
        (vs <- read_until_eof R (read_elem_u8 h R) ;; to_str (as_bytes vs))
    | TyVec t =>                                                            (* 1450-1462 *)
      with_length (fun n => mmap VSeq (read_vec h R t (rd t) n)) (mmap VSeq (read_until_eof R (rd t)))
    | TyCowSlice t =>                                                       (* 1464-1476 *)
      with_length (fun n => mmap VSeq (read_cow h R t (rd t) n)) (mmap VSeq (read_until_eof R (rd t)))
    | TyCowStr =>                                                           (* 1478-1490 *)
      with_length (fun n => b <- read_cow_u8 h R n ;; to_str b)
        (vs <- read_until_eof R (read_elem_u8 h R) ;; to_str (as_bytes vs))
    | TyHashMap tk tv | TyCowHashMap tk tv =>                               (* 1506-1518, 1534-1546 *)
      with_length (read_kv h R CHash tk tv (rd tk) (rd tv))
        (vs <- read_until_eof R (read_pair (rd tk) (rd tv)) ;; ret (VSeq (collect CHash pair_key vs)))
    | TyBTreeMap tk tv | TyCowBTreeMap tk tv =>
      with_length (read_kv h R CBTree tk tv (rd tk) (rd tv))
        (vs <- read_until_eof R (read_pair (rd tk) (rd tv)) ;; ret (VSeq (collect CBTree pair_key vs)))
    | TyHashSet t | TyCowHashSet t =>                                       (* 1492-1504, 1520-1532 *)
      with_length (read_collection h R CHash id t (rd t))
        (vs <- read_until_eof R (rd t) ;; ret (VSeq (collect CHash id vs)))
    | TyBTreeSet t | TyCowBTreeSet t =>
      with_length (read_collection h R CBTree id t (rd t))
        (vs <- read_until_eof R (rd t) ;; ret (VSeq (collect CBTree id vs)))
    | TyRefSliceU8 =>                                                       (* 1548-1560 *)
      with_length (fun n => b <- borrowed R n ;; ret (VSeq (map (fun x => of_n (b2n x)) (snd b))))
        (b <- match rd_borrow_eof R with Some b => b | None => fail Unsized end ;;
         ret (VSeq (map (fun x => of_n (b2n x)) (snd b))))
    | TyRefSlice t =>                                                       (* 1582-1615 *)
      if negb (h_size h t =? 1) && conversion_necessary (h_native h) (rd_endian R)
      then fail EndiannessMismatch
      else
        with_length (fun n => if l_usize_max (h_lim h) <? n * h_size h t then fail OutOfRangeLength
                              else b <- borrowed R (n * h_size h t) ;; cast_slice h t n b)
          (b <- match rd_borrow_eof R with Some b => b | None => fail Unsized end ;;
           if h_size h t =? 0 then crash PanicDivZero else cast_slice h t (nlen (snd b) / h_size h t) b)
    | TyRefStr =>                                                           (* 1562-1580 *)
      with_length (fun n => b <- borrowed R n ;; to_str (snd b))
        (b <- match rd_borrow_eof R with Some b => b | None => fail Unsized end ;; to_str (snd b))
    | TyArray t n => mmap VSeq (repeatM (rd t) (N.to_nat n))                (* 1617-1629 *)
    | TyPrimitive p =>
      if f_varint a then n <- read_varint h R ;; ret (of_n n) else rd (TP p)
    | TyTy t => rd t
    end.

  (** lib.rs 1402-1678; for `Option`, the type of [TyTy] is the one inside. *)
  Definition read_field_body (o : opt (kind ty)) : M St val :=
    let body := match o with
                | Plain k => read_kind k
                | Opt k => flag <- read_u8 R ;; if flag =? 0 then ret VNone else mmap VSome (read_kind k)
                end in
    let body := match f_prefix a with [] => body | p => read_constant h R p ;;; body end in
    if f_eof a then catch_eof (f_default a) body else body.
End ReadField.

Section WriteField.
  Context (h : host) {St : Type} (W : writer St) (wr : ty -> val -> M St unit) (prev : list (option Z)) (a : fattrs).

  (** lib.rs 1729-1800 *)
  Definition write_kind (k : kind ty) (v : val) : M St unit :=
    match k with
    | TyString | TyCowStr | TyRefStr =>
      match v with VBytes b => write_length_body h W prev (f_len a) (nlen b) ;;; write_bytes_slice h W b | _ => ill end
    | TyVec t | TyCowSlice t | TyRefSlice t =>
      match v with VSeq vs => write_length_body h W prev (f_len a) (nlen vs) ;;; write_slice h W t (wr t) vs | _ => ill end
    | TyRefSliceU8 =>
      match v with
      | VSeq vs => write_length_body h W prev (f_len a) (nlen vs) ;;; write_slice h W (TP U8) (wr (TP U8)) vs
      | _ => ill
      end
    | TyHashMap tk tv | TyCowHashMap tk tv =>
      match v with
      | VSeq vs => write_length_body h W prev (f_len a) (nlen vs) ;;;
                   write_each (write_pair (wr tk) (wr tv)) (iter_order (h_iter h) CHash vs)
      | _ => ill
      end
    | TyBTreeMap tk tv | TyCowBTreeMap tk tv =>
      match v with
      | VSeq vs => write_length_body h W prev (f_len a) (nlen vs) ;;;
                   write_each (write_pair (wr tk) (wr tv)) (iter_order (h_iter h) CBTree vs)
      | _ => ill
      end
    | TyHashSet t | TyCowHashSet t =>
      match v with
      | VSeq vs => write_length_body h W prev (f_len a) (nlen vs) ;;; write_each (wr t) (iter_order (h_iter h) CHash vs)
      | _ => ill
      end
    | TyBTreeSet t | TyCowBTreeSet t =>
      match v with
      | VSeq vs => write_length_body h W prev (f_len a) (nlen vs) ;;; write_each (wr t) (iter_order (h_iter h) CBTree vs)
      | _ => ill
      end
    | TyArray t _ => match v with VSeq vs => write_slice h W t (wr t) vs | _ => ill end
    | TyPrimitive p =>
      match v with VInt z => if f_varint a then write_varint h W (Z.to_N z) else wr (TP p) v | _ => ill end
    | TyTy t => wr t v
    end.

  (** lib.rs 1709-1815 *)
  Definition write_field_body (o : opt (kind ty)) (v : val) : M St unit :=
    let body := match o with
                | Plain k => write_kind k v
                | Opt k => match v with
                           | VSome u => wr_u8 W 1 ;;; write_kind k u
                           | VNone => wr_u8 W 0
                           | _ => ill
                           end
                end in
    match f_prefix a with [] => body | p => write_bytes_slice h W p ;;; body end.
End WriteField.

(** lib.rs 1972-2028; [None] adds nothing. *)
Definition get_minimum_bytes (m : ty -> N) (a : fattrs) (o : opt (kind ty)) (raw : ty) : option N :=
  if f_eof a || match f_len a with LExpr _ | LEof => true | _ => false end || f_skip a then None
  else
    let length :=
      match o with
      | Opt _ => 1
      | Plain k =>
        match k with
        | TyArray t n => m t * n
        | TyPrimitive _ => if f_varint a then 1 else m raw
        | TyTy _ => m raw
        | _ => match (match f_len a with LType b => b | _ => BU32 end) with
               | BU7 | BU8 | BVarint => 1 | BU16 => 2 | BU32 => 4 | BU64 => 8
               end
        end
      end in
    Some (match f_prefix a with [] => length | p => length + nlen p end).

(** A field whose types are known: its attributes, its kind, and its type (which
    only [get_minimum_bytes] uses). *)
Record tfield := { tf_attrs : fattrs; tf_kind : opt (kind ty); tf_raw : ty }.

(** lib.rs 1680-1707 [readable_body]: the fields in order, skipped ones defaulted;
    `length` expressions see the ones before. *)
Definition readable_body (h : host) {St} (R : reader St) (rd : ty -> M St val)
  : list (option Z) -> list tfield -> M St (list val) :=
  fix go (prev : list (option Z)) (l : list tfield) : M St (list val) :=
    match l with
    | [] => ret []
    | f :: r =>
      if f_skip (tf_attrs f) then mmap (cons (f_default (tf_attrs f))) (go prev r)
      else
        v <- read_field_body h R rd prev (tf_attrs f) (tf_kind f) ;;
        vs <- go (prev ++ [proj v]) r ;;
        ret (v :: vs)
    end.

(** lib.rs 1817-1847 [writable_body] *)
Definition writable_body (h : host) {St} (W : writer St) (wr : ty -> val -> M St unit)
  : list (option Z) -> list tfield -> list val -> M St unit :=
  fix go (prev : list (option Z)) (l : list tfield) (vs : list val) : M St unit :=
    match l, vs with
    | [], [] => ret tt
    | f :: fr, v :: vr =>
      if f_skip (tf_attrs f) then go prev fr vr
      else write_field_body h W wr prev (tf_attrs f) (tf_kind f) v ;;; go (prev ++ [proj v]) fr vr
    | _, _ => ill
    end.

(** lib.rs 2030-2041 [sum] *)
Definition minimum_sum (m : ty -> N) (l : list tfield) : N :=
  fold_right N.add 0
    (flat_map (fun f => match get_minimum_bytes m (tf_attrs f) (tf_kind f) (tf_raw f) with Some n => [n] | None => [] end) l).
