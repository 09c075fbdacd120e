(* What spellings of types, `repr` attributes and literals mean in Rust, independently
   of the derive macro. *)
From Verif Require Export Syntax.

(* ------------------------------------------------------------------ *)
(** * Names inside a type *)

(** The name [x] occurs as a part of a path in the type, or in a part of it the
    syntax tree does not show. *)
Inductive occurs (x : string) : spelled -> Prop :=
| occurs_name q c l args : In (x, args) l -> occurs x (YPath q c l)
| occurs_qself c l : occurs x (YPath true c l)         (* perhaps inside `< … >::` *)
| occurs_type q c l name tf args u : In (name, Angle tf args) l -> In (GType u) args -> occurs x u ->
    occurs x (YPath q c l)
| occurs_assoc q c l name tf args y u : In (name, Angle tf args) l -> In (GAssocType y u) args -> occurs x u ->
    occurs x (YPath q c l)
| occurs_arg q c l name tf args ids : In (name, Angle tf args) l -> In (GOther ids) args -> In x ids ->
    occurs x (YPath q c l)
| occurs_fn q c l name ids : In (name, Parenthesized ids) l -> In x ids -> occurs x (YPath q c l)
| occurs_slice u : occurs x u -> occurs x (YSlice u)
| occurs_array u n : occurs x u -> occurs x (YArray u n)
| occurs_length u ids : In x ids -> occurs x (YArray u (LenExpr ids))
| occurs_tuple l u : In u l -> occurs x u -> occurs x (YTuple l)
| occurs_ref l m u : occurs x u -> occurs x (YRef l m u)
| occurs_ptr u : occurs x u -> occurs x (YPtr u)
| occurs_paren u : occurs x u -> occurs x (YParen u)
| occurs_group u : occurs x u -> occurs x (YGroup u)
| occurs_other ids : In x ids -> occurs x (YOther ids).

(* ------------------------------------------------------------------ *)
(** * The type a spelling denotes *)

(** Types including those without a size. *)
Inductive rust_ty := Sized (t : ty) | Slice (t : ty) | Str.

Definition sized (o : option rust_ty) : option ty := match o with Some (Sized t) => Some t | _ => None end.

Definition with1 (o : option ty) (f : ty -> ty) : option rust_ty :=
  match o with Some t => Some (Sized (f t)) | None => None end.
Definition with2 (o1 o2 : option ty) (f : ty -> ty -> ty) : option rust_ty :=
  match o1, o2 with Some t, Some u => Some (Sized (f t u)) | _, _ => None end.

(** `Cow<'a, B>`; collections behave as themselves (Types.v). *)
Definition cow_of (o : option rust_ty) : option rust_ty :=
  match o with
  | Some Str => Some (Sized (TStr KCowStr))
  | Some (Slice t) => Some (Sized (TSeq KCow t))
  | Some (Sized (TSet (CHash | CBTree) _ as t)) | Some (Sized (TMap (CHash | CBTree) _ _ as t)) => Some (Sized t)
  | _ => None
  end.

Definition box_of (o : option rust_ty) : option rust_ty :=
  match o with
  | Some Str => Some (Sized (TStr KBoxStr))
  | Some (Slice t) => Some (Sized (TSeq KBoxSlice t))
  | Some (Sized t) => Some (Sized (TBox t))
  | None => None
  end.

Definition ref_to (o : option rust_ty) : option rust_ty :=
  match o with
  | Some Str => Some (Sized (TStr KRefStr))
  | Some (Slice t) => Some (Sized (TSeq KRef t))
  | Some (Sized (TArr t n)) => Some (Sized (TRefArr t n))
  | _ => None
  end.

Fixpoint all_some {A} (l : list (option A)) : option (list A) :=
  match l with
  | [] => Some []
  | Some a :: r => match all_some r with Some l => Some (a :: l) | None => None end
  | None :: _ => None
  end.

Section Denote.
  (** Every name that is not one of the standard ones: user types, aliases, longer
      paths.  The standard names are not redefined. *)
  Context (user : spelled -> option rust_ty).

  Fixpoint denote (y : spelled) : option rust_ty :=
    match y with
    | YPath false false [(name, NoArgs)] =>
      match prim_named name with
      | Some p => Some (Sized (TP p))
      | None =>
        if (name =? "String")%string then Some (Sized (TStr KString))
        else if (name =? "str")%string then Some Str
        else if (name =? "bool")%string then Some (Sized (TScalar SBool))
        else if (name =? "char")%string then Some (Sized (TScalar SChar))
        else if (name =? "usize")%string then Some (Sized (TScalar SUsize))
        else user y
      end
    | YPath false false [(name, Angle _ [GType u])] =>
      if (name =? "Vec")%string then with1 (sized (denote u)) (TSeq KVec)
      else if (name =? "Option")%string then with1 (sized (denote u)) TOption
      else if (name =? "Box")%string then box_of (denote u)
      else if (name =? "HashSet")%string then with1 (sized (denote u)) (TSet CHash)
      else if (name =? "BTreeSet")%string then with1 (sized (denote u)) (TSet CBTree)
      else match prim_named name with None => user y | Some _ => None end
    | YPath false false [(name, Angle _ [GType u; GType w])] =>
      if (name =? "Result")%string then with2 (sized (denote u)) (sized (denote w)) TResult
      else if (name =? "HashMap")%string then with2 (sized (denote u)) (sized (denote w)) (TMap CHash)
      else if (name =? "BTreeMap")%string then with2 (sized (denote u)) (sized (denote w)) (TMap CBTree)
      else match prim_named name with None => user y | Some _ => None end
    | YPath false false [(name, Angle _ [GLifetime _; GType u])] =>
      if (name =? "Cow")%string then cow_of (denote u)
      else match prim_named name with None => user y | Some _ => None end
    | YPath false false [(name, _)] =>
      match prim_named name with None => user y | Some _ => None end     (* u8< … > is no type *)
    | YPath _ _ _ => user y
    | YSlice u => match denote u with Some (Sized t) => Some (Slice t) | _ => None end
    | YArray u (LenInt n _) => with1 (sized (denote u)) (fun t => TArr t (N.to_nat n))
    | YArray _ _ => user y
    | YTuple [] => Some (Sized (TScalar SUnit))
    | YTuple ts => match all_some (map (fun u => sized (denote u)) ts) with
                   | Some l => Some (Sized (TTuple l))
                   | None => None
                   end
    | YRef _ false u => ref_to (denote u)
    | YRef _ true _ => None
    | YParen u | YGroup u => denote u
    | YPtr _ | YNever => None
    | YOther _ => user y
    end.

  (** What the kinds of [Ty] stand for. *)
  Definition kind_types (k : kind spelled) : option (kind ty) :=
    let d u := sized (denote u) in
    match k with
    | TyString => Some TyString
    | TyVec t => omap TyVec (d t)
    | TyCowSlice t => omap TyCowSlice (d t)
    | TyCowStr => Some TyCowStr
    | TyHashMap a b => match d a, d b with Some a, Some b => Some (TyHashMap a b) | _, _ => None end
    | TyHashSet t => omap TyHashSet (d t)
    | TyBTreeMap a b => match d a, d b with Some a, Some b => Some (TyBTreeMap a b) | _, _ => None end
    | TyBTreeSet t => omap TyBTreeSet (d t)
    | TyCowHashMap a b => match d a, d b with Some a, Some b => Some (TyCowHashMap a b) | _, _ => None end
    | TyCowHashSet t => omap TyCowHashSet (d t)
    | TyCowBTreeMap a b => match d a, d b with Some a, Some b => Some (TyCowBTreeMap a b) | _, _ => None end
    | TyCowBTreeSet t => omap TyCowBTreeSet (d t)
    | TyRefSliceU8 => Some TyRefSliceU8
    | TyRefSlice t => omap TyRefSlice (d t)
    | TyRefStr => Some TyRefStr
    | TyArray t n => omap (fun t => TyArray t n) (d t)
    | TyPrimitive p => Some (TyPrimitive p)
    | TyTy t => omap TyTy (d t)
    end.

  Definition opt_types (o : opt (kind spelled)) : option (opt (kind ty)) :=
    match o with Plain k => omap Plain (kind_types k) | Opt k => omap Opt (kind_types k) end.
End Denote.

Definition kind_ty (k : kind ty) : ty :=
  match k with
  | TyString => TStr KString
  | TyVec t => TSeq KVec t
  | TyCowSlice t => TSeq KCow t
  | TyCowStr => TStr KCowStr
  | TyHashMap a b | TyCowHashMap a b => TMap CHash a b
  | TyHashSet t | TyCowHashSet t => TSet CHash t
  | TyBTreeMap a b | TyCowBTreeMap a b => TMap CBTree a b
  | TyBTreeSet t | TyCowBTreeSet t => TSet CBTree t
  | TyRefSliceU8 => TSeq KRef (TP U8)
  | TyRefSlice t => TSeq KRef t
  | TyRefStr => TStr KRefStr
  | TyArray t n => TArr t (N.to_nat n)
  | TyPrimitive p => TP p
  | TyTy t => t
  end.

Definition opt_ty (o : opt (kind ty)) : ty :=
  match o with Plain k => kind_ty k | Opt k => TOption (kind_ty k) end.

(* ------------------------------------------------------------------ *)
(** * `repr` *)

(** The items between the commas. *)
Fixpoint items (tokens : list string) : list (list string) :=
  match tokens with
  | [] => [[]]
  | t :: r =>
    if (t =? ",")%string then [] :: items r
    else match items r with i :: l => (t :: i) :: l | [] => [[t]] end
  end.

(** What the compiler is asked for: the items of all `repr` attributes. *)
Definition reprs (attrs : list sattribute) : list (list string) :=
  flat_map (fun a => if (sa_path a =? "repr")%string
                     then match sa_list a with Some tokens => items tokens | None => [] end else []) attrs.

(* ------------------------------------------------------------------ *)
(** * Literals *)

(** UTF-8, by the table of the Unicode standard: the bits of a number distributed
    over bytes, in the shortest form. *)
Inductive utf8_of : N -> list N -> Prop :=
| utf8_1 x : x < 128 -> utf8_of x [x]
| utf8_2 x y : x < 32 -> y < 64 -> 128 <= 64 * x + y -> utf8_of (64 * x + y) [192 + x; 128 + y]
| utf8_3 x y z : x < 16 -> y < 64 -> z < 64 -> 2048 <= 4096 * x + 64 * y + z ->
    utf8_of (4096 * x + 64 * y + z) [224 + x; 128 + y; 128 + z]
| utf8_4 x y z w : x < 8 -> y < 64 -> z < 64 -> w < 64 -> 65536 <= 262144 * x + 4096 * y + 64 * z + w ->
    utf8_of (262144 * x + 4096 * y + 64 * z + w) [240 + x; 128 + y; 128 + z; 128 + w].

(** The bytes a constant should stand for: those of the text, or of a number that
    fits into the one byte its type has. *)
Inductive constant_bytes : sexpr -> bytes -> Prop :=
| cb_str b : constant_bytes (ELit (LStr b)) b
| cb_bytes b : constant_bytes (ELit (LByteStr b)) b
| cb_byte b : constant_bytes (ELit (LByte b)) [b]
| cb_char c b : utf8_of c (map b2n b) -> constant_bytes (ELit (LChar c)) b
| cb_bool b : constant_bytes (ELit (LBool b)) [if b then x01 else x00]
| cb_u8 n : n < 256 -> constant_bytes (ELit (LInt n "u8")) [n2b n]
| cb_i8 n : n < 128 -> constant_bytes (ELit (LInt n "i8")) [n2b n]
| cb_neg n b : n <= 128 -> of_bits I8 (b2n b) = (- Z.of_N n)%Z -> constant_bytes (ENeg (ELit (LInt n "i8"))) [b].
