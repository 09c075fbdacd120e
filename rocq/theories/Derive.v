(* The front end of the derive macro: which declarations it accepts, and what it
   makes of their attributes.  speedy-derive/src/lib.rs.

   A declaration the macro rejects gives [None].  Token positions and messages
   are not modelled, nor is the parsing of tokens: attributes and literals come
   as data. *)
From Verif Require Export Types.

(* ------------------------------------------------------------------ *)
(** * Fields *)

(** lib.rs 833-855 [FieldAttribute], with 813-816 [LengthKind]. *)
Inductive field_attr :=
| ADefaultOnEof
| ALengthExpr (f : list (option Z) -> option N)
| ALengthEof
| ALengthType (b : basic)
| ASkip
| AConstantPrefix (p : bytes)
| AVarint.

(** `syn::Field`: attributes in order, whether `parse_special_ty` (1080-1182)
    fails to recognise the spelling of the type, the type, and its
    `Default::default()`. *)
Record rfield := {
  rf_attrs : list field_attr;
  rf_opaque : bool;
  rf_ty : ty;
  rf_default : val
}.

(** The variables of the loop at lib.rs 1195-1255. *)
Record attr_state := {
  as_eof : bool;
  as_length : option lenmode;          (* LExpr or LEof *)
  as_type : option basic;
  as_skip : bool;
  as_varint : bool;
  as_prefix : option bytes
}.

Definition no_attrs : attr_state :=
  {| as_eof := false; as_length := None; as_type := None; as_skip := false; as_varint := false;
     as_prefix := None |}.

Definition is_u64 (t : ty) : bool :=
  match t with TScalar (SPrim U64) => true | _ => false end.

(** One attribute: lib.rs 1202-1252. *)
Definition add_attr (f : rfield) (a : field_attr) (s : attr_state) : option attr_state :=
  match a with
  | ADefaultOnEof =>
    if as_eof s then None
    else Some {| as_eof := true; as_length := as_length s; as_type := as_type s; as_skip := as_skip s;
                 as_varint := as_varint s; as_prefix := as_prefix s |}
  | ALengthExpr g =>
    match as_length s with
    | Some _ => None
    | None => Some {| as_eof := as_eof s; as_length := Some (LExpr g); as_type := as_type s;
                      as_skip := as_skip s; as_varint := as_varint s; as_prefix := as_prefix s |}
    end
  | ALengthEof =>
    match as_length s with
    | Some _ => None
    | None => Some {| as_eof := as_eof s; as_length := Some LEof; as_type := as_type s;
                      as_skip := as_skip s; as_varint := as_varint s; as_prefix := as_prefix s |}
    end
  | ALengthType b =>
    match as_type s with
    | Some _ => None
    | None => Some {| as_eof := as_eof s; as_length := as_length s; as_type := Some b;
                      as_skip := as_skip s; as_varint := as_varint s; as_prefix := as_prefix s |}
    end
  | ASkip =>
    Some {| as_eof := as_eof s; as_length := as_length s; as_type := as_type s; as_skip := true;
            as_varint := as_varint s; as_prefix := as_prefix s |}
  | AConstantPrefix p =>
    match as_prefix s with
    | Some _ => None
    | None => Some {| as_eof := as_eof s; as_length := as_length s; as_type := as_type s;
                      as_skip := as_skip s; as_varint := as_varint s; as_prefix := Some p |}
    end
  | AVarint =>
    if negb (rf_opaque f) && is_u64 (rf_ty f)
    then Some {| as_eof := as_eof s; as_length := as_length s; as_type := as_type s;
                 as_skip := as_skip s; as_varint := true; as_prefix := as_prefix s |}
    else None
  end.

Fixpoint add_attrs (f : rfield) (l : list field_attr) (s : attr_state) : option attr_state :=
  match l with
  | [] => Some s
  | a :: r => match add_attr f a s with Some s' => add_attrs f r s' | None => None end
  end.

(** lib.rs 1275-1318: `length` needs a plain container. *)
Definition length_allowed (f : rfield) : bool := negb (rf_opaque f) && is_container (rf_ty f).

(** lib.rs 1320-1366: `length_type` needs a container, possibly in an `Option`. *)
Definition length_type_allowed (f : rfield) : bool :=
  negb (rf_opaque f)
  && match rf_ty f with TOption t => is_container t | t => is_container t end.

(** One field: lib.rs 1195-1386.  An empty constant prefix is none (1255-1259). *)
Definition get_field (f : rfield) : option (fattrs * ty) :=
  match add_attrs f (rf_attrs f) no_attrs with
  | None => None
  | Some s =>
    let out lm :=
      Some ({| f_eof := as_eof s; f_skip := as_skip s; f_varint := as_varint s;
               f_opaque := rf_opaque f; f_len := lm;
               f_prefix := match as_prefix s with Some p => p | None => [] end;
               f_default := rf_default f |}, rf_ty f) in
    match as_length s, as_type s with
    | Some _, Some _ => None
    | Some lm, None => if length_allowed f then out lm else None
    | None, Some b => if length_type_allowed f then out (LType b) else None
    | None, None => out LDefault
    end
  end.

Definition is_until_eof (a : fattrs) : bool := match f_len a with LEof => true | _ => false end.

(** lib.rs 1184-1390 [get_fields]; [seen] is `length_until_eof_seen`. *)
Fixpoint get_fields_from (seen : bool) (l : list rfield) : option fields :=
  match l with
  | [] => Some []
  | f :: r =>
    if seen then None
    else match get_field f with
         | None => None
         | Some (a, t) =>
           match get_fields_from (is_until_eof a) r with
           | None => None
           | Some fs => Some ((a, t) :: fs)
           end
         end
  end.
Definition get_fields (l : list rfield) : option fields := get_fields_from false l.

(* ------------------------------------------------------------------ *)
(** * Enums *)

(** lib.rs 424-432 [EnumAttribute] *)
Inductive enum_attr := ATagType (b : basic) | APeekTag.

(** lib.rs 668-694 [collect_enum_attributes]; the default tag type is u32 (359-360). *)
Fixpoint collect_enum_attrs (l : list enum_attr) (tag : option basic) (peek : bool) : option edecl :=
  match l with
  | [] => Some {| e_tag := match tag with Some b => b | None => BU32 end; e_peek := peek |}
  | ATagType b :: r => match tag with Some _ => None | None => collect_enum_attrs r (Some b) peek end
  | APeekTag :: r => if peek then None else collect_enum_attrs r tag true
  end.

(** `= 7`, `= some + expression`, or nothing behind a variant. *)
Inductive discriminant := DiscNone | DiscLit (n : N) | DiscExpr.

(** [rv_tags]: the values of its `tag` attributes. *)
Record rvariant := {
  rv_tags : list N;
  rv_disc : discriminant;
  rv_fields : list rfield
}.

(** lib.rs 1864-1871 *)
Definition tag_max (b : basic) : N :=
  match b with
  | BU7 => 127 | BU8 => 255 | BU16 => 65535 | BU32 => 4294967295
  | BU64 | BVarint => 18446744073709551615
  end.

(** `base10_parse::< u64 >()` *)
Definition parse_u64 (n : N) : option N := if n <? 2 ^ 64 then Some n else None.

(** lib.rs 439-461 and 615-632: at most one `tag`. *)
Definition variant_tag (l : list N) : option (option N) :=
  match l with
  | [] => Some None
  | [n] => match parse_u64 n with Some n => Some (Some n) | None => None end
  | _ => None
  end.

(** lib.rs 1886-1927: the tag of a variant, after [previous]. *)
Definition assign_tag (max : N) (previous : option N) (v : rvariant) : option N :=
  match variant_tag (rv_tags v) with
  | None => None
  | Some (Some tag) => if max <? tag then None else Some tag
  | Some None =>
    match rv_disc v with
    | DiscNone =>
      match previous with
      | Some p => if max <=? p then None else Some (p + 1)
      | None => Some 0
      end
    | DiscLit n =>
      match parse_u64 n with
      | Some tag => if max <? tag then None else Some tag
      | None => None
      end
    | DiscExpr => None
    end
  end.

(** lib.rs 1936-1953: `tag as u8` and so on. *)
Definition tag_expr (b : basic) (tag : N) : N :=
  match b with
  | BU7 | BU8 => tag mod 2 ^ 8
  | BU16 => tag mod 2 ^ 16
  | BU32 => tag mod 2 ^ 32
  | BU64 | BVarint => tag mod 2 ^ 64
  end.

(** lib.rs 1873-1962; [seen] are the keys of `tag_to_full_name`. *)
Fixpoint enum_variants (b : basic) (previous : option N) (seen : list N) (l : list rvariant)
  : option (list (N * fields)) :=
  match l with
  | [] => Some []
  | v :: r =>
    match assign_tag (tag_max b) previous v with
    | None => None
    | Some tag =>
      if existsb (N.eqb tag) seen then None
      else match get_fields (rv_fields v) with
           | None => None
           | Some fs =>
             match enum_variants b (Some tag) (tag :: seen) r with
             | None => None
             | Some vs => Some ((tag_expr b tag, fs) :: vs)
             end
           end
    end
  end.

(** lib.rs 1855-1970 [Enum::new] *)
Definition enum_new (attrs : list enum_attr) (l : list rvariant) : option (edecl * list (N * fields)) :=
  match collect_enum_attrs attrs None false with
  | None => None
  | Some d => match enum_variants (e_tag d) None [] l with Some vs => Some (d, vs) | None => None end
  end.

(* ------------------------------------------------------------------ *)
(** * Declarations *)

(** `#[derive(Readable, Writable)] enum`. *)
Definition derive_enum (attrs : list enum_attr) (l : list rvariant) : option ty :=
  match enum_new attrs l with Some (d, vs) => Some (TEnum d vs) | None => None end.

(** `#[derive(Readable, Writable)] struct`; lib.rs 642-665: [forced] are the
    `unsafe_is_primitive = always` attributes, at most one. *)
Definition derive_struct (id : N) (r : repr) (generic : bool) (forced : list unit) (l : list rfield)
  : option ty :=
  match forced with
  | _ :: _ :: _ => None
  | _ =>
    match get_fields l with
    | None => None
    | Some fs =>
      Some (TStruct {| sd_id := id; sd_repr := r; sd_forced := match forced with [] => false | _ => true end;
                       sd_generic := generic |} fs)
    end
  end.
