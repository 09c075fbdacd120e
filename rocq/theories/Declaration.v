(* The derive macro on whole declarations: the attributes of structs, enums and
   variants, the tags of an enum, and the code generated around the fields.
   speedy-derive/src/lib.rs.

   The syntax trees are those of Syntax.v; spans and messages are not modelled. *)
From Verif Require Export Syntax.
Open Scope string_scope.
Open Scope N_scope.
Open Scope list_scope.

(* ------------------------------------------------------------------ *)
(** * Attributes *)

(** `syn::Meta`.  What stands between the parentheses is seen in two ways: as words
    by `check_repr`, and as items with a comma between them by `parse_attributes`
    ([None] if it is not of this form). *)
Inductive smeta :=
| MetaPath                                 (* #[speedy] *)
| MetaNameValue                            (* #[speedy = …] *)
| MetaList (words : list string) (items : option (list (string * avalue))).

Record attribute := { at_path : string; at_meta : smeta }.

Definition repr_view (a : attribute) : sattribute :=
  {| sa_path := at_path a; sa_list := match at_meta a with MetaList ws _ => Some ws | _ => None end |}.

(** `?` *)
Definition pbind {A B} (p : parsed A) (k : A -> parsed B) : parsed B :=
  match p with Parsed a => k a | Rejected => Rejected | MacroPanics => MacroPanics end.

Section ParseAttributes.
  Context {A : Type} (parse : string -> avalue -> parsed A).

  (** `Punctuated::< T, Token![,] >::parse_terminated` *)
  Fixpoint parse_items (l : list (string * avalue)) : parsed (list A) :=
    match l with
    | [] => Parsed []
    | (k, v) :: r => pbind (parse k v) (fun a => pbind (parse_items r) (fun l => Parsed (a :: l)))
    end.

  (** lib.rs 594-613 *)
  Fixpoint parse_attributes (l : list attribute) : parsed (list A) :=
    match l with
    | [] => Parsed []
    | a :: r =>
      if (at_path a =? "speedy")%string then
        match at_meta a with
        | MetaList _ (Some items) =>
          pbind (parse_items items) (fun xs => pbind (parse_attributes r) (fun ys => Parsed (xs ++ ys)))
        | _ => Rejected
        end
      else parse_attributes r
    end.
End ParseAttributes.

(** lib.rs 471-495, 520-525 [EnumAttribute] *)
Definition parse_enum_attr (key : string) (v : avalue) : parsed enum_attr :=
  if (key =? "tag_type")%string then
    match v with
    | Value e => match parse_basic e with Some b => Parsed (ATagType b) | None => Rejected end
    | _ => Rejected
    end
  else if (key =? "peek_tag")%string then match v with NoValue => Parsed APeekTag | _ => Rejected end
  else Rejected.

(** `LitInt` and its `base10_parse::< u64 >()`: a suffix is not looked at, and a sign is
    refused. *)
Definition parse_tag_literal (e : sexpr) : parsed N :=
  match e with
  | ELit (LInt n _) => match parse_u64 n with Some n => Parsed n | None => Rejected end
  | _ => Rejected
  end.

(** lib.rs 439-469, 527-540 [VariantOrStructAttribute]; there are no struct
    attributes (421-422). *)
Definition parse_variant_attr (key : string) (v : avalue) : parsed N :=
  if (key =? "tag")%string then match v with Value e => parse_tag_literal e | _ => Rejected end
  else Rejected.

(** lib.rs 391-407, 497-511 [ToplevelStructAttribute] *)
Definition parse_struct_attr (key : string) (v : avalue) : parsed unit :=
  if (key =? "unsafe_is_primitive")%string then
    match v with Value (EName x) => if (x =? "always")%string then Parsed tt else Rejected | _ => Rejected end
  else Rejected.

(* ------------------------------------------------------------------ *)
(** * Fields with their attributes *)

Record rawfield := { rw_attrs : list attribute; rw_ty : spelled; rw_default : val }.

Section Parse.
  Context (eval : sexpr -> list (option Z) -> option N).

  (** lib.rs 1195-1386, with [parse_attributes] for the field *)
  Definition parse_rawfield (f : rawfield) : parsed field :=
    pbind (parse_attributes (parse_field_attr eval) (rw_attrs f)) (fun l =>
      match sadd_attrs (rw_ty f) l no_attrs with
      | None => Rejected
      | Some s =>
        match finish_field {| sf_attrs := []; sf_ty := rw_ty f; sf_default := rw_default f |} s with
        | Some d => Parsed d
        | None => Rejected
        end
      end).

  (** lib.rs 1184-1390 *)
  Fixpoint parse_rawfields_from (seen : bool) (l : list rawfield) : parsed (list field) :=
    match l with
    | [] => Parsed []
    | f :: r =>
      if seen then Rejected
      else pbind (parse_rawfield f) (fun d =>
           pbind (parse_rawfields_from (is_until_eof (fd_attrs d)) r) (fun ds => Parsed (d :: ds)))
    end.

  (** lib.rs 709-731 [Struct::new]; a unit struct has no fields. *)
  Definition struct_new (l : list rawfield) : parsed (list field) := parse_rawfields_from false l.

  (* ---------------------------------------------------------------- *)
  (** ** Structs *)

  (** lib.rs 642-665, 2150-2154, 2119-2143.  [id] tells declarations apart. *)
  Definition declare_struct (id : N) (attrs : list attribute) (g : sgenerics) (l : list rawfield)
    : parsed (sdecl * list field) :=
    pbind (parse_attributes parse_struct_attr attrs) (fun forced =>
      match forced with
      | _ :: _ :: _ => Rejected                     (* Duplicate 'unsafe_is_primitive' *)
      | _ =>
        pbind (struct_new l) (fun ds =>
          Parsed ({| sd_id := id; sd_repr := repr_of (map repr_view attrs);
                     sd_forced := match forced with [] => false | _ => true end;
                     sd_generic := uses_generics g |}, ds))
      end).

  (* ---------------------------------------------------------------- *)
  (** ** Enums *)

  (** `syn::Variant`; [sv_unit]: no braces or parentheses behind the name. *)
  Record svariant := {
    sv_attrs : list attribute;
    sv_disc : option sexpr;
    sv_unit : bool;
    sv_fields : list rawfield
  }.

  (** lib.rs 1843-1847 [Variant] *)
  Record variant := { va_tag : N; va_unit : bool; va_fields : list field }.

  (** lib.rs 1886-1927 *)
  Definition spelled_tag (max : N) (previous : option N) (tags : list N) (disc : option sexpr) : parsed N :=
    match tags with
    | _ :: _ :: _ => Rejected                       (* Duplicate 'tag': 615-632 *)
    | [tag] => if max <? tag then Rejected else Parsed tag
    | [] =>
      match disc with
      | None =>
        match previous with
        | Some p => if max <=? p then Rejected else Parsed (p + 1)
        | None => Parsed 0
        end
      | Some e => pbind (parse_tag_literal e) (fun tag => if max <? tag then Rejected else Parsed tag)
      end
    end.

  (** lib.rs 1873-1962; [seen] are the keys of `tag_to_full_name`. *)
  Fixpoint parse_variants (b : basic) (previous : option N) (seen : list N) (l : list svariant)
    : parsed (list variant) :=
    match l with
    | [] => Parsed []
    | v :: r =>
      pbind (parse_attributes parse_variant_attr (sv_attrs v)) (fun tags =>
      pbind (spelled_tag (tag_max b) previous tags (sv_disc v)) (fun tag =>
      if existsb (N.eqb tag) seen then Rejected
      else
        pbind (struct_new (sv_fields v)) (fun ds =>
        pbind (parse_variants b (Some tag) (tag :: seen) r) (fun vs =>
        Parsed ({| va_tag := tag_expr b tag; va_unit := sv_unit v; va_fields := ds |} :: vs)))))
    end.

  (** lib.rs 1855-1970 [Enum::new] *)
  Definition declare_enum (attrs : list attribute) (l : list svariant) : parsed (edecl * list variant) :=
    pbind (parse_attributes parse_enum_attr attrs) (fun es =>
      match collect_enum_attrs es None false with
      | None => Rejected
      | Some d => pbind (parse_variants (e_tag d) None [] l) (fun vs => Parsed (d, vs))
      end).
End Parse.

(** lib.rs 1820-1838: the fields that the generated pattern of a variant names; the
    pattern has no `..`, so the compiler wants all of them there (E0023, E0027). *)
Definition pattern_fields (ds : list field) : list field := filter (fun d => negb (f_skip (fd_attrs d))) ds.
Definition pattern_complete (ds : list field) : bool := (length (pattern_fields ds) =? length ds)%nat.

(* ------------------------------------------------------------------ *)
(** * Generated code *)

(** A variant whose types are known; [tv_fixed]: `is_guaranteed_non_recursive` of all
    its fields (lib.rs 734-736). *)
Record tvariant := { tv_tag : N; tv_unit : bool; tv_fixed : bool; tv_fields : list tfield }.

(** lib.rs 2119-2143 [check_is_primitive], from the spellings *)
Definition spelled_primitive (attrs : list attribute) (g : sgenerics) (forced : bool) (ds : list field) : bool :=
  let reprs := map repr_view attrs in
  let transparent := (length ds =? 1)%nat && spelled_transparent reprs in
  let simple := forallb (fun d => match parse_primitive_ty (fd_raw d) with Some _ => true | None => false end) ds in
  (forced || forallb (fun d => can_be_primitive (fd_attrs d)) ds)
  && (forced || transparent || spelled_packed reprs || spelled_c reprs || simple
      || (negb (uses_generics g) && (length ds <=? 4)%nat)).

Section Generated.
  Context (h : host) {St : Type}.

  (** lib.rs 2254-2264, 2300-2303: the arms of the `match` on the tag *)
  Fixpoint enum_arms (R : reader St) (rd : ty -> M St val) (kind : N) (i : nat) (vs : list tvariant) : M St val :=
    match vs with
    | [] => fail InvalidEnumVariant
    | v :: r =>
      if tv_tag v =? kind then fs <- readable_body h R rd [] (tv_fields v) ;; ret (VVar i fs)
      else enum_arms R rd kind (S i) r
    end.

  (** lib.rs 2298-2304 *)
  Definition enum_read_body (R : reader St) (rd : ty -> M St val) (d : edecl) (vs : list tvariant) : M St val :=
    kind <- read_tag h R d ;; enum_arms R rd kind 0%nat vs.

  (** lib.rs 2420-2455: `match *self` *)
  Definition enum_write_body (W : writer St) (wr : ty -> val -> M St unit) (d : edecl) (vs : list tvariant)
    (i : nat) (us : list val) : M St unit :=
    match nth_error vs i with
    | None => ill
    | Some v =>
      (if negb (e_peek d) then write_tag h W (e_tag d) (tv_tag v) else ret tt) ;;;
      writable_body h W wr [] (tv_fields v) us
    end.
End Generated.

(** lib.rs 2043-2054 [min] *)
Definition minimum_min (l : list N) : N :=
  match l with [] => 0 | _ => fold_left N.min l 0 end.

(** lib.rs 2266-2311: the variants that take part are those with fields, none of
    them possibly recursive. *)
Definition enum_minimum (m : ty -> N) (d : edecl) (vs : list tvariant) : N :=
  let sizes := map (fun v => minimum_sum m (tv_fields v)) (filter (fun v => negb (tv_unit v) && tv_fixed v) vs) in
  if negb (e_peek d) then minimum_min sizes + basic_size (e_tag d)
  else N.max (minimum_min sizes) (basic_size (e_tag d)).
