(* Declarations that refer to one another by name, and the generated
   `minimum_bytes_needed`, which calls itself through those names.
   speedy-derive/src/lib.rs, src/readable_impl.rs. *)
From Verif Require Export Spelling.

(** `syn::Data`, with the fields as `get_fields` leaves them.  Of the variants: is it
    a unit variant ([StructKind::Unit]), and its fields. *)
Inductive declaration :=
| DeclStruct (fs : list field)
| DeclEnum (tag : basic) (peek : bool) (vs : list (bool * list field)).

(** What a name that is not a standard one stands for.  [Foreign] is a type with a
    handwritten implementation: its minimum is computed from those of the [parts],
    and its values contain values of the parts (`Range<T>`; no parts: `Ipv4Addr`). *)
Inductive target :=
| Declared (d : declaration)
| Alias (y : spelled)
| Foreign (parts : list spelled) (f : list N -> N).

(** lib.rs 734-736 [Struct::is_guaranteed_non_recursive]; of a field it is that of its
    type (808-810). *)
Definition non_recursive (fs : list field) : bool :=
  forallb (fun d => is_guaranteed_non_recursive (fd_raw d)) fs.

Definition add_opt (a b : option N) : option N :=
  match a, b with Some x, Some y => Some (x + y) | _, _ => None end.
Definition sum_opt (l : list (option N)) : option N := fold_right add_opt (Some 0) l.
Definition min_opt (a b : option N) : option N :=
  match a, b with Some x, Some y => Some (N.min x y) | _, _ => None end.

(** Parentheses do not change a type. *)
Fixpoint strip (y : spelled) : spelled := match y with YParen u | YGroup u => strip u | _ => y end.

Section Minimum.
  (** What names mean; `mem::size_of`; the values of constant expressions. *)
  Context (user : spelled -> option target) (size_of : spelled -> N) (const : alen -> N).

  Definition array_length (n : alen) : N := match n with LenInt n _ => n | _ => const n end.

  (** lib.rs 1972-2028 with the calls spelled out; a field without a minimum adds
      nothing. *)
  Definition field_minimum (m : spelled -> option N) (d : field) : option N :=
    let a := fd_attrs d in
    if f_eof a || match f_len a with LExpr _ | LEof => true | _ => false end || f_skip a then Some 0
    else
      add_opt
        (match fd_kind d with
         | Opt _ => Some 1
         | Plain k =>
           match k with
           | TyArray t n => omap (fun x => x * n) (m t)
           | TyPrimitive _ => if f_varint a then Some 1 else m (fd_raw d)
           | TyTy _ => m (fd_raw d)
           | _ => Some (match (match f_len a with LType b => b | _ => BU32 end) with
                        | BU7 | BU8 | BVarint => 1 | BU16 => 2 | BU32 => 4 | BU64 => 8
                        end)
           end
         end) (Some (nlen (f_prefix a))).

  (** lib.rs 1680-1707, 2030-2041 [sum] *)
  Definition fields_minimum (m : spelled -> option N) (fs : list field) : option N :=
    sum_opt (map (field_minimum m) fs).

  (** lib.rs 2266-2270: the variants that take part *)
  Definition minimum_variants (vs : list (bool * list field)) : list (list field) :=
    map snd (filter (fun v => negb (fst v) && non_recursive (snd v)) vs).

  Definition declared_minimum (m : spelled -> option N) (d : declaration) : option N :=
    match d with
    | DeclStruct fs => fields_minimum m fs                                  (* lib.rs 2153 *)
    | DeclEnum tag peek vs =>                                               (* lib.rs 2043-2054, 2305-2311 *)
      match fold_left min_opt (map (fields_minimum m) (minimum_variants vs)) (Some 0) with
      | Some x => Some (if peek then N.max x (basic_size tag) else x + basic_size tag)
      | None => None
      end
    end.

  (** The body of `<y as Readable>::minimum_bytes_needed()`; [m] are the calls it makes.
      src/readable_impl.rs, src/readable_unsized_impl.rs; sums and products without
      overflow. *)
  Definition minimum_body (m : spelled -> option N) (y : spelled) : option N :=
    let named :=
      match user y with
      | Some (Declared d) => declared_minimum m d
      | Some (Alias z) => m z
      | Some (Foreign parts f) => match all_some (map m parts) with Some l => Some (f l) | None => None end
      | None => Some 0                                                    (* no such type *)
      end in
    match y with
    | YPath false false [(name, NoArgs)] =>
      match prim_named name with
      | Some p => Some (N.of_nat (psize p))                               (* 138 *)
      | None =>
        if (name =? "String")%string then Some 4                          (* 212 *)
        else if (name =? "bool")%string then Some 1                       (* 111 *)
        else if (name =? "char")%string then Some 4                       (* 124 *)
        else if (name =? "usize")%string then Some 8                      (* 197 *)
        else named
      end
    | YPath false false [(name, Angle _ [GType u])] =>
      if (name =? "Vec")%string then Some 4                               (* 242 *)
      else if (name =? "Option")%string then Some 1                       (* 355 *)
      else if (name =? "Box")%string then
        match strip u with
        | YSlice _ => Some 4                                              (* 675 *)
        | u' => if is_bare_ty u' "str" then Some 4 else m u               (* 693, 661 *)
        end
      else if (name =? "HashSet")%string then Some 4                      (* 94 *)
      else if (name =? "BTreeSet")%string then Some 4                     (* 57 *)
      else named
    | YPath false false [(name, Angle _ [GType u; GType w])] =>
      if (name =? "Result")%string then Some 1                            (* 374 *)
      else if (name =? "HashMap")%string then Some 4                      (* 76 *)
      else if (name =? "BTreeMap")%string then Some 4                     (* 40 *)
      else named
    | YPath false false [(name, Angle _ [GLifetime _; GType u])] =>
      if (name =? "Cow")%string then Some 4                               (* 228, 256-308 *)
      else named
    | YPath _ _ _ => named
    | YArray u n => omap (fun x => x * array_length n) (m u)              (* 645 *)
    | YTuple ts => sum_opt (map m ts)                                     (* 386, 405-411 *)
    | YParen u | YGroup u => m u                                          (* the same type *)
    | YRef _ false u =>
      match strip u with
      | YArray w n => Some (size_of w * array_length n)                   (* readable_unsized_impl.rs 77 *)
      | _ => Some 4                                                       (* readable_unsized_impl.rs 30, 52 *)
      end
    | YRef _ true _ | YSlice _ | YPtr _ | YNever | YOther _ => Some 0     (* no implementation *)
    end.

  (** The call, unless it nests more than [fuel] deep: then [None]. *)
  Fixpoint minimum (fuel : nat) (y : spelled) : option N :=
    match fuel with O => None | S k => minimum_body (minimum k) y end.
End Minimum.
