(* The headers of the generated impls: `impl< .. > Trait for Name< .. > where ..`.
   speedy-derive/src/lib.rs. *)
From Verif Require Export Syntax.

(** `syn::GenericParam`, the bounds of types as the identifiers in them. *)
Inductive param :=
| ParamLifetime (l : string) (bounds : list string)
| ParamType (x : string) (bounds : list string) (default : option spelled)
| ParamConst (x : string) (t : spelled).

(** What stands between `<` and `>` after the name of the type: a lifetime is printed
    with its bounds. *)
Inductive argument := ArgLifetime (l : string) (bounds : list string) | ArgType (x : string).

(** A predicate of a where-clause: one the user wrote (for types, with the identifiers in it,
    or for lifetimes), a bound for the type of a field, or `'x: 'y`, where either side is
    printed with its bounds. *)
Inductive predicate :=
| Given (ids : list string)
| GivenOutlives (x : string) (bounds : list string)
| Bound (t : spelled)
| Outlives (x : string) (xs : list string) (y : string) (ys : list string).

(** `Generics::lifetimes`, `type_params`, `const_params` of syn *)
Definition lifetime_params (ps : list param) : list (string * list string) :=
  flat_map (fun p => match p with ParamLifetime l b => [(l, b)] | _ => [] end) ps.
Definition type_params (ps : list param) : list (string * list string) :=
  flat_map (fun p => match p with ParamType x b _ => [(x, b)] | _ => [] end) ps.
Definition const_params (ps : list param) : list string :=
  flat_map (fun p => match p with ParamConst x _ => [x] | _ => [] end) ps.

Definition generics_of (ps : list param) : sgenerics :=
  {| sg_lifetimes := map fst (lifetime_params ps); sg_types := map fst (type_params ps); sg_consts := const_params ps |}.

(** The header, with the parameters of the method inside. *)
Record header := { hd_params : list param; hd_args : list argument; hd_where : list predicate; hd_inner : list string }.

Section Header.
  Context (ps : list param) (given : list predicate) (types : list spelled).

  (** lib.rs 287-294 *)
  Definition impl_params : list param :=
    map (fun l => ParamLifetime (fst l) (snd l)) (lifetime_params ps)
    ++ map (fun x => ParamType (fst x) (snd x) None) (type_params ps).

  (** lib.rs 296-305 *)
  Definition ty_params : list argument :=
    map (fun l => ArgLifetime (fst l) (snd l)) (lifetime_params ps) ++ map (fun x => ArgType (fst x)) (type_params ps).

  (** lib.rs 307-344 *)
  Definition where_items (tr : derived_trait) : list predicate :=
    map Bound (constraints (generics_of ps) tr types)
    ++ given
    ++ match tr with
       | ForReadable =>
         flat_map (fun l => [Outlives "'a_" [] (fst l) (snd l); Outlives (fst l) (snd l) "'a_" []]) (lifetime_params ps)
       | _ => []
       end.

  (** lib.rs 2321-2326, 2464-2467, 2237-2241 *)
  Definition header_of (tr : derived_trait) : header :=
    match tr with
    | ForReadable =>
      {| hd_params := [ParamLifetime "'a_" []] ++ impl_params ++ [ParamType "C_" ["speedy"; "Context"] None];
         hd_args := ty_params; hd_where := where_items tr; hd_inner := ["R_"] |}
    | ForWritable =>
      {| hd_params := impl_params ++ [ParamType "C_" ["speedy"; "Context"] None];
         hd_args := ty_params; hd_where := where_items tr; hd_inner := ["T_"] |}
    | ForZeroCopyable _ _ =>
      {| hd_params := impl_params ++ [ParamType "C_" [] None; ParamType "T_" [] None];
         hd_args := ty_params; hd_where := where_items tr; hd_inner := [] |}
    end.
End Header.
