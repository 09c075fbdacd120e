(* Which types the wire format theorems are about.  Everything excluded here is
   a case where the code departs from the documented format; each exclusion is
   shown to be necessary by a theorem named ..._refuted. *)
From Verif Require Export Host Spec ReadImpl.

Definition all_fields (P : fattrs -> ty -> Prop) : fields -> Prop :=
  fix go (l : fields) : Prop :=
    match l with [] => True | f :: r => P (fst f) (snd f) /\ go r end.

Definition all_tys (P : ty -> Prop) : list ty -> Prop :=
  fix go (l : list ty) : Prop :=
    match l with [] => True | t :: r => P t /\ go r end.

Definition all_variants (P : fields -> Prop) : list (N * fields) -> Prop :=
  fix go (l : list (N * fields)) : Prop :=
    match l with [] => True | v :: r => P (snd v) /\ go r end.

(** The byte order IPv6 addresses are written in. *)
Definition ipv6_order (h : host) (e : endian) : endian :=
  match h_native h, e with LE, _ => e | BE, LE => BE | BE, BE => LE end.

Section Layout.
  Context (h : host).

  Definition sizes (fs : fields) : list N := map (fun f => h_size h (snd f)) fs.

  (** What is demanded of structs whose layout the derive macro does not check
      itself: `unsafe_is_primitive`, `repr(transparent)` with field attributes,
      the order of fields in `repr(packed)`. *)
  Definition declared_layout (d : sdecl) (fs : fields) : Prop :=
    (sd_forced d || is_transparent d fs || is_packed d)%bool = true ->
    is_prim h (TStruct d fs) = true ->
    all_fields (fun a t => can_be_primitive a = true /\ is_prim h t = true) fs
    /\ nsum (sizes fs) = h_size h (TStruct d fs)
    /\ ascending (offsets h d fs) = true.

  (** All structs inside a struct have the layout their declaration promises. *)
  Fixpoint honest (t : ty) : Prop :=
    match t with
    | TStruct d fs => declared_layout d fs /\ all_fields (fun _ t' => honest t') fs
    | _ => True
    end.

  (** `speedy_flip_endianness` reaches no `repr(transparent)` struct, for which
      it is not generated. *)
  Fixpoint flips (t : ty) : Prop :=
    match t with
    | TStruct d fs => is_transparent d fs = false /\ all_fields (fun _ t' => flips t') fs
    | _ => True
    end.

  Fixpoint convertible (t : ty) : Prop :=
    match t with
    | TStruct d fs =>
      if is_transparent d fs then all_fields (fun _ t' => convertible t') fs
      else all_fields (fun _ t' => flips t') fs
    | _ => True
    end.

  (** Types with a single value and an empty encoding. *)
  Fixpoint silent (t : ty) : Prop :=
    match t with
    | TScalar SUnit => True
    | TArr t' n => n = 0%nat \/ silent t'
    | TTuple ts => all_tys silent ts
    | TStruct _ fs => all_fields (fun a t' => can_be_primitive a = true /\ silent t') fs
    | _ => False
    end.

  (** [minimum_bytes_needed] is a lower bound: a field of an enum with
      `peek_tag` has to consume the tag. *)
  Definition field_minok (mok : ty -> Prop) (a : fattrs) (t : ty) : Prop :=
    if f_eof a || negb (match f_len a with LDefault | LType _ => true | _ => false end)
       || f_skip a then True
    else if f_varint a then f_opaque a = false /\ match t with TScalar (SPrim _) => True | _ => False end
    else if f_opaque a then mok t
    else match t with
         | TOption _ => True
         | TArr t' _ => mok t'
         | _ => if is_container t then True else mok t
         end.

  Fixpoint minok (t : ty) : Prop :=
    match t with
    | TArr t' _ | TRange _ t' | TBox t' => minok t'
    | TRefArr t' _ => is_prim h t' = true /\ honest t'
    | TTuple ts => all_tys minok ts
    | TStruct _ fs => all_fields (field_minok minok) fs
    | TEnum d vs =>
      if e_peek d then
        all_variants (fun fs => all_fields (field_minok minok) fs
          /\ basic_size (e_tag d) <= nsum (map (field_min (min_bytes h)) fs)) vs
      else True
    | _ => True
    end.
End Layout.

Section Supported.
  (** [e]: byte order of the context; [bw]: the reader lends its input;
      [pk]: the reader may be asked to peek. *)
  Context (h : host) (e : endian) (bw pk : bool).

  (** Lengths a container may be asked to have. *)
  Definition possible_length (lm : lenmode) (n : N) : Prop :=
    match lm with
    | LDefault => n <= basic_max BU32
    | LType b => n <= basic_max b /\ n <= l_usize_max (h_lim h)
    | LExpr f => exists prev, f prev = Some n
    | LEof => False
    end.

  (** Their size in memory can be computed in usize. *)
  Definition fits (lm : lenmode) (size : N) : Prop :=
    forall n, possible_length lm n -> n * size <= l_usize_max (h_lim h).

  (** Elements of vectors. *)
  Definition vec_elem (t : ty) : Prop :=
    if is_prim h t then
      honest h t /\ (conversion_necessary (h_native h) e = true -> convertible t)
    else (h_size h t <> 0 \/ silent t) /\ minok h t.

  (** Elements seen in place in the input. *)
  Definition view_elem (t : ty) : Prop :=
    is_prim h t = true /\ honest h t /\ h_size h t <> 0 /\ h_align h t = 1
    /\ (h_size h t = 1 \/ h_native h = e).

  (** Elements that may be copied out of the input. *)
  Definition copy_elem (lm : lenmode) (t : ty) : Prop :=
    is_prim h t = true -> honest h t /\ h_size h t <> 0 /\ fits lm (h_size h t).

  Definition pair_elem (lm : lenmode) (tk tv : ty) : Prop :=
    is_prim h tk = true -> is_prim h tv = true ->
    honest h tk /\ honest h tv
    /\ h_size h tk + h_size h tv = h_size h (pair_ty tk tv)
    /\ h_size h (pair_ty tk tv) <> 0
    /\ ascending (offsets h pair_decl [(plain, tk); (plain, tv)]) = true
    /\ fits lm (h_size h (pair_ty tk tv)).

  Definition seq_elem (lm : lenmode) (k : seqkind) (t : ty) : Prop :=
    match k with
    | KVec | KBoxSlice | KSmallVec => vec_elem t
    | KCow => vec_elem t /\ copy_elem lm t
    | KRef => bw = true /\ view_elem t /\ fits lm (h_size h t)
    end.

  Definition sup_field (sup : lenmode -> ty -> Prop) (a : fattrs) (t : ty) : Prop :=
    f_skip a = true
    \/ ((f_varint a = true ->
         f_opaque a = false /\ match t with TScalar (SPrim _) => True | _ => False end)
        /\ nlen (f_prefix a) <= h_alloc_max h
        /\ sup (if sized_field a t then f_len a else LDefault) t).

  (** [lm]: how the length of an outermost container is given. *)
  Fixpoint supported (lm : lenmode) (t : ty) {struct t} : Prop :=
    match t with
    | TScalar _ | TBot => True
    | TStr k =>
      match k with
      | KRefStr => bw = true
      | KCowStr | KRegex => fits lm 1
      | _ => True
      end
    | TSeq k t' => seq_elem lm k t' /\ supported LDefault t'
    | TArr t' _ => (is_prim h t' = true -> vec_elem t') /\ supported LDefault t'
    | TRefArr t' _ => bw = true /\ view_elem t'
    | TOption t' => supported lm t'
    | TResult t1 t2 => supported LDefault t1 /\ supported LDefault t2
    | TTuple ts => all_tys (supported LDefault) ts
    | TRange _ t' => supported LDefault t'
    | TSet _ t' => copy_elem lm t' /\ supported LDefault t'
    | TMap _ tk tv => pair_elem lm tk tv /\ supported LDefault tk /\ supported LDefault tv
    | TBox t' => supported LDefault t'
    | TStruct _ fs => all_fields (sup_field supported) fs
    | TEnum d vs =>
      (e_peek d = true -> pk = true /\ e_tag d <> BVarint)
      /\ all_variants (all_fields (sup_field supported)) vs
    end.
End Supported.
