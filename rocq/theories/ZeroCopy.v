(* Which types can be borrowed from the input, and which the compiler lets through.
   src/utils.rs 20-33, speedy-derive/src/lib.rs 782-806, 284-347, 2119-2143,
   2229-2236. *)
From Verif Require Export Supported.

(** `T: ZeroCopyable<C, T>`, where [native] says that C is `NativeContext`:
    src/utils.rs 22-33 (bytes in every context, other numbers in the native one);
    speedy-derive/src/lib.rs 2139 ([impl_zerocopyable]) and 308-319 (the bounds of
    the impl: none if forced, none on the primitive fields of a packed struct).
    Attributes of the fields play no role. *)
Fixpoint zero_copy (native : bool) (t : ty) : bool :=
  match t with
  | TScalar (SPrim p) => native || (psize p =? 1)%nat
  | TStruct d fs =>
    (is_packed d || is_transparent d fs || sd_forced d)
    && (sd_forced d
        || forallb (fun f => (is_packed d && is_simple f) || zero_copy native (snd f)) fs)
  | _ => false
  end.

(** The fields whose `Readable` impl the generated code names (2166-2218): those of
    transparent structs and of structs that may be plain data. *)
Definition names_fields (d : sdecl) (fs : fields) : bool := is_transparent d fs || potentially_primitive d fs.

Section Accepted.
  Context (native : bool) (P : ty -> Prop).

  (** What the reader of a field asks of the elements of a borrowed slice: the code
      for `&'a [T]` and `Option<&'a [T]>` (1574-1606) casts pointers and asks for
      nothing.  Here [P] is asked. *)
  Definition accepted_field (accepted : ty -> Prop) (a : fattrs) (t : ty) : Prop :=
    f_skip a = true
    \/ if f_opaque a then accepted t
       else match t with
            | TSeq KRef t' | TOption (TSeq KRef t') => P t'
            | _ => accepted t
            end.

  (** `T: Readable<'a, C>` holds, as far as borrowed slices and arrays are
      concerned; elsewhere the bound is passed on to the type inside
      (src/readable_unsized_impl.rs 34, 63). *)
  Fixpoint accepted (t : ty) {struct t} : Prop :=
    match t with
    | TScalar _ | TStr _ | TBot => True
    | TSeq KRef t' | TRefArr t' _ => zero_copy native t' = true
    | TSeq _ t' | TArr t' _ | TOption t' | TRange _ t' | TSet _ t' | TBox t' => accepted t'
    | TResult t1 t2 | TMap _ t1 t2 => accepted t1 /\ accepted t2
    | TTuple ts => all_tys accepted ts
    | TStruct d fs =>
      all_fields (accepted_field accepted) fs
      /\ (names_fields d fs = true -> all_fields (fun _ t' => accepted t') fs)
    | TEnum _ vs => all_variants (all_fields (accepted_field accepted)) vs
    end.
End Accepted.

(** The compiler accepts `T: Readable` in the context. *)
Definition compiles (native : bool) : ty -> Prop := accepted native (fun _ => True).

(** Alignments the Rust reference promises. *)
Record rust_alignment (h : host) : Prop := {
  ra_byte : forall p, psize p = 1%nat -> h_align h (TP p) = 1;
  ra_packed : forall d fs, sd_repr d = RPacked -> h_align h (TStruct d fs) = 1;
  ra_transparent : forall d f, sd_repr d = RTransparent -> h_align h (TStruct d [f]) = h_align h (snd f)
}.
