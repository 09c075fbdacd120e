(* Conditions on types under which encodings can be read back: independent of
   the model, on top of the wire format only. *)
From Verif Require Export Spec Supported.

(** The field's container is read until the end of the input. *)
Definition field_eof (a : fattrs) (t : ty) : bool :=
  sized_field a t && match f_len a with LEof => true | _ => false end.

Section Opens.
  (** A type is open if its encoding has to be the last thing in the input;
      [eof]: an outermost container is read until the end. *)
  Definition fields_open (op : bool -> ty -> bool) : fields -> bool :=
    fix go (fs : fields) : bool :=
      match fs with
      | [] => false
      | f :: r =>
        (negb (f_skip (fst f)) && negb (f_varint (fst f)) && op (field_eof (fst f) (snd f)) (snd f))
        || go r
      end.

  Definition variants_open (op : bool -> ty -> bool) : list (N * fields) -> bool :=
    fix go (vs : list (N * fields)) : bool :=
      match vs with [] => false | v :: r => fields_open op (snd v) || go r end.

  Fixpoint opens (eof : bool) (t : ty) : bool :=
    match t with
    | TScalar _ | TBot => false
    | TStr _ | TSeq _ _ | TSet _ _ | TMap _ _ _ => eof
    | TArr t' _ | TRefArr t' _ | TRange _ t' | TBox t' => opens false t'
    | TOption t' => opens eof t'
    | TResult t1 t2 => opens false t1 || opens false t2
    | TTuple ts => existsb (opens false) ts
    | TStruct _ fs => fields_open opens fs
    | TEnum _ vs => variants_open opens vs
    end.
End Opens.

(** Types whose values a round trip does not change: nothing is skipped, no
    inclusive ranges. *)
Fixpoint exact (t : ty) : Prop :=
  match t with
  | TScalar _ | TStr _ | TBot => True
  | TSeq _ t' | TArr t' _ | TRefArr t' _ | TOption t' | TSet _ t' | TBox t' => exact t'
  | TRange incl t' => incl = false /\ exact t'
  | TResult t1 t2 => exact t1 /\ exact t2
  | TMap _ t1 t2 => exact t1 /\ exact t2
  | TTuple ts => all_tys exact ts
  | TStruct _ fs => all_fields (fun a t' => f_skip a = false /\ exact t') fs
  | TEnum _ vs => all_variants (all_fields (fun a t' => f_skip a = false /\ exact t')) vs
  end.

Section Rtok.
  Context (lim : limits) (e e6 : endian).

  Definition rt_tys (ok : ty -> Prop) : list ty -> Prop :=
    fix go (ts : list ty) : Prop :=
      match ts with
      | [] => True
      | t :: r => ok t /\ (opens false t = true -> r = []) /\ go r
      end.

  (** Only the last field that is not skipped may be open; `varint` stands only on
      a `u64`. *)
  Definition rt_fields (ok : bool -> ty -> Prop) : fields -> Prop :=
    fix go (fs : fields) : Prop :=
      match fs with
      | [] => True
      | f :: r =>
        (f_skip (fst f) = true
         \/ ((f_varint (fst f) = true -> snd f = TP U64)
             /\ ok (field_eof (fst f) (snd f)) (snd f)
             /\ (opens (field_eof (fst f) (snd f)) (snd f) = true ->
                 all_fields (fun a _ => f_skip a = true) r)))
        /\ go r
      end.

  (** No element begins at the end of the input. *)
  Definition ends {A} (d : dec A) : Prop := d (Some []) = DEof.

  (** Types whose encodings can be read back. *)
  Fixpoint rtok (eof : bool) (t : ty) : Prop :=
    match t with
    | TScalar (SBVec n) => (n <= 8)%nat
    | TScalar _ | TStr _ | TBot => True
    | TSeq _ t' =>
      rtok false t' /\ opens false t' = false /\ (eof = true -> ends (decl lim e e6 len0 t'))
    | TSet _ t' =>
      rtok false t' /\ opens false t' = false /\ exact t'
      /\ (eof = true -> ends (decl lim e e6 len0 t'))
    | TMap _ tk tv =>
      rtok false tk /\ opens false tk = false /\ exact tk /\ rtok false tv /\ opens false tv = false
      /\ (eof = true -> ends (dpair (decl lim e e6 len0 tk) (decl lim e e6 len0 tv)))
    | TArr t' _ | TRefArr t' _ | TRange _ t' => rtok false t' /\ opens false t' = false
    | TBox t' => rtok false t'
    | TOption t' => rtok eof t'
    | TResult t1 t2 => rtok false t1 /\ rtok false t2
    | TTuple ts => rt_tys (rtok false) ts
    | TStruct _ fs => rt_fields rtok fs
    | TEnum d vs =>
      NoDup (map fst vs) /\ Forall (fun v => fst v <= basic_max (e_tag d)) vs
      /\ all_variants (rt_fields rtok) vs
    end.
End Rtok.

Section Tagged.
  Context (it : list val -> list val) (e e6 : endian).

  Definition begins (b p : bytes) : Prop := exists r, b = p ++ r.

  Definition tagged_fields (tg : ty -> val -> Prop) : fields -> list val -> Prop :=
    fix go (fs : fields) (vs : list val) : Prop :=
      match fs, vs with
      | f :: fr, v :: vr => (f_skip (fst f) = true \/ tg (snd f) v) /\ go fr vr
      | _, _ => True
      end.

  Definition tagged_variant (d : edecl) (tg : ty -> val -> Prop)
    : list (N * fields) -> nat -> list val -> Prop :=
    fix go (vs : list (N * fields)) (i : nat) (us : list val) : Prop :=
      match vs, i with
      | [], _ => True
      | v :: _, O =>
        (e_peek d = true -> forall b, enc_fields e e6 (enc it e e6) [] (snd v) us = Ok b ->
                            begins b (enc_basic e (e_tag d) (fst v)))
        /\ tagged_fields tg (snd v) us
      | _ :: r, S i' => go r i' us
      end.

  (** Inside [v], the fields of every enum with `peek_tag` begin with the tag. *)
  Fixpoint tagged (t : ty) (v : val) : Prop :=
    match t, v with
    | (TSeq _ t' | TArr t' _ | TRefArr t' _ | TSet _ t'), VSeq vs => Forall (tagged t') vs
    | TMap _ tk tv, VSeq vs => Forall (valid_pair (tagged tk) (tagged tv)) vs
    | TOption t', VSome u => tagged t' u
    | TResult t1 _, VOk u => tagged t1 u
    | TResult _ t2, VErr u => tagged t2 u
    | TTuple ts, VSeq vs => valid_list tagged ts vs
    | TRange _ t', VSeq (a :: b :: _) => tagged t' a /\ tagged t' b
    | TBox t', _ => tagged t' v
    | TStruct _ fs, VSeq vs => tagged_fields tagged fs vs
    | TEnum d vs, VVar i us => tagged_variant d tagged vs i us
    | _, _ => True
    end.
End Tagged.

(** There is no `peek_tag` inside. *)
Fixpoint no_peek (t : ty) : Prop :=
  match t with
  | TScalar _ | TStr _ | TBot => True
  | TSeq _ t' | TArr t' _ | TRefArr t' _ | TOption t' | TSet _ t' | TBox t' | TRange _ t' => no_peek t'
  | TResult t1 t2 => no_peek t1 /\ no_peek t2
  | TMap _ t1 t2 => no_peek t1 /\ no_peek t2
  | TTuple ts => all_tys no_peek ts
  | TStruct _ fs => all_fields (fun a t' => f_skip a = true \/ no_peek t') fs
  | TEnum d vs => e_peek d = false /\ all_variants (all_fields (fun a t' => f_skip a = true \/ no_peek t')) vs
  end.

(** Nothing inside is read until the end of the input or replaced by a default
    there. *)
Fixpoint no_eof (eof : bool) (t : ty) : Prop :=
  match t with
  | TScalar _ | TBot => True
  | TStr _ => eof = false
  | TSeq _ t' | TSet _ t' => eof = false /\ no_eof false t'
  | TMap _ t1 t2 => eof = false /\ no_eof false t1 /\ no_eof false t2
  | TArr t' _ | TRefArr t' _ | TBox t' | TRange _ t' => no_eof false t'
  | TOption t' => no_eof eof t'
  | TResult t1 t2 => no_eof false t1 /\ no_eof false t2
  | TTuple ts => all_tys (no_eof false) ts
  | TStruct _ fs =>
    all_fields (fun a t' => f_skip a = true \/ (f_eof a = false /\ no_eof (field_eof a t') t')) fs
  | TEnum _ vs =>
    all_variants (all_fields
      (fun a t' => f_skip a = true \/ (f_eof a = false /\ no_eof (field_eof a t') t'))) vs
  end.
