(* The names in the code the derive macro generates: the variables it declares are
   in scope of the user's length expressions, and can shadow one another.
   speedy-derive/src/lib.rs. *)
From Coq Require Import String Decimal DecimalString.
From Verif Require Export ReadImpl WriteImpl.

(** What a name stands for inside a generated function: the parameter `_reader_` or
    `_writer_`, or a value. *)
Inductive thing := Parameter_ | Value (v : val).
Definition scope := list (string * thing).

Fixpoint lookup {A} (n : string) (sc : list (string * A)) : option A :=
  match sc with
  | [] => None
  | (m, x) :: r => if (n =? m)%string then Some x else lookup n r
  end.

(** The expression in `#[speedy(length = ..)]`: literals, names (alone or with
    `.len()`), and any operations on them, which may panic.  That the types fit is
    left to the compiler. *)
Inductive lexp :=
| XInt (z : Z)
| XName (n : string)
| XOp (f : Z -> Z -> option Z) (a b : lexp).

Fixpoint eval (see : string -> option Z) (x : lexp) : option Z :=
  match x with
  | XInt z => Some z
  | XName n => see n
  | XOp f a b => match eval see a, eval see b with Some y, Some z => f y z | _, _ => None end
  end.

Fixpoint mentions (x : lexp) : list string :=
  match x with XInt _ => [] | XName n => [n] | XOp _ a b => mentions a ++ mentions b end.

(** `as usize` (lib.rs 1410; src/private.rs 201-227 [IntoLength]). *)
Definition as_usize (h : host) (z : Z) : N := Z.to_N (z mod (Z.of_N (l_usize_max (h_lim h)) + 1)).

(** A field with its name, if it has one, and its length expression, if it has one
    (then [f_len] of the attributes does not matter). *)
Record nfield := { nf_ident : option string; nf_attrs : fattrs; nf_length : option lexp; nf_ty : ty }.

(** lib.rs 766-772 [Field::var_name] *)
Definition var_name (i : nat) (f : nfield) : string :=
  match nf_ident f with
  | Some n => n
  | None => ("t" ++ NilZero.string_of_uint (Nat.to_uint i))%string
  end.

Definition set_len (a : fattrs) (l : lenmode) : fattrs :=
  {| f_eof := f_eof a; f_skip := f_skip a; f_varint := f_varint a; f_opaque := f_opaque a;
     f_len := l; f_prefix := f_prefix a; f_default := f_default a |}.

Definition sees (sc : scope) (n : string) : option Z :=
  match lookup n sc with Some (Value v) => proj v | _ => None end.

(** The attributes of a field whose code stands in scope [sc]: the length expression is
    evaluated there. *)
Definition here (h : host) (sc : scope) (f : nfield) : fattrs :=
  match nf_length f with
  | None => nf_attrs f
  | Some x => set_len (nf_attrs f) (LExpr (fun _ => option_map (as_usize h) (eval (sees sc) x)))
  end.

(** Do the names in the length expression stand for values? *)
Definition resolves (sc : scope) (f : nfield) : bool :=
  match nf_length f with
  | None => true
  | Some x => forallb (fun n => match lookup n sc with Some (Value _) => true | _ => false end) (mentions x)
  end.

(** Does the code that reads the field mention `_reader_`?  All but that of arrays
    without elements does (lib.rs 1610-1623). *)
Definition mentions_reader (f : nfield) : bool :=
  match nf_ty f, f_prefix (nf_attrs f) with
  | TArr _ O, [] => f_opaque (nf_attrs f)
  | _, _ => true
  end.

Section Scope.
  Context (h : host) {St : Type}.

  (** lib.rs 1680-1707 [readable_body]: `let #name: #raw_ty = #read_value;` for every
      field, [i] its index.  A name that stands for something else than the code needs is
      a compile error ([IllTyped]); so is `_reader_`, unless it is the parameter. *)
  Definition read_named (R : reader St) (rd : ty -> M St val) : nat -> scope -> list nfield -> M St (list val) :=
    fix go (i : nat) (sc : scope) (fs : list nfield) : M St (list val) :=
      match fs with
      | [] => ret []
      | f :: r =>
        if f_skip (nf_attrs f)                                                (* 1403-1407 *)
        then mmap (cons (f_default (nf_attrs f))) (go (S i) ((var_name i f, Value (f_default (nf_attrs f))) :: sc) r)
        else if negb (resolves sc f) then crash IllTyped
        else
          match lookup "_reader_" sc, mentions_reader f with
          | Some Parameter_, _ | _, false =>
            v <- read_field h R rd [] (here h sc f) (nf_ty f) ;;
            vs <- go (S i) ((var_name i f, Value v) :: sc) r ;;
            ret (v :: vs)
          | _, true => crash IllTyped
          end
      end.

  (** The constants in scope of the declaration. *)
  Context (consts : list (string * Z)).
  Definition outside : scope := map (fun c => (fst c, Value (VInt (snd c)))) consts.

  (** lib.rs 2150-2156, 2321-2325: `read_from` of a struct. *)
  Definition read_struct (R : reader St) (rd : ty -> M St val) (fs : list nfield) : M St val :=
    mmap VSeq (read_named R rd 0 (("_reader_"%string, Parameter_) :: outside) fs).

  (** lib.rs 2252-2264, 2298-2304: the arm of an enum for the variant with this tag. *)
  Definition read_arm (R : reader St) (rd : ty -> M St val) (tag : N) (fs : list nfield) : M St (list val) :=
    read_named R rd 0 (("kind_"%string, Value (VInt (Z.of_N tag))) :: ("_reader_"%string, Parameter_) :: outside) fs.

  (** lib.rs 2343-2361 [assign_to_variables]: `let #var_name = &self.#name;` for every
      field that is not skipped; the later ones shadow. *)
  Fixpoint assign (i : nat) (fs : list nfield) (vs : list val) (sc : scope) : scope :=
    match fs, vs with
    | f :: fr, v :: vr => assign (S i) fr vr (if f_skip (nf_attrs f) then sc else (var_name i f, Value v) :: sc)
    | _, _ => sc
    end.

  (** lib.rs 1817-1847 [writable_body]: in the scope of all the variables. *)
  Definition write_named (W : writer St) (wr : ty -> val -> M St unit) (sc : scope) : nat -> list nfield -> M St unit :=
    fix go (i : nat) (fs : list nfield) : M St unit :=
      match fs with
      | [] => ret tt
      | f :: r =>
        if f_skip (nf_attrs f) then go (S i) r                                (* 1821-1823 *)
        else if negb (resolves sc f) then crash IllTyped
        else
          match lookup "_writer_" sc, lookup (var_name i f) sc with
          | Some Parameter_, Some (Value v) => write_field h W wr [] (here h sc f) (nf_ty f) v ;;; go (S i) r
          | _, _ => crash IllTyped
          end
      end.

  (** lib.rs 2369-2374, 2413-2418: `write_to` of a struct. *)
  Definition write_struct (W : writer St) (wr : ty -> val -> M St unit) (fs : list nfield) (vs : list val) : M St unit :=
    if (length fs =? length vs)%nat
    then write_named W wr (assign 0 fs vs (("_writer_"%string, Parameter_) :: outside)) 0 fs
    else crash IllTyped.

  (** lib.rs 2432-2455: the arm of an enum for a variant, after its tag.  The pattern names
      the fields that are not skipped, and has to name all. *)
  Definition write_arm (W : writer St) (wr : ty -> val -> M St unit) (fs : list nfield) (vs : list val) : M St unit :=
    if existsb (fun f => f_skip (nf_attrs f)) fs then crash IllTyped else write_struct W wr fs vs.
End Scope.
