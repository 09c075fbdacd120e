(* What a type looks like on the wire, for types that are put together from any others,
   be they hand-written or of the model.  On top of the wire format only: nothing here knows
   about readers and writers. *)
From Verif Require Export Wellformed.

(** How values are read, how they are written, the values that are carried unchanged, their
    size in memory, and whether an encoding has to be the last thing in the input. *)
Record format := {
  fm_size : N;
  fm_dec : endian -> dec val;
  fm_enc : endian -> val -> res bytes;
  fm_ok : val -> Prop;
  fm_open : bool
}.

Section Formats.
  Context (h : host).
  Notation lim := (h_lim h).

  (** A type of the model. *)
  Definition fty (t : ty) : format :=
    {| fm_size := h_size h t;
       fm_dec := fun e => decl lim e (ipv6_order h e) len0 t;
       fm_enc := fun e => encode (h_iter h) e (ipv6_order h e) t;
       fm_ok := fun v => valid lim t v /\ (forall e, tagged (h_iter h) e (ipv6_order h e) t v) /\ norm t v = v;
       fm_open := opens false t |}.

  (* ---------------------------------------------------------------- *)
  (** ** Containers *)

  (** [n] elements, which have to fit into an allocation. *)
  Definition dmany (F : format) (e : endian) (n : N) : dec (list val) :=
    if n * fm_size F <=? h_alloc_max h then dunsure (drepeat (fm_dec F e) (N.to_nat n))
    else fun _ => DPanic PanicCapacity false.

  Definition pair_dec (F G : format) (e : endian) : dec val := dpair (fm_dec F e) (fm_dec G e).
  Definition pair_enc (F G : format) (e : endian) : val -> res bytes := enc_pair (fm_enc F e) (fm_enc G e).

  (** A container whose length may be given by an attribute, an array, or anything else. *)
  Inductive finner :=
  | FOwn (F : format)
  | FVec (F : format)
  | FSet (k : colkind) (F : format)
  | FMap (k : colkind) (F G : format)
  | FArr (F : format) (n : nat).

  Definition dinner (e : endian) (l : lenspec) (j : finner) : dec val :=
    match j with
    | FOwn F => fm_dec F e
    | FVec F => dmap VSeq (dlen lim e l (dmany F e) (duntil (fm_dec F e)))
    | FSet k F =>
      xs <-- dlen lim e l (fun n => drepeat (fm_dec F e) (N.to_nat n)) (duntil (fm_dec F e)) ;;
      dret (VSeq (collect k id xs))
    | FMap k F G =>
      xs <-- dlen lim e l (fun n => drepeat (pair_dec F G e) (N.to_nat n)) (duntil (pair_dec F G e)) ;;
      dret (VSeq (collect k pair_key xs))
    | FArr F n => dmap VSeq (drepeat (fm_dec F e) n)
    end.

  Definition einner (e : endian) (l : lenspec) (j : finner) (v : val) : res bytes :=
    match j, v with
    | FOwn F, _ => fm_enc F e v
    | FVec F, VSeq vs => rapp (enc_len e l (nlen vs)) (enc_all (fm_enc F e) vs)
    | FSet k F, VSeq vs =>
      rapp (enc_len e l (nlen vs)) (enc_all (fm_enc F e) (iter_order (h_iter h) k vs))
    | FMap k F G, VSeq vs =>
      rapp (enc_len e l (nlen vs)) (enc_all (pair_enc F G e) (iter_order (h_iter h) k vs))
    | FArr F n, VSeq vs => enc_all (fm_enc F e) vs
    | _, _ => Fault IllTyped
    end.

  Definition inner_ok (j : finner) (v : val) : Prop :=
    match j, v with
    | FOwn F, _ => fm_ok F v
    | FVec F, VSeq vs => Forall (fm_ok F) vs /\ small lim (nlen vs) /\ nlen vs * fm_size F <= h_alloc_max h
    | FSet k F, VSeq vs => Forall (fm_ok F) vs /\ small lim (nlen vs) /\ keys_ok k id vs
    | FMap k F G, VSeq vs =>
      Forall (valid_pair (fm_ok F) (fm_ok G)) vs /\ small lim (nlen vs) /\ keys_ok k pair_key vs
    | FArr F n, VSeq vs => Forall (fm_ok F) vs /\ length vs = n
    | _, _ => False
    end.

  (** [eof]: the length is given by the end of the input. *)
  Definition inner_open (eof : bool) (j : finner) : bool :=
    match j with FOwn F => fm_open F | FArr _ _ => false | _ => eof end.

  (** No element begins at the end of the input. *)
  Definition inner_ends (e : endian) (j : finner) : Prop :=
    match j with
    | FVec F | FSet _ F => ends (fm_dec F e)
    | FMap _ F G => ends (pair_dec F G e)
    | _ => True
    end.

  (** As a type of its own. *)
  Definition finner_type (size : N) (j : finner) : format :=
    {| fm_size := size; fm_dec := fun e => dinner e len0 j; fm_enc := fun e => einner e len0 j;
       fm_ok := inner_ok j; fm_open := inner_open false j |}.
  Definition fvec (size : N) (F : format) : format := finner_type size (FVec F).
  Definition fset (size : N) (k : colkind) (F : format) : format := finner_type size (FSet k F).
  Definition fmap (size : N) (k : colkind) (F G : format) : format := finner_type size (FMap k F G).
  Definition farr (F : format) (n : nat) : format := finner_type (fm_size F * N.of_nat n) (FArr F n).

  Definition foption (size : N) (F : format) : format :=
    {| fm_size := size;
       fm_dec := fun e => n <-- dword e 1 ;; if n =? 0 then dret VNone else dmap VSome (fm_dec F e);
       fm_enc := fun e v =>
         match v with
         | VNone => Ok [x00]
         | VSome u => rapp (Ok [x01]) (fm_enc F e u)
         | _ => Fault IllTyped
         end;
       fm_ok := fun v => match v with VNone => True | VSome u => fm_ok F u | _ => False end;
       fm_open := fm_open F |}.

  Definition fresult (size : N) (F G : format) : format :=
    {| fm_size := size;
       fm_dec := fun e =>
         n <-- dword e 1 ;; if n =? 0 then dmap VErr (fm_dec G e) else dmap VOk (fm_dec F e);
       fm_enc := fun e v =>
         match v with
         | VOk u => rapp (Ok [x01]) (fm_enc F e u)
         | VErr u => rapp (Ok [x00]) (fm_enc G e u)
         | _ => Fault IllTyped
         end;
       fm_ok := fun v => match v with VOk u => fm_ok F u | VErr u => fm_ok G u | _ => False end;
       fm_open := fm_open F || fm_open G |}.

  Fixpoint deach (e : endian) (Fs : list format) : dec (list val) :=
    match Fs with
    | [] => dret []
    | F :: r => v <-- fm_dec F e ;; vs <-- deach e r ;; dret (v :: vs)
    end.
  Fixpoint eeach (e : endian) (Fs : list format) (vs : list val) : res bytes :=
    match Fs, vs with
    | [], [] => Ok []
    | F :: r, v :: vr => rapp (fm_enc F e v) (eeach e r vr)
    | _, _ => Fault IllTyped
    end.
  Fixpoint each_ok (Fs : list format) (vs : list val) : Prop :=
    match Fs, vs with
    | [], [] => True
    | F :: r, v :: vr => fm_ok F v /\ each_ok r vr
    | _, _ => False
    end.
  Definition ftuple (size : N) (Fs : list format) : format :=
    {| fm_size := size;
       fm_dec := fun e => dmap VSeq (deach e Fs);
       fm_enc := fun e v => match v with VSeq vs => eeach e Fs vs | _ => Fault IllTyped end;
       fm_ok := fun v => match v with VSeq vs => each_ok Fs vs | _ => False end;
       fm_open := existsb fm_open Fs |}.

  Definition fbox (size : N) (F : format) : format :=
    {| fm_size := size; fm_dec := fm_dec F; fm_enc := fm_enc F; fm_ok := fm_ok F; fm_open := fm_open F |}.

  (* ---------------------------------------------------------------- *)
  (** ** Structs and enums *)

  Inductive fmember :=
  | GTy (t : ty)
  | GPlain (j : finner)
  | GOption (j : finner).

  Definition fmembers : Type := list (fattrs * fmember).

  Definition dmember (e : endian) (prev : list (option Z)) (a : fattrs) (m : fmember) : dec val :=
    let inner j := dinner e (resolve (f_eof a) prev (f_len a)) j in
    match m with
    | GTy t => dfield lim e (ipv6_order h e) (decl lim e (ipv6_order h e)) prev a t
    | GPlain j =>
      let body := _ <-- dconst (f_prefix a) ;; inner j in
      if f_eof a then dcatch (f_default a) body else body
    | GOption j =>
      let body := _ <-- dconst (f_prefix a) ;;
                  n <-- dword e 1 ;; if n =? 0 then dret VNone else dmap VSome (inner j) in
      if f_eof a then dcatch (f_default a) body else body
    end.

  Fixpoint dmembers (e : endian) (prev : list (option Z)) (ms : fmembers) : dec (list val) :=
    match ms with
    | [] => dret []
    | (a, m) :: r =>
      if f_skip a then dmap (cons (f_default a)) (dmembers e prev r)
      else v <-- dmember e prev a m ;; vs <-- dmembers e (prev ++ [proj v]) r ;; dret (v :: vs)
    end.

  Definition emember (e : endian) (prev : list (option Z)) (a : fattrs) (m : fmember) (v : val) : res bytes :=
    let inner j u := einner e (resolve false prev (f_len a)) j u in
    match m with
    | GTy t => enc_field e (ipv6_order h e) (enc (h_iter h) e (ipv6_order h e)) prev a t v
    | GPlain j => rapp (Ok (f_prefix a)) (inner j v)
    | GOption j =>
      rapp (Ok (f_prefix a))
        match v with
        | VNone => Ok [x00]
        | VSome u => rapp (Ok [x01]) (inner j u)
        | _ => Fault IllTyped
        end
    end.

  Fixpoint emembers (e : endian) (prev : list (option Z)) (ms : fmembers) (vs : list val) : res bytes :=
    match ms, vs with
    | [], [] => Ok []
    | (a, m) :: mr, v :: vr =>
      if f_skip a then emembers e prev mr vr
      else rapp (emember e prev a m v) (emembers e (prev ++ [proj v]) mr vr)
    | _, _ => Fault IllTyped
    end.

  Definition member_ok (a : fattrs) (m : fmember) (v : val) : Prop :=
    if f_skip a then v = f_default a else
    match m with
    | GTy t => fm_ok (fty t) v
    | GPlain j => inner_ok j v
    | GOption j => match v with VNone => True | VSome u => inner_ok j u | _ => False end
    end.

  Fixpoint members_ok (ms : fmembers) (vs : list val) : Prop :=
    match ms, vs with
    | [], [] => True
    | (a, m) :: mr, v :: vr => member_ok a m v /\ members_ok mr vr
    | _, _ => False
    end.

  Definition to_eof (a : fattrs) : bool := match f_len a with LEof => true | _ => false end.
  Definition member_open (a : fattrs) (m : fmember) : bool :=
    negb (f_skip a) &&
    match m with
    | GTy t => negb (f_varint a) && opens (field_eof a t) t
    | GPlain j | GOption j => inner_open (to_eof a) j
    end.
  Definition members_open (ms : fmembers) : bool := existsb (fun m => member_open (fst m) (snd m)) ms.

  Definition fstruct (size : N) (ms : fmembers) : format :=
    {| fm_size := size;
       fm_dec := fun e => dmap VSeq (dmembers e [] ms);
       fm_enc := fun e v => match v with VSeq vs => emembers e [] ms vs | _ => Fault IllTyped end;
       fm_ok := fun v => match v with VSeq vs => members_ok ms vs | _ => False end;
       fm_open := members_open ms |}.

  Fixpoint dvariant_of (e : endian) (tag : N) (i : nat) (vs : list (N * fmembers)) : dec val :=
    match vs with
    | [] => dbad InvalidEnumVariant
    | (g, ms) :: r => if g =? tag then dmap (VVar i) (dmembers e [] ms) else dvariant_of e tag (S i) r
    end.
  Definition evariant_of (e : endian) (d : edecl) (vs : list (N * fmembers)) (i : nat) (us : list val) : res bytes :=
    match nth_error vs i with
    | None => Fault IllTyped
    | Some (g, ms) => rapp (Ok (if e_peek d then [] else enc_basic e (e_tag d) g)) (emembers e [] ms us)
    end.

  (** With `peek_tag` the fields have to begin with the tag themselves. *)
  Definition variant_ok (d : edecl) (vs : list (N * fmembers)) (i : nat) (us : list val) : Prop :=
    match nth_error vs i with
    | None => False
    | Some (g, ms) =>
      members_ok ms us
      /\ (e_peek d = true -> forall e b, emembers e [] ms us = Ok b -> begins b (enc_basic e (e_tag d) g))
    end.

  Definition fenum (size : N) (d : edecl) (vs : list (N * fmembers)) : format :=
    {| fm_size := size;
       fm_dec := fun e =>
         tag <-- (if e_peek d then dpeek (dbasic e (e_tag d)) else dbasic e (e_tag d)) ;;
         dvariant_of e tag 0 vs;
       fm_enc := fun e v => match v with VVar i us => evariant_of e d vs i us | _ => Fault IllTyped end;
       fm_ok := fun v => match v with VVar i us => variant_ok d vs i us | _ => False end;
       fm_open := existsb (fun v => members_open (snd v)) vs |}.

  (** A type without values. *)
  Definition fnone (size : N) : format :=
    {| fm_size := size; fm_dec := fun e => dpanic IllTyped; fm_enc := fun e v => Fault IllTyped;
       fm_ok := fun v => False; fm_open := false |}.
End Formats.
