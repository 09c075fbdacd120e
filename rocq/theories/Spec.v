(* The wire format and the validity of values, on plain byte strings.

   Nothing here knows about readers, writers, buffers, streams, memory layouts,
   fast paths or the byte order of the host. *)
From Verif Require Export Types.

(* ------------------------------------------------------------------ *)
(** * Words *)

(** A number in [w] bytes in the given byte order. *)
Definition word (e : endian) (w : nat) (n : N) : bytes :=
  match e with LE => le_bytes w n | BE => rev (le_bytes w n) end.

Definition unword (e : endian) (bs : bytes) : N :=
  match e with LE => le_num bs | BE => le_num (rev bs) end.

(** Network addresses are a number whose most significant byte is the first
    octet. *)
Definition octets (e : endian) (b : bytes) : bytes :=
  match e with LE => rev b | BE => b end.

(* ------------------------------------------------------------------ *)
(** * Variable length integers *)

(** Number of bytes after the first: 7 payload bits per byte in total, except
    that nine bytes hold 64 bits. *)
Definition vi_extra (n : N) : nat :=
  if n <? 2 ^ 7 then 0 else if n <? 2 ^ 14 then 1 else if n <? 2 ^ 21 then 2
  else if n <? 2 ^ 28 then 3 else if n <? 2 ^ 35 then 4 else if n <? 2 ^ 42 then 5
  else if n <? 2 ^ 49 then 6 else if n <? 2 ^ 56 then 7 else 8.

(** As many leading one bits as bytes follow, then the most significant bits of
    the number; the rest follows least significant byte first. *)
Definition vi_enc (n : N) : bytes :=
  let k := vi_extra n in
  n2b (256 - 2 ^ (8 - N.of_nat k) + n / 2 ^ (8 * N.of_nat k)) :: le_bytes k n.

(** Number of leading one bits of a byte. *)
Definition vi_ones (b : N) : nat :=
  if b <? 128 then 0 else if b <? 192 then 1 else if b <? 224 then 2 else if b <? 240 then 3
  else if b <? 248 then 4 else if b <? 252 then 5 else if b <? 254 then 6
  else if b <? 255 then 7 else 8.

(* ------------------------------------------------------------------ *)
(** * Lengths *)

(** How the length of a container is given: by a prefix (with [lenient], a
    missing prefix counts as zero), by an expression ([None]: its evaluation
    overflows), or by the end of the input. *)
Inductive lenspec :=
| LenPrefix (b : basic) (lenient : bool)
| LenFixed (n : option N)
| LenEof.

Definition len0 : lenspec := LenPrefix BU32 false.

Definition resolve (lenient : bool) (prev : list (option Z)) (lm : lenmode) : lenspec :=
  match lm with
  | LDefault => LenPrefix BU32 lenient
  | LType b => LenPrefix b lenient
  | LExpr f => LenFixed (f prev)
  | LEof => LenEof
  end.

(** The attributes of a field apply to its outermost container, possibly inside
    an `Option`, if the derive macro recognises it. *)
Definition sized_field (a : fattrs) (t : ty) : bool :=
  negb (f_opaque a)
  && match t with TOption t' => is_container t' | _ => is_container t end.

Definition field_len (lenient : bool) (prev : list (option Z)) (a : fattrs) (t : ty) : lenspec :=
  if sized_field a t then resolve lenient prev (f_len a) else len0.

(** Largest length each prefix can hold. *)
Definition basic_max (b : basic) : N :=
  match b with
  | BU7 => 127 | BU8 => 2 ^ 8 - 1 | BU16 => 2 ^ 16 - 1 | BU32 => 2 ^ 32 - 1
  | BU64 | BVarint => 2 ^ 64 - 1
  end.

(** A number of a basic type. *)
Definition enc_basic (e : endian) (b : basic) (n : N) : bytes :=
  match b with
  | BU7 | BU8 => word e 1 n | BU16 => word e 2 n | BU32 => word e 4 n | BU64 => word e 8 n
  | BVarint => vi_enc n
  end.

(* ------------------------------------------------------------------ *)
(** * Encoding *)

Definition rapp (a b : res bytes) : res bytes :=
  rbind a (fun x => rmap (app x) b).

Fixpoint bools_num (vs : list val) : N :=
  match vs with
  | [] => 0
  | v :: r => (match v with VBool true => 1 | _ => 0 end) + 2 * bools_num r
  end.

Section Encode.
  (** [it]: the iteration order of hash tables; [e]: the byte order; [e6]: the
      byte order of IPv6 addresses (documented to be [e]). *)
  Context (it : list val -> list val) (e e6 : endian).

  Definition enc_prim (p : prim) (z : Z) : bytes := word e (psize p) (to_bits p z).

  Definition enc_scalar (s : scalar) (v : val) : res bytes :=
    match s, v with
    | (SPrim p | SNonZero p | SAtomic p), VInt z => Ok (enc_prim p z)
    | SUsize, VInt z => Ok (word e 8 (Z.to_N z))
    | SBool, VBool b => Ok [if b then x01 else x00]
    | SChar, VInt z => Ok (word e 4 (Z.to_N z))
    | SEndian, VVar i [] => Ok [n2b (N.of_nat i)]
    | SUnit, VUnit => Ok []
    | SVarint, VInt z => Ok (vi_enc (Z.to_N z))
    | SIpv4, VBytes b => Ok (octets e b)
    | SIpv6, VBytes b => Ok (octets e6 b)
    | SIpAddr, VVar 0%nat [VBytes b] => Ok (x00 :: octets e b)
    | SIpAddr, VVar 1%nat [VBytes b] => Ok (x01 :: octets e6 b)
    | SDuration, VSeq [VInt secs; VInt nanos] => Ok (enc_prim U64 secs ++ enc_prim U32 nanos)
    | SSystemTime, VSeq [VInt secs; VInt nanos] =>
      if (secs <? 0)%Z then Err InvalidSystemTime
      else Ok (enc_prim U64 secs ++ enc_prim U32 nanos)
    | SUuid, VBytes b => Ok b
    | SDateTime, VSeq [VInt secs; VInt nanos] => Ok (enc_prim I64 secs ++ enc_prim U32 nanos)
    | SGlam p _, VSeq vs =>
      rmap (@concat _)
        (rmapM (fun v => match v with VInt z => Ok (enc_prim p z) | _ => Fault IllTyped end) vs)
    | SBVec _, VSeq vs => Ok [n2b (bools_num vs)]
    | _, _ => Fault IllTyped
    end.

  (** What stands before the [n] elements of a container. *)
  Definition enc_len (l : lenspec) (n : N) : res bytes :=
    match l with
    | LenPrefix b _ => if n <=? basic_max b then Ok (enc_basic e b n) else Err OutOfRangeLength
    | LenFixed (Some m) => if n =? m then Ok [] else Err LengthIsNotTheSameAsLengthAttribute
    | LenFixed None => Fault PanicOverflow
    | LenEof => Ok []
    end.

  Definition enc_all (en : val -> res bytes) (vs : list val) : res bytes :=
    rmap (@concat _) (rmapM en vs).

  Definition enc_pair (ek ev : val -> res bytes) (v : val) : res bytes :=
    match v with VSeq [k; x] => rapp (ek k) (ev x) | _ => Fault IllTyped end.

  Definition enc_tuple (en : ty -> val -> res bytes) : list ty -> list val -> res bytes :=
    fix go (ts : list ty) (vs : list val) : res bytes :=
      match ts, vs with
      | [], [] => Ok []
      | t :: tr, v :: vr => rapp (en t v) (go tr vr)
      | _, _ => Fault IllTyped
      end.

  (** A field: its constant, then its value; a varint field is a variable length
      integer. *)
  Definition enc_field (en : lenspec -> ty -> val -> res bytes) (prev : list (option Z))
      (a : fattrs) (t : ty) (v : val) : res bytes :=
    rmap (app (f_prefix a))
      (if f_varint a then enc_scalar SVarint v
       else en (field_len false prev a t) t v).

  (** Fields in declaration order, without the skipped ones. *)
  Definition enc_fields (en : lenspec -> ty -> val -> res bytes)
    : list (option Z) -> fields -> list val -> res bytes :=
    fix go (prev : list (option Z)) (fs : fields) (vs : list val) : res bytes :=
      match fs, vs with
      | [], [] => Ok []
      | f :: fr, v :: vr =>
        if f_skip (fst f) then go prev fr vr
        else rapp (enc_field en prev (fst f) (snd f) v) (go (prev ++ [proj v]) fr vr)
      | _, _ => Fault IllTyped
      end.

  Definition enc_variant (d : edecl) (en : lenspec -> ty -> val -> res bytes)
    : list (N * fields) -> nat -> list val -> res bytes :=
    fix go (vs : list (N * fields)) (i : nat) (us : list val) : res bytes :=
      match vs, i with
      | [], _ => Fault IllTyped
      | v :: _, O =>
        rmap (app (if e_peek d then [] else enc_basic e (e_tag d) (fst v)))
          (enc_fields en [] (snd v) us)
      | _ :: r, S i' => go r i' us
      end.

  (** The encoding of a value; [l] tells how the length of an outermost container
      (possibly inside an `Option`) is given. *)
  Fixpoint enc (l : lenspec) (t : ty) (v : val) {struct t} : res bytes :=
    match t, v with
    | TScalar s, _ => enc_scalar s v
    | TStr _, VBytes b => rapp (enc_len l (nlen b)) (Ok b)
    | TSeq _ t', VSeq vs => rapp (enc_len l (nlen vs)) (enc_all (enc len0 t') vs)
    | TSet k t', VSeq vs =>
      rapp (enc_len l (nlen vs)) (enc_all (enc len0 t') (iter_order it k vs))
    | TMap k tk tv, VSeq vs =>
      rapp (enc_len l (nlen vs))
           (enc_all (enc_pair (enc len0 tk) (enc len0 tv)) (iter_order it k vs))
    | (TArr t' _ | TRefArr t' _), VSeq vs => enc_all (enc len0 t') vs
    | TOption t', VNone => Ok [x00]
    | TOption t', VSome u => rapp (Ok [x01]) (enc l t' u)
    | TResult t1 t2, VOk u => rapp (Ok [x01]) (enc len0 t1 u)
    | TResult t1 t2, VErr u => rapp (Ok [x00]) (enc len0 t2 u)
    | TTuple ts, VSeq vs => enc_tuple (enc len0) ts vs
    | TRange _ t', VSeq (a :: b :: _) => rapp (enc len0 t' a) (enc len0 t' b)
    | TBox t', _ => enc len0 t' v
    | TStruct _ fs, VSeq vs => enc_fields enc [] fs vs
    | TEnum d vs, VVar i us => enc_variant d enc vs i us
    | _, _ => Fault IllTyped
    end.

  Definition encode (t : ty) (v : val) : res bytes := enc len0 t v.
End Encode.

(* ------------------------------------------------------------------ *)
(** * Decoding *)

(** Outcome of decoding.

    - [DOk a rest]: a value and what is left of the input.  [rest = None]: an
      end of the input in the middle of a `default_on_eof` field was caught, and
      what the next field will see depends on the reader.
    - [DEof]: the input ends too early.
    - [DBad err sure]: rejected with [err]; unless [sure], a reader that knows
      how much input is left may report the end of the input instead.
    - [DPanic f sure]: likewise for a panic.
    - [DUnspec]: the outcome depends on the reader. *)
Inductive dres (A : Type) :=
| DOk (a : A) (rest : option bytes)
| DEof
| DBad (err : error) (sure : bool)
| DPanic (f : fault) (sure : bool)
| DUnspec.
Arguments DOk {A} a rest.
Arguments DEof {A}.
Arguments DBad {A} err sure.
Arguments DPanic {A} f sure.
Arguments DUnspec {A}.

Definition dec (A : Type) : Type := option bytes -> dres A.

Definition dret {A} (a : A) : dec A := fun o => DOk a o.
Definition dbad {A} (err : error) : dec A := fun _ => DBad err true.
Definition dpanic {A} (f : fault) : dec A := fun _ => DPanic f true.

Definition dbind {A B} (m : dec A) (k : A -> dec B) : dec B := fun o =>
  match m o with
  | DOk a o' => k a o'
  | DEof => DEof
  | DBad err s => DBad err s
  | DPanic f s => DPanic f s
  | DUnspec => DUnspec
  end.

Declare Scope dec_scope.
Delimit Scope dec_scope with dec.
Notation "x <-- m ;; k" := (dbind m (fun x => k))
  (at level 61, m at next level, right associativity) : dec_scope.
Open Scope dec_scope.

Definition dmap {A B} (f : A -> B) (m : dec A) : dec B := x <-- m ;; dret (f x).

(** The next [n] bytes. *)
Definition dread (n : N) : dec bytes := fun o =>
  if n =? 0 then DOk [] o else
  match o with
  | None => DUnspec
  | Some bs => if n <=? nlen bs then DOk (ntake n bs) (Some (ndrop n bs)) else DEof
  end.

(** All remaining bytes. *)
Definition drest : dec bytes := fun o =>
  match o with None => DUnspec | Some bs => DOk bs (Some []) end.

(** Look ahead. *)
Definition dpeek {A} (m : dec A) : dec A := fun o =>
  match m o with DOk a _ => DOk a o | r => r end.

Fixpoint drepeat {A} (m : dec A) (n : nat) : dec (list A) :=
  match n with
  | O => dret []
  | S n' => x <-- m ;; xs <-- drepeat m n' ;; dret (x :: xs)
  end.

(** What a reader that looks at the remaining input first may see differently. *)
Definition dunsure {A} (m : dec A) : dec A := fun o =>
  match m o with
  | DBad err _ => DBad err false
  | DPanic f _ => DPanic f false
  | r => r
  end.

(** An end of the input is replaced by a default. *)
Definition dcatch {A} (dflt : A) (m : dec A) : dec A := fun o =>
  match m o with
  | DEof => DOk dflt (match o with Some [] => Some [] | _ => None end)
  | DBad _ false | DPanic _ false => DUnspec
  | r => r
  end.

(** Elements until the end of the input. *)
Fixpoint duntil_loop {A} (m : dec A) (k : nat) : dec (list A) := fun o =>
  match k with
  | O => DPanic Diverges true
  | S k' =>
    match m o with
    | DOk a o' => dmap (cons a) (duntil_loop m k') o'
    | DEof => DOk [] (match o with Some [] => Some [] | _ => None end)
    | DBad err true => DBad err true
    | DPanic f true => DPanic f true
    | _ => DUnspec
    end
  end.
Definition duntil {A} (m : dec A) : dec (list A) := fun o =>
  match o with None => DUnspec | Some bs => duntil_loop m (S (length bs)) o end.

Section Decode.
  Context (lim : limits) (e e6 : endian).

  Definition dword (w : nat) : dec N := dmap (unword e) (dread (N.of_nat w)).
  Definition dprim (p : prim) : dec Z := dmap (of_bits p) (dword (psize p)).

  Definition dvarint : dec N :=
    b <-- dword 1 ;;
    let k := vi_ones b in
    tail <-- dread (N.of_nat k) ;;
    dret ((b mod 2 ^ (7 - N.of_nat k)) * 2 ^ (8 * N.of_nat k) + le_num tail).

  (** A number of a basic type. *)
  Definition dbasic (b : basic) : dec N :=
    match b with
    | BU7 | BU8 => dword 1 | BU16 => dword 2 | BU32 => dword 4 | BU64 => dword 8
    | BVarint => dvarint
    end.

  Definition dduration : dec val :=
    secs <-- dword 8 ;;
    nanos <-- dword 4 ;;
    let s := secs + nanos / 10 ^ 9 in
    if s <? 2 ^ 64 then dret (VSeq [VInt (Z.of_N s); VInt (Z.of_N (nanos mod 10 ^ 9))])
    else dpanic PanicExplicit.

  Definition dint (n : N) : dec val := dret (VInt (Z.of_N n)).

  Definition dec_scalar (s : scalar) : dec val :=
    match s with
    | SPrim p | SAtomic p => dmap VInt (dprim p)
    | SUsize => n <-- dword 8 ;; if n <=? l_usize_max lim then dint n else dbad OutOfRangeUsize
    | SBool => n <-- dword 1 ;; dret (VBool (negb (n =? 0)))
    | SChar => n <-- dword 4 ;; if is_scalar n then dint n else dbad InvalidChar
    | SEndian => n <-- dword 1 ;; if n <=? 1 then dret (VVar (N.to_nat n) []) else dbad InvalidEnumVariant
    | SUnit => dret VUnit
    | SNonZero p => z <-- dprim p ;; if (z =? 0)%Z then dbad ZeroNonZero else dret (VInt z)
    | SVarint => n <-- dvarint ;; dint n
    | SIpv4 => b <-- dread 4 ;; dret (VBytes (octets e b))
    | SIpv6 => b <-- dread 16 ;; dret (VBytes (octets e6 b))
    | SIpAddr =>
      n <-- dword 1 ;;
      if n =? 0 then b <-- dread 4 ;; dret (VVar 0 [VBytes (octets e b)])
      else if n =? 1 then b <-- dread 16 ;; dret (VVar 1 [VBytes (octets e6 b)])
      else dbad InvalidEnumVariant
    | SDuration => dduration
    | SSystemTime =>
      d <-- dduration ;;
      match d with
      | VSeq (VInt secs :: _) =>
        if (secs <=? Z.of_N (l_systime_max lim))%Z then dret d else dbad InvalidSystemTime
      | _ => dbad InvalidSystemTime
      end
    | SUuid => dmap VBytes (dread 16)
    | SDateTime =>
      secs <-- dprim I64 ;;
      nanos <-- dword 4 ;;
      if l_chrono_ok lim secs nanos then dret (VSeq [VInt secs; VInt (Z.of_N nanos)])
      else dpanic PanicExplicit
    | SGlam p n => dmap VSeq (drepeat (dmap VInt (dprim p)) n)
    | SBVec n =>
      m <-- dword 1 ;; dret (VSeq (map (fun i => VBool (N.odd (m / 2 ^ N.of_nat i))) (seq 0 n)))
    end.

  Definition dprefix (b : basic) : dec N :=
    n <-- dbasic b ;;
    if n <=? match b with BU7 => 127 | _ => l_usize_max lim end then dret n else dbad OutOfRangeLength.

  (** The length of a container, then its content. *)
  Definition dlen {A} (l : lenspec) (counted : N -> dec A) (to_end : dec A) : dec A :=
    match l with
    | LenPrefix b lenient =>
      n <-- (if lenient then dcatch 0 (dprefix b) else dprefix b) ;; counted n
    | LenFixed (Some n) => counted n
    | LenFixed None => dpanic PanicOverflow
    | LenEof => to_end
    end.

  (** [n] elements of type [t] have to fit into an allocation. *)
  Definition dsized {A} (t : ty) (n : N) (d : dec A) : dec A :=
    if l_fits lim t n then dunsure d else fun _ => DPanic PanicCapacity false.

  Definition dstr (k : strkind) (b : bytes) : dec val :=
    if utf8_valid b then
      match k with
      | KRegex => if l_regex_ok lim b then dret (VBytes b) else dbad (IoError (IoOther 0))
      | _ => dret (VBytes b)
      end
    else dbad InvalidUtf8.

  Definition dpair (dk dv : dec val) : dec val :=
    a <-- dk ;; b <-- dv ;; dret (VSeq [a; b]).

  Definition dtuple (d : ty -> dec val) : list ty -> dec (list val) :=
    fix go (ts : list ty) : dec (list val) :=
      match ts with
      | [] => dret []
      | t :: r => v <-- d t ;; vs <-- go r ;; dret (v :: vs)
      end.

  Definition dconst (c : bytes) : dec unit :=
    b <-- dread (nlen c) ;;
    if list_eq_dec Byte.byte_eq_dec b c then dret tt else dbad (ExpectedConstant c).

  Definition dfield (d : lenspec -> ty -> dec val) (prev : list (option Z)) (a : fattrs) (t : ty)
    : dec val :=
    let body :=
      _ <-- dconst (f_prefix a) ;;
      if f_varint a then dec_scalar SVarint
      else d (field_len (f_eof a) prev a t) t in
    if f_eof a then dcatch (f_default a) body else body.

  Definition dfields (d : lenspec -> ty -> dec val)
    : list (option Z) -> fields -> dec (list val) :=
    fix go (prev : list (option Z)) (fs : fields) : dec (list val) :=
      match fs with
      | [] => dret []
      | f :: r =>
        if f_skip (fst f) then dmap (cons (f_default (fst f))) (go prev r)
        else
          v <-- dfield d prev (fst f) (snd f) ;;
          vs <-- go (prev ++ [proj v]) r ;;
          dret (v :: vs)
      end.

  Definition dvariant (d : lenspec -> ty -> dec val) (tag : N)
    : nat -> list (N * fields) -> dec val :=
    fix go (i : nat) (vs : list (N * fields)) : dec val :=
      match vs with
      | [] => dbad InvalidEnumVariant
      | v :: r =>
        if fst v =? tag then dmap (VVar i) (dfields d [] (snd v)) else go (S i) r
      end.

  Fixpoint decl (l : lenspec) (t : ty) {struct t} : dec val :=
    match t with
    | TScalar s => dec_scalar s
    | TStr k =>
      dlen l (fun n => b <-- dsized (TP U8) n (dread n) ;; dstr k b) (b <-- drest ;; dstr k b)
    | TSeq _ t' =>
      dmap VSeq (dlen l (fun n => dsized t' n (drepeat (decl len0 t') (N.to_nat n)))
                        (duntil (decl len0 t')))
    | TSet k t' =>
      xs <-- dlen l (fun n => drepeat (decl len0 t') (N.to_nat n)) (duntil (decl len0 t')) ;;
      dret (VSeq (collect k id xs))
    | TMap k tk tv =>
      let d := dpair (decl len0 tk) (decl len0 tv) in
      xs <-- dlen l (fun n => drepeat d (N.to_nat n)) (duntil d) ;;
      dret (VSeq (collect k pair_key xs))
    | TArr t' n | TRefArr t' n => dmap VSeq (drepeat (decl len0 t') n)
    | TOption t' =>
      n <-- dword 1 ;; if n =? 0 then dret VNone else dmap VSome (decl l t')
    | TResult t1 t2 =>
      n <-- dword 1 ;; if n =? 0 then dmap VErr (decl len0 t2) else dmap VOk (decl len0 t1)
    | TTuple ts => dmap VSeq (dtuple (decl len0) ts)
    | TRange incl t' =>
      a <-- decl len0 t' ;; b <-- decl len0 t' ;;
      dret (VSeq (if incl then [a; b; VBool false] else [a; b]))
    | TBox t' => decl len0 t'
    | TStruct _ fs => dmap VSeq (dfields decl [] fs)
    | TEnum d vs =>
      tag <-- (if e_peek d then dpeek (dbasic (e_tag d)) else dbasic (e_tag d)) ;;
      dvariant decl tag 0 vs
    | TBot => dpanic IllTyped
    end.

  Definition decode (t : ty) (bs : bytes) : dres val := decl len0 t (Some bs).
End Decode.

(* ------------------------------------------------------------------ *)
(** * Values of a type *)

Definition in_z (lo z hi : Z) : Prop := (lo <= z < hi)%Z.

(** No two keys are equal. *)
Fixpoint distinct (key : val -> val) (vs : list val) : Prop :=
  match vs with
  | [] => True
  | v :: r => Forall (fun u => val_cmp (key v) (key u) <> Eq) r /\ distinct key r
  end.

(** Keys ascend strictly. *)
Fixpoint increasing (key : val -> val) (vs : list val) : Prop :=
  match vs with
  | [] => True
  | v :: r => Forall (fun u => val_cmp (key v) (key u) = Lt) r /\ increasing key r
  end.

Definition keys_ok (k : colkind) (key : val -> val) (vs : list val) : Prop :=
  match k with CIndex => distinct key vs | CBTree | CHash => increasing key vs end.

Section Valid.
  Context (lim : limits).

  Definition valid_scalar (s : scalar) (v : val) : Prop :=
    match s, v with
    | (SPrim p | SAtomic p), VInt z => prim_ok p z = true
    | SNonZero p, VInt z => prim_ok p z = true /\ z <> 0%Z
    | SUsize, VInt z => in_z 0 z (Z.of_N (l_usize_max lim) + 1)
    | SBool, VBool _ => True
    | SChar, VInt z => (0 <= z)%Z /\ is_scalar (Z.to_N z) = true
    | SEndian, VVar i [] => (i < 2)%nat
    | SUnit, VUnit => True
    | SVarint, VInt z => in_z 0 z (2 ^ 64)
    | SIpv4, VBytes b => length b = 4%nat
    | (SIpv6 | SUuid), VBytes b => length b = 16%nat
    | SIpAddr, VVar 0%nat [VBytes b] => length b = 4%nat
    | SIpAddr, VVar 1%nat [VBytes b] => length b = 16%nat
    | SDuration, VSeq [VInt s; VInt n] => in_z 0 s (2 ^ 64) /\ in_z 0 n (10 ^ 9)
    | SSystemTime, VSeq [VInt s; VInt n] =>
      (s <= Z.of_N (l_systime_max lim))%Z /\ in_z 0 n (10 ^ 9)
    | SDateTime, VSeq [VInt s; VInt n] =>
      prim_ok I64 s = true /\ in_z 0 n (2 ^ 32) /\ l_chrono_ok lim s (Z.to_N n) = true
    | SGlam p n, VSeq vs =>
      length vs = n /\ Forall (fun v => match v with VInt z => prim_ok p z = true | _ => False end) vs
    | SBVec n, VSeq vs =>
      length vs = n /\ Forall (fun v => match v with VBool _ => True | _ => False end) vs
    | _, _ => False
    end.

  Definition small (n : N) : Prop := n <= l_usize_max lim.

  (** [n] elements of type [t] exist in memory. *)
  Definition fits_in (t : ty) (n : N) : Prop := small n /\ l_fits lim t n = true.

  Definition valid_pair (vk vv : val -> Prop) (v : val) : Prop :=
    match v with VSeq [k; x] => vk k /\ vv x | _ => False end.

  Definition valid_list (va : ty -> val -> Prop) : list ty -> list val -> Prop :=
    fix go (ts : list ty) (vs : list val) : Prop :=
      match ts, vs with
      | [], [] => True
      | t :: tr, v :: vr => va t v /\ go tr vr
      | _, _ => False
      end.

  Definition valid_fields (va : ty -> val -> Prop) : fields -> list val -> Prop :=
    fix go (fs : fields) (vs : list val) : Prop :=
      match fs, vs with
      | [], [] => True
      | f :: fr, v :: vr => va (snd f) v /\ go fr vr
      | _, _ => False
      end.

  Definition valid_variant (va : ty -> val -> Prop) : list (N * fields) -> nat -> list val -> Prop :=
    fix go (vs : list (N * fields)) (i : nat) (us : list val) : Prop :=
      match vs, i with
      | [], _ => False
      | v :: _, O => valid_fields va (snd v) us
      | _ :: r, S i' => go r i' us
      end.

  (** [v] is a value of type [t]. *)
  Fixpoint valid (t : ty) (v : val) {struct t} : Prop :=
    match t, v with
    | TScalar s, _ => valid_scalar s v
    | TStr k, VBytes b =>
      utf8_valid b = true /\ fits_in (TP U8) (nlen b)
      /\ match k with KRegex => l_regex_ok lim b = true | _ => True end
    | TSeq _ t', VSeq vs => Forall (valid t') vs /\ fits_in t' (nlen vs)
    | (TArr t' n | TRefArr t' n), VSeq vs => Forall (valid t') vs /\ length vs = n
    | TSet k t', VSeq vs => Forall (valid t') vs /\ small (nlen vs) /\ keys_ok k id vs
    | TMap k tk tv, VSeq vs =>
      Forall (valid_pair (valid tk) (valid tv)) vs /\ small (nlen vs) /\ keys_ok k pair_key vs
    | TOption t', VNone => True
    | TOption t', VSome u => valid t' u
    | TResult t1 t2, VOk u => valid t1 u
    | TResult t1 t2, VErr u => valid t2 u
    | TTuple ts, VSeq vs => valid_list valid ts vs
    | TRange false t', VSeq [a; b] => valid t' a /\ valid t' b
    | TRange true t', VSeq [a; b; VBool _] => valid t' a /\ valid t' b
    | TBox t', _ => valid t' v
    | TStruct _ fs, VSeq vs => valid_fields valid fs vs
    | TEnum _ vs, VVar i us => valid_variant valid vs i us
    | _, _ => False
    end.
End Valid.

(* ------------------------------------------------------------------ *)
(** * What a round trip loses *)

(** Skipped fields become their default; an exhausted inclusive range becomes a
    fresh one. *)
Definition norm_list (nm : ty -> val -> val) : list ty -> list val -> list val :=
  fix go (ts : list ty) (vs : list val) : list val :=
    match ts, vs with
    | t :: tr, v :: vr => nm t v :: go tr vr
    | _, _ => []
    end.

Definition norm_fields (nm : ty -> val -> val) : fields -> list val -> list val :=
  fix go (fs : fields) (vs : list val) : list val :=
    match fs, vs with
    | f :: fr, v :: vr =>
      (if f_skip (fst f) then f_default (fst f) else nm (snd f) v) :: go fr vr
    | _, _ => []
    end.

Definition norm_variant (nm : ty -> val -> val) : list (N * fields) -> nat -> list val -> list val :=
  fix go (vs : list (N * fields)) (i : nat) (us : list val) : list val :=
    match vs, i with
    | [], _ => []
    | v :: _, O => norm_fields nm (snd v) us
    | _ :: r, S i' => go r i' us
    end.

Fixpoint norm (t : ty) (v : val) {struct t} : val :=
  match t, v with
  | (TSeq _ t' | TArr t' _ | TRefArr t' _ | TSet _ t'), VSeq vs => VSeq (map (norm t') vs)
  | TMap _ tk tv, VSeq vs =>
    VSeq (map (fun p => match p with
                        | VSeq [k; x] => VSeq [norm tk k; norm tv x]
                        | _ => p
                        end) vs)
  | TOption t', VSome u => VSome (norm t' u)
  | TResult t1 _, VOk u => VOk (norm t1 u)
  | TResult _ t2, VErr u => VErr (norm t2 u)
  | TTuple ts, VSeq vs => VSeq (norm_list norm ts vs)
  | TRange false t', VSeq [a; b] => VSeq [norm t' a; norm t' b]
  | TRange true t', VSeq [a; b; _] => VSeq [norm t' a; norm t' b; VBool false]
  | TBox t', _ => norm t' v
  | TStruct _ fs, VSeq vs => VSeq (norm_fields norm fs vs)
  | TEnum _ vs, VVar i us => VVar i (norm_variant norm vs i us)
  | _, _ => v
  end.
