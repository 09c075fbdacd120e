(* Writable: src/writable_impl.rs, the ext_*.rs files, and the code the derive
   macro generates (speedy-derive/src/lib.rs 1709-1847, 2365-2477). *)
From Verif Require Export Writer.

(** Octets of an Ipv4Addr as the u32 `From` gives (first octet highest). *)
Definition ipv4_num (b : bytes) : N := le_num (rev b).

(** `self.bitmask()` of glam's BVecN: component i is bit i. *)
Fixpoint bvec_mask (vs : list val) : N :=
  match vs with
  | [] => 0
  | VBool b :: r => (if b then 1 else 0) + 2 * bvec_mask r
  | _ :: r => 2 * bvec_mask r
  end.

Section Write.
  Context {St : Type} (h : host) (W : writer St).

  Definition ill {A} : M St A := crash IllTyped.

  (** src/writable_impl.rs 601-612, 614-629 *)
  Definition write_ipv4 (b : bytes) : M St unit := wr_uint W 4 (ipv4_num b).
  Definition write_ipv6 (b : bytes) : M St unit :=
    wr_bytes W (if negb (conversion_necessary (h_native h) (wr_endian W)) then rev b else b).

  (** src/writable_impl.rs 655-667 *)
  Definition write_duration (secs nanos : Z) : M St unit :=
    wr_uint W 8 (to_bits U64 secs) ;;; wr_uint W 4 (to_bits U32 nanos).

  Definition write_scalar (s : scalar) (v : val) : M St unit :=
    match s, v with
    | SPrim p, VInt z => write_prim W p z                        (* 125-166 *)
    | SUsize, VInt z => wr_uint W 8 (Z.to_N z)                   (* 168-178 *)
    | SBool, VBool b => wr_u8 W (if b then 1 else 0)             (* 180-190 *)
    | SChar, VInt z => wr_uint W 4 (Z.to_N z)                    (* 192-202 *)
    | SEndian, VVar i [] => wr_u8 W (N.of_nat i)                 (* 495-509 *)
    | SUnit, VUnit => ret tt                                     (* 444-453 *)
    | SNonZero p, VInt z => write_prim W p z                     (* 536-560 *)
    | SAtomic p, VInt z => write_prim W p z                      (* 561-599 *)
    | SVarint, VInt z => write_varint h W (Z.to_N z)             (* varint.rs 205-275 *)
    | SIpv4, VBytes b => write_ipv4 b
    | SIpv6, VBytes b => write_ipv6 b
    | SIpAddr, VVar 0%nat [VBytes b] => wr_u8 W 0 ;;; write_ipv4 b   (* 631-645 *)
    | SIpAddr, VVar 1%nat [VBytes b] => wr_u8 W 1 ;;; write_ipv6 b
    | SDuration, VSeq [VInt secs; VInt nanos] => write_duration secs nanos
    | SSystemTime, VSeq [VInt secs; VInt nanos] =>               (* 669-675 *)
      if (secs <? 0)%Z then fail InvalidSystemTime else write_duration secs nanos
    | SUuid, VBytes b => wr_bytes W b                            (* ext_uuid.rs *)
    | SDateTime, VSeq [VInt secs; VInt nanos] =>                 (* ext_chrono.rs *)
      wr_uint W 8 (to_bits I64 secs) ;;; wr_uint W 4 (to_bits U32 nanos)
    | SGlam p _, VSeq vs =>                                      (* ext_glam.rs *)
      write_each (fun v => match v with VInt z => write_prim W p z | _ => ill end) vs
    | SBVec _, VSeq vs => wr_u8 W (bvec_mask vs)
    | _, _ => ill
    end.

  Definition TU8 : ty := TP U8.

  (** `write_slice` of bytes (a primitive of size 1). *)
  Definition write_bytes_slice (b : bytes) : M St unit :=
    write_slice h W TU8
      (fun v => match v with VInt z => write_prim W U8 z | _ => ill end)
      (map (fun x => VInt (Z.of_N (b2n x))) b).

  (** `[u8]::write_to` on the bytes of a string (205-252, 254-259). *)
  Definition write_str (b : bytes) : M St unit :=
    write_length h W BU32 (nlen b) ;;; write_bytes_slice b.

  (** `[T]::write_to` (254-259), shared by Vec, Box<[T]>, SmallVec, Cow, &[T]. *)
  Definition write_seq (t : ty) (wr : val -> M St unit) (vs : list val) : M St unit :=
    write_length h W BU32 (nlen vs) ;;; write_slice h W t wr vs.

  (** Sets and maps (28-123, 305-354, ext_indexmap.rs): the length, then every
      item in iteration order. *)
  Definition write_col (k : colkind) (wr : val -> M St unit) (vs : list val) : M St unit :=
    write_length h W BU32 (nlen vs) ;;; write_each wr (iter_order (h_iter h) k vs).

  (** A key-value pair as the tuple (&K, &V). *)
  Definition write_pair (wk wv : val -> M St unit) (v : val) : M St unit :=
    match v with VSeq [k; x] => wk k ;;; wv x | _ => ill end.

  Definition write_tuple (wr : ty -> val -> M St unit) : list ty -> list val -> M St unit :=
    fix go (ts : list ty) (vs : list val) : M St unit :=
      match ts, vs with
      | [], [] => ret tt
      | t :: tr, v :: vr => wr t v ;;; go tr vr
      | _, _ => ill
      end.

  (** speedy-derive/src/lib.rs 1711-1737 [write_length_body] *)
  Definition write_length_body (prev : list (option Z)) (lm : lenmode) (n : N) : M St unit :=
    match lm with
    | LExpr f =>
      match f prev with
      | None => crash PanicOverflow
      | Some m => if n =? m then ret tt else fail LengthIsNotTheSameAsLengthAttribute
      end
    | LEof => ret tt
    | LDefault => write_length h W BU32 n
    | LType b => write_length h W b n
    end.

  (** speedy-derive/src/lib.rs 1772-1793: the writer of a (non-Option) field
      type, as classified by `parse_special_ty`. *)
  Definition write_field_inner (wr : ty -> val -> M St unit) (prev : list (option Z))
      (lm : lenmode) (varint : bool) (t : ty) (v : val) : M St unit :=
    match t with
    | TStr (KString | KCowStr | KRefStr) =>
      match v with
      | VBytes b => write_length_body prev lm (nlen b) ;;; write_bytes_slice b
      | _ => ill
      end
    | TSeq (KVec | KCow | KRef) t' =>
      match v with
      | VSeq vs => write_length_body prev lm (nlen vs) ;;; write_slice h W t' (wr t') vs
      | _ => ill
      end
    | TSet ((CBTree | CHash) as k) t' =>
      match v with
      | VSeq vs => write_length_body prev lm (nlen vs) ;;;
                   write_each (wr t') (iter_order (h_iter h) k vs)
      | _ => ill
      end
    | TMap ((CBTree | CHash) as k) tk tv =>
      match v with
      | VSeq vs => write_length_body prev lm (nlen vs) ;;;
                   write_each (write_pair (wr tk) (wr tv)) (iter_order (h_iter h) k vs)
      | _ => ill
      end
    | TArr t' _ =>
      match v with
      | VSeq vs => write_slice h W t' (wr t') vs
      | _ => ill
      end
    | TScalar (SPrim p) =>
      match v with
      | VInt z => if varint then write_varint h W (Z.to_N z) else wr t v
      | _ => ill
      end
    | _ => wr t v
    end.

  (** speedy-derive/src/lib.rs 1709-1815 [write_field_body] *)
  Definition write_field (wr : ty -> val -> M St unit) (prev : list (option Z))
      (a : fattrs) (t : ty) (v : val) : M St unit :=
    (match f_prefix a with [] => ret tt | p => write_bytes_slice p end) ;;;
    if f_opaque a then wr t v else
    match t with
    | TOption t' =>
      match v with
      | VSome u => wr_u8 W 1 ;;; write_field_inner wr prev (f_len a) false t' u
      | VNone => wr_u8 W 0
      | _ => ill
      end
    | _ => write_field_inner wr prev (f_len a) (f_varint a) t v
    end.

  (** speedy-derive/src/lib.rs 1817-1847 [writable_body] *)
  Definition write_fields (wr : ty -> val -> M St unit)
    : list (option Z) -> fields -> list val -> M St unit :=
    fix go (prev : list (option Z)) (fs : fields) (vs : list val) : M St unit :=
      match fs, vs with
      | [], [] => ret tt
      | f :: fr, v :: vr =>
        if f_skip (fst f) then go prev fr vr
        else write_field wr prev (fst f) (snd f) v ;;; go (prev ++ [proj v]) fr vr
      | _, _ => ill
      end.

  (** The variant a value belongs to. *)
  Definition write_variant (d : edecl) (wr : ty -> val -> M St unit)
    : list (N * fields) -> nat -> list val -> M St unit :=
    fix go (vs : list (N * fields)) (i : nat) (us : list val) : M St unit :=
      match vs, i with
      | [], _ => ill
      | v :: _, O =>
        (if e_peek d then ret tt else write_tag h W (e_tag d) (fst v)) ;;;
        write_fields wr [] (snd v) us
      | _ :: r, S i' => go r i' us
      end.

  (** `Writable::write_to` of every type. *)
  Fixpoint write (t : ty) (v : val) {struct t} : M St unit :=
    match t with
    | TScalar s => write_scalar s v
    | TStr _ => match v with VBytes b => write_str b | _ => ill end
    | TSeq _ t' => match v with VSeq vs => write_seq t' (write t') vs | _ => ill end
    | TArr t' _ | TRefArr t' _ =>                                (* 682-700, 512-522 *)
      match v with VSeq vs => write_each (write t') vs | _ => ill end
    | TOption t' =>                                              (* 395-414 *)
      match v with
      | VSome u => wr_u8 W 1 ;;; write t' u
      | VNone => wr_u8 W 0
      | _ => ill
      end
    | TResult t1 t2 =>                                           (* 416-442 *)
      match v with
      | VOk u => wr_u8 W 1 ;;; write t1 u
      | VErr u => wr_u8 W 0 ;;; write t2 u
      | _ => ill
      end
    | TTuple ts =>                                               (* 456-493 *)
      match v with VSeq vs => write_tuple write ts vs | _ => ill end
    | TRange incl t' =>                                          (* 369-393 *)
      match v with
      | VSeq (a :: b :: _) => write t' a ;;; write t' b
      | _ => ill
      end
    | TSet k t' => match v with VSeq vs => write_col k (write t') vs | _ => ill end
    | TMap k tk tv =>
      match v with VSeq vs => write_col k (write_pair (write tk) (write tv)) vs | _ => ill end
    | TBox t' => write t' v                                      (* 702-714 *)
    | TStruct _ fs =>                                            (* lib.rs 2365-2412 *)
      match v with VSeq vs => write_fields write [] fs vs | _ => ill end
    | TEnum d vs =>                                              (* lib.rs 2420-2455 *)
      match v with VVar i us => write_variant d write vs i us | _ => ill end
    | TBot => ill
    end.
End Write.
