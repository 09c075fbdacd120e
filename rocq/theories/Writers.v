(* The writers of src/writable.rs, output streams, and bytes_needed. *)
From Verif Require Export Readers.

(* ------------------------------------------------------------------ *)
(** * BufferCollector: 28-57 *)

Record bcoll := { bc_buffer : bytes; bc_position : N }.

(** 36-41 [write_bytes] *)
Definition bc_write (b : bytes) : M bcoll unit := fun s =>
  if bc_position s + nlen b <=? nlen (bc_buffer s) then
    (Ok tt, {| bc_buffer := overlay (bc_buffer s) (bc_position s) b;
               bc_position := bc_position s + nlen b |})
  else (Err UnexpectedEndOfOutputBuffer, s).

(** 54-56 [can_write_at_least] *)
Definition bc_can (n : N) (s : bcoll) : option bool :=
  Some (bc_position s + n <=? nlen (bc_buffer s)).

Definition BufferCollector (h : host) (e : endian) : writer bcoll :=
  {| wr_endian := e; wr_bytes := bc_write; wr_can := bc_can;
     wr_u8 := default_u8 bc_write; wr_uint := default_uint h e bc_write |}.

(* ------------------------------------------------------------------ *)
(** * Output streams and WritingCollector: 59-85 *)

(** What the next call of `Write::write` does: accept at most so many bytes, or
    fail. *)
Inductive write_event := WAccept (k : N) | WErr (k : io_kind).

(** What a stream has received, and how it will behave; after the schedule it
    accepts everything. *)
Record ostream := { os_out : bytes; os_sched : list write_event }.

(** `Write::write_all` (std's default method): an interrupted write is retried,
    accepting nothing is `WriteZero`. *)
Fixpoint write_all_loop (b out : bytes) (sched : list write_event) : res unit * ostream :=
  match b with
  | [] => (Ok tt, {| os_out := out; os_sched := sched |})
  | _ =>
    match sched with
    | [] => (Ok tt, {| os_out := out ++ b; os_sched := [] |})
    | WAccept k :: r =>
      if k =? 0 then (Err (IoError IoWriteZero), {| os_out := out; os_sched := r |})
      else write_all_loop (ndrop k b) (out ++ ntake k b) r
    | WErr IoInterrupted :: r => write_all_loop b out r
    | WErr k :: r => (Err (IoError k), {| os_out := out; os_sched := r |})
    end
  end.

Definition os_write_all (b : bytes) : M ostream unit := fun s =>
  write_all_loop b (os_out s) (os_sched s).

Definition WritingCollector (h : host) (e : endian) : writer ostream :=
  {| wr_endian := e; wr_bytes := os_write_all; wr_can := fun _ _ => None;
     wr_u8 := default_u8 os_write_all; wr_uint := default_uint h e os_write_all |}.

(* ------------------------------------------------------------------ *)
(** * std::io::BufWriter (std contract, capacity 8192) over a stream *)

Record bufwriter := { bw_buf : bytes; bw_inner : ostream }.

Definition bw_capacity : N := 8192.

(** `flush_buf`: write the buffer out; what was written before an error leaves
    the buffer. *)
Definition bw_flush : M bufwriter unit := fun s =>
  let out := os_out (bw_inner s) in
  let (r, i) := os_write_all (bw_buf s) (bw_inner s) in
  (r, {| bw_buf := ndrop (nlen (os_out i) - nlen out) (bw_buf s); bw_inner := i |}).

(** `write_all`, `write_all_cold` *)
Definition bw_write_all (b : bytes) : M bufwriter unit := fun s =>
  let push : M bufwriter unit :=
    fun s => (Ok tt, {| bw_buf := bw_buf s ++ b; bw_inner := bw_inner s |}) in
  let spare := bw_capacity - nlen (bw_buf s) in
  if nlen b <? spare then push s
  else
    ((if spare <? nlen b then bw_flush else ret tt) ;;;
     if bw_capacity <=? nlen b then
       fun s => let (r, i) := os_write_all b (bw_inner s) in
                (r, {| bw_buf := bw_buf s; bw_inner := i |})
     else push) s.

(** Dropping a BufWriter flushes it and ignores the outcome. *)
Definition bw_drop (s : bufwriter) : ostream := bw_inner (snd (bw_flush s)).

(** WritingCollector over a BufWriter. *)
Definition FileCollector (h : host) (e : endian) : writer bufwriter :=
  {| wr_endian := e; wr_bytes := bw_write_all; wr_can := fun _ _ => None;
     wr_u8 := default_u8 bw_write_all; wr_uint := default_uint h e bw_write_all |}.

(* ------------------------------------------------------------------ *)
(** * SizeCalculatorCollector: 87-142 *)

(** Its byte order is always the host's (128-131).  The sum is taken in
    unbounded arithmetic (the code uses usize). *)
Definition sc_write (b : bytes) : M N unit := fun s => (Ok tt, s + nlen b).
Definition SizeCalculator (h : host) : writer N :=
  {| wr_endian := h_native h; wr_bytes := sc_write; wr_can := fun _ _ => None;
     wr_u8 := fun _ s => (Ok tt, s + 1);
     wr_uint := fun w _ s => (Ok tt, s + N.of_nat w) |}.

(* ------------------------------------------------------------------ *)
(** * bytes_needed *)

(** src/utils.rs 1-20 [unsafe_is_length!] *)
Definition is_length (n : N) : res unit :=
  if 0x7FFFFFFFFFFFFFFF <=? n then Fault UbUnreachable else Ok tt.

Definition rsum (l : res (list N)) : res N := rmap nsum l.

Definition scalar_bytes_needed (s : scalar) (v : val) : res N :=
  match s, v with
  | SPrim p, _ | SNonZero p, _ | SAtomic p, _ => Ok (N.of_nat (psize p))  (* 133-136, 546-549, 573-576 *)
  | SUsize, _ => Ok 8                                          (* 174-177 *)
  | SBool, _ => Ok 1                                           (* 186-189 *)
  | SChar, _ => Ok 4                                           (* 198-201 *)
  | SEndian, _ => Ok 1                                         (* 506-509 *)
  | SUnit, _ => Ok 0                                           (* 450-453 *)
  | SVarint, VInt z => Ok (vi_bytes_needed (Z.to_N z))         (* varint.rs 278-280 *)
  | SIpv4, _ => Ok 4                                           (* 608-611 *)
  | SIpv6, _ => Ok 16                                          (* 625-628 *)
  | SIpAddr, VVar 0%nat _ => Ok 5                              (* 645-651 *)
  | SIpAddr, VVar 1%nat _ => Ok 17
  | SDuration, _ | SSystemTime, _ => Ok 12                     (* 662-665, 676-679 *)
  | SUuid, _ => Ok 16                                          (* ext_uuid.rs *)
  | SDateTime, _ => Ok 12                                      (* ext_chrono.rs *)
  | SGlam p _, VSeq vs => Ok (nsum (map (fun _ => N.of_nat (psize p)) vs))   (* ext_glam.rs *)
  | SBVec _, _ => Ok 1
  | _, _ => Fault IllTyped
  end.

Definition needed_tuple (bn : ty -> val -> res N) : list ty -> list val -> res N :=
  fix go (ts : list ty) (vs : list val) : res N :=
  match ts, vs with
  | [], [] => Ok 0
  | t :: tr, v :: vr => rbind (bn t v) (fun n => rmap (N.add n) (go tr vr))
  | _, _ => Fault IllTyped
  end.

Definition needed_pair (bk bv : val -> res N) (v : val) : res N :=
  match v with
  | VSeq [k; x] => rbind (bk k) (fun n => rmap (N.add n) (bv x))
  | _ => Fault IllTyped
  end.

(** `bytes_needed` of every type: src/writable_impl.rs, src/varint.rs 278-280,
    the ext_*.rs files; derived types use the trait's default (src/writable.rs
    244-251), a run of the size calculator. *)
Fixpoint bytes_needed (h : host) (t : ty) (v : val) : res N :=
  match t with
  | TScalar s => scalar_bytes_needed s v
  | TStr _ =>                                                  (* 205-252, 745-751, 261-276 *)
    match v with
    | VBytes b => rbind (is_length (nlen b)) (fun _ => Ok (4 + nlen b))
    | _ => Fault IllTyped
    end
  | TSeq _ t' =>                                               (* 261-276 *)
    match v with
    | VSeq vs =>
      rbind (is_length (nlen vs)) (fun _ =>
      if is_prim h t' then Ok (4 + nlen vs * h_size h t')
      else rmap (N.add 4) (rsum (rmapM (bytes_needed h t') vs)))
    | _ => Fault IllTyped
    end
  | TArr t' _ | TRefArr t' _ =>                                (* 692-699 *)
    match v with VSeq vs => rsum (rmapM (bytes_needed h t') vs) | _ => Fault IllTyped end
  | TOption t' =>                                              (* 406-413 *)
    match v with
    | VSome u => rmap (N.add 1) (bytes_needed h t' u)
    | VNone => Ok 1
    | _ => Fault IllTyped
    end
  | TResult t1 t2 =>                                           (* 432-441 *)
    match v with
    | VOk u => rmap (N.add 1) (bytes_needed h t1 u)
    | VErr u => rmap (N.add 1) (bytes_needed h t2 u)
    | _ => Fault IllTyped
    end
  | TTuple ts =>                                               (* 469-477 *)
    match v with
    | VSeq vs => needed_tuple (bytes_needed h) ts vs
    | _ => Fault IllTyped
    end
  | TRange _ t' =>                                             (* 376-379, 389-392 *)
    match v with
    | VSeq (a :: b :: _) =>
      rbind (bytes_needed h t' a) (fun n => rmap (N.add n) (bytes_needed h t' b))
    | _ => Fault IllTyped
    end
  | TSet _ t' =>                                               (* 60-70, 109-119, ext_indexmap.rs *)
    match v with
    | VSeq vs => rbind (is_length (nlen vs)) (fun _ =>
                 rmap (N.add 4) (rsum (rmapM (bytes_needed h t') vs)))
    | _ => Fault IllTyped
    end
  | TMap _ tk tv =>                                            (* 38-48, 86-96, ext_indexmap.rs *)
    match v with
    | VSeq vs => rbind (is_length (nlen vs)) (fun _ =>
                 rmap (N.add 4)
                   (rsum (rmapM (needed_pair (bytes_needed h tk) (bytes_needed h tv)) vs)))
    | _ => Fault IllTyped
    end
  | TBox t' => bytes_needed h t' v                             (* 711-713 *)
  | TStruct _ _ | TEnum _ _ =>
    match write h (SizeCalculator h) t v 0 with
    | (Ok _, n) => Ok n
    | (Err e, _) => Err e
    | (Fault f, _) => Fault f
    end
  | TBot => Fault IllTyped
  end.
