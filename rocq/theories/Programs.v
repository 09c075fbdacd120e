(* `Readable` and `Writable` implementations written by users: what their bodies may ask of
   the reader (src/reader.rs 56-713) and the writer (src/writer.rs 8-128), with errors passed
   on by `?`.  First writing.  Everything that such a
   type does not say itself it gets from src/writable.rs 147-251: the default
   `bytes_needed` runs the body on a `SizeCalculatorCollector`. *)
From Verif Require Export Api.

Section Programs.
  (** The user's context, and its byte order: src/context.rs 3-6. *)
  Context {C : Type} (order : C -> endian).

  Inductive wprog :=
  | WReturn                                               (* Ok(()) *)
  | WFail (er : error)                                    (* Err( .. ), e.g. Error::custom *)
  | WPanic (f : fault)
  | WBytes (b : bytes) (k : wprog)                        (* write_bytes: 9 *)
  | WU8 (n : N) (k : wprog)                               (* write_u8: 20-23, write_i8: 54-56 *)
  | WUint (w : nat) (n : N) (k : wprog)                   (* write_u16 .. write_u128: 26-51, 59-86 *)
  | WVarint (n : N) (k : wprog)                           (* write_u64_varint: 125-127 *)
  | WValue (t : ty) (v : val) (k : wprog)                 (* write_value: 94-96 *)
  | WSlice (t : ty) (vs : list val) (k : wprog)           (* write_slice: 99-111 *)
  | WEach (t : ty) (vs : list val) (k : wprog)            (* write_collection: 114-122 *)
  | WEndian (k : endian -> wprog)                         (* endianness: 89-91 *)
  | WContext (k : C -> wprog)                             (* context: 11 *)
  | WSetContext (c : C) (k : wprog)                       (* context_mut: 12 *)
  | WRoom (n : N) (k : option bool -> wprog).             (* can_write_at_least: 15-17 *)

  (** Running the body: [mk] makes the writer for a byte order, [ctx] is its context;
      the one of `SizeCalculatorCollector` has none, asking for it panics
      (src/writable.rs 133-141). *)
  Fixpoint run {St} (h : host) (mk : option C -> writer St) (ctx : option C) (p : wprog) : M St unit :=
    match p with
    | WReturn => ret tt
    | WFail er => fail er
    | WPanic f => crash f
    | WBytes b k => wr_bytes (mk ctx) b ;;; run h mk ctx k
    | WU8 n k => wr_u8 (mk ctx) n ;;; run h mk ctx k
    | WUint w n k => wr_uint (mk ctx) w n ;;; run h mk ctx k
    | WVarint n k => write_varint h (mk ctx) n ;;; run h mk ctx k
    | WValue t v k => write h (mk ctx) t v ;;; run h mk ctx k
    | WSlice t vs k => write_slice h (mk ctx) t (write h (mk ctx) t) vs ;;; run h mk ctx k
    | WEach t vs k => write_each (write h (mk ctx) t) vs ;;; run h mk ctx k
    | WEndian k => run h mk ctx (k (wr_endian (mk ctx)))
    | WContext k => match ctx with Some c => run h mk ctx (k c) | None => crash PanicExplicit end
    | WSetContext c k => match ctx with Some _ => run h mk (Some c) k | None => crash PanicExplicit end
    | WRoom n k => fun s => run h mk ctx (k (wr_can (mk ctx) n s)) s
    end.

  Definition collector {St} (W : endian -> writer St) (ctx : option C) : writer St :=
    W (match ctx with Some c => order c | None => LE end).

  Section Entry.
    Context (h : host).

    (** src/writable.rs 244-251 *)
    Definition size_of_program (p : wprog) : res N :=
      let (r, n) := run h (fun _ => SizeCalculator h) None p 0 in rmap (fun _ => n) r.

    (** src/writable.rs 175-187 *)
    Definition program_to_buffer (c : C) (p : wprog) (buffer : bytes) : res unit * bytes :=
      match size_of_program p with
      | Err er => (Err er, buffer)
      | Fault f => (Fault f, buffer)
      | Ok n =>
        if n <=? nlen buffer then
          let (r, s) := run h (collector (BufferCollector h)) (Some c) p
                          {| bc_buffer := ntake n buffer; bc_position := 0 |} in
          (r, bc_buffer s ++ ndrop n buffer)
        else (Err (OutputBufferIsTooSmall (nlen buffer) n), buffer)
      end.

    (** src/writable.rs 197-219 *)
    Definition program_to_vec (mem : N -> bytes) (c : C) (p : wprog) : res bytes :=
      rbind (size_of_program p) (fun capacity =>
      let (r, s) := run h (collector (BufferCollector h)) (Some c) p
                      {| bc_buffer := ntake capacity (mem capacity); bc_position := 0 |} in
      rbind r (fun _ =>
      if h_overflow_checks h && negb (bc_position s =? capacity) then Fault PanicAssert
      else Ok (ntake (bc_position s) (bc_buffer s)))).

    (** src/writable.rs 223-230 *)
    Definition program_to_stream (c : C) (p : wprog) (o : ostream) : res unit * ostream :=
      run h (collector (WritingCollector h)) (Some c) p o.
  End Entry.
End Programs.
Arguments wprog : clear implicits.

(** * Reading *)
Section Read_programs.
  Context {C : Type} (order : C -> endian).

  Inductive rprog :=
  | RReturn (v : val)
  | RFail (er : error)
  | RPanic (f : fault)
  | RBytes (n : N) (k : bytes -> rprog)                   (* read_bytes: 57 *)
  | RPeekBytes (n : N) (k : bytes -> rprog)               (* peek_bytes: 58 *)
  | RSkip (n : N) (k : rprog)                             (* skip_bytes: 77-91 *)
  | RU8 (k : N -> rprog)                                  (* read_u8: 114-124 *)
  | RPeekU8 (k : N -> rprog)                              (* peek_u8: 127-137 *)
  | RUint (w : nat) (k : N -> rprog)                      (* read_u16 .. read_u128: 150-399 *)
  | RPeekUint (w : nat) (k : N -> rprog)                  (* peek_u16 .. peek_u128: 168-417 *)
  | RPrim (p : prim) (k : Z -> rprog)                     (* read_i8 .. read_f64: 140-142, 186-201 .. 474-489 *)
  | RPeekPrim (p : prim) (k : Z -> rprog)                 (* peek_i8 .. peek_f64: 145-147, 204-219 .. 492-507 *)
  | RVarint (k : N -> rprog)                              (* read_u64_varint: 703-706 *)
  | RPeekVarint (k : N -> rprog)                          (* peek_u64_varint: 709-712 *)
  | RValue (t : ty) (k : val -> rprog)                    (* read_value: 510-512 *)
  | RTry (t : ty) (k : option val -> rprog)               (* read_value, and None if the error is_eof *)
  | RVec (t : ty) (n : N) (k : list val -> rprog)         (* read_vec: 521-573 *)
  | RVecEof (t : ty) (k : list val -> rprog)              (* read_vec_until_eof: 578-592, read_cow_until_eof: 625-631 *)
  | RCow (t : ty) (n : N) (k : list val -> rprog)         (* read_cow: 597-621 *)
  | RString (n : N) (k : val -> rprog)                    (* read_string: 635-638 *)
  | RCollection (c : colkind) (map : bool) (t : ty) (n : N) (k : val -> rprog)
      (* read_collection: 641-660, into a set, or of pairs into a map *)
  | RKeyValues (c : colkind) (tk tv : ty) (n : N) (k : val -> rprog)
      (* read_key_value_collection: 663-686 *)
  | RCollectionEof (c : colkind) (map : bool) (t : ty) (k : val -> rprog)
      (* read_collection_until_eof: 689-700 *)
  | RBorrow (n : N) (k : option bytes -> rprog)           (* read_bytes_borrowed: 99-101 *)
  | RBorrowReader (n : N) (k : option bytes -> rprog)     (* read_bytes_borrowed_from_reader: 104-106 *)
  | RBorrowEof (k : option bytes -> rprog)                (* read_bytes_borrowed_until_eof: 109-111 *)
  | REndian (k : endian -> rprog)                         (* endianness: 515-517 *)
  | RContext (k : C -> rprog)                             (* context: 59 *)
  | RSetContext (c : C) (k : rprog)                       (* context_mut: 60 *)
  | RRoom (n : N) (k : option bool -> rprog).             (* can_read_at_least: 94-96 *)

  (** Running the body; [mk] makes the reader for a context. *)
  Fixpoint perform {St} (h : host) (mk : C -> reader St) (c : C) (p : rprog) : M St val :=
    match p with
    | RReturn v => ret v
    | RFail er => fail er
    | RPanic f => crash f
    | RBytes n k => b <- rd_read (mk c) n ;; perform h mk c (k b)
    | RPeekBytes n k => b <- rd_peek (mk c) n ;; perform h mk c (k b)
    | RSkip n k => rd_skip (mk c) n ;;; perform h mk c k
    | RU8 k => n <- read_u8 (mk c) ;; perform h mk c (k n)
    | RPeekU8 k => n <- peek_u8 (mk c) ;; perform h mk c (k n)
    | RUint w k => n <- read_uint h (mk c) w ;; perform h mk c (k n)
    | RPeekUint w k => n <- peek_uint h (mk c) w ;; perform h mk c (k n)
    | RPrim p k => z <- read_prim h (mk c) p ;; perform h mk c (k z)
    | RPeekPrim p k => z <- peek_prim h (mk c) p ;; perform h mk c (k z)
    | RVarint k => n <- read_varint h (mk c) ;; perform h mk c (k n)
    | RPeekVarint k => n <- peek_varint h (mk c) ;; perform h mk c (k n)
    | RValue t k => v <- read h (mk c) t ;; perform h mk c (k v)
    | RTry t k => v <- catch_eof None (mmap Some (read h (mk c) t)) ;; perform h mk c (k v)
    | RVec t n k => vs <- read_vec h (mk c) t (read h (mk c) t) n ;; perform h mk c (k vs)
    | RVecEof t k => vs <- read_until_eof (mk c) (read h (mk c) t) ;; perform h mk c (k vs)
    | RCow t n k => vs <- read_cow h (mk c) t (read h (mk c) t) n ;; perform h mk c (k vs)
    | RString n k => b <- read_vec_u8 h (mk c) n ;; v <- to_str b ;; perform h mk c (k v)
    | RCollection col map t n k =>
      v <- read_collection h (mk c) col (if map then pair_key else id) t (read h (mk c) t) n ;; perform h mk c (k v)
    | RKeyValues col tk tv n k =>
      v <- read_kv h (mk c) col tk tv (read h (mk c) tk) (read h (mk c) tv) n ;; perform h mk c (k v)
    | RCollectionEof col map t k =>
      vs <- read_until_eof (mk c) (read h (mk c) t) ;;
      perform h mk c (k (VSeq (collect col (if map then pair_key else id) vs)))
    | RBorrow n k =>
      match rd_borrow (mk c) with
      | Some b => x <- b n ;; perform h mk c (k (Some (snd x)))
      | None => perform h mk c (k None)
      end
    | RBorrowReader n k =>
      match rd_borrow_r (mk c) with
      | Some b => x <- b n ;; perform h mk c (k (Some x))
      | None => perform h mk c (k None)
      end
    | RBorrowEof k =>
      match rd_borrow_eof (mk c) with
      | Some b => x <- b ;; perform h mk c (k (Some (snd x)))
      | None => perform h mk c (k None)
      end
    | REndian k => perform h mk c (k (rd_endian (mk c)))
    | RContext k => perform h mk c (k c)
    | RSetContext c' k => perform h mk c' k
    | RRoom n k => fun s => perform h mk c (k (rd_can (mk c) n s)) s
    end.

  Section Entry.
    Context (h : host).

    (** src/readable.rs 499-510, 523-534; [need] is the user's `minimum_bytes_needed`, by
        default 0 (423-426).  The result and the number of bytes consumed. *)
    Definition program_from (mk : endian -> reader breader) (need : N) (c : C) (p : rprog) (addr : N) (bs : bytes)
      : res val * N :=
      if nlen bs <? need then (Err (InputBufferIsTooSmall (nlen bs) need), 0)
      else let (r, s) := perform h (fun c => mk (order c)) c p (br_start addr bs) in (r, nlen bs - nlen (br_rest s)).
    Definition program_from_buffer := program_from BufferReader.
    Definition program_from_copied (need : N) (c : C) (p : rprog) (bs : bytes) : res val * N :=
      program_from CopyingBufferReader need c p 0 bs.

    (** src/readable.rs 402-417, 536-546 *)
    Definition program_from_stream (mem : N -> bytes) (buffering : bool) (c : C) (p : rprog) (i : istream)
      : res val * sreader :=
      perform h (fun c => StreamReader mem (order c)) c p (sr_start mem buffering i).
  End Entry.
End Read_programs.
Arguments rprog : clear implicits.
