(* The entry points a user calls: src/readable.rs 420-657, src/writable.rs
   144-251. *)
From Verif Require Export Writers.

Section Api.
  Context (h : host).

  (* ---------------------------------------------------------------- *)
  (** ** Reading *)

  Definition br_start (addr : N) (bs : bytes) : breader :=
    {| br_addr := addr; br_rest := bs; br_log := [] |}.

  (** readable.rs 499-510, 523-534: the early size test, then the read; returns
      the result, the number of bytes consumed and (ghost) the final state. *)
  Definition with_min (t : ty) (R : reader breader) (addr : N) (bs : bytes)
    : res val * N * breader :=
    if nlen bs <? min_bytes h t
    then (Err (InputBufferIsTooSmall (nlen bs) (min_bytes h t)), 0, br_start addr bs)
    else let (r, s) := read h R t (br_start addr bs) in
         (r, nlen bs - nlen (br_rest s), s).

  (** [read_with_length_from_buffer_with_ctx], of a buffer at an address *)
  Definition read_with_length_from_buffer (e : endian) (t : ty) (addr : N) (bs : bytes)
    : res val * N :=
    fst (with_min t (BufferReader e) addr bs).

  (** 494-497 [read_from_buffer_with_ctx] *)
  Definition read_from_buffer (e : endian) (t : ty) (addr : N) (bs : bytes) : res val :=
    fst (read_with_length_from_buffer e t addr bs).

  (** 517-534 [read_with_length_from_buffer_copying_data_with_ctx] *)
  Definition read_with_length_from_buffer_copying (e : endian) (t : ty) (bs : bytes)
    : res val * N :=
    fst (with_min t (CopyingBufferReader e) 0 bs).

  (** 512-515 [read_from_buffer_copying_data_with_ctx] *)
  Definition read_from_buffer_copying (e : endian) (t : ty) (bs : bytes) : res val :=
    fst (read_with_length_from_buffer_copying e t bs).

  (** 402-417 [deserialize]; returns the result and (ghost) the final state. *)
  Definition deserialize (mem : N -> bytes) (buffering : bool) (e : endian) (t : ty)
      (i : istream) : res val * sreader :=
    read h (StreamReader mem e) t (sr_start mem buffering i).

  (** 536-546 [read_from_stream_unbuffered_with_ctx],
      [read_from_stream_buffered_with_ctx]; the stream as the call leaves it is
      visible to the caller when a `&mut` stream is passed. *)
  Definition read_from_stream_unbuffered (mem : N -> bytes) (e : endian) (t : ty) (i : istream)
    : res val * istream :=
    let (r, s) := deserialize mem false e t i in (r, sr_stream s).
  Definition read_from_stream_buffered (mem : N -> bytes) (e : endian) (t : ty) (i : istream)
    : res val * istream :=
    let (r, s) := deserialize mem true e t i in (r, sr_stream s).

  (** 548-657 [read_from_file_with_ctx].  [mmapped]: x86-64 Linux, where the file
      is mapped; elsewhere it is a buffered stream.  Failures of open, stat,
      mmap and madvise are one error given by [oserr]. *)
  Definition read_from_file (mmapped : bool) (mem : N -> bytes) (oserr : option io_kind)
      (e : endian) (t : ty) (content : bytes) (sched : list read_event) : res val :=
    match oserr with
    | Some k => Err (IoError k)
    | None =>
      if mmapped then read_from_buffer_copying e t content
      else fst (read_from_stream_buffered mem e t {| is_rest := content; is_sched := sched |})
    end.

  (* ---------------------------------------------------------------- *)
  (** ** Writing *)

  (** writable.rs 175-187 [write_to_buffer_with_ctx_mut]: returns the result and
      the buffer afterwards. *)
  Definition write_to_buffer (e : endian) (t : ty) (v : val) (buffer : bytes)
    : res unit * bytes :=
    match bytes_needed h t v with
    | Err er => (Err er, buffer)
    | Fault f => (Fault f, buffer)
    | Ok n =>
      if n <=? nlen buffer then
        let (r, s) := write h (BufferCollector h e) t v
                        {| bc_buffer := ntake n buffer; bc_position := 0 |} in
        (r, bc_buffer s ++ ndrop n buffer)
      else (Err (OutputBufferIsTooSmall (nlen buffer) n), buffer)
    end.

  (** writable.rs 195-219 [write_to_vec_with_ctx_mut].  [mem n] is the content of
      a fresh allocation; the final `debug_assert_eq!` is active together with
      overflow checks. *)
  Definition write_to_vec (mem : N -> bytes) (e : endian) (t : ty) (v : val) : res bytes :=
    rbind (bytes_needed h t v) (fun capacity =>
    let (r, s) := write h (BufferCollector h e) t v
                    {| bc_buffer := ntake capacity (mem capacity); bc_position := 0 |} in
    rbind r (fun _ =>
    if h_overflow_checks h && negb (bc_position s =? capacity) then Fault PanicAssert
    else Ok (ntake (bc_position s) (bc_buffer s)))).

  (** writable.rs 221-230 [write_to_stream_with_ctx] *)
  Definition write_to_stream (e : endian) (t : ty) (v : val) (o : ostream)
    : res unit * ostream :=
    write h (WritingCollector h e) t v o.

  (** writable.rs 232-241 [write_to_file_with_ctx]: the file after the BufWriter
      has been dropped. *)
  Definition write_to_file (oserr : option io_kind) (e : endian) (t : ty) (v : val)
      (sched : list write_event) : res unit * ostream :=
    match oserr with
    | Some k => (Err (IoError k), {| os_out := []; os_sched := sched |})
    | None =>
      let (r, s) := write h (FileCollector h e) t v
                      {| bw_buf := []; bw_inner := {| os_out := []; os_sched := sched |} |} in
      (r, bw_drop s)
    end.
End Api.
