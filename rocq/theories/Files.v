(* Files: src/readable.rs 548-657 with its calls of the operating system, and
   src/writable.rs 232-242 on a path that may hold a file already. *)
From Verif Require Export Api.

Inductive advice := Sequential | WillNeed.                              (* 591-592 *)

(** A call of the system with its answer: an error, or what it gives. *)
Inductive call :=
| COpen (r : io_kind + N)                          (* a descriptor *)
| CStat (fd : N) (r : io_kind + N)                 (* the size *)
| CMap (fd size : N) (r : io_kind + N)             (* an address *)
| CAdvise (addr size : N) (a : advice) (r : option io_kind)
| CUnmap (addr size : N)
| CClose (fd : N).

(** What the system will answer. *)
Record answers := {
  an_open : io_kind + N;
  an_stat : io_kind + N;
  an_map : io_kind + N;
  an_sequential : option io_kind;
  an_willneed : option io_kind
}.

(** What a mapping of [size] bytes of a file shows: the file's bytes, then zeros to the
    end of the page; pages behind that are not there.  The size was asked for before,
    so that it need not be the length of the content. *)
Definition page : N := 4096.
Definition mapped (size : N) (content : bytes) : option bytes :=
  if size <=? (nlen content + (page - 1)) / page * page
  then Some (ntake size (content ++ repeat x00 (N.to_nat page))) else None.

(** `Drop`: [c] runs after [m], however [m] ends (also when a panic unwinds). *)
Definition finally {St A} (m : M St A) (c : M St unit) : M St A :=
  fun s => let (r, s1) := m s in let (_, s2) := c s1 in (r, s2).

(** The calls, in order. *)
Definition system {A} (c : call) (r : res A) : M (list call) A := fun l => (r, l ++ [c]).
Definition answer (r : io_kind + N) : res N :=
  match r with inl k => Err (IoError k) | inr n => Ok n end.
Definition checked (r : option io_kind) : res unit :=
  match r with Some k => Err (IoError k) | None => Ok tt end.

Section Files.
  Context (h : host) (e : endian) (a : answers).

  (** The address of the static `EMPTY` (593); any will do. *)
  Definition empty_addr : N := 1.

  (** 597-614 [Mmap::open] *)
  Definition mmap_open (fd : N) : M (list call) (N * N) :=
    size <- system (CStat fd (an_stat a)) (answer (an_stat a)) ;;
    if usize_max h <? size then fail OutOfRangeUsize else
    if size =? 0 then ret (empty_addr, 0) else
    addr <- system (CMap fd size (an_map a)) (answer (an_map a)) ;;
    ret (addr, size).

  (** 616-626 [Mmap::madvise] *)
  Definition mmap_madvise (m : N * N) (v : advice) : M (list call) unit :=
    if snd m =? 0 then ret tt else
    let r := match v with Sequential => an_sequential a | WillNeed => an_willneed a end in
    system (CAdvise (fst m) (snd m) v r) (checked r).

  (** 639-647 [Drop for Mmap] *)
  Definition mmap_drop (m : N * N) : M (list call) unit :=
    if snd m =? 0 then ret tt else system (CUnmap (fst m) (snd m)) (Ok tt).

  (** 550-656 [read_from_file_with_ctx] on Linux, x86-64.  Reading from pages that are
      not there ends the process; here that is a fault whether or not the reader gets
      so far. *)
  Definition read_file_mapped (t : ty) (content : bytes) : M (list call) val :=
    fd <- system (COpen (an_open a)) (answer (an_open a)) ;;
    finally
      (m <- mmap_open fd ;;
       finally
         (mmap_madvise m Sequential ;;;
          mmap_madvise m WillNeed ;;;
          match mapped (snd m) content with
          | Some bytes => lift (read_from_buffer_copying h e t bytes)
          | None => crash UbInvalid
          end)
         (mmap_drop m))
      (system (CClose fd) (Ok tt)).

  (** 550-558: elsewhere. *)
  Definition read_file_streamed (mem : N -> bytes) (t : ty) (content : bytes) (sched : list read_event)
    : M (list call) val :=
    fd <- system (COpen (an_open a)) (answer (an_open a)) ;;
    finally (lift (fst (read_from_stream_buffered h mem e t {| is_rest := content; is_sched := sched |})))
            (system (CClose fd) (Ok tt)).

  (** src/writable.rs 232-242: `File::create` empties the file that is there, if any;
      [created] is its error.  Returns the result and what the path holds then. *)
  Definition write_path (created : option io_kind) (t : ty) (v : val) (old : option bytes)
      (sched : list write_event) : res unit * option bytes :=
    match created with
    | Some k => (Err (IoError k), old)
    | None => let (r, o) := write_to_file h None e t v sched in (r, Some (os_out o))
    end.
End Files.
