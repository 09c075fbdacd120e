(* A mapped file that another process changes while it is read: src/readable.rs
   548-657 maps the file with MAP_PRIVATE and reads it with the
   CopyingBufferReader (173-289).  Whether changes of the file show in such a
   mapping is up to the system, page by page.

   The bytes of the mapping are looked at one access after the other; [content k i]
   is the byte at offset [i] as access number [k] sees it.  Nothing is assumed of
   [content], so that a change may fall between any two bytes of an access.  The
   size is the one asked for before the mapping was made (598).  A file that gets
   shorter, whose lost pages end the process when touched, is not modelled here
   (Files.v has one that is shorter from the start). *)
From Verif Require Export Api.

Section Changing.
  Context (size : N) (content : nat -> N -> byte).

  (** 173-178: how far [ptr] is from the start of the mapping; [end] is at [size].
      [ch_time] counts the accesses; [ch_log] is ghost. *)
  Record looker := { ch_pos : N; ch_time : nat; ch_log : list allocation }.

  Definition ch_start : looker := {| ch_pos := 0; ch_time := 0; ch_log := [] |}.

  (** `self.end as usize - self.ptr as usize` (277) *)
  Definition ch_left (s : looker) : N := size - ch_pos s.

  (** `copy_nonoverlapping( self.ptr, output, length )`: the bytes as they are now. *)
  Definition ch_look (n : N) (s : looker) : bytes :=
    map (fun i => content (ch_time s) (ch_pos s + N.of_nat i)) (seq 0 (N.to_nat n)).

  (** After an access: [n] bytes further on. *)
  Definition ch_after (n : N) (s : looker) : looker :=
    {| ch_pos := ch_pos s + n; ch_time := S (ch_time s); ch_log := ch_log s |}.

  (** 276-278 [can_read_at_least] *)
  Definition ch_can (n : N) (s : looker) : option bool := Some (n <=? ch_left s).

  (** 188-214 [read_bytes], [read_bytes_into_ptr] *)
  Definition ch_read (n : N) : M looker bytes := fun s =>
    if n <=? ch_left s then (Ok (ch_look n s), ch_after n s) else (Err UnexpectedEndOfInput, s).

  (** 216-240 [peek_bytes], [peek_bytes_into_ptr]: an access of its own, which may see
      other bytes than the one that follows. *)
  Definition ch_peek (n : N) : M looker bytes := fun s =>
    if n <=? ch_left s then (Ok (ch_look n s), ch_after 0 s) else (Err UnexpectedEndOfInput, s).

  (** 242-252 [skip_bytes] *)
  Definition ch_skip (n : N) : M looker unit := fun s =>
    if n <=? ch_left s then (Ok tt, ch_after n s) else (Err UnexpectedEndOfInput, s).

  Definition ch_alloc (n esize min : N) : M looker unit := fun s =>
    (Ok tt, {| ch_pos := ch_pos s; ch_time := ch_time s;
               ch_log := ch_log s ++ [{| al_count := n; al_size := esize; al_min := min;
                                         al_rest := ch_left s |}] |}).

  Definition ch_fuel (s : looker) : nat := S (N.to_nat (ch_left s)).

  (** 187-289 [Reader for CopyingBufferReader].  254-273
      [read_bytes_borrowed_from_reader] lends the mapping itself; its only users,
      src/reader.rs 653-655 and 680-682, copy every element out of it once before
      anything else is read. *)
  Definition ChangingReader (e : endian) : reader looker :=
    {| rd_endian := e; rd_read := ch_read; rd_read_ptr := ch_read;
       rd_peek := ch_peek; rd_peek_ptr := ch_peek; rd_skip := ch_skip; rd_can := ch_can;
       rd_borrow := None; rd_borrow_r := Some ch_read; rd_borrow_eof := None;
       rd_alloc := ch_alloc; rd_fuel := ch_fuel |}.

  (** 512-534 [read_from_buffer_copying_data_with_ctx] of the mapping (655). *)
  Definition read_changing (h : host) (e : endian) (t : ty) : res val :=
    if size <? min_bytes h t then Err (InputBufferIsTooSmall size (min_bytes h t))
    else fst (read h (ChangingReader e) t ch_start).
End Changing.
