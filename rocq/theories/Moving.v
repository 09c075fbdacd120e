(* Writing values whose atomics are changed by other threads meanwhile.
   src/writable.rs, src/writable_impl.rs 561-576.

   Writing loads an atomic once (writable_impl.rs 566).  Measuring does not look at it
   (570-572), or loads it too: a derived type measures itself by writing to a
   `SizeCalculator`.  So a call measures one value and writes another, and if the type
   has no other interior mutability the two differ in atomics only. *)
From Verif Require Export Api.

Section Moving.
  Context (h : host).

  (** writable.rs 195-219 [write_to_vec_with_ctx_mut]: [v] while it is measured, [w] as
      the writing finds it. *)
  Definition moving_to_vec (mem : N -> bytes) (e : endian) (t : ty) (v w : val) : res bytes :=
    rbind (bytes_needed h t v) (fun capacity =>
    let (r, s) := write h (BufferCollector h e) t w
                    {| bc_buffer := ntake capacity (mem capacity); bc_position := 0 |} in
    rbind r (fun _ =>
    if h_overflow_checks h && negb (bc_position s =? capacity) then Fault PanicAssert
    else Ok (ntake (bc_position s) (bc_buffer s)))).

  (** writable.rs 175-187 [write_to_buffer_with_ctx_mut] *)
  Definition moving_to_buffer (e : endian) (t : ty) (v w : val) (buffer : bytes) : res unit * bytes :=
    match bytes_needed h t v with
    | Err er => (Err er, buffer)
    | Fault f => (Fault f, buffer)
    | Ok n =>
      if n <=? nlen buffer then
        let (r, s) := write h (BufferCollector h e) t w
                        {| bc_buffer := ntake n buffer; bc_position := 0 |} in
        (r, bc_buffer s ++ ndrop n buffer)
      else (Err (OutputBufferIsTooSmall (nlen buffer) n), buffer)
    end.
End Moving.
