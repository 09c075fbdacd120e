(* Which hosts are considered: what the Rust reference and std promise. *)
From Verif Require Export TypeInfo.
From Coq Require Export Permutation.

Record valid_host (h : host) : Prop := {
  (** 32 or 64 bit pointers *)
  vh_usize_lo : 2 ^ 32 - 1 <= l_usize_max (h_lim h);
  vh_usize_hi : l_usize_max (h_lim h) <= 2 ^ 64 - 1;
  (** an allocation is at most isize::MAX bytes; seconds are 64 bits *)
  vh_alloc : h_alloc_max h <= l_usize_max (h_lim h);
  vh_fits : forall t n, l_fits (h_lim h) t n = (n * h_size h t <=? h_alloc_max h);
  vh_systime : l_systime_max (h_lim h) < 2 ^ 64;
  (** sizes of the numeric types; alignments are not zero *)
  vh_prim : forall p, h_size h (TP p) = N.of_nat (psize p);
  vh_align : forall t, h_align h t <> 0;
  (** structs: nothing, a single transparent field, or fields inside the struct
      that do not overlap; `repr(C)` keeps the order of declaration *)
  vh_empty : forall d, h_size h (TStruct d []) = 0;
  vh_transparent : forall d f, sd_repr d = RTransparent ->
    h_size h (TStruct d [f]) = h_size h (snd f) /\ h_offset h d [f] 0 = 0;
  vh_inside : forall d fs i f, nth_error fs i = Some f ->
    h_offset h d fs i + h_size h (snd f) <= h_size h (TStruct d fs);
  vh_disjoint : forall d fs i j f g, (i < j)%nat ->
    nth_error fs i = Some f -> nth_error fs j = Some g ->
    h_size h (snd f) <> 0 -> h_size h (snd g) <> 0 ->
    h_offset h d fs i + h_size h (snd f) <= h_offset h d fs j
    \/ h_offset h d fs j + h_size h (snd g) <= h_offset h d fs i;
  vh_c : forall d fs, sd_repr d = RC -> ascending (offsets h d fs) = true;
  (** `Vec::with_capacity( n )` allocates exactly [n] elements (true of std's
      allocation path; the documentation says "at least") *)
  vh_capacity : forall n size, size <> 0 -> h_capacity h n size = n;
  (** a hash table is iterated completely, in some order *)
  vh_iter : forall l, Permutation (h_iter h l) l
}.
