(* Property C125: reading a vector of numbers depends on the capacity being the length. *)
From Verif Require Import Samples Checker Entry Errors VarintFacts SpecFacts LayoutFacts ReadFacts Hosts.

(** The same host, except for the capacity that `Vec::with_capacity` gives. *)
Definition with_room (h : host) (cap : N -> N -> N) : host :=
  {| h_native := h_native h; h_lim := h_lim h; h_overflow_checks := h_overflow_checks h;
     h_size := h_size h; h_align := h_align h; h_offset := h_offset h;
     h_capacity := cap; h_iter := h_iter h; h_alloc_max := h_alloc_max h |}.

Section Capacity.
  Context (h : host) (VH : valid_host h) (e : endian).

  Lemma reads_word n s rest : n < 2 ^ 32 -> br_rest s = word e 4 n ++ rest -> forall h', h_native h' = h_native h ->
    read_length h' (BufferReader e) BU32 s = (Ok n, br_advance 4 s) /\ br_rest (br_advance 4 s) = rest.
  Proof.
    intros Hn Hs h' Hh. assert (Hw : nlen (word e 4 n) = 4) by apply nlen_word.
    cbn [read_length]. unfold read_uint, bind, require. cbn [BufferReader rd_can rd_endian rd_read_ptr]. unfold br_can, br_read.
    change (N.of_nat 4) with 4. cbv beta. rewrite !Hs, nlen_app, Hw. rewrite (proj2 (N.leb_le 4 (4 + nlen rest))) by lia.
    unfold ret. cbv beta iota. rewrite ?Hs, ?nlen_app, ?Hw. rewrite ?(proj2 (N.leb_le 4 (4 + nlen rest))) by lia. cbv beta iota. rewrite take_app_exact by exact Hw. rewrite Hh, swap_of_ne by (unfold nlen in Hw; lia).
    rewrite unword_word by (cbn; exact Hn). split; [reflexivity|]. unfold br_advance. cbn [br_rest]. rewrite Hs. apply drop_app_exact, Hw.
  Qed.

  Lemma chunks_front sz n (a b : bytes) : length a = (n * sz)%nat -> chunks sz n (a ++ b) = chunks sz n a.
  Proof.
    revert a. induction n as [|n IH]; intros a Ha; cbn [chunks]; [reflexivity|].
    rewrite firstn_app, skipn_app. replace (sz - length a)%nat with 0%nat by nia. cbn [firstn skipn]. rewrite app_nil_r.
    f_equal. apply IH. rewrite skipn_length. nia.
  Qed.

  Lemma converts p l : exists vs, rmapM (conv h e (TP p)) (map (mem_read h (TP p)) l) = Ok vs.
  Proof.
    induction l as [|b l [vs IH]]; [exists []; reflexivity|]. cbn [map rmapM]. rewrite IH. cbn [TP mem_read conv].
    destruct (conversion_necessary _ _); eexists; reflexivity.
  Qed.

  Lemma same_numbers p cap e' l : rmapM (conv (with_room h cap) e' (TP p)) (map (mem_read (with_room h cap) (TP p)) l)
    = rmapM (conv h e' (TP p)) (map (mem_read h (TP p)) l).
  Proof.
    induction l as [|b l IH]; [reflexivity|]. cbn [map rmapM]. rewrite IH. reflexivity.
  Qed.

  (** [read_vec] of numbers, with any capacity. *)
  Lemma reads_bulk p cap n payload rest vs s :
    let size := N.of_nat (psize p) in
    n * size <= h_alloc_max h -> nlen payload = n * size -> n <= cap n size -> br_rest s = payload ++ rest ->
    rmapM (conv h e (TP p)) (map (mem_read h (TP p)) (chunks (psize p) (N.to_nat n) payload)) = Ok vs ->
    let (r, s') := read_vec (with_room h cap) (BufferReader e) (TP p) (read (with_room h cap) (BufferReader e) (TP p)) n s in
    if (cap n size - n) * size <=? nlen rest
    then r = Ok vs /\ br_rest s' = ndrop ((cap n size - n) * size) rest
    else r = Err UnexpectedEndOfInput.
  Proof.
    intros size Ha Hp Hc Hs Hv.
    assert (Hsp : h_size h (TP p) = size) by apply (vh_prim h VH).
    unfold read_vec. cbn [with_room h_size h_capacity]. rewrite Hsp.
    change (min_bytes (with_room h cap) (TP p)) with size. change (is_prim (with_room h cap) (TP p)) with true. cbn iota.
    pose proof (vh_alloc h VH) as Hal. unfold usize_max, alloc. cbn [with_room h_lim h_alloc_max].
    rewrite (proj2 (N.ltb_ge _ _)) by lia. rewrite (proj2 (N.ltb_ge _ _) Ha).
    unfold bind at 1, require. cbn [BufferReader rd_can rd_alloc rd_read_ptr]. unfold br_can.
    rewrite (proj2 (N.leb_le (size * n) _)) by (rewrite Hs, nlen_app; lia).
    unfold bind, br_alloc, br_read. cbn [br_rest]. rewrite Hs, nlen_app, Hp.
    replace (cap n size * size <=? n * size + nlen rest) with ((cap n size - n) * size <=? nlen rest)
      by (apply eq_true_iff_eq; rewrite !N.leb_le; nia).
    destruct (N.leb_spec ((cap n size - n) * size) (nlen rest)) as [Hr|Hr]; [|reflexivity].
    cbn [lift br_advance br_rest]. split.
    - rewrite (same_numbers p cap).
      rewrite take_app, (take_all _ payload) by (rewrite Hp; nia).
      cbn [BufferReader rd_endian]. unfold size. rewrite Nat2N.id, chunks_front by (unfold nlen, size in Hp; lia).
      exact Hv.
    - rewrite drop_app_ge by (rewrite Hp; nia). f_equal. rewrite Hp. nia.
  Qed.

  (** C125: a vector of [n] numbers whose bytes are [payload], followed by [rest].  Where
      the capacity is the length, the numbers are read and [rest] is left.  Where the
      capacity is larger by [more], which the documentation of `with_capacity` allows,
      the next [more] elements of [rest] are lost, and where [rest] is shorter than
      that the read fails. *)
  Theorem C125_capacity p cap n payload rest addr :
    let size := N.of_nat (psize p) in
    n < 2 ^ 32 -> n * size <= h_alloc_max h -> nlen payload = n * size -> n <= cap n size ->
    let input := br_start addr (word e 4 n ++ payload ++ rest) in
    let lost := (cap n size - n) * size in
    exists v,
      (let (r, s) := read h (BufferReader e) (TSeq KVec (TP p)) input in r = Ok v /\ br_rest s = rest)
      /\ let (r, s) := read (with_room h cap) (BufferReader e) (TSeq KVec (TP p)) input in
         if lost <=? nlen rest then r = Ok v /\ br_rest s = ndrop lost rest else r = Err UnexpectedEndOfInput.
  Proof.
    intros size Hn Ha Hp Hc input lost.
    assert (Hsz : size <> 0) by (unfold size; destruct p; cbn; lia).
    assert (Hsp : h_size h (TP p) = size) by apply (vh_prim h VH).
    destruct (converts p (chunks (psize p) (N.to_nat n) payload)) as [vs Hv]. exists (VSeq vs).
    destruct (reads_word n input (payload ++ rest) Hn eq_refl h eq_refl) as (E1 & R1).
    destruct (reads_word n input (payload ++ rest) Hn eq_refl (with_room h cap) eq_refl) as (E2 & _).
    pose proof (reads_bulk p (h_capacity h) n payload rest vs (br_advance 4 input) Ha Hp) as B1.
    fold size in B1. rewrite (vh_capacity h VH n size Hsz), N.sub_diag in B1. specialize (B1 (N.le_refl _) R1 Hv).
    pose proof (reads_bulk p cap n payload rest vs (br_advance 4 input) Ha Hp Hc R1 Hv) as B2.
    fold size lost in B2. cbn [read read_seq]. unfold mmap, bind. rewrite E1, E2.
    replace (with_room h (h_capacity h)) with h in B1 by (destruct h; reflexivity).
    split.
    - revert B1. destruct (read_vec h _ _ _ n _) as [r s']. intros B1. rewrite N.mul_0_l, (proj2 (N.leb_le 0 (nlen rest))) in B1 by lia. destruct B1 as [-> B1]. split; [reflexivity|exact B1].
    - revert B2. destruct (read_vec (with_room h cap) _ _ _ n _) as [r s']. intros B2. destruct (lost <=? nlen rest).
      + destruct B2 as [-> B2]. split; [reflexivity|exact B2].
      + rewrite B2. reflexivity.
  Qed.
End Capacity.

Print Assumptions C125_capacity.

(** A host that gives room for one element more. *)
Definition generous : host := with_room host64 (fun n _ => n + 1).
Definition shorts_and_one : ty := TTuple [TSeq KVec (TP U16); TP U16; TP U16].
Definition shorts_value : val := VSeq [VSeq [VInt 1; VInt 2]; VInt 3; VInt 4].
Theorem C125_refuted :
  (* two numbers and nothing more: the bytes that were written cannot be read *)
  rbind (write_to_vec generous dirty LE (TSeq KVec (TP U16)) (VSeq [VInt 1; VInt 2]))
        (read_from_buffer generous LE (TSeq KVec (TP U16)) 0) = Err UnexpectedEndOfInput
  (* two numbers and then two more: read as a list and one number, the third is lost *)
  /\ rbind (write_to_vec generous dirty LE shorts_and_one shorts_value)
           (read_from_buffer generous LE (TTuple [TSeq KVec (TP U16); TP U16]) 0)
     = Ok (VSeq [VSeq [VInt 1; VInt 2]; VInt 4])
  /\ rbind (write_to_vec host64 dirty LE shorts_and_one shorts_value)
           (read_from_buffer host64 LE shorts_and_one 0) = Ok shorts_value.
Proof. vm_compute. auto. Qed.
Print Assumptions C125_refuted.

(** The conditions of C125 are met by two numbers of two bytes and room for one more. *)
Example capacity_case :
  2 < 2 ^ 32 /\ 2 * N.of_nat (psize U16) <= h_alloc_max host64
  /\ nlen [x01; x00; x02; x00] = 2 * N.of_nat (psize U16) /\ 2 <= 2 + 1.
Proof. repeat split; vm_compute; try reflexivity; discriminate. Qed.
