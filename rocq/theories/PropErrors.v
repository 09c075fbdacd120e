(* C59: the methods of Endianness.  C60: conversions between errors. *)
From Verif Require Import Errors LayoutFacts.

(* ------------------------------------------------------------------ *)
(** * C59 *)

Section Endianness.
  Context (native e : endian).

  (** Reading a number from a slice of its size gives the number the wire format
      says, on every host; any other slice is a panic. *)
  Theorem C59_read p bs :
    endian_read native e p bs
    = if Nat.eqb (length bs) (psize p) then Ok (of_bits p (unword e bs)) else Fault PanicAssert.
  Proof.
    unfold endian_read, nlen. destruct (Nat.eqb_spec (length bs) (psize p)) as [E|E].
    - rewrite E, N.eqb_refl. rewrite swap_of_ne by assumption. reflexivity.
    - destruct (N.eqb_spec (N.of_nat (length bs)) (N.of_nat (psize p))); [lia|reflexivity].
  Qed.

  Lemma swap_if_lt w n : n < 256 ^ N.of_nat w -> swap_if native e w n < 256 ^ N.of_nat w.
  Proof. intros H. unfold swap_if. destruct (conversion_necessary native e); [apply swap_bytes_lt|assumption]. Qed.

  (** Swapping makes the bytes in memory those of the wire format. *)
  Theorem C59_swap_bytes p z :
    to_ne native (psize p) (to_bits p (endian_swap native e p z)) = word e (psize p) (to_bits p z).
  Proof.
    unfold endian_swap. rewrite to_bits_of_bits.
    - apply to_ne_swap.
    - rewrite pmod_pow. apply swap_if_lt. rewrite <- pmod_pow. apply to_bits_lt.
  Qed.

  (** Swapping twice changes nothing. *)
  Theorem C59_swap_twice p z : prim_ok p z = true ->
    endian_swap native e p (endian_swap native e p z) = z.
  Proof.
    intros Hz. unfold endian_swap. rewrite to_bits_of_bits.
    - pose proof (to_bits_lt p z) as Hl. rewrite pmod_pow in Hl.
      unfold swap_if. destruct (conversion_necessary native e).
      + rewrite swap_bytes_involutive by assumption. apply of_bits_to_bits, Hz.
      + apply of_bits_to_bits, Hz.
    - rewrite pmod_pow. apply swap_if_lt. rewrite <- pmod_pow. apply to_bits_lt.
  Qed.

  (** A slice is swapped element by element. *)
  Theorem C59_swap_slice p zs : Forall (fun z => prim_ok p z = true) zs ->
    endian_swap_slice native e p zs = map (endian_swap native e p) zs.
  Proof.
    intros H.
    assert (Hid : conversion_necessary native e = false \/ psize p = 1%nat -> map (endian_swap native e p) zs = zs).
    { intros Hc. rewrite <- (map_id zs) at 2. apply map_ext_in. intros z Hin.
      rewrite Forall_forall in H. specialize (H z Hin). unfold endian_swap, swap_if.
      destruct (conversion_necessary native e); [|apply of_bits_to_bits, H].
      destruct Hc as [C|Hw]; [discriminate|]. rewrite Hw.
      pose proof (to_bits_lt p z) as Hl. rewrite pmod_pow, Hw in Hl. change (256 ^ N.of_nat 1) with 256 in Hl.
      unfold swap_bytes. cbn [le_bytes rev app le_num]. rewrite b2n_n2b by lia.
      rewrite N.mul_0_r, N.add_0_r. rewrite N.mod_small by lia. apply of_bits_to_bits, H. }
    destruct zs as [|z zs]; [destruct p; cbn; destruct (conversion_necessary native e); reflexivity|].
    destruct (conversion_necessary native e) eqn:Ec.
    - assert (Hgo : psize p <> 1%nat -> forall l, endian_swap_slice native e p l = map (endian_swap native e p) l).
      { intros Hw l. induction l as [|x l IH]; [destruct p; cbn; rewrite ?Ec; try reflexivity; contradiction|].
        destruct p; cbn [endian_swap_slice map] in *; rewrite ?Ec; try (rewrite IH; reflexivity); exfalso; apply Hw; reflexivity. }
      destruct (Nat.eq_dec (psize p) 1) as [Hw|Hw]; [|apply Hgo, Hw].
      rewrite Hid by (right; assumption). destruct p; try discriminate; reflexivity.
    - rewrite Hid by (left; reflexivity). destruct p; cbn [endian_swap_slice]; rewrite ?Ec; reflexivity.
  Qed.
End Endianness.

Print Assumptions C59_read.
Print Assumptions C59_swap_bytes.
Print Assumptions C59_swap_twice.
Print Assumptions C59_swap_slice.

Example C59_be_on_le : endian_read LE BE I16 [xff; xfe] = Ok (-2)%Z.
Proof. vm_compute. reflexivity. Qed.
Example C59_swapped : endian_swap LE BE U32 0x01020304 = 0x04030201%Z /\ prim_ok U32 0x01020304 = true.
Proof. vm_compute. auto. Qed.
Example C59_panics : endian_read LE BE I16 [xff] = Fault PanicAssert.
Proof. reflexivity. Qed.

(* ------------------------------------------------------------------ *)
(** * C60 *)

(** An error counts as the end of the input exactly if the `std::io::Error` made
    from it is an `UnexpectedEof`. *)
Theorem C60_eof er : is_eof er = true <-> io_error_from er = IoUnexpectedEof.
Proof. destruct er as [| | | | | | | | | | | | |k| |]; try destruct k; cbn; split; congruence. Qed.

(** Errors of streams survive the way through the crate unchanged, and turning
    an error into a `std::io::Error` and back keeps what matters of it. *)
Theorem C60_io_error k : io_error_from (from_io_error k) = k.
Proof. reflexivity. Qed.

Theorem C60_there_and_back er :
  is_eof (from_io_error (io_error_from er)) = is_eof er
  /\ io_error_from (from_io_error (io_error_from er)) = io_error_from er.
Proof. destruct er as [| | | | | | | | | | | | |k| |]; try destruct k; split; reflexivity. Qed.

(** Errors of the crate other than the end of the input are `InvalidData`. *)
Theorem C60_invalid_data er : is_eof er = false -> (forall k, er <> IoError k) -> io_error_from er = IoInvalidData.
Proof. destruct er; cbn; intros H Hk; try discriminate; try reflexivity. exfalso. eapply Hk. reflexivity. Qed.

Theorem C60_custom : is_eof custom = false /\ io_error_from custom <> IoUnexpectedEof /\ io_error_from custom <> IoInvalidData.
Proof. repeat split; discriminate. Qed.

Print Assumptions C60_eof.
Print Assumptions C60_io_error.
Print Assumptions C60_there_and_back.
Print Assumptions C60_invalid_data.

Example C60_too_small : io_error_from (InputBufferIsTooSmall 3 4) = IoInvalidData.
Proof. reflexivity. Qed.
Print Assumptions C60_custom.
