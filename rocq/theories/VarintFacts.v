(* src/varint.rs against the wire format. *)
From Verif Require Export SpecFacts Varint.

(* ------------------------------------------------------------------ *)
(** * Words as the host sees them *)

Lemma to_ne_swap native e w n : to_ne native w (swap_if native e w n) = word e w n.
Proof.
  destruct native, e; cbn [to_ne swap_if conversion_necessary endian_eqb negb word];
    rewrite ?le_bytes_swap, ?rev_involutive; reflexivity.
Qed.

Lemma swap_of_ne native e w bs : length bs = w ->
  swap_if native e w (of_ne native bs) = unword e bs.
Proof.
  intros H.
  destruct native, e; cbn [of_ne swap_if conversion_necessary endian_eqb negb unword];
    [reflexivity| | |reflexivity].
  - apply swap_le_num. assumption.
  - rewrite swap_le_num by (rewrite rev_length; assumption). rewrite rev_involutive. reflexivity.
Qed.

(* ------------------------------------------------------------------ *)
(** * Reading *)

Lemma vi_length_ones b : b < 256 -> vi_length b = N.of_nat (vi_ones b).
Proof.
  intros H. apply N.eqb_eq. revert b H. apply all_bytes. vm_compute. reflexivity.
Qed.

Lemma vi_upper_spec b : b < 256 ->
  vi_upper b = (b mod 2 ^ (7 - N.of_nat (vi_ones b))) * 2 ^ (8 * N.of_nat (vi_ones b)).
Proof.
  intros H. apply N.eqb_eq. revert b H. apply all_bytes. vm_compute. reflexivity.
Qed.

Lemma le_num_app_zeros bs k : le_num (bs ++ repeat x00 k) = le_num bs.
Proof.
  induction bs as [|b r IH]; cbn [app le_num].
  - induction k as [|k IH]; cbn [repeat le_num]; [reflexivity|]. rewrite IH. reflexivity.
  - rewrite IH. reflexivity.
Qed.

Lemma vi_value_spec native tail : (length tail <= 8)%nat -> vi_value native tail = le_num tail.
Proof.
  intros H. unfold vi_value. rewrite swap_of_ne.
  - cbn [unword]. apply le_num_app_zeros.
  - rewrite app_length, repeat_length. lia.
Qed.

Lemma lor_add a b k : b < 2 ^ k -> N.lor (a * 2 ^ k) b = a * 2 ^ k + b.
Proof.
  intros Hb. rewrite <- N.lxor_lor.
  - symmetry. apply N.add_nocarry_lxor.
    apply N.bits_inj_0. intros i. rewrite N.land_spec.
    destruct (N.le_gt_cases k i) as [H|H].
    + rewrite <- (N.mod_small b (2 ^ k) Hb), N.mod_pow2_bits_high by assumption. apply andb_false_r.
    + rewrite N.mul_pow2_bits_low by assumption. reflexivity.
  - apply N.bits_inj_0. intros i. rewrite N.land_spec.
    destruct (N.le_gt_cases k i) as [H|H].
    + rewrite <- (N.mod_small b (2 ^ k) Hb), N.mod_pow2_bits_high by assumption. apply andb_false_r.
    + rewrite N.mul_pow2_bits_low by assumption. reflexivity.
Qed.

(** The number [impl_read!] computes from the first byte and the tail. *)
Lemma vi_number native b tail : b < 256 -> length tail = vi_ones b ->
  N.lor (vi_upper b) (vi_value native tail)
  = (b mod 2 ^ (7 - N.of_nat (vi_ones b))) * 2 ^ (8 * N.of_nat (vi_ones b)) + le_num tail.
Proof.
  intros Hb Ht. pose proof (vi_ones_le b).
  rewrite vi_upper_spec by assumption. rewrite vi_value_spec by lia.
  apply lor_add. rewrite pow2_256. pose proof (le_num_lt tail) as H1.
  replace (nlen tail) with (N.of_nat (vi_ones b)) in H1 by (unfold nlen; lia). assumption.
Qed.

(* ------------------------------------------------------------------ *)
(** * Writing *)

Lemma size_le n k : N.size n <= k <-> n < 2 ^ k.
Proof.
  destruct (N.eq_dec n 0) as [->|Hn].
  - cbn [N.size]. pose proof (N.pow_nonzero 2 k). lia.
  - rewrite N.size_log2 by assumption. rewrite (N.log2_lt_pow2 n k) by lia. lia.
Qed.

Lemma get_length_sweep s : s <= 64 ->
  get_length (64 - s) =
  if s <=? 7 then 0 else if s <=? 14 then 1 else if s <=? 21 then 2 else if s <=? 28 then 3
  else if s <=? 35 then 4 else if s <=? 42 then 5 else if s <=? 49 then 6
  else if s <=? 56 then 7 else 8.
Proof.
  intros H. apply N.eqb_eq.
  assert (Hs : forallb (fun i => let s := N.of_nat i in get_length (64 - s) =?
     if s <=? 7 then 0 else if s <=? 14 then 1 else if s <=? 21 then 2 else if s <=? 28 then 3
     else if s <=? 35 then 4 else if s <=? 42 then 5 else if s <=? 49 then 6
     else if s <=? 56 then 7 else 8) (seq 0 65) = true) by (vm_compute; reflexivity).
  rewrite forallb_forall in Hs. specialize (Hs (N.to_nat s)). cbn zeta in Hs.
  rewrite N2Nat.id in Hs. apply Hs, in_seq. lia.
Qed.

Lemma leb_size n k : (N.size n <=? k) = (n <? 2 ^ k).
Proof.
  apply eq_true_iff_eq. rewrite N.leb_le, N.ltb_lt. apply size_le.
Qed.

Lemma vi_write_length_spec n : n < 2 ^ 64 -> vi_write_length n = N.of_nat (vi_extra n).
Proof.
  intros Hn. unfold vi_write_length, leading_zeros.
  rewrite get_length_sweep by (apply size_le; assumption).
  rewrite !leb_size. unfold vi_extra.
  repeat match goal with |- context [?a <? ?b] => destruct (a <? b); [reflexivity|] end.
  reflexivity.
Qed.

Lemma vi_first_spec n : n < 2 ^ 64 ->
  vi_first n = 256 - 2 ^ (8 - N.of_nat (vi_extra n)) + n / 2 ^ (8 * N.of_nat (vi_extra n)).
Proof.
  intros Hn. unfold vi_first. rewrite vi_write_length_spec by assumption.
  rewrite N.shiftr_div_pow2.
  assert (H : exists q, n / 2 ^ (8 * N.of_nat (vi_extra n)) = q /\
              (q < 2 ^ (7 - N.of_nat (vi_extra n))) /\ (vi_extra n = 8%nat -> q = 0)).
  { eexists. split; [reflexivity|]. vi_cases n; num_pow; split; lia. }
  destruct H as (q & -> & Hq & Hq8).
  pose proof (vi_extra_le n) as Hk. remember (vi_extra n) as k eqn:E. clear E.
  assert (Hs : forallb (fun k => forallb (fun q => negb (N.of_nat q <? 2 ^ (7 - N.of_nat k)) ||
     (N.lor (vi_marker (N.of_nat k)) (N.of_nat q mod 256) =? 256 - 2 ^ (8 - N.of_nat k) + N.of_nat q))
     (seq 0 128)) (seq 0 8) = true) by (vm_compute; reflexivity).
  destruct (N.eqb_spec (N.of_nat k) 8) as [E8|E8].
  - assert (k = 8%nat) by lia. subst k. rewrite (Hq8 eq_refl). reflexivity.
  - rewrite forallb_forall in Hs. specialize (Hs k). rewrite forallb_forall in Hs.
    specialize (Hs ltac:(apply in_seq; lia) (N.to_nat q)). rewrite N2Nat.id in Hs.
    assert (2 ^ (7 - N.of_nat k) <= 2 ^ 7) by (apply N.pow_le_mono_r; lia).
    change (2 ^ 7) with 128 in *.
    specialize (Hs ltac:(apply in_seq; lia)).
    destruct (N.ltb_spec q (2 ^ (7 - N.of_nat k))); [|lia].
    cbn [negb orb] in Hs. apply N.eqb_eq in Hs. assumption.
Qed.

Lemma take_le_bytes k w n : (k <= w)%nat -> firstn k (le_bytes w n) = le_bytes k n.
Proof.
  revert w n. induction k as [|k IH]; intros w n H; [reflexivity|].
  destruct w as [|w]; [lia|]. cbn [le_bytes firstn]. rewrite IH by lia. reflexivity.
Qed.

Lemma vi_tail_spec native n : n < 2 ^ 64 -> vi_tail native n = le_bytes (vi_extra n) n.
Proof.
  intros Hn. unfold vi_tail. rewrite to_ne_swap, vi_write_length_spec by assumption.
  cbn [word]. unfold ntake. rewrite Nat2N.id. apply take_le_bytes, vi_extra_le.
Qed.

(** The bytes [write_to] emits. *)
Lemma vi_bytes_spec native n : n < 2 ^ 64 ->
  n2b (vi_first n) :: vi_tail native n = vi_enc n.
Proof. intros. unfold vi_enc. rewrite vi_first_spec, vi_tail_spec by assumption. reflexivity. Qed.

Lemma vi_enc_short n : vi_extra n = 0%nat -> vi_enc n = [n2b n].
Proof.
  intros E. unfold vi_enc. rewrite E. cbn [le_bytes].
  replace (256 - 2 ^ (8 - N.of_nat 0)) with 0 by reflexivity.
  replace (2 ^ (8 * N.of_nat 0)) with 1 by reflexivity.
  rewrite N.div_1_r, N.add_0_l. reflexivity.
Qed.

Lemma vi_bytes_needed_spec n : n < 2 ^ 64 -> vi_bytes_needed n = nlen (vi_enc n).
Proof. intros. unfold vi_bytes_needed. rewrite vi_write_length_spec, nlen_vi_enc by assumption. lia. Qed.

(* ------------------------------------------------------------------ *)
(** * Conversions *)

Lemma wrap_signed_small bits z : (0 < bits)%Z ->
  (- 2 ^ (bits - 1) <= z < 2 ^ (bits - 1))%Z -> wrap_signed bits z = z.
Proof.
  intros Hb Hz. unfold wrap_signed.
  assert (E : (2 ^ bits = 2 * 2 ^ (bits - 1))%Z).
  { rewrite <- Z.pow_succ_r by lia. f_equal. lia. }
  rewrite E. remember (2 ^ (bits - 1))%Z as m eqn:Em. clear Em E.
  replace (2 * m / 2)%Z with m by (rewrite Z.mul_comm, Z.div_mul; lia).
  destruct (Z.leb_spec m (z mod (2 * m))%Z) as [H|H].
  - destruct (Z.neg_nonneg_cases z).
    + rewrite <- (Z.mod_unique z (2 * m) (-1) (z + 2 * m)) in * by lia. lia.
    + rewrite Z.mod_small in * by lia. lia.
  - destruct (Z.neg_nonneg_cases z).
    + rewrite <- (Z.mod_unique z (2 * m) (-1) (z + 2 * m)) in * by lia. lia.
    + rewrite Z.mod_small in * by lia. lia.
Qed.

(** Zig-zag: 0, -1, 1, -2, 2, ... become 0, 1, 2, 3, 4, ... *)
Definition zigzag_spec (z : Z) : N := Z.to_N (if (z <? 0)%Z then (-2 * z - 1)%Z else (2 * z)%Z).

Lemma zigzag_correct bits z : (1 < bits)%Z ->
  (- 2 ^ (bits - 1) <= z < 2 ^ (bits - 1))%Z -> zigzag bits z = zigzag_spec z.
Proof.
  intros Hb Hz. unfold zigzag, zigzag_spec.
  assert (E : (2 ^ bits = 2 * 2 ^ (bits - 1))%Z).
  { rewrite <- Z.pow_succ_r by lia. f_equal. lia. }
  assert (Hp : (0 < 2 ^ (bits - 1))%Z) by (apply Z.pow_pos_nonneg; lia).
  rewrite Z.shiftl_mul_pow2 by lia. change (2 ^ 1)%Z with 2%Z.
  rewrite Z.shiftr_div_pow2 by lia.
  set (m := (2 ^ (bits - 1))%Z) in *.
  (* the wrapped double is congruent to 2z modulo 2m *)
  assert (Hw : exists q, wrap_signed bits (z * 2) = (z * 2 + q * (2 * m))%Z).
  { unfold wrap_signed. rewrite E.
    destruct (_ <=? _)%Z.
    - exists (- ((z * 2) / (2 * m)) - 1)%Z. rewrite Z.mod_eq by lia. ring.
    - exists (- ((z * 2) / (2 * m)))%Z. rewrite Z.mod_eq by lia. ring. }
  destruct Hw as [q ->].
  destruct (Z.ltb_spec z 0) as [Hneg|Hpos].
  - replace (z / m)%Z with (-1)%Z by (apply (Z.div_unique z m (-1) (z + m)); lia).
    rewrite Z.lxor_m1_r. rewrite E. f_equal.
    symmetry. apply (Z.mod_unique _ (2 * m) (- q)).
    + left. lia.
    + unfold Z.lnot. lia.
  - rewrite (Z.div_small z m) by lia. rewrite Z.lxor_0_r. rewrite E. f_equal.
    symmetry. apply (Z.mod_unique _ (2 * m) q).
    + left. lia.
    + lia.
Qed.

Lemma zigzag_spec_inj a b : zigzag_spec a = zigzag_spec b -> a = b.
Proof. unfold zigzag_spec. destruct (Z.ltb_spec a 0), (Z.ltb_spec b 0); lia. Qed.
