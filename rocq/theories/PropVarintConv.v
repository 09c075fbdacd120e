(* Properties C18 and C19: conversions between signed integers and VarInt64. *)
From Verif Require Import VarintFacts.

(** C18 does not hold: `i64::from( VarInt64::from( -1i64 ) )` is not -1 (the
    conversion back shifts left by 15 where the inverse needs the sign). *)
Theorem C18_signed_round_trip_refuted :
  exists z, (- 2 ^ 63 <= z < 2 ^ 63)%Z /\ varint_to_i64 (zigzag 64 z) <> z.
Proof. exists (-1)%Z. split; [lia|]. vm_compute. discriminate. Qed.
Print Assumptions C18_signed_round_trip_refuted.

(** It fails for small positive numbers as well. *)
Theorem C18_signed_round_trip_positive_refuted :
  exists z, (0 <= z < 10)%Z /\ varint_to_i64 (zigzag 64 z) <> z.
Proof. exists 1%Z. split; [lia|]. vm_compute. discriminate. Qed.
Print Assumptions C18_signed_round_trip_positive_refuted.

(** C19: the conversion of a number of any width is the zig-zag number
    0, -1, 1, -2, 2, ... -> 0, 1, 2, 3, 4, ...; so it does not depend on the
    width, keeps distinct numbers distinct, and maps magnitude m below 2m + 1. *)
Theorem C19_zigzag bits z :
  In bits [8; 16; 32; 64]%Z -> (- 2 ^ (bits - 1) <= z < 2 ^ (bits - 1))%Z ->
  Z.of_N (zigzag bits z) = (if z <? 0 then -2 * z - 1 else 2 * z)%Z.
Proof.
  intros Hb Hz. rewrite zigzag_correct; [|cbn in Hb; lia|assumption].
  unfold zigzag_spec. destruct (Z.ltb_spec z 0); lia.
Qed.
Print Assumptions C19_zigzag.

Theorem C19_injective bits1 bits2 z1 z2 :
  In bits1 [8; 16; 32; 64]%Z -> (- 2 ^ (bits1 - 1) <= z1 < 2 ^ (bits1 - 1))%Z ->
  In bits2 [8; 16; 32; 64]%Z -> (- 2 ^ (bits2 - 1) <= z2 < 2 ^ (bits2 - 1))%Z ->
  (zigzag bits1 z1 = zigzag bits2 z2 <-> z1 = z2).
Proof.
  intros Hb1 Hz1 Hb2 Hz2.
  rewrite !zigzag_correct; [|cbn in *; lia|assumption|cbn in *; lia|assumption].
  split; [apply zigzag_spec_inj|congruence].
Qed.
Print Assumptions C19_injective.

Theorem C19_small bits z :
  In bits [8; 16; 32; 64]%Z -> (- 2 ^ (bits - 1) <= z < 2 ^ (bits - 1))%Z ->
  (Z.of_N (zigzag bits z) <= 2 * Z.abs z)%Z.
Proof. intros Hb Hz. rewrite C19_zigzag by assumption. destruct (Z.ltb_spec z 0); lia. Qed.
Print Assumptions C19_small.

Example zigzag_min_i8 : zigzag 8 (-128) = 255.
Proof. vm_compute. reflexivity. Qed.
Example zigzag_hundred : zigzag 8 (-100) = 199 /\ zigzag 16 (-100) = 199 /\ zigzag 64 (-100) = 199.
Proof. vm_compute. auto. Qed.

(* ------------------------------------------------------------------ *)
(** * C64: which integers survive the two conversions *)

Lemma wrap_signed_eq z : (- 2 ^ 63 <= z < 2 ^ 63)%Z -> forall n, (0 <= n < 2 ^ 64)%Z ->
  (wrap_signed 64 n = z <-> n = z mod 2 ^ 64)%Z.
Proof.
  intros Hz n Hn. unfold wrap_signed. change (2 ^ 64 / 2)%Z with (2 ^ 63)%Z.
  rewrite (Z.mod_small n) by lia. cbv zeta.
  destruct (Z.leb_spec (2 ^ 63) n) as [H|H].
  - split; [intros <-|intros ->].
    + rewrite <- (Z.mod_small n (2 ^ 64)) at 1 by lia. rewrite Zminus_mod, Z_mod_same_full, Z.sub_0_r, Z.mod_mod by lia. reflexivity.
    + destruct (Z.lt_ge_cases z 0).
      * rewrite <- (Z.mod_add z 1) by lia. rewrite Z.mod_small by lia. lia.
      * rewrite Z.mod_small in H by lia. lia.
  - split; [intros <-|intros ->].
    + symmetry. apply Z.mod_small. lia.
    + destruct (Z.lt_ge_cases z 0).
      * rewrite <- (Z.mod_add z 1) in H by lia. rewrite Z.mod_small in H by lia. lia.
      * rewrite Z.mod_small by lia. reflexivity.
Qed.

Theorem C64_exactly z : (- 2 ^ 63 <= z < 2 ^ 63)%Z ->
  varint_to_i64 (zigzag 64 z) = z <-> (exists q, 0 <= q /\ z = q * 2 ^ 48)%Z.
Proof.
  intros Hz. rewrite zigzag_correct by (cbn; lia || assumption).
  unfold varint_to_i64, shl64. rewrite N.shiftl_mul_pow2, N.shiftr_div_pow2. change (2 ^ 1) with 2.
  set (w := zigzag_spec z).
  assert (Hw : Z.of_N w = (if z <? 0 then -2 * z - 1 else 2 * z)%Z).
  { unfold w, zigzag_spec. destruct (Z.ltb_spec z 0); lia. }
  clearbody w.
  assert (Hx : w / 2 < 2 ^ 63).
  { apply N.div_lt_upper_bound; [lia|]. change (2 * 2 ^ 63) with (2 ^ 64). destruct (Z.ltb_spec z 0); lia. }
  assert (Hy : (w * 2 ^ 15) mod 2 ^ 64 < 2 ^ 64) by (apply N.mod_lt; discriminate).
  assert (Hl : N.lxor (w / 2) ((w * 2 ^ 15) mod 2 ^ 64) < 2 ^ 64).
  { destruct (N.eq_dec (N.lxor (w / 2) ((w * 2 ^ 15) mod 2 ^ 64)) 0) as [->|Hn]; [lia|].
    apply N.log2_lt_pow2; [lia|]. eapply N.le_lt_trans; [apply N.log2_lxor|].
    apply N.max_lub_lt.
    - destruct (N.eq_dec (w / 2) 0) as [->|]; [reflexivity|]. apply N.log2_lt_pow2; lia.
    - destruct (N.eq_dec ((w * 2 ^ 15) mod 2 ^ 64) 0) as [->|]; [reflexivity|]. apply N.log2_lt_pow2; lia. }
  rewrite wrap_signed_eq by lia. set (y := (w * 2 ^ 15) mod 2 ^ 64) in *.
  destruct (Z.ltb_spec z 0) as [Hn|Hn].
  - split; [|intros (q & Hq & ->); lia].
    intros E. exfalso. rewrite <- (Z.mod_add z 1) in E by lia. rewrite Z.mod_small in E by lia.
    assert (Hy0 : N.testbit y 0 = false).
    { unfold y. rewrite N.mod_pow2_bits_low by lia. apply N.mul_pow2_bits_low. lia. }
    assert (E' : N.lxor (w / 2) y = 2 ^ 64 - 1 - w / 2).
    { apply N2Z.inj. rewrite E. assert (Z.of_N (w / 2) = - z - 1)%Z; [|lia].
      rewrite N2Z.inj_div. rewrite Hw. change (Z.of_N 2) with 2%Z. symmetry. apply Z.div_unique with 1%Z; lia. }
    apply (f_equal (fun n => N.testbit n 0)) in E'. rewrite N.lxor_spec, Hy0, xorb_false_r in E'.
    rewrite !N.bit0_odd in E'. rewrite N.odd_sub in E' by lia. change (N.odd (2 ^ 64 - 1)) with true in E'.
    destruct (N.odd (w / 2)); discriminate.
  - rewrite Z.mod_small by lia.
    assert (Hd : w / 2 = Z.to_N z).
    { replace w with (Z.to_N z * 2) by lia. apply N.div_mul. discriminate. }
    assert (Hy0 : N.lxor (w / 2) y = w / 2 <-> y = 0).
    { split; [intros E|intros ->; apply N.lxor_0_r].
      rewrite <- (N.lxor_0_r (w / 2)) in E at 2. apply (f_equal (N.lxor (w / 2))) in E.
      rewrite <- !N.lxor_assoc, N.lxor_nilpotent, !N.lxor_0_l in E. exact E. }
    assert (Hm : y = 0 <-> exists q, (0 <= q /\ z = q * 2 ^ 48)%Z).
    { unfold y. rewrite N.mod_divide by discriminate. split.
      - intros [q Hq]. exists (Z.of_N q). split; [lia|].
        change (2 ^ 64) with (2 ^ 48 * 2 ^ 16) in Hq. change (2 ^ 16) with (2 * 2 ^ 15) in Hq. lia.
      - intros (q & Hq & ->). exists (Z.to_N q). change (2 ^ 64) with (2 ^ 48 * 2 ^ 16). change (2 ^ 16) with (2 * 2 ^ 15). lia. }
    rewrite <- Hm, <- Hy0, Hd. split; intros E.
    + apply N2Z.inj. rewrite E. lia.
    + rewrite E. lia.
Qed.
Print Assumptions C64_exactly.

(** The two claims of the equivalence on values that are not zero. *)
Example C64_survives : varint_to_i64 (zigzag 64 (3 * 2 ^ 48)) = (3 * 2 ^ 48)%Z.
Proof. apply C64_exactly; [lia|]. exists 3%Z. lia. Qed.
Example C64_lost : varint_to_i64 (zigzag 64 1) <> 1%Z.
Proof. rewrite C64_exactly by lia. intros (q & Hq & E). lia. Qed.
