(* Facts about the wire format alone. *)
From Verif Require Export BaseFacts Spec.

(* ------------------------------------------------------------------ *)
(** * Words *)

Lemma word_length e w n : length (word e w n) = w.
Proof. destruct e; cbn [word]; rewrite ?rev_length; apply le_bytes_length. Qed.

Lemma nlen_word e w n : nlen (word e w n) = N.of_nat w.
Proof. unfold nlen. rewrite word_length. reflexivity. Qed.

Lemma unword_word e w n : n < 256 ^ N.of_nat w -> unword e (word e w n) = n.
Proof.
  intros. destruct e; cbn [word unword]; rewrite ?rev_involutive; apply le_num_le_bytes_small; assumption.
Qed.

Lemma word_unword e w bs : length bs = w -> word e w (unword e bs) = bs.
Proof.
  intros <-. destruct e; cbn [word unword].
  - apply le_bytes_le_num.
  - rewrite <- (rev_length bs), le_bytes_le_num. apply rev_involutive.
Qed.

Lemma unword_lt e bs : unword e bs < 256 ^ nlen bs.
Proof. destruct e; cbn [unword]; [|rewrite <- nlen_rev]; apply le_num_lt. Qed.

Lemma word1 e n : word e 1 n = [n2b n].
Proof. destruct e; reflexivity. Qed.

Lemma unword1 e b : unword e [b] = b2n b.
Proof. destruct e; cbn [unword rev app le_num]; lia. Qed.

(* ------------------------------------------------------------------ *)
(** * Variable length integers *)

Lemma all_bytes (P : N -> bool) :
  forallb (fun i => P (N.of_nat i)) (seq 0 256) = true -> forall b, b < 256 -> P b = true.
Proof.
  intros H b Hb. rewrite forallb_forall in H. specialize (H (N.to_nat b)).
  rewrite N2Nat.id in H. apply H. apply in_seq. lia.
Qed.

Lemma vi_ones_le b : (vi_ones b <= 8)%nat.
Proof. unfold vi_ones. repeat (destruct (_ <? _); [lia|]). lia. Qed.

Lemma vi_extra_le n : (vi_extra n <= 8)%nat.
Proof. unfold vi_extra. repeat (destruct (_ <? _); [lia|]). lia. Qed.

Lemma pow2_256 k : 2 ^ (8 * k) = 256 ^ k.
Proof. rewrite N.pow_mul_r. reflexivity. Qed.

Ltac num_pow :=
  repeat match goal with
         | |- context [2 ^ ?k] =>
           let x := eval vm_compute in (2 ^ k) in is_ground x; change (2 ^ k) with x
         | H : context [2 ^ ?k] |- _ =>
           let x := eval vm_compute in (2 ^ k) in is_ground x; change (2 ^ k) with x in H
         end.

(** The bounds that define [vi_extra]. *)
Lemma vi_extra_spec n : n < 2 ^ 64 ->
  let k := N.of_nat (vi_extra n) in
  (k = 8 \/ n < 2 ^ (7 * (k + 1))) /\ (k = 0 \/ 2 ^ (7 * k) <= n).
Proof.
  intros Hn. unfold vi_extra.
  repeat match goal with |- context [?a <? ?b] => destruct (N.ltb_spec a b) end; cbn zeta;
    split; ((left; reflexivity) || (right; cbn; lia)).
Qed.

Lemma vi_first_lt n : n < 2 ^ 64 ->
  let k := N.of_nat (vi_extra n) in
  256 - 2 ^ (8 - k) + n / 2 ^ (8 * k) < 256.
Proof.
  intros Hn. unfold vi_extra.
  repeat match goal with |- context [?a <? ?b] => destruct (N.ltb_spec a b) end; cbn zeta;
    num_pow; lia.
Qed.

Ltac vi_cases n :=
  unfold vi_extra in *;
  repeat match goal with
         | |- context [n <? ?b] => destruct (N.ltb_spec n b)
         | _ : context [n <? ?b] |- _ => destruct (N.ltb_spec n b)
         end.

(** The first byte announces the number of bytes that follow. *)
Lemma vi_first_ones n : n < 2 ^ 64 ->
  let k := vi_extra n in
  let b := 256 - 2 ^ (8 - N.of_nat k) + n / 2 ^ (8 * N.of_nat k) in
  vi_ones b = k /\ b mod 2 ^ (7 - N.of_nat k) = n / 2 ^ (8 * N.of_nat k).
Proof.
  intros Hn. cbn zeta.
  assert (H : exists q, n / 2 ^ (8 * N.of_nat (vi_extra n)) = q /\
              (q < 2 ^ (7 - N.of_nat (vi_extra n)))).
  { eexists. split; [reflexivity|].
    vi_cases n; num_pow; lia. }
  destruct H as (q & -> & Hq).
  pose proof (vi_extra_le n) as Hk. remember (vi_extra n) as k eqn:E. clear E.
  assert (Hsweep : forallb (fun k => forallb (fun q => negb (N.of_nat q <? 2 ^ (7 - N.of_nat k)) ||
     ((vi_ones (256 - 2 ^ (8 - N.of_nat k) + N.of_nat q) =? k)%nat &&
      ((256 - 2 ^ (8 - N.of_nat k) + N.of_nat q) mod 2 ^ (7 - N.of_nat k) =? N.of_nat q)))
     (seq 0 128)) (seq 0 9) = true) by (vm_compute; reflexivity).
  rewrite forallb_forall in Hsweep. specialize (Hsweep k). rewrite forallb_forall in Hsweep.
  specialize (Hsweep ltac:(apply in_seq; lia) (N.to_nat q)).
  rewrite N2Nat.id in Hsweep.
  assert (2 ^ (7 - N.of_nat k) <= 2 ^ 7) by (apply N.pow_le_mono_r; lia).
  change (2 ^ 7) with 128 in *.
  specialize (Hsweep ltac:(apply in_seq; lia)).
  destruct (N.ltb_spec q (2 ^ (7 - N.of_nat k))); [|lia].
  cbn [negb orb] in Hsweep. apply andb_prop in Hsweep as [H1 H2].
  apply Nat.eqb_eq in H1. apply N.eqb_eq in H2. auto.
Qed.

Lemma vi_enc_length n : length (vi_enc n) = S (vi_extra n).
Proof. unfold vi_enc. cbn [length]. rewrite le_bytes_length. reflexivity. Qed.

Lemma nlen_vi_enc n : nlen (vi_enc n) = N.of_nat (vi_extra n) + 1.
Proof. unfold nlen. rewrite vi_enc_length. lia. Qed.

Lemma dread_app b rest : dread (nlen b) (Some (b ++ rest)) = DOk b (Some rest).
Proof.
  unfold dread. destruct (N.eqb_spec (nlen b) 0) as [E|E].
  - apply nlen_0 in E. subst. reflexivity.
  - rewrite nlen_app. destruct (N.leb_spec (nlen b) (nlen b + nlen rest)); [|lia].
    rewrite take_app_exact, drop_app_exact by reflexivity. reflexivity.
Qed.

Lemma dread_app' n b rest : nlen b = n -> dread n (Some (b ++ rest)) = DOk b (Some rest).
Proof. intros <-. apply dread_app. Qed.

Lemma dword_app e w b rest : length b = w -> dword e w (Some (b ++ rest)) = DOk (unword e b) (Some rest).
Proof.
  intros H. unfold dword, dmap, dbind. rewrite dread_app' by (unfold nlen; lia). reflexivity.
Qed.

Lemma dword_word e w n rest : n < 256 ^ N.of_nat w ->
  dword e w (Some (word e w n ++ rest)) = DOk n (Some rest).
Proof. intros. rewrite dword_app by apply word_length. rewrite unword_word by assumption. reflexivity. Qed.

Lemma dword1 e b rest : dword e 1 (Some (b :: rest)) = DOk (b2n b) (Some rest).
Proof. rewrite <- (unword1 e). apply (dword_app e 1 [b] rest). reflexivity. Qed.

Lemma dvarint_enc e n rest : n < 2 ^ 64 ->
  dvarint e (Some (vi_enc n ++ rest)) = DOk n (Some rest).
Proof.
  intros Hn. unfold dvarint, vi_enc. cbn [app]. unfold dbind at 1. rewrite dword1.
  rewrite b2n_n2b. pose proof (vi_first_lt n Hn) as Hlt. cbn zeta in Hlt.
  rewrite N.mod_small by assumption.
  pose proof (vi_first_ones n Hn) as [H1 H2]. cbn zeta in H1, H2. rewrite H1, H2.
  unfold dbind. rewrite dread_app' by apply nlen_le_bytes.
  unfold dret. f_equal. rewrite le_num_le_bytes, pow2_256.
  pose proof (pow256_pos (N.of_nat (vi_extra n))).
  rewrite N.mul_comm. symmetry. apply N.div_mod. lia.
Qed.

(** A [k]+1 byte encoding can only hold numbers below 2^(7(k+1)) (2^64 for nine
    bytes). *)
Lemma dvarint_bound e bs n rest :
  dvarint e (Some bs) = DOk n (Some rest) ->
  n < 2 ^ 64 /\ exists p, bs = p ++ rest /\ (vi_extra n < length p <= 9)%nat.
Proof.
  unfold dvarint, dbind, dword, dmap, dbind. unfold dread at 1. cbn [N.eqb N.of_nat].
  destruct (N.eqb_spec (N.of_nat 1) 0) as [H|_]; [discriminate|].
  destruct (N.leb_spec (N.of_nat 1) (nlen bs)) as [H1|H1]; [|discriminate].
  destruct bs as [|b bs]; [unfold nlen in H1; cbn in H1; lia|].
  change (ntake (N.of_nat 1) (b :: bs)) with [b]. change (ndrop (N.of_nat 1) (b :: bs)) with bs.
  cbn [dret]. rewrite unword1. pose proof (b2n_lt b) as Hb. pose proof (vi_ones_le (b2n b)) as Hk.
  remember (vi_ones (b2n b)) as k eqn:Ek.
  intros H.
  assert (Htail : exists tail, nlen tail = N.of_nat k /\ bs = tail ++ rest /\
            n = (b2n b mod 2 ^ (7 - N.of_nat k)) * 2 ^ (8 * N.of_nat k) + le_num tail).
  { unfold dread in H. destruct (N.eqb_spec (N.of_nat k) 0) as [E|E].
    - injection H as <- <-. exists []. rewrite E. auto.
    - destruct (N.leb_spec (N.of_nat k) (nlen bs)); [|discriminate].
      injection H as <- <-. exists (ntake (N.of_nat k) bs).
      rewrite nlen_take, take_drop. repeat split; lia. }
  clear H. destruct Htail as (tail & Hl & -> & ->).
  pose proof (le_num_lt tail) as Ht. rewrite Hl, <- pow2_256 in Ht.
  set (q := b2n b mod 2 ^ (7 - N.of_nat k)).
  assert (Hq : q < 2 ^ (7 - N.of_nat k)) by (apply N.mod_lt, N.pow_nonzero; discriminate).
  assert (Hq2 : k = 8%nat -> q = 0).
  { intros ->. unfold q. change (2 ^ (7 - N.of_nat 8)) with 1. apply N.mod_1_r. }
  assert (Hn : q * 2 ^ (8 * N.of_nat k) + le_num tail < 2 ^ 64 /\
               (k = 8%nat \/ q * 2 ^ (8 * N.of_nat k) + le_num tail < 2 ^ (7 * (N.of_nat k + 1)))).
  { clearbody q. clear Ek Hb.
    assert (Hc : (k = 0 \/ k = 1 \/ k = 2 \/ k = 3 \/ k = 4 \/ k = 5 \/ k = 6 \/ k = 7 \/ k = 8)%nat) by lia.
    destruct Hc as [->|[->|[->|[->|[->|[->|[->|[->| ->]]]]]]]];
      try (rewrite (Hq2 eq_refl); split; [|left; reflexivity]; num_pow; lia);
      (split; [|right]); num_pow; lia. }
  destruct Hn as [Hn64 Hn]. split; [assumption|].
  exists (b :: tail). split; [reflexivity|]. cbn [length].
  assert (length tail = k) as -> by (unfold nlen in Hl; lia).
  pose proof (vi_extra_spec _ Hn64) as [_ Hlow]. cbn zeta in Hlow.
  pose proof (vi_extra_le (q * 2 ^ (8 * N.of_nat k) + le_num tail)).
  destruct Hn as [->|Hn]; [lia|].
  destruct Hlow as [Hlow|Hlow]; [lia|].
  assert (2 ^ (7 * N.of_nat (vi_extra (q * 2 ^ (8 * N.of_nat k) + le_num tail))) < 2 ^ (7 * (N.of_nat k + 1))) as Hp by lia.
  apply N.pow_lt_mono_r_iff in Hp; lia.
Qed.
