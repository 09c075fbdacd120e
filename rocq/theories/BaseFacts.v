(* Facts about bytes, words and lists. *)
From Verif Require Export Base.
From Coq Require Export ZifyBool ZifyNat ZifyN Permutation.
Ltac Zify.zify_post_hook ::= Z.div_mod_to_equations.

#[global] Arguments N.add : simpl never.
#[global] Arguments N.mul : simpl never.
#[global] Arguments N.sub : simpl never.
#[global] Arguments N.div : simpl never.
#[global] Arguments N.modulo : simpl never.
#[global] Arguments N.pow : simpl never.
#[global] Arguments N.of_nat : simpl never.
#[global] Arguments N.to_nat : simpl never.
#[global] Arguments N.leb : simpl never.
#[global] Arguments N.ltb : simpl never.
#[global] Arguments N.eqb : simpl never.
#[global] Arguments N.min : simpl never.
#[global] Arguments N.max : simpl never.
#[global] Arguments Z.modulo : simpl never.
#[global] Arguments Z.div : simpl never.
#[global] Arguments Z.pow : simpl never.

(* ------------------------------------------------------------------ *)
(** * Bytes *)

Lemma b2n_lt b : b2n b < 256.
Proof. pose proof (Byte.to_N_bounded b). unfold b2n. lia. Qed.

Lemma n2b_b2n b : n2b (b2n b) = b.
Proof.
  unfold n2b. rewrite N.mod_small by apply b2n_lt.
  unfold b2n. rewrite Byte.of_to_N. reflexivity.
Qed.

Lemma b2n_n2b n : b2n (n2b n) = n mod 256.
Proof.
  unfold n2b, b2n. destruct (Byte.of_N (n mod 256)) as [b|] eqn:E.
  - apply Byte.to_of_N in E. assumption.
  - apply Byte.of_N_None_iff in E. lia.
Qed.

Lemma b2n_inj a b : b2n a = b2n b -> a = b.
Proof. intros H. rewrite <- (n2b_b2n a), <- (n2b_b2n b), H. reflexivity. Qed.

Lemma n2b_small n : n < 256 -> b2n (n2b n) = n.
Proof. intros. rewrite b2n_n2b. apply N.mod_small. assumption. Qed.

(* ------------------------------------------------------------------ *)
(** * Lists measured in N *)

Section Lists.
  Context {A : Type}.
  Implicit Types l : list A.

  Lemma nlen_nil : nlen (@nil A) = 0.
  Proof. reflexivity. Qed.
  Lemma nlen_cons (a : A) l : nlen (a :: l) = nlen l + 1.
  Proof. unfold nlen. cbn [length]. lia. Qed.
  Lemma nlen_app l1 l2 : nlen (l1 ++ l2) = nlen l1 + nlen l2.
  Proof. unfold nlen. rewrite app_length. lia. Qed.
  Lemma nlen_rev l : nlen (rev l) = nlen l.
  Proof. unfold nlen. rewrite rev_length. reflexivity. Qed.
  Lemma nlen_repeat (a : A) n : nlen (repeat a n) = N.of_nat n.
  Proof. unfold nlen. rewrite repeat_length. reflexivity. Qed.
  Lemma nlen_take n l : nlen (ntake n l) = N.min n (nlen l).
  Proof. unfold nlen, ntake. rewrite firstn_length. lia. Qed.
  Lemma nlen_drop n l : nlen (ndrop n l) = nlen l - n.
  Proof. unfold nlen, ndrop. rewrite skipn_length. lia. Qed.
  Lemma nlen_0 l : nlen l = 0 -> l = [].
  Proof. destruct l; [reflexivity|]. rewrite nlen_cons. lia. Qed.

  Lemma take_drop n l : ntake n l ++ ndrop n l = l.
  Proof. apply firstn_skipn. Qed.
  Lemma take_0 l : ntake 0 l = [].
  Proof. reflexivity. Qed.
  Lemma drop_0 l : ndrop 0 l = l.
  Proof. reflexivity. Qed.
  Lemma take_nil n : ntake n (@nil A) = [].
  Proof. apply firstn_nil. Qed.
  Lemma drop_nil n : ndrop n (@nil A) = [].
  Proof. apply skipn_nil. Qed.
  Lemma take_all n l : nlen l <= n -> ntake n l = l.
  Proof. unfold nlen, ntake. intros. apply firstn_all2. lia. Qed.
  Lemma drop_all n l : nlen l <= n -> ndrop n l = [].
  Proof. unfold nlen, ndrop. intros. apply skipn_all2. lia. Qed.
  Lemma take_app n l1 l2 : ntake n (l1 ++ l2) = ntake n l1 ++ ntake (n - nlen l1) l2.
  Proof. unfold nlen, ntake. rewrite firstn_app. do 2 f_equal. lia. Qed.
  Lemma drop_app n l1 l2 : ndrop n (l1 ++ l2) = ndrop n l1 ++ ndrop (n - nlen l1) l2.
  Proof. unfold nlen, ndrop. rewrite skipn_app. do 2 f_equal. lia. Qed.
  Lemma take_app_le n l1 l2 : n <= nlen l1 -> ntake n (l1 ++ l2) = ntake n l1.
  Proof.
    intros. rewrite take_app. replace (n - nlen l1) with 0 by lia.
    rewrite take_0, app_nil_r. reflexivity.
  Qed.
  Lemma drop_app_le n l1 l2 : n <= nlen l1 -> ndrop n (l1 ++ l2) = ndrop n l1 ++ l2.
  Proof. intros. rewrite drop_app. replace (n - nlen l1) with 0 by lia. reflexivity. Qed.
  Lemma take_app_exact n l1 l2 : nlen l1 = n -> ntake n (l1 ++ l2) = l1.
  Proof. intros <-. rewrite take_app_le by lia. apply take_all. lia. Qed.
  Lemma drop_app_exact n l1 l2 : nlen l1 = n -> ndrop n (l1 ++ l2) = l2.
  Proof. intros <-. rewrite drop_app_le by lia. rewrite drop_all by lia. reflexivity. Qed.
  Lemma drop_app_ge n l1 l2 : nlen l1 <= n -> ndrop n (l1 ++ l2) = ndrop (n - nlen l1) l2.
  Proof. intros. rewrite drop_app, drop_all by lia. reflexivity. Qed.
  Lemma take_take n m l : ntake n (ntake m l) = ntake (N.min n m) l.
  Proof. unfold ntake. rewrite firstn_firstn. f_equal. lia. Qed.
  Lemma drop_drop n m l : ndrop n (ndrop m l) = ndrop (n + m) l.
  Proof.
    unfold ndrop. replace (N.to_nat (n + m)) with (N.to_nat m + N.to_nat n)%nat by lia.
    revert l. induction (N.to_nat m) as [|k IH]; intros l; [reflexivity|].
    destruct l; cbn [skipn Nat.add]; [apply skipn_nil|apply IH].
  Qed.
  Lemma take_drop_comm n m l : ntake n (ndrop m l) = ndrop m (ntake (m + n) l).
  Proof.
    unfold ntake, ndrop. rewrite firstn_skipn_comm. do 2 f_equal. lia.
  Qed.
  Lemma drop_take n m l : ndrop n (ntake m l) = ntake (m - n) (ndrop n l).
  Proof. unfold ntake, ndrop. rewrite skipn_firstn_comm. f_equal. lia. Qed.
  Lemma take_add n m l : ntake (n + m) l = ntake n l ++ ntake m (ndrop n l).
  Proof.
    rewrite <- (take_drop n l) at 1. rewrite take_app, nlen_take.
    rewrite take_take. replace (N.min (n + m) n) with n by lia.
    destruct (N.le_gt_cases n (nlen l)).
    - do 2 f_equal. lia.
    - rewrite (drop_all n l) by lia. rewrite !take_nil. reflexivity.
  Qed.

  Lemma app_inv_nlen (a b c d : list A) : nlen a = nlen c -> a ++ b = c ++ d -> a = c /\ b = d.
  Proof.
    unfold nlen. intros H E. assert (length a = length c) as H' by lia. clear H.
    revert c H' E. induction a as [|x a IH]; intros [|y c] H' E; try discriminate.
    - auto.
    - cbn in E. injection E as -> E. injection H' as H'.
      destruct (IH c H' E) as [-> ->]. auto.
  Qed.
End Lists.

Lemma nlen_map {A B} (f : A -> B) l : nlen (map f l) = nlen l.
Proof. unfold nlen. rewrite map_length. reflexivity. Qed.

(* ------------------------------------------------------------------ *)
(** * Words *)

Lemma le_bytes_length w n : length (le_bytes w n) = w.
Proof. revert n. induction w; intros; cbn [le_bytes length]; [reflexivity|]. f_equal. apply IHw. Qed.

Lemma nlen_le_bytes w n : nlen (le_bytes w n) = N.of_nat w.
Proof. unfold nlen. rewrite le_bytes_length. reflexivity. Qed.

Lemma pow256_S w : 256 ^ N.of_nat (S w) = 256 * 256 ^ N.of_nat w.
Proof. rewrite Nat2N.inj_succ, N.pow_succ_r'. reflexivity. Qed.

Lemma pow256_pos w : 0 < 256 ^ w.
Proof. assert (256 ^ w <> 0) by (apply N.pow_nonzero; discriminate). lia. Qed.

Lemma le_num_lt bs : le_num bs < 256 ^ nlen bs.
Proof.
  unfold nlen. induction bs as [|b r IH]; cbn [le_num length].
  - reflexivity.
  - rewrite pow256_S. pose proof (b2n_lt b). nia.
Qed.

Lemma le_num_le_bytes w n : le_num (le_bytes w n) = n mod 256 ^ N.of_nat w.
Proof.
  revert n. induction w as [|w IH]; intros n; cbn [le_bytes le_num].
  - change (256 ^ N.of_nat 0) with 1. rewrite N.mod_1_r. reflexivity.
  - rewrite IH, b2n_n2b, pow256_S.
    rewrite N.mod_mul_r; [reflexivity|discriminate|].
    pose proof (pow256_pos (N.of_nat w)). lia.
Qed.

Lemma le_num_le_bytes_small w n : n < 256 ^ N.of_nat w -> le_num (le_bytes w n) = n.
Proof. intros. rewrite le_num_le_bytes. apply N.mod_small. assumption. Qed.

Lemma n2b_mod n : n2b (n mod 256) = n2b n.
Proof. unfold n2b. rewrite N.mod_mod by discriminate. reflexivity. Qed.

Lemma le_bytes_le_num bs : le_bytes (length bs) (le_num bs) = bs.
Proof.
  induction bs as [|b r IH]; cbn [le_num length le_bytes]; [reflexivity|].
  pose proof (b2n_lt b) as Hb.
  replace (n2b (b2n b + 256 * le_num r)) with b.
  - f_equal. replace ((b2n b + 256 * le_num r) / 256) with (le_num r); [assumption|].
    lia.
  - rewrite <- n2b_mod. replace ((b2n b + 256 * le_num r) mod 256) with (b2n b) by lia.
    symmetry. apply n2b_b2n.
Qed.

Lemma le_bytes_le_num' w bs : length bs = w -> le_bytes w (le_num bs) = bs.
Proof. intros <-. apply le_bytes_le_num. Qed.

Lemma le_bytes_inj w n m :
  n < 256 ^ N.of_nat w -> m < 256 ^ N.of_nat w -> le_bytes w n = le_bytes w m -> n = m.
Proof.
  intros Hn Hm E. rewrite <- (le_num_le_bytes_small w n Hn), E. apply le_num_le_bytes_small. assumption.
Qed.

Lemma le_bytes_mod w n : le_bytes w (n mod 256 ^ N.of_nat w) = le_bytes w n.
Proof.
  rewrite <- le_num_le_bytes. apply le_bytes_le_num', le_bytes_length.
Qed.

Lemma swap_bytes_lt w n : swap_bytes w n < 256 ^ N.of_nat w.
Proof.
  unfold swap_bytes. eapply N.lt_le_trans; [apply le_num_lt|].
  rewrite nlen_rev, nlen_le_bytes. lia.
Qed.

Lemma le_bytes_swap w n : le_bytes w (swap_bytes w n) = rev (le_bytes w n).
Proof.
  unfold swap_bytes. apply le_bytes_le_num'. rewrite rev_length. apply le_bytes_length.
Qed.

Lemma swap_le_num w bs : length bs = w -> swap_bytes w (le_num bs) = le_num (rev bs).
Proof. intros. unfold swap_bytes. rewrite le_bytes_le_num' by assumption. reflexivity. Qed.

Lemma swap_bytes_involutive w n : n < 256 ^ N.of_nat w -> swap_bytes w (swap_bytes w n) = n.
Proof.
  intros. unfold swap_bytes at 1. rewrite le_bytes_swap, rev_involutive.
  apply le_num_le_bytes_small. assumption.
Qed.

Lemma chunks_length sz n bs : length (chunks sz n bs) = n.
Proof. revert bs. induction n; intros; cbn [chunks length]; [reflexivity|]. f_equal. apply IHn. Qed.

(* ------------------------------------------------------------------ *)
(** * res *)

Lemma rbind_ok {A B} (r : res A) (k : A -> res B) b :
  rbind r k = Ok b -> exists a, r = Ok a /\ k a = Ok b.
Proof. destruct r; cbn; intros H; try discriminate. eauto. Qed.

Lemma rmap_ok {A B} (f : A -> B) (r : res A) b :
  rmap f r = Ok b -> exists a, r = Ok a /\ b = f a.
Proof. destruct r; cbn; intros H; try discriminate. injection H as <-. eauto. Qed.

Lemma rmapM_length {A B} (f : A -> res B) l l' : rmapM f l = Ok l' -> length l' = length l.
Proof.
  revert l'. induction l as [|a l IH]; cbn; intros l' H.
  - injection H as <-. reflexivity.
  - apply rbind_ok in H as (b & Hb & H). apply rmap_ok in H as (r & Hr & ->).
    cbn. f_equal. auto.
Qed.
