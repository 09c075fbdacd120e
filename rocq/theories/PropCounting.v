(* Property C129: sizes are added up in `usize`. *)
From Verif Require Import Counting ClosedWrite Hosts Samples WriteApi PropWrite.

Section Tally.
  Context (h : host) (VH : valid_host h).
  Notation umax := (l_usize_max (h_lim h)).
  Notation checks := (h_overflow_checks h).

  (** [x] is what comes of counting in `usize` if [y] comes of counting without a
      bound. *)
  Definition tally (x y : res N) : Prop :=
    if checks
    then (x = y /\ forall n, y = Ok n -> n <= umax) \/ (x = Fault PanicOverflow /\ forall n, y = Ok n -> umax < n)
    else x = rmap (fun n => n mod (umax + 1)) y.

  Lemma tally_ok n : n <= umax -> tally (Ok n) (Ok n).
  Proof.
    intros Hn. unfold tally. destruct checks.
    - left. split; [reflexivity|]. congruence.
    - cbn. rewrite N.mod_small by lia. reflexivity.
  Qed.

  Lemma tally_stop (r : res N) : (forall n, r <> Ok n) -> tally r r.
  Proof.
    intros H. unfold tally. destruct checks.
    - left. split; [reflexivity|]. intros n E. destruct (H n E).
    - destruct r; [destruct (H a eq_refl)|reflexivity|reflexivity].
  Qed.

  Lemma tally_in n : tally (in_usize h n) (Ok n).
  Proof.
    unfold tally, in_usize. destruct (N.leb_spec n umax) as [Hn|Hn]; destruct checks.
    - left. split; [reflexivity|]. congruence.
    - cbn. rewrite N.mod_small by lia. reflexivity.
    - right. split; [reflexivity|]. congruence.
    - reflexivity.
  Qed.

  (** What is done with two numbers that were counted. *)
  Lemma tally_bind x y (f g : N -> res N) : tally x y ->
    (checks = true -> forall n, n <= umax -> tally (f n) (g n)) ->
    (checks = true -> forall n m, umax < n -> g n = Ok m -> umax < m) ->
    (checks = false -> forall n, tally (f (n mod (umax + 1))) (g n)) ->
    tally (rbind x f) (rbind y g).
  Proof.
    intros H H1 H2 H3. unfold tally in H. destruct checks eqn:Ec.
    - destruct H as [[-> Hy]|[-> Hy]].
      + destruct y as [n|er|f0]; cbn [rbind].
        * apply H1; auto.
        * apply tally_stop. discriminate.
        * apply tally_stop. discriminate.
      + unfold tally. rewrite Ec. right. split; [reflexivity|]. destruct y as [n|er|f0]; cbn [rbind]; try discriminate.
        intros m E. apply (H2 eq_refl n m); auto.
    - subst x. destruct y as [n|er|f0]; cbn [rmap rbind].
      + apply H3, eq_refl.
      + unfold tally. rewrite Ec. reflexivity.
      + unfold tally. rewrite Ec. reflexivity.
  Qed.

  Lemma mod_in n m : checks = false -> n mod (umax + 1) = m mod (umax + 1) -> tally (in_usize h n) (Ok m).
  Proof.
    intros Ec E. unfold tally, in_usize. rewrite Ec. cbn. destruct (N.leb_spec n umax) as [Hn|Hn].
    - rewrite N.mod_small in E by lia. congruence.
    - congruence.
  Qed.

  Lemma tally_plus k x y : tally x y -> tally (rbind x (plus h k)) (rmap (N.add k) y).
  Proof.
    intros H. change (rmap (N.add k) y) with (rbind y (fun n => Ok (k + n))) || (replace (rmap (N.add k) y) with (rbind y (fun n => Ok (k + n))) by (destruct y; reflexivity)).
    apply tally_bind; [exact H|..].
    - intros _ n _. apply tally_in.
    - intros _ n m Hn [= <-]. lia.
    - intros Ec n. apply mod_in; [exact Ec|]. apply N.add_mod_idemp_r. lia.
  Qed.

  Lemma tally_sum x y x' y' : tally x y -> tally x' y' ->
    tally (rbind x (fun n => rbind x' (plus h n))) (rbind y (fun n => rmap (N.add n) y')).
  Proof.
    intros H H'. apply tally_bind; [exact H|..].
    - intros _ n _. apply tally_plus, H'.
    - intros _ n m Hn E. destruct y' as [n'|er|f]; try discriminate. injection E as <-. lia.
    - intros Ec n.
      replace (rmap (N.add n) y') with (rbind y' (fun n' => Ok (n + n'))) by (destruct y'; reflexivity).
      apply tally_bind; [exact H'|..]; try congruence. intros _ n'. apply mod_in; [exact Ec|].
      rewrite <- N.add_mod by lia. reflexivity.
  Qed.

  Lemma tally_each (f g : val -> res N) vs : (forall v, tally (f v) (g v)) -> forall a b,
    (checks = true -> a = b /\ b <= umax) -> (checks = false -> a = b mod (umax + 1)) ->
    tally (count_each h f a vs) (rmap (N.add b) (rsum (rmapM g vs))).
  Proof.
    intros Hfg. induction vs as [|v vs IH]; intros a b H1 H2; cbn [count_each rmapM].
    - cbn. rewrite N.add_0_r. unfold tally. destruct checks.
      + destruct H1 as [-> Hb]; [reflexivity|]. left. split; [reflexivity|]. congruence.
      + cbn. rewrite H2 by reflexivity. reflexivity.
    - replace (rmap (N.add b) (rsum (rbind (g v) (fun n => rmap (cons n) (rmapM g vs)))))
        with (rbind (g v) (fun n => rmap (N.add (b + n)) (rsum (rmapM g vs)))).
      2:{ destruct (g v); try reflexivity. destruct (rmapM g vs); try reflexivity. cbn. rewrite N.add_assoc. reflexivity. }
      apply tally_bind; [apply Hfg|..].
      + intros Ec n _. destruct (H1 Ec) as [-> Hb]. unfold plus, in_usize.
        destruct (N.leb_spec (b + n) umax) as [Hn|Hn]; cbn [rbind].
        * apply IH; [auto|congruence].
        * rewrite Ec. cbn [rbind]. unfold tally. rewrite Ec. right. split; [reflexivity|].
          intros m E. destruct (rsum _); try discriminate. injection E as <-. lia.
      + intros _ n m Hn E. destruct (rsum _); try discriminate. injection E as <-. lia.
      + intros Ec n. unfold plus, in_usize. rewrite Ec.
        assert (Em : (a + n mod (umax + 1)) mod (umax + 1) = (b + n) mod (umax + 1)).
        { rewrite (H2 Ec), <- N.add_mod by lia. reflexivity. }
        destruct (N.leb_spec (a + n mod (umax + 1)) umax) as [Hn|Hn]; cbn [rbind].
        * apply IH; [congruence|]. intros _. rewrite N.mod_small in Em by lia. exact Em.
        * apply IH; [congruence|]. intros _. exact Em.
  Qed.

  Lemma small_enough k : k <= 2 ^ 32 - 1 -> k <= umax.
  Proof. pose proof (vh_usize_lo h VH). lia. Qed.

  Lemma tally_each_from k (f g : val -> res N) vs : k <= 4 -> (forall v, tally (f v) (g v)) ->
    tally (count_each h f k vs) (rmap (N.add k) (rsum (rmapM g vs))).
  Proof.
    intros Hk H. pose proof (small_enough k ltac:(lia)) as Hs. apply tally_each; [exact H|auto|].
    intros _. symmetry. apply N.mod_small. lia.
  Qed.

  Lemma tally_tuple (f g : ty -> val -> res N) ts : Forall (fun t => forall v, tally (f t v) (g t v)) ts -> forall vs a b,
    (checks = true -> a = b /\ b <= umax) -> (checks = false -> a = b mod (umax + 1)) ->
    tally (count_tuple h f a ts vs) (rmap (N.add b) (needed_tuple g ts vs)).
  Proof.
    induction 1 as [|t ts Ht _ IH]; intros [|v vs] a b H1 H2; cbn [count_tuple needed_tuple]; try (apply tally_stop; discriminate).
    - cbn. rewrite N.add_0_r. unfold tally. destruct checks.
      + destruct H1 as [-> Hb]; [reflexivity|]. left. split; [reflexivity|]. congruence.
      + cbn. rewrite H2 by reflexivity. reflexivity.
    - replace (rmap (N.add b) (rbind (g t v) (fun n => rmap (N.add n) (needed_tuple g ts vs))))
        with (rbind (g t v) (fun n => rmap (N.add (b + n)) (needed_tuple g ts vs))).
      2:{ destruct (g t v); try reflexivity. cbn. destruct (needed_tuple g ts vs); try reflexivity. cbn. rewrite N.add_assoc. reflexivity. }
      apply tally_bind; [apply Ht|..].
      + intros Ec n _. destruct (H1 Ec) as [-> Hb]. unfold plus, in_usize.
        destruct (N.leb_spec (b + n) umax) as [Hn|Hn]; cbn [rbind].
        * apply IH; [auto|congruence].
        * rewrite Ec. cbn [rbind]. unfold tally. rewrite Ec. right. split; [reflexivity|].
          intros m E. destruct (needed_tuple g ts vs); try discriminate. injection E as <-. lia.
      + intros _ n m Hn E. destruct (needed_tuple g ts vs); try discriminate. injection E as <-. lia.
      + intros Ec n. unfold plus, in_usize. rewrite Ec.
        assert (Em : (a + n mod (umax + 1)) mod (umax + 1) = (b + n) mod (umax + 1)).
        { rewrite (H2 Ec), <- N.add_mod by lia. reflexivity. }
        destruct (N.leb_spec (a + n mod (umax + 1)) umax) as [Hn|Hn]; cbn [rbind].
        * apply IH; [congruence|]. intros _. rewrite N.mod_small in Em by lia. exact Em.
        * apply IH; [congruence|]. intros _. exact Em.
  Qed.

  (* ---------------------------------------------------------------- *)
  (** ** The collector *)

  Definition abreast (m1 m2 : M N unit) : Prop := forall s, s <= snd (m2 s)
    /\ (checks = true -> s <= umax ->
          (m1 s = m2 s /\ snd (m2 s) <= umax) \/ (fst (m1 s) = Fault PanicOverflow /\ umax < snd (m2 s)))
    /\ (checks = false -> m1 (s mod (umax + 1)) = (fst (m2 s), snd (m2 s) mod (umax + 1))).

  Lemma count_abreast n : abreast (count_bytes h n) (fun s => (Ok tt, s + n)).
  Proof.
    intros s. cbn [fst snd]. unfold count_bytes, plus, in_usize. split; [lia|]. split.
    - intros Ec Hs. rewrite Ec. destruct (N.leb_spec (s + n) umax); auto.
    - intros Ec. rewrite Ec. assert (Em : (s mod (umax + 1) + n) mod (umax + 1) = (s + n) mod (umax + 1)) by (apply N.add_mod_idemp_l; lia).
      destruct (N.leb_spec (s mod (umax + 1) + n) umax) as [Hn|Hn].
      + rewrite N.mod_small in Em by lia. rewrite Em. reflexivity.
      + rewrite Em. reflexivity.
  Qed.

  Lemma write_abreast t v : abreast (write h (CountingCollector h) t v) (write h (SizeCalculator h) t v).
  Proof.
    apply both_write; cbn [CountingCollector SizeCalculator wr_endian wr_bytes wr_u8 wr_uint wr_can]; auto.
    - intros m1 m1' m2 m2' E1 E2 H s. rewrite !E1, !E2. apply H.
    - intros m1 m2 n1 n2 H1 H2 s. unfold bind. destruct (H1 s) as (Hs1 & Hc1 & Hn1).
      destruct (n1 s) as [r s'] eqn:E1. cbn [fst snd] in *. destruct r as [[]|er|f].
      + destruct (H2 s') as (Hs2 & Hc2 & Hn2). split; [destruct (n2 s'); cbn [fst snd] in *; lia|]. split.
        * intros Ec Hs. destruct (Hc1 Ec Hs) as [[-> Hle]|[Ef Hgt]].
          { apply Hc2; assumption. }
          right. destruct (m1 s) as [q s1]. cbn [fst] in Ef. subst q. cbn [fst]. split; [reflexivity|]. lia.
        * intros Ec. rewrite (Hn1 Ec). apply Hn2, Ec.
      + split; [cbn; lia|]. split.
        * intros Ec Hs. cbn [snd]. destruct (Hc1 Ec Hs) as [[-> Hle]|[Ef Hgt]]; [auto|].
          right. destruct (m1 s) as [q s1]. cbn [fst] in Ef. subst q. auto.
        * intros Ec. rewrite (Hn1 Ec). reflexivity.
      + split; [cbn; lia|]. split.
        * intros Ec Hs. cbn [snd]. destruct (Hc1 Ec Hs) as [[-> Hle]|[Ef Hgt]]; [auto|].
          right. destruct (m1 s) as [q s1]. cbn [fst] in Ef. subst q. auto.
        * intros Ec. rewrite (Hn1 Ec). reflexivity.
    - intros r s. cbn [fst snd]. split; [lia|]. split; auto.
    - intros b. apply count_abreast.
    - intros n. apply count_abreast.
    - intros w n. apply count_abreast.
  Qed.

  Lemma derived_tally t v :
    tally (match write h (CountingCollector h) t v 0 with (Ok _, n) => Ok n | (Err e, _) => Err e | (Fault f, _) => Fault f end)
          (match write h (SizeCalculator h) t v 0 with (Ok _, n) => Ok n | (Err e, _) => Err e | (Fault f, _) => Fault f end).
  Proof.
    destruct (write_abreast t v 0) as (_ & Hc & Hn). unfold tally. destruct checks.
    - destruct (Hc eq_refl (N.le_0_l _)) as [[-> Hle]|[Ef Hgt]].
      + left. split; [reflexivity|]. intros n. destruct (write h (SizeCalculator h) t v 0) as [[[]|er|f] s]; try discriminate.
        intros [= <-]. exact Hle.
      + right. destruct (write h (CountingCollector h) t v 0) as [q s]. cbn [fst] in Ef. subst q. split; [reflexivity|].
        intros n. destruct (write h (SizeCalculator h) t v 0) as [[[]|er|f] s']; try discriminate. intros [= <-]. exact Hgt.
    - specialize (Hn eq_refl). rewrite N.mod_0_l in Hn by lia. rewrite Hn.
      destruct (write h (SizeCalculator h) t v 0) as [[[]|er|f] s']; reflexivity.
  Qed.

  Lemma rbind_length n (f g : unit -> res N) : tally (f tt) (g tt) -> tally (rbind (is_length n) f) (rbind (is_length n) g).
  Proof. intros H. unfold is_length. destruct (_ <=? n); [apply tally_stop; discriminate|exact H]. Qed.

  Lemma prim_tally n size : tally (rbind (times h n size) (plus h 4)) (Ok (4 + n * size)).
  Proof. exact (tally_plus 4 _ (Ok (n * size)) (tally_in (n * size))). Qed.

  Lemma scalar_tally s v : tally (count_scalar h s v) (scalar_bytes_needed s v).
  Proof.
    assert (Hc : forall n, n <= 2 ^ 32 - 1 -> tally (Ok n) (Ok n)) by (intros; apply tally_ok, small_enough; assumption).
    assert (Hp : forall p, N.of_nat (psize p) <= 16) by (intros []; vm_compute; discriminate).
    destruct s; cbn [count_scalar scalar_bytes_needed]; try (apply Hc; lia); try (apply Hc; pose proof (Hp p); lia).
    - destruct v; try (apply tally_stop; discriminate). apply Hc.
      assert (Hv : forall n, vi_bytes_needed n <= 9); [|pose proof (Hv (Z.to_N z)); lia].
      intros n. unfold vi_bytes_needed, vi_write_length, get_length, leading_zeros. cbv zeta.
      assert (Hb : 64 - (64 - N.size n) < 65) by lia.
      assert (Hl : forall b, b < 65 -> N.shiftr (N.lxor (N.shiftr b 3 + b) (N.shiftr b 3)) 3 <= 8); [|specialize (Hl _ Hb); lia].
      clear. intros b Hb. apply N.leb_le. revert b Hb.
      assert (Hall : forallb (fun i => N.shiftr (N.lxor (N.shiftr (N.of_nat i) 3 + N.of_nat i) (N.shiftr (N.of_nat i) 3)) 3 <=? 8) (seq 0 65) = true)
        by (vm_compute; reflexivity).
      intros b Hb. rewrite forallb_forall in Hall. specialize (Hall (N.to_nat b)). rewrite N2Nat.id in Hall. apply Hall, in_seq. lia.
    - destruct v as [| | | | | | | | |[|[|i]] l]; try (apply tally_stop; discriminate); apply Hc; lia.
    - destruct v; try (apply tally_stop; discriminate).
      assert (H16 : 16 <= 2 ^ 32 - 1) by (vm_compute; discriminate).
      pose proof (tally_each_from 0 (fun _ => Ok (N.of_nat (psize p))) (fun _ => Ok (N.of_nat (psize p))) vs ltac:(lia)
        (fun _ => Hc _ (N.le_trans _ 16 _ (Hp p) H16))) as H.
      replace (rmap (N.add 0) (rsum (rmapM (fun _ : val => Ok (N.of_nat (psize p))) vs))) with (Ok (nsum (map (fun _ : val => N.of_nat (psize p)) vs))) in H; [exact H|].
      assert (Em : rmapM (fun _ : val => Ok (N.of_nat (psize p))) vs = Ok (map (fun _ : val => N.of_nat (psize p)) vs)).
      { clear. induction vs as [|v vs IH]; [reflexivity|]. cbn [rmapM map]. rewrite IH. reflexivity. }
      rewrite Em. reflexivity.
  Qed.

  Theorem tally_all t : forall v, tally (bytes_counted h t v) (bytes_needed h t v).
  Proof.
    induction t as [s|k|k t IH|t n IH|t n IH|t IH|t1 t2 IH1 IH2|ts IH|i t IH|k t IH|k tk tv IHk IHv|t IH|d fs IH|d vs IH|]
      using ty_ind'; intros v; cbn [bytes_counted bytes_needed].
    - apply scalar_tally.
    - destruct v; try (apply tally_stop; discriminate). apply rbind_length.
      pose proof (prim_tally (nlen b) 1) as H. rewrite N.mul_1_r in H. rewrite <- (N.mul_1_r (nlen b)) at 1. rewrite N.mul_1_r. exact H.
    - destruct v; try (apply tally_stop; discriminate). apply rbind_length. destruct (is_prim h t); [apply prim_tally|].
      apply tally_each_from; [lia|exact IH].
    - destruct v; try (apply tally_stop; discriminate). pose proof (tally_each_from 0 _ _ vs ltac:(lia) IH) as H.
      destruct (rsum _); exact H.
    - destruct v; try (apply tally_stop; discriminate). pose proof (tally_each_from 0 _ _ vs ltac:(lia) IH) as H.
      destruct (rsum _); exact H.
    - destruct v; try (apply tally_stop; discriminate); [apply tally_ok, small_enough; lia|apply tally_plus, IH].
    - destruct v; try (apply tally_stop; discriminate); apply tally_plus; auto.
    - destruct v; try (apply tally_stop; discriminate).
      pose proof (tally_tuple _ _ ts IH vs 0 0) as H. rewrite N.mod_0_l in H by lia.
      specialize (H ltac:(intros; split; [reflexivity|apply N.le_0_l]) ltac:(reflexivity)).
      destruct (needed_tuple _ _ _); exact H.
    - destruct v as [| | | |[|a [|b l]]| | | | |]; try (apply tally_stop; discriminate). apply tally_sum; apply IH.
    - destruct v; try (apply tally_stop; discriminate). apply rbind_length. apply tally_each_from; [lia|exact IH].
    - destruct v; try (apply tally_stop; discriminate). apply rbind_length. apply tally_each_from; [lia|].
      intros v. unfold count_pair, needed_pair. destruct v as [| | | |[|a [|b [|]]]| | | | |]; try (apply tally_stop; discriminate).
      apply tally_sum; auto.
    - apply IH.
    - apply derived_tally.
    - apply derived_tally.
    - apply tally_stop. discriminate.
  Qed.
End Tally.

(* ------------------------------------------------------------------ *)
(** * C129 *)

Section Counted.
  Context (h : host) (VH : valid_host h) (e : endian).
  Notation umax := (l_usize_max (h_lim h)).
  Notation checks := (h_overflow_checks h).
  Notation encode := (Spec.encode (h_iter h) e (ipv6_order h e)).

  (** What is left of a number in `usize`. *)
  Definition kept (n : N) : N := n mod (umax + 1).

  (** Every type and value, writable or not: the loops of `bytes_needed` reach the
      same number, the same error and the same panic as the sums without a bound,
      unless a sum is too large. *)
  Theorem C129_tally t v :
    (forall n, bytes_needed h t v = Ok n -> bytes_counted h t v =
       if n <=? umax then Ok n else if checks then Fault PanicOverflow else Ok (kept n))
    /\ (forall er, bytes_needed h t v = Err er -> bytes_counted h t v = Err er \/ (checks = true /\ bytes_counted h t v = Fault PanicOverflow))
    /\ (forall f, bytes_needed h t v = Fault f -> bytes_counted h t v = Fault f \/ (checks = true /\ bytes_counted h t v = Fault PanicOverflow)).
  Proof.
    pose proof (tally_all h VH t v) as H. unfold tally in H. unfold kept. split; [|split].
    - intros n E. rewrite E in H. destruct checks.
      + destruct H as [[-> Hn]|[-> Hn]]; specialize (Hn n eq_refl); destruct (N.leb_spec n umax); try reflexivity; lia.
      + rewrite H. cbn. destruct (N.leb_spec n umax); [|reflexivity]. rewrite N.mod_small by lia. reflexivity.
    - intros er E. rewrite E in H. destruct checks; [|auto]. destruct H as [[-> _]|[-> _]]; auto.
    - intros f E. rewrite E in H. destruct checks; [|auto]. destruct H as [[-> _]|[-> _]]; auto.
  Qed.

  Section Writable.
    Context (t : ty) (v : val) (b : bytes) (Hs : wsup h t) (Hv : valid (h_lim h) t v) (Hb : encode t v = Ok b).

    Theorem C129_size : bytes_counted h t v =
      if nlen b <=? umax then Ok (nlen b) else if checks then Fault PanicOverflow else Ok (kept (nlen b)).
    Proof. apply (proj1 (C129_tally t v)), (bytes_needed_exact h VH e t v b Hs Hv Hb). Qed.

    Lemma too_short buf : nlen buf < nlen b ->
      exists s, write h (BufferCollector h e) t v {| bc_buffer := buf; bc_position := 0 |} = (Err UnexpectedEndOfOutputBuffer, s)
      /\ nlen (bc_buffer s) = nlen buf.
    Proof.
      intros Hl. pose proof (write_buffer_sim h VH e t v Hs Hv buf) as H.
      destruct (write h (BufferCollector h e) t v _) as [r s]. unfold Spec.encode in Hb. rewrite Hb in H. cbn [wpost app] in H.
      destruct H as [[-> (_ & H & _)]|(er & b1 & b2 & _ & -> & He & Hx & _)]; [lia|].
      exists s. split; [rewrite He; reflexivity|exact (bc_len _ _ _ Hx)].
    Qed.

    (** `write_to_vec`: exactly the encoding, or no bytes at all. *)
    Theorem C129_vec mem : (forall n, n <= nlen (mem n)) -> counted_to_vec h mem e t v =
      if nlen b <=? h_alloc_max h then Ok b
      else if nlen b <=? umax then Fault PanicCapacity
      else if checks then Fault PanicOverflow
      else if kept (nlen b) <=? h_alloc_max h then Err UnexpectedEndOfOutputBuffer
      else Fault PanicCapacity.
    Proof.
      intros Hm. unfold counted_to_vec. rewrite C129_size. pose proof (vh_alloc h VH) as Ha.
      destruct (N.leb_spec (nlen b) (h_alloc_max h)) as [H1|H1].
      - destruct (N.leb_spec (nlen b) umax); [|lia]. cbn [rbind]. destruct (N.ltb_spec (h_alloc_max h) (nlen b)); [lia|].
        pose proof (write_to_vec_ok h VH e t v Hs Hv mem b Hm Hb) as H2. unfold write_to_vec in H2.
        rewrite (bytes_needed_exact h VH e t v b Hs Hv Hb) in H2. exact H2.
      - destruct (N.leb_spec (nlen b) umax) as [H2|H2]; cbn [rbind].
        + destruct (N.ltb_spec (h_alloc_max h) (nlen b)); [reflexivity|lia].
        + destruct checks; cbn [rbind]; [reflexivity|].
          destruct (N.ltb_spec (h_alloc_max h) (kept (nlen b))) as [H3|H3]; destruct (N.leb_spec (kept (nlen b)) (h_alloc_max h)); try lia; [reflexivity|].
          destruct (too_short (ntake (kept (nlen b)) (mem (kept (nlen b))))) as (s & -> & _); [|reflexivity].
          rewrite nlen_take. lia.
    Qed.

    (** `write_to_buffer`.  The last case reports a size that is not the one needed. *)
    Theorem C129_buffer buffer :
      if nlen b <=? umax
      then counted_to_buffer h e t v buffer = write_to_buffer h e t v buffer
      else if checks
      then counted_to_buffer h e t v buffer = (Fault PanicOverflow, buffer)
      else if kept (nlen b) <=? nlen buffer
      then exists x, nlen x = kept (nlen b) /\
           counted_to_buffer h e t v buffer = (Err UnexpectedEndOfOutputBuffer, x ++ ndrop (kept (nlen b)) buffer)
      else counted_to_buffer h e t v buffer = (Err (OutputBufferIsTooSmall (nlen buffer) (kept (nlen b))), buffer).
    Proof.
      unfold counted_to_buffer, write_to_buffer. rewrite C129_size, (bytes_needed_exact h VH e t v b Hs Hv Hb).
      destruct (N.leb_spec (nlen b) umax) as [H1|H1]; [reflexivity|]. destruct checks; [reflexivity|].
      destruct (N.leb_spec (kept (nlen b)) (nlen buffer)) as [H2|H2]; [|reflexivity].
      assert (Hk : kept (nlen b) <= umax) by (unfold kept; pose proof (N.mod_lt (nlen b) (umax + 1) ltac:(lia)); lia).
      assert (El : nlen (ntake (kept (nlen b)) buffer) = kept (nlen b)) by (rewrite nlen_take; lia).
      destruct (too_short (ntake (kept (nlen b)) buffer)) as (s & -> & Hx); [lia|].
      exists (bc_buffer s). split; [congruence|reflexivity].
    Qed.
  End Writable.

  (** No bytes but the encoding ever come out. *)
  Theorem C129_only_whole t v mem x : wsup h t -> valid (h_lim h) t v -> (forall n, n <= nlen (mem n)) ->
    counted_to_vec h mem e t v = Ok x -> encode t v = Ok x.
  Proof.
    intros Hs Hv Hm H. destruct (encode t v) as [b|er|f] eqn:E.
    - rewrite (C129_vec t v b Hs Hv E mem Hm) in H. destruct (nlen b <=? h_alloc_max h); [congruence|].
      destruct (nlen b <=? umax); [discriminate|]. destruct checks; [discriminate|].
      destruct (kept (nlen b) <=? h_alloc_max h); discriminate.
    - exfalso. unfold counted_to_vec in H. destruct (bytes_counted h t v) as [n| |]; try discriminate. cbn [rbind] in H.
      destruct (h_alloc_max h <? n); [discriminate|].
      pose proof (write_buffer_sim h VH e t v Hs Hv (ntake n (mem n))) as W.
      destruct (write h (BufferCollector h e) t v _) as [r s]. unfold Spec.encode in E. rewrite E in W.
      destruct W as (er' & y & -> & _). discriminate.
    - exfalso. unfold counted_to_vec in H. destruct (bytes_counted h t v) as [n| |]; try discriminate. cbn [rbind] in H.
      destruct (h_alloc_max h <? n); [discriminate|].
      pose proof (write_buffer_sim h VH e t v Hs Hv (ntake n (mem n))) as W.
      destruct (write h (BufferCollector h e) t v _) as [r s]. unfold Spec.encode in E. rewrite E in W.
      destruct W as [->|(er' & -> & _)]; discriminate.
  Qed.

  Theorem C129_only_whole_buffer t v buffer buffer' : wsup h t -> valid (h_lim h) t v ->
    counted_to_buffer h e t v buffer = (Ok tt, buffer') ->
    exists x, encode t v = Ok x /\ nlen x <= nlen buffer /\ buffer' = x ++ ndrop (nlen x) buffer.
  Proof.
    intros Hs Hv H. destruct (encode t v) as [b|er|f] eqn:E.
    - pose proof (C129_buffer t v b Hs Hv E buffer) as B. destruct (nlen b <=? umax).
      + rewrite B, (write_to_buffer_ok h VH e t v Hs Hv b buffer E) in H. destruct (N.leb_spec (nlen b) (nlen buffer)); [|discriminate].
        injection H as <-. eauto.
      + exfalso. destruct checks; [congruence|]. destruct (kept (nlen b) <=? nlen buffer); [|congruence].
        destruct B as (x & _ & B). congruence.
    - exfalso. unfold counted_to_buffer in H. destruct (bytes_counted h t v) as [n| |]; try discriminate.
      destruct (n <=? nlen buffer); [|discriminate].
      pose proof (write_buffer_sim h VH e t v Hs Hv (ntake n buffer)) as W.
      destruct (write h (BufferCollector h e) t v _) as [r s]. unfold Spec.encode in E. rewrite E in W.
      destruct W as (er' & y & -> & _). discriminate.
    - exfalso. unfold counted_to_buffer in H. destruct (bytes_counted h t v) as [n| |]; try discriminate.
      destruct (n <=? nlen buffer); [|discriminate].
      pose proof (write_buffer_sim h VH e t v Hs Hv (ntake n buffer)) as W.
      destruct (write h (BufferCollector h e) t v _) as [r s]. unfold Spec.encode in E. rewrite E in W.
      destruct W as [->|(er' & -> & _)]; discriminate.
  Qed.
End Counted.
Print Assumptions C129_tally.
Print Assumptions C129_size.
Print Assumptions C129_vec.
Print Assumptions C129_buffer.
Print Assumptions C129_only_whole.
Print Assumptions C129_only_whole_buffer.

(* ------------------------------------------------------------------ *)
(** * A value larger than the address space *)

(** A vector of [m] references to one text of [n] letters. *)
Definition chorus (m n : N) : val := VSeq (repeat (VBytes (repeat x61 (N.to_nat n))) (N.to_nat m)).

Lemma letters_valid n : utf8_valid (repeat x61 n) = true.
Proof. induction n as [|n IH]; [reflexivity|]. cbn [repeat]. change (utf8_valid (x61 :: repeat x61 n)) with (utf8_valid (repeat x61 n)). exact IH. Qed.

Section Chorus.
  Context (h : host) (VH : valid_host h) (e : endian).
  Notation encode := (Spec.encode (h_iter h) e (ipv6_order h e)).
  Notation songs := (TSeq KVec (TStr KRefStr)).

  Lemma chorus_encoded m n : m <= 2 ^ 32 - 1 -> n <= 2 ^ 32 - 1 ->
    exists b, encode songs (chorus m n) = Ok b /\ nlen b = 4 + m * (4 + n).
  Proof.
    intros Hm Hn. unfold Spec.encode, chorus.
    set (each := enc (h_iter h) e (ipv6_order h e) len0 (TStr KRefStr)).
    set (vs := repeat (VBytes (repeat x61 (N.to_nat n))) (N.to_nat m)).
    change (enc (h_iter h) e (ipv6_order h e) len0 songs (VSeq vs)) with (rapp (enc_len e len0 (nlen vs)) (enc_all each vs)).
    subst vs. rewrite nlen_repeat, N2Nat.id. cbn [enc_len len0].
    assert (Ee : exists x, each (VBytes (repeat x61 (N.to_nat n))) = Ok x /\ nlen x = 4 + n).
    { unfold each. cbn [enc enc_len len0]. rewrite nlen_repeat, N2Nat.id. change (basic_max BU32) with (2 ^ 32 - 1).
      destruct (N.leb_spec n (2 ^ 32 - 1)); [|lia].
      eexists. split; [reflexivity|]. rewrite nlen_app, nlen_repeat, N2Nat.id. f_equal. unfold nlen. cbn [enc_basic]. rewrite word_length. reflexivity. }
    destruct Ee as (x & Ex & Lx).
    assert (Ea : forall k, exists y, rmapM each (repeat (VBytes (repeat x61 (N.to_nat n))) k) = Ok y /\ nlen (concat y) = N.of_nat k * (4 + n)).
    { intros k. induction k as [|k (y & E & L)]; [exists []; split; [reflexivity|]; rewrite N.mul_0_l; reflexivity|].
      cbn [repeat rmapM]. rewrite Ex, E. cbn [rbind rmap]. eexists. split; [reflexivity|]. cbn [concat]. rewrite nlen_app, L, Lx. lia. }
    destruct (Ea (N.to_nat m)) as (y & E & L). unfold enc_all. rewrite E. change (basic_max BU32) with (2 ^ 32 - 1). destruct (N.leb_spec m (2 ^ 32 - 1)); [|lia].
    eexists. split; [reflexivity|]. rewrite nlen_app, L, N2Nat.id. f_equal. unfold nlen. cbn [enc_basic]. rewrite word_length. reflexivity.
  Qed.

  Lemma chorus_valid m n : n <= 65536 -> m <= 65536 -> h_size h (TStr KRefStr) <= 16 -> 2 ^ 31 - 1 <= h_alloc_max h ->
    valid (h_lim h) songs (chorus m n).
  Proof.
    intros Hn Hm Hz Ha. unfold chorus. cbn [valid]. rewrite nlen_repeat, N2Nat.id. split.
    - apply Forall_forall. intros x Hx. apply repeat_spec in Hx. subst x. cbn [valid].
      rewrite letters_valid, nlen_repeat, N2Nat.id. split; [reflexivity|]. split; [|exact Logic.I].
      split; [unfold small; pose proof (vh_usize_lo h VH); num_pow; lia|]. rewrite (vh_fits h VH). apply N.leb_le.
      rewrite (vh_prim h VH U8). change (N.of_nat (psize U8)) with 1. num_pow. lia.
    - split; [unfold small; pose proof (vh_usize_lo h VH); num_pow; lia|]. rewrite (vh_fits h VH). apply N.leb_le. num_pow. nia.
  Qed.
End Chorus.

Lemma too_large t v mem : (forall n, n <= nlen (mem n)) -> wsup host32be t -> wsup host32 t ->
  (forall h, valid_host h -> h_size h (TStr KRefStr) <= 16 -> 2 ^ 31 - 1 <= h_alloc_max h ->
    valid (h_lim h) t v /\ exists b, Spec.encode (h_iter h) LE (ipv6_order h LE) t v = Ok b /\ nlen b = 4295229444) ->
  exists b b',
  (wsup host32be t /\ valid (h_lim host32be) t v /\ Spec.encode (h_iter host32be) LE (ipv6_order host32be LE) t v = Ok b)
  /\ write_to_stream host32be LE t v {| os_out := []; os_sched := [] |} = (Ok tt, {| os_out := b; os_sched := [] |})
  /\ counted_to_vec host32be mem LE t v = Err UnexpectedEndOfOutputBuffer
  /\ (wsup host32 t /\ valid (h_lim host32) t v /\ Spec.encode (h_iter host32) LE (ipv6_order host32 LE) t v = Ok b')
  /\ write_to_stream host32 LE t v {| os_out := []; os_sched := [] |} = (Ok tt, {| os_out := b'; os_sched := [] |})
  /\ counted_to_vec host32 mem LE t v = Fault PanicOverflow.
Proof.
  intros Hm Hw Hw' Hv0.
  assert (Hall : forall h, valid_host h -> h_size h (TStr KRefStr) <= 16 -> 2 ^ 31 - 1 <= h_alloc_max h -> wsup h t -> exists b,
    (wsup h t /\ valid (h_lim h) t v /\ Spec.encode (h_iter h) LE (ipv6_order h LE) t v = Ok b) /\ nlen b = 4295229444
    /\ write_to_stream h LE t v {| os_out := []; os_sched := [] |} = (Ok tt, {| os_out := b; os_sched := [] |})).
  { intros h VH Hz Ha Hs. destruct (Hv0 h VH Hz Ha) as (Hv & b & E & L).
    exists b. split; [split; [exact Hs|split; [exact Hv|exact E]]|]. split; [exact L|].
    pose proof (write_to_stream_spec h VH LE t v Hs Hv {| os_out := []; os_sched := [] |}) as H.
    destruct (write_to_stream h LE t v _) as [r o']. unfold Spec.encode in E. rewrite E in H. cbn [wpost] in H.
    destruct H as [[-> [Ho Hi]]|(er & b1 & b2 & _ & _ & _ & _ & C)].
    - cbn [os_out os_sched app] in Ho, Hi. destruct o' as [o s]. cbn [os_out os_sched] in Ho, Hi. subst o.
      destruct s as [|ev s]; [reflexivity|]. destruct (Hi ev (or_introl eq_refl)).
    - exfalso. apply C. intros ev []. }
  destruct (Hall host32be host32be_valid ltac:(vm_compute; discriminate) ltac:(vm_compute; discriminate) Hw) as (b & (Hs & Hv & E) & L & W).
  destruct (Hall host32 host32_valid ltac:(vm_compute; discriminate) ltac:(vm_compute; discriminate) Hw') as (b' & (Hs' & Hv' & E') & L' & W').
  exists b, b'. split; [auto|]. split; [exact W|]. split; [|split; [auto|split; [exact W'|]]].
  - rewrite (C129_vec host32be host32be_valid LE t v b Hs Hv E mem Hm), L. vm_compute. reflexivity.
  - rewrite (C129_vec host32 host32_valid LE t v b' Hs' Hv' E' mem Hm), L'. vm_compute. reflexivity.
Qed.

Lemma chorus_too_large h m n : m = 65536 -> n = 65536 ->
  valid_host h -> h_size h (TStr KRefStr) <= 16 -> 2 ^ 31 - 1 <= h_alloc_max h ->
  valid (h_lim h) (TSeq KVec (TStr KRefStr)) (chorus m n)
  /\ exists b, Spec.encode (h_iter h) LE (ipv6_order h LE) (TSeq KVec (TStr KRefStr)) (chorus m n) = Ok b /\ nlen b = 4295229444.
Proof.
  intros Hm Hn VH Hz Ha. split; [apply chorus_valid; try assumption; lia|].
  destruct (chorus_encoded h LE m n) as (b & E & L); [num_pow; lia..|].
  exists b. split; [exact E|]. rewrite L, Hm, Hn. reflexivity.
Qed.

(** A list of 65536 references to one text of 65536 letters takes about 600 kB of
    memory and has an encoding of 4295229444 bytes.  On a 32-bit host a stream gets
    all of it; `write_to_vec` panics with overflow checks and fails without. *)
Theorem C129_shared_refuted mem : (forall n, n <= nlen (mem n)) ->
  exists v b b', v = chorus 65536 65536 /\
  (wsup host32be (TSeq KVec (TStr KRefStr)) /\ valid (h_lim host32be) (TSeq KVec (TStr KRefStr)) v
   /\ Spec.encode (h_iter host32be) LE (ipv6_order host32be LE) (TSeq KVec (TStr KRefStr)) v = Ok b)
  /\ write_to_stream host32be LE (TSeq KVec (TStr KRefStr)) v {| os_out := []; os_sched := [] |} = (Ok tt, {| os_out := b; os_sched := [] |})
  /\ counted_to_vec host32be mem LE (TSeq KVec (TStr KRefStr)) v = Err UnexpectedEndOfOutputBuffer
  /\ (wsup host32 (TSeq KVec (TStr KRefStr)) /\ valid (h_lim host32) (TSeq KVec (TStr KRefStr)) v
      /\ Spec.encode (h_iter host32) LE (ipv6_order host32 LE) (TSeq KVec (TStr KRefStr)) v = Ok b')
  /\ write_to_stream host32 LE (TSeq KVec (TStr KRefStr)) v {| os_out := []; os_sched := [] |} = (Ok tt, {| os_out := b'; os_sched := [] |})
  /\ counted_to_vec host32 mem LE (TSeq KVec (TStr KRefStr)) v = Fault PanicOverflow.
Proof.
  intros Hm. assert (Hx : exists m n : N, m = 65536 /\ n = 65536) by eauto. destruct Hx as (m & n & Em & En).
  destruct (too_large (TSeq KVec (TStr KRefStr)) (chorus m n) mem Hm) as (b & b' & H).
  - split; [intros C; vm_compute in C; discriminate|exact Logic.I].
  - split; [intros C; vm_compute in C; discriminate|exact Logic.I].
  - intros h. apply chorus_too_large; assumption.
  - exists (chorus m n), b, b'. split; [rewrite Em, En; reflexivity|exact H].
Qed.
Print Assumptions C129_shared_refuted.

(** Small values meet the hypotheses too, with each result. *)
Example C129_ordinary : let v := chorus 3 2 in
  bytes_counted host32 (TSeq KVec (TStr KRefStr)) v = Ok 22
  /\ counted_to_vec host32 (fun n => repeat x00 (N.to_nat n)) LE (TSeq KVec (TStr KRefStr)) v
     = Ok [x03; x00; x00; x00; x02; x00; x00; x00; x61; x61; x02; x00; x00; x00; x61; x61; x02; x00; x00; x00; x61; x61].
Proof. vm_compute. auto. Qed.
