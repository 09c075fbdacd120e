(* Property C111: all of src/circular_buffer.rs, with the methods that only tests use
   and with the debug assertions. *)
From Verif Require Import Ring RingFacts.

(** What can happen to a ring buffer, next to the queue a user has in mind. *)
Inductive story (mem : N -> bytes) : cbuf -> bytes -> Prop :=
| s_new : story mem cb_new []
| s_with_capacity n : story mem (with_capacity mem n) []
| s_reserve n exact c c' q : story mem c q -> reserve_impl mem n exact c = Ok c' -> story mem c' q
| s_extend src c c' q : story mem c q -> extend_from_slice mem src c = Ok c' -> story mem c' (q ++ src)
| s_append size data r c c' q :
    story mem c q -> append_slot mem size c = Ok (r, c') -> nlen data <= r_len r ->
    story mem (append_done r data c') (q ++ data)
| s_append_failed size r c c' q :
    story mem c q -> append_slot mem size c = Ok (r, c') -> story mem c' q
| s_consume n c c' q : story mem c q -> n <= nlen q -> consume n c = Ok c' -> story mem c' (ndrop n q)
| s_consume_into n out c c' q :
    story mem c q -> n <= nlen q -> consume_into n c = Ok (out, c') -> story mem c' (ndrop n q).

Lemma reserve_impl_false mem size c : reserve_impl mem size false c = reserve mem size c.
Proof. reflexivity. Qed.

Lemma occupied_debug_ok c : cb_inv c ->
  occupied_debug (cb_position c) (cb_length c) (nlen (cb_buffer c))
  = occupied (cb_position c) (cb_length c) (nlen (cb_buffer c)).
Proof.
  intros [H1 H2]. unfold occupied_debug, occupied, debug_assert_eq.
  destruct (N.leb_spec (cb_position c + cb_length c) (nlen (cb_buffer c))) as [Hp|Hp].
  - unfold r_len. cbn [r_start r_end]. destruct (N.eqb_spec (cb_position c + cb_length c - cb_position c) (cb_length c)); [reflexivity|lia].
  - unfold usub, r_len. cbn [r_start r_end].
    destruct (N.leb_spec (nlen (cb_buffer c) - cb_position c) (cb_length c)); [|reflexivity]. cbn [rbind].
    match goal with |- (if ?x =? ?y then _ else _) = _ => destruct (N.eqb_spec x y); [reflexivity|lia] end.
Qed.

Lemma empty_debug_ok c max : cb_inv c ->
  empty_debug (cb_position c) (cb_length c) (nlen (cb_buffer c)) max
  = empty (cb_position c) (cb_length c) (nlen (cb_buffer c)) max.
Proof.
  intros [H1 H2]. unfold empty_debug, empty, debug_assert_eq.
  assert (Hs : usub (nlen (cb_buffer c)) (cb_length c) = Ok (nlen (cb_buffer c) - cb_length c)).
  { unfold usub. destruct (N.leb_spec (cb_length c) (nlen (cb_buffer c))); [reflexivity|lia]. }
  rewrite Hs. cbn [rbind]. destruct (N.eqb_spec (cb_position c) 0) as [E|E].
  - unfold r_len. cbn [r_start r_end]. rewrite N.eqb_refl. reflexivity.
  - destruct (N.leb_spec (nlen (cb_buffer c)) (cb_position c + cb_length c)) as [Hp|Hp].
    + unfold usub.
      destruct (N.leb_spec (cb_position c) (nlen (cb_buffer c))); [|lia]. cbn [rbind].
      destruct (N.leb_spec (nlen (cb_buffer c) - cb_position c) (cb_length c)); [|lia]. cbn [rbind].
      destruct (N.leb_spec (nlen (cb_buffer c) - cb_position c) (nlen (cb_buffer c))); [|lia]. cbn [rbind].
      unfold r_len. cbn [r_start r_end].
      match goal with |- (if ?x =? ?y then _ else _) = _ => destruct (N.eqb_spec x y); [reflexivity|lia] end.
    + unfold r_len. cbn [r_start r_end].
      match goal with |- (if ?x =? ?y then _ else _) = _ => destruct (N.eqb_spec x y); [reflexivity|lia] end.
Qed.

Section Queue.
  Context (mem : N -> bytes) (Hmem : forall n, n <= nlen (mem n)).

  (** Making the buffer smaller, to what is asked for. *)
  Lemma reserve_exact_ok size c : cb_inv c ->
    exists c', reserve_impl mem size true c = Ok c' /\ cb_inv c' /\ content c' = content c
      /\ cb_length c + size <= nlen (cb_buffer c')
      /\ nlen (cb_buffer c') <= N.max (cb_length c + size) (nlen (mem (cb_length c + size))).
  Proof.
    intros Hc. unfold reserve_impl. cbn [negb andb].
    destruct (N.eqb_spec (nlen (cb_buffer c)) (cb_length c + size)) as [E|E].
    - exists c. rewrite E. repeat (split; [auto; lia|]). lia.
    - pose proof (Hmem (cb_length c + size)) as Hm.
      destruct (reallocate_ok (mem (cb_length c + size)) c Hc ltac:(lia)) as (c' & -> & Hi & Hcon & Hlen & Hn).
      exists c'. rewrite Hn. split; [reflexivity|]. split; [exact Hi|]. split; [exact Hcon|]. lia.
  Qed.

  Lemma copy_into_ok buf r src : r_start r <= r_end r <= nlen buf -> r_len r = nlen src ->
    copy_into buf r src = Ok (overlay buf (r_start r) src).
  Proof.
    intros H E. unfold copy_into. destruct (N.leb_spec (r_start r) (r_end r)); [|lia].
    destruct (N.leb_spec (r_end r) (nlen buf)); [|lia]. rewrite E, N.eqb_refl. reflexivity.
  Qed.

  Lemma index_ok (buf : bytes) a b : a <= b <= nlen buf ->
    index buf {| r_start := a; r_end := b |} = Ok (slice buf a (b - a)).
  Proof.
    intros H. unfold index. cbn [r_start r_end]. destruct (N.leb_spec a b); [|lia].
    destruct (N.leb_spec b (nlen buf)); [|lia]. reflexivity.
  Qed.

  (** One range that holds everything, or a first range up to the end of the buffer
      and a second one at its start, which is where the bytes behind those in the
      first one belong. *)
  Lemma empty_parts c n : cb_inv c -> cb_length c + n <= nlen (cb_buffer c) ->
    exists r b, empty (cb_position c) (cb_length c) (nlen (cb_buffer c)) n = Ok (r, b)
      /\ match b with
         | None => r_len r = n
         | Some b => r_len r < n /\ r_start b = 0 /\ r_end b = n - r_len r
             /\ r_start r = cb_position c + cb_length c /\ r_end r = nlen (cb_buffer c)
             /\ r_end b <= cb_position c
         end.
  Proof.
    intros [H1 H2] Hs. unfold empty, r_len. destruct (N.eqb_spec (cb_position c) 0) as [E|E].
    - cbn [r_start r_end].
      destruct (N.ltb_spec n (nlen (cb_buffer c) - cb_length c)); (do 2 eexists; split; [reflexivity|]); cbn [r_start r_end]; lia.
    - destruct (N.leb_spec (nlen (cb_buffer c)) (cb_position c + cb_length c)) as [Hp|Hp].
      + unfold usub.
        destruct (N.leb_spec (cb_position c) (nlen (cb_buffer c))); [|lia]. cbn [rbind].
        destruct (N.leb_spec (nlen (cb_buffer c) - cb_position c) (cb_length c)); [|lia]. cbn [rbind].
        destruct (N.leb_spec (nlen (cb_buffer c) - cb_position c) (nlen (cb_buffer c))); [|lia]. cbn [rbind].
        cbn [r_start r_end].
        match goal with |- context [n <? ?x] => destruct (N.ltb_spec n x) end;
          (do 2 eexists; split; [reflexivity|]); cbn [r_start r_end]; lia.
      + cbn [r_start r_end].
        destruct (N.leb_spec n (nlen (cb_buffer c) - (cb_position c + cb_length c))).
        * do 2 eexists. split; [reflexivity|]. cbn [r_start r_end]. lia.
        * rewrite N.sub_0_r.
          match goal with |- context [?x <=? cb_position c] => destruct (N.leb_spec x (cb_position c)); [|lia] end.
          do 2 eexists. split; [reflexivity|]. cbn [r_start r_end]. lia.
  Qed.

  Lemma extend_ok src c : cb_inv c ->
    exists c', extend_from_slice mem src c = Ok c' /\ cb_inv c' /\ content c' = content c ++ src.
  Proof.
    intros Hc. unfold extend_from_slice.
    destruct (reserve_ok mem Hmem (nlen src) c Hc) as (c1 & -> & Hi & Hcon & Hlen & Hfit & _). cbn [rbind].
    rewrite <- Hlen in Hfit. rewrite <- Hcon. clear c Hc Hcon Hlen.
    destruct (empty_ok mem Hmem (nlen src) c1 Hi Hfit) as (r & b & E & Hr & Hrs & _ & Hdone).
    destruct (empty_parts c1 (nlen src) Hi Hfit) as (r' & b' & E' & Hparts). rewrite E in E'. injection E' as <- <-.
    rewrite E. cbn [rbind]. rewrite index_ok by lia. rewrite N.sub_0_r. cbn [rbind].
    assert (Hs1 : nlen (slice src 0 (r_len r)) = r_len r) by (apply nlen_slice; lia).
    rewrite copy_into_ok by lia. cbn [rbind]. destruct b as [b|].
    - destruct Hparts as (P1 & P2 & P3 & P4 & P5 & P6).
      destruct (Hdone (slice src 0 (r_len r)) ltac:(lia)) as [Hi1 Hc1].
      set (c2 := append_done r (slice src 0 (r_len r)) c1) in *.
      assert (Hb2 : nlen (cb_buffer c2) = nlen (cb_buffer c1)).
      { unfold c2, append_done. cbn [cb_buffer]. apply nlen_overlay. unfold r_len in *. lia. }
      assert (Hl2 : cb_length c2 = cb_length c1 + r_len r) by (unfold c2, append_done; cbn [cb_length]; lia).
      assert (Hp2 : cb_position c2 = cb_position c1) by reflexivity.
      rewrite index_ok by lia. cbn [rbind].
      assert (Hs2 : nlen (slice src (r_len r) (nlen src - r_len r)) = nlen src - r_len r) by (apply nlen_slice; lia).
      change (overlay (cb_buffer c1) (r_start r) (slice src 0 (r_len r))) with (cb_buffer c2).
      rewrite copy_into_ok; [|lia|unfold r_len in *; lia]. cbn [rbind].
      eexists. split; [reflexivity|].
      destruct (empty_ok mem Hmem (nlen src - r_len r) c2 Hi1 ltac:(lia)) as (r2 & b2 & E2 & _ & _ & _ & Hdone2).
      assert (Er2 : r2 = b).
      { revert E2. unfold empty. rewrite Hp2, Hl2, Hb2. destruct (N.eqb_spec (cb_position c1) 0); [lia|].
        assert (Hlen : cb_length c1 + r_len r = nlen (cb_buffer c1) - cb_position c1) by (unfold r_len in *; lia).
        destruct Hi as [I1 I2].
        destruct (N.leb_spec (nlen (cb_buffer c1)) (cb_position c1 + (cb_length c1 + r_len r))); [|lia].
        unfold usub. destruct (N.leb_spec (cb_position c1) (nlen (cb_buffer c1))); [|lia]. cbn [rbind].
        destruct (N.leb_spec (nlen (cb_buffer c1) - cb_position c1) (cb_length c1 + r_len r)); [|lia]. cbn [rbind].
        destruct (N.leb_spec (nlen (cb_buffer c1) - cb_position c1) (nlen (cb_buffer c1))); [|lia]. cbn [rbind].
        match goal with |- context [if ?x <? ?y then _ else _] => destruct (N.ltb_spec x y) as [Hx|Hx] end;
          unfold r_len in Hx; cbn [r_start r_end] in Hx; intros E2; injection E2 as <- <-; destruct b as [bs be]; cbn [r_start r_end] in *; f_equal; unfold r_len in *; lia. }
      subst r2. destruct (Hdone2 (slice src (r_len r) (nlen src - r_len r)) ltac:(unfold r_len in *; lia)) as [Hi3 Hc3].
      set (c3 := append_done b (slice src (r_len r) (nlen src - r_len r)) c2) in *.
      match goal with |- cb_inv ?x /\ _ => assert (E3 : x = c3) end.
      { unfold c3, append_done. rewrite Hs2, Hl2, Hp2. f_equal. lia. }
      rewrite E3. split; [exact Hi3|]. rewrite Hc3, Hc1, <- app_assoc. f_equal.
      unfold slice. rewrite drop_0. rewrite (take_all _ (ndrop _ _)) by (rewrite nlen_drop; lia). apply take_drop.
    - assert (Es : slice src 0 (r_len r) = src) by (unfold slice; rewrite drop_0; apply take_all; lia).
      rewrite Es. eexists. split; [reflexivity|]. apply (Hdone src). lia.
  Qed.

  Lemma story_inv c q : story mem c q -> cb_inv c /\ content c = q.
  Proof.
    intros H. induction H.
    - split; [split; cbn; [lia|auto]|reflexivity].
    - pose proof (with_capacity_ok mem Hmem n). tauto.
    - destruct IHstory as [Hi Hc]. destruct exact.
      + destruct (reserve_exact_ok n c Hi) as (c1 & E & ? & ? & _). rewrite E in H0. injection H0 as <-. split; congruence.
      + rewrite reserve_impl_false in H0. destruct (reserve_ok mem Hmem n c Hi) as (c1 & E & ? & ? & _).
        rewrite E in H0. injection H0 as <-. split; congruence.
    - destruct IHstory as [Hi Hc]. destruct (extend_ok src c Hi) as (c1 & E & ? & ?).
      rewrite E in H0. injection H0 as <-. split; congruence.
    - destruct IHstory as [Hi Hc].
      destruct (append_slot_ok mem Hmem size c Hi) as (r1 & c1 & E & _ & _ & _ & _ & _ & _ & Hd).
      rewrite E in H0. injection H0 as <- <-. destruct (Hd data H1) as [? ->]. split; congruence.
    - destruct IHstory as [Hi Hc].
      destruct (append_slot_ok mem Hmem size c Hi) as (r1 & c1 & E & ? & ? & _).
      rewrite E in H0. injection H0 as <- <-. split; congruence.
    - destruct IHstory as [Hi Hc].
      assert (Hl : n <= cb_length c) by (rewrite <- nlen_content, Hc; assumption).
      destruct (N.eq_dec (nlen (cb_buffer c)) 0) as [E0|E0].
      + unfold consume in H1. destruct (N.leb_spec n (cb_length c)); [|lia].
        rewrite E0 in H1. discriminate.
      + destruct (consume_ok n c Hi Hl E0) as (c1 & E & ? & ? & _).
        rewrite E in H1. injection H1 as <-. split; congruence.
    - destruct IHstory as [Hi Hc].
      assert (Hl : n <= cb_length c) by (rewrite <- nlen_content, Hc; assumption).
      destruct (consume_into_ok n c Hi Hl) as (c1 & E & ? & ? & _).
      rewrite E in H1. injection H1 as <- <-. split; congruence.
  Qed.

  (** C111: after whatever has been done with a ring buffer, it is a queue of bytes:
      every method shows the bytes that were added and not yet taken, in order; none
      that is used as it should be panics; there is always room made. *)
  Theorem C111_queue c q : story mem c q ->
    cb_len c = nlen q /\ (cb_is_empty c = true <-> q = []) /\ cb_len c <= cb_capacity c
    /\ to_vec c = Ok q
    /\ (exists a b, as_slices c = Ok (a, b) /\ a ++ match b with Some b => b | None => [] end = q)
    /\ (forall n, exists c', reserve_exact mem n c = Ok c' /\ nlen q + n <= cb_capacity c'
          /\ (nlen (mem (nlen q + n)) = nlen q + n -> cb_capacity c' = nlen q + n))
    /\ (forall n, exists c', reserve mem n c = Ok c' /\ nlen q + n <= cb_capacity c')
    /\ (forall src, exists c', extend_from_slice mem src c = Ok c')
    /\ (forall n, n <= nlen q ->
          rbind (as_slices_of_length n c) (join n) = Ok (ntake n q)
          /\ (exists c', consume_into n c = Ok (ntake n q, c'))
          /\ (cb_capacity c <> 0 -> exists c', consume n c = Ok c')).
  Proof.
    intros H. destruct (story_inv c q H) as [Hi Hc]. subst q. rewrite nlen_content.
    split; [reflexivity|]. split; [|split; [|split; [|split; [|split; [|split; [|split]]]]]].
    - unfold cb_is_empty. rewrite N.eqb_eq, <- nlen_content. destruct (content c); [tauto|].
      rewrite nlen_cons. split; [lia|discriminate].
    - apply Hi.
    - unfold to_vec. destruct (as_slices_ok c Hi) as (a & b & -> & ->). reflexivity.
    - destruct (as_slices_ok c Hi) as (a & b & E & ->). eauto.
    - intros n. destruct (reserve_exact_ok n c Hi) as (c' & E & _ & _ & ? & ?). exists c'. split; [exact E|].
      unfold cb_capacity. lia.
    - intros n. destruct (reserve_ok mem Hmem n c Hi) as (c' & E & _ & _ & _ & ? & _). exists c'. split; [exact E|]. assumption.
    - intros src. destruct (extend_ok src c Hi) as (c' & E & _). eauto.
    - intros n Hn. split; [|split].
      + destruct (as_slices_of_length_ok n c Hi Hn) as (ab & -> & Hj). exact Hj.
      + destruct (consume_into_ok n c Hi Hn) as (c' & E & _). eauto.
      + intros H0. destruct (consume_ok n c Hi Hn H0) as (c' & E & _). eauto.
  Qed.

  (** C111: no debug assertion ever fails. *)
  Theorem C111_assertions c q max : story mem c q ->
    occupied_debug (cb_position c) (cb_length c) (cb_capacity c) = occupied (cb_position c) (cb_length c) (cb_capacity c)
    /\ empty_debug (cb_position c) (cb_length c) (cb_capacity c) max = empty (cb_position c) (cb_length c) (cb_capacity c) max
    /\ as_slices_debug c = as_slices c.
  Proof.
    intros H. destruct (story_inv c q H) as [Hi _]. pose proof (occupied_debug_ok c Hi) as Ho.
    split; [exact Ho|]. split; [apply empty_debug_ok, Hi|].
    unfold as_slices_debug, as_slices. rewrite Ho. unfold occupied, debug_assert_eq.
    destruct (cb_position c + cb_length c <=? nlen (cb_buffer c)); cbn [rbind r_start].
    - rewrite N.eqb_refl. reflexivity.
    - destruct (usub (cb_length c) _); cbn [rbind r_start]; [rewrite N.eqb_refl|..]; reflexivity.
  Qed.
End Queue.

Print Assumptions C111_queue.
Print Assumptions C111_assertions.

(** The crate's own test `test_circular_buffer_basic` (389-445), as a story. *)
Definition qmem (n : N) : bytes := repeat xff (N.to_nat n).
Definition ok (r : res cbuf) : cbuf := match r with Ok c => c | _ => cb_new end.
Definition q1 : cbuf := ok (reserve_exact qmem 3 cb_new).
Definition q2 : cbuf := ok (extend_from_slice qmem [x01; x02] q1).
Definition q2' : cbuf := ok (extend_from_slice qmem [x03] q2).
Definition q2'' : cbuf := ok (consume 1 q2').
Definition q3 : cbuf := ok (extend_from_slice qmem [x04] q2'').
Definition q4 : cbuf := ok (extend_from_slice qmem [x05] q3).

Example q_wraps : as_slices q3 = Ok ([x02; x03], Some [x04]) /\ cb_capacity q3 = 3
  /\ as_slices q4 = Ok ([x02; x03; x04; x05], None).
Proof. vm_compute. auto. Qed.

Example q_story : story qmem q4 [x02; x03; x04; x05].
Proof.
  assert (H1 : story qmem q1 []) by (apply (s_reserve qmem 3 true cb_new q1 [] (s_new qmem)); vm_compute; reflexivity).
  assert (H2 : story qmem q2 [x01; x02]) by (apply (s_extend qmem [x01; x02] q1 q2 [] H1); vm_compute; reflexivity).
  assert (H3 : story qmem q2' [x01; x02; x03]) by (apply (s_extend qmem [x03] q2 q2' _ H2); vm_compute; reflexivity).
  assert (H4 : story qmem q2'' [x02; x03])
    by (apply (s_consume qmem 1 q2' q2'' _ H3); [vm_compute; discriminate|vm_compute; reflexivity]).
  assert (H5 : story qmem q3 [x02; x03; x04]) by (apply (s_extend qmem [x04] q2'' q3 _ H4); vm_compute; reflexivity).
  apply (s_extend qmem [x05] q3 q4 _ H5). vm_compute. reflexivity.
Qed.

Example q_shown : to_vec q4 = Ok [x02; x03; x04; x05].
Proof.
  assert (Hm : forall n, n <= nlen (qmem n)) by (intros n; unfold qmem, nlen; rewrite repeat_length; lia).
  exact (proj1 (proj2 (proj2 (proj2 (C111_queue qmem Hm q4 _ q_story))))).
Qed.
