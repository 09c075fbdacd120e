(* C137: a mapped file that changes while it is read. *)
From Verif Require Import SeenReader Sane SafeReaders PropSafe Undefined PropUndefined PropAnyStream Checker Samples.

(* ------------------------------------------------------------------ *)
(** * A safe reader *)

Section Safe.
  Context (size : N) (content : nat -> N -> byte).
  Context (h : host) (VH : valid_host h) (e : endian) (allow : fault -> Prop) (HL : size <= h_alloc_max h).

  Definition cinv (s : looker) (n : N) : Prop := ch_left size s = n /\ ch_pos s <= size.
  Notation tri := (tri cinv allow).

  Lemma look_length n s : nlen (ch_look content n s) = n.
  Proof. unfold ch_look. rewrite nlen_map. unfold nlen. rewrite seq_length. lia. Qed.

  Lemma tri_ch_read n : tri n (ch_read size content n) (fun b => nlen b = n).
  Proof.
    intros s m [H1 H2]. unfold ch_read. destruct (N.leb_spec n (ch_left size s)).
    - split; [apply look_length|]. exists (m - n). unfold cinv, ch_left, ch_after in *. cbn [ch_pos]. lia.
    - intros _. exists m. split; [split; assumption|lia].
  Qed.

  Lemma tri_ch_peek n : tri 0 (ch_peek size content n) (fun b => nlen b = n).
  Proof.
    intros s m [H1 H2]. unfold ch_peek. destruct (N.leb_spec n (ch_left size s)).
    - split; [apply look_length|]. exists m. unfold cinv, ch_left, ch_after in *. cbn [ch_pos]. lia.
    - intros _. exists m. split; [split; assumption|lia].
  Qed.

  Lemma changing_safe : safe_reader h (ChangingReader size content e) cinv allow size (buffer_room h size).
  Proof.
    pose proof (vh_alloc h VH) as Hau. constructor; cbn [ChangingReader rd_read rd_read_ptr rd_peek rd_peek_ptr
      rd_borrow rd_borrow_r rd_borrow_eof rd_fuel].
    - intros s n [H1 H2]. unfold ch_left in H1. lia.
    - lia.
    - apply tri_ch_read.
    - apply tri_ch_read.
    - intros n _. apply tri_ch_peek.
    - intros n _. apply tri_ch_peek.
    - discriminate.
    - intros b Eb n. injection Eb as <-. apply tri_ch_read.
    - discriminate.
    - intros _. exact HL.
    - intros s n [H _]. unfold ch_fuel. rewrite H. reflexivity.
    - intros n esize min Hroom s m Hs. pose proof Hs as [H1 H2]. unfold bind at 1.
      destruct (N.ltb_spec (usize_max h) (min * n)) as [Ho|Ho]; [cbn; intros _; exists m; split; [exact Hs|lia]|].
      unfold require, alloc. cbn [ChangingReader rd_can rd_alloc]. unfold ch_can.
      destruct (N.leb_spec (min * n) (ch_left size s)) as [Hm|Hm]; [|cbn; intros _; exists m; split; [exact Hs|lia]].
      cbn [ret].
      destruct (N.ltb_spec (h_alloc_max h) (n * esize)) as [Hbig|Hbig].
      + cbn. destruct Hroom as [Hal|[[H|H]|H]]; [exact Hal|lia| |lia].
        specialize (H n ltac:(unfold ch_left in *; lia)). lia.
      + cbn. split; [exact Hbig|]. exists m. split; [exact Hs|lia].
    - discriminate.
  Qed.
End Safe.

Lemma cinv_start size : cinv size ch_start size.
Proof. unfold cinv, ch_left, ch_start. cbn [ch_pos]. lia. Qed.

(* ------------------------------------------------------------------ *)
(** * Lock step *)

Section Same.
  Context (size : N) (h : host) (VH : valid_host h) (e : endian) (HL : size <= h_alloc_max h).
  Notation never := (fun (_ : error) _ => False).

  (** Two contents that are the same up to the end of the mapping. *)
  Section Two.
    Context (c1 c2 : nat -> N -> byte) (Hc : forall k i, i < size -> c1 k i = c2 k i).
    Notation rel := (fun s1 s2 : looker => s1 = s2 /\ ch_pos s1 <= size).
    Notation R1 := (ChangingReader size c1 e).
    Notation R2 := (ChangingReader size c2 e).

    Lemma look_same n s : ch_pos s <= size -> n <= ch_left size s -> ch_look c1 n s = ch_look c2 n s.
    Proof.
      intros Hp Hn. unfold ch_look. apply map_ext_in. intros i Hi. apply in_seq in Hi. apply Hc.
      unfold ch_left in Hn. lia.
    Qed.

    Lemma contents_locked : locked rel never never True R1 R2 True.
    Proof.
      assert (Hr : forall n, lock rel never never (ch_read size c1 n) (ch_read size c2 n)).
      { intros n s1 s2 [<- Hp]. right. right. unfold ch_read. destruct (N.leb_spec n (ch_left size s1)) as [Hn|Hn];
          cbn [fst snd]; [|auto]. rewrite (look_same n s1 Hp Hn). split; [reflexivity|].
        split; [reflexivity|]. unfold ch_left in Hn. cbn. lia. }
      assert (Hk : forall n, lock rel never never (ch_peek size c1 n) (ch_peek size c2 n)).
      { intros n s1 s2 [<- Hp]. right. right. unfold ch_peek. destruct (N.leb_spec n (ch_left size s1)) as [Hn|Hn];
          cbn [fst snd]; [|auto]. rewrite (look_same n s1 Hp Hn). split; [reflexivity|].
        split; [reflexivity|]. unfold ch_left in Hn. cbn. lia. }
      constructor; cbn [ChangingReader rd_endian rd_read rd_read_ptr rd_peek rd_peek_ptr rd_can rd_borrow_r rd_alloc rd_fuel];
        auto.
      - intros n s1 s2 [<- _]. reflexivity.
      - intros n esize min s1 s2 [<- Hp]. right. right. cbn. auto.
      - intros _ s1 s2 [<- _]. reflexivity.
    Qed.

    Lemma contents_lock t : lock rel never never (read h R1 t) (read h R2 t).
    Proof.
      eapply (lock_read rel never never); try exact (anything_lendable t).
      - intros _ er s [].
      - intros _ er s [].
      - exact contents_locked.
      - intros lm t0 rd1 rd2 n _ _ Hrd. unfold read_cow. cbn [ChangingReader rd_borrow].
        change (no_conv h R1 t0) with (no_conv h R2 t0).
        destruct (is_prim h t0 && no_conv h R2 t0)%bool; (eapply lock_vec; [exact contents_locked|exact Hrd]).
      - intros _. repeat split.
      - intros c _ _. unfold read_constant. cbn [ChangingReader rd_borrow]. apply lock_bind.
        + eapply lock_vec_u8, contents_locked.
        + intros b. destruct (list_eq_dec _ _ _); [apply lock_ret|apply lock_fail].
      - intros b n s1 s2 [<- Hp] E.
        pose proof (tri_length h VH R2 (cinv size) (fun _ => True) size _ (changing_safe size c2 h VH e _ HL) b s1 _ (conj eq_refl Hp)) as H.
        destruct (read_length h R2 b s1) as [r s']. cbn [fst] in E. subst r. apply H.
    Qed.
  End Two.

  (** A content that stays. *)
  Section Still.
    Context (c : nat -> N -> byte) (bs : bytes) (Hbs : nlen bs = size).
    Context (Hc : forall k i, i < size -> c k i = nth (N.to_nat i) bs x00).
    Notation rel := (fun (s1 : looker) (s2 : breader) => br_rest s2 = ndrop (ch_pos s1) bs /\ ch_pos s1 <= size).
    Notation R1 := (ChangingReader size c e).
    Notation R2 := (CopyingBufferReader e).

    Lemma look_still n s : ch_pos s <= size -> n <= ch_left size s -> ch_look c n s = ntake n (ndrop (ch_pos s) bs).
    Proof using Hbs Hc.
      clear HL.
      intros Hp Hn. unfold ch_left, nlen in *. apply (nth_ext _ _ x00 x00).
      - unfold ch_look. rewrite map_length, seq_length. unfold ntake, ndrop. rewrite firstn_length, skipn_length. lia.
      - unfold ch_look. rewrite map_length, seq_length. intros i Hi.
        rewrite (nth_indep _ x00 (c (ch_time s) (ch_pos s + N.of_nat 0))) by (rewrite map_length, seq_length; exact Hi).
        rewrite (map_nth (fun i => c (ch_time s) (ch_pos s + N.of_nat i)) (seq 0 (N.to_nat n)) 0%nat i).
        rewrite seq_nth by exact Hi. cbn [plus]. rewrite Hc by lia.
        replace (N.to_nat (ch_pos s + N.of_nat i)) with (N.to_nat (ch_pos s) + i)%nat by lia.
        unfold ntake, ndrop. rewrite <- (firstn_skipn (N.to_nat (ch_pos s)) bs) at 1.
        assert (Hl : length (firstn (N.to_nat (ch_pos s)) bs) = N.to_nat (ch_pos s)) by (rewrite firstn_length; lia).
        rewrite app_nth2 by lia. rewrite Hl. replace (N.to_nat (ch_pos s) + i - N.to_nat (ch_pos s))%nat with i by lia.
        rewrite <- (firstn_skipn (N.to_nat n) (skipn (N.to_nat (ch_pos s)) bs)) at 1.
        apply app_nth1. rewrite firstn_length, skipn_length. lia.
    Qed.

    Lemma rest_length s1 s2 : rel s1 s2 -> nlen (br_rest s2) = ch_left size s1.
    Proof. intros [-> Hp]. rewrite nlen_drop. unfold ch_left. lia. Qed.

    Lemma still_locked : locked rel never never True R1 R2 True.
    Proof.
      assert (Hr : forall n, lock rel never never (ch_read size c n) (br_read n)).
      { intros n s1 s2 Hr. right. right. unfold ch_read, br_read. rewrite (rest_length s1 s2 Hr). destruct Hr as [Er Hp].
        destruct (N.leb_spec n (ch_left size s1)) as [Hn|Hn]; cbn [fst snd]; [|auto].
        rewrite (look_still n s1 Hp Hn), Er. split; [reflexivity|]. unfold ch_left in Hn. cbn. rewrite Er. split; [|lia].
        rewrite drop_drop. f_equal. lia. }
      assert (Hk : forall n, lock rel never never (ch_peek size c n) (br_peek n)).
      { intros n s1 s2 Hr'. right. right. unfold ch_peek, br_peek. rewrite (rest_length s1 s2 Hr'). destruct Hr' as [Er Hp].
        destruct (N.leb_spec n (ch_left size s1)) as [Hn|Hn]; cbn [fst snd]; [|auto].
        rewrite (look_still n s1 Hp Hn), Er. split; [reflexivity|]. cbn. rewrite N.add_0_r. auto. }
      constructor; cbn [ChangingReader CopyingBufferReader rd_endian rd_read rd_read_ptr rd_peek rd_peek_ptr rd_can
        rd_borrow_r rd_alloc rd_fuel]; auto.
      - intros n s1 s2 Hr'. unfold ch_can, br_can. rewrite (rest_length s1 s2 Hr'). reflexivity.
      - intros n esize min s1 s2 Hr'. right. right. cbn. auto.
      - intros _ s1 s2 Hr'. unfold ch_fuel, br_fuel. rewrite <- (rest_length s1 s2 Hr'). unfold nlen. lia.
    Qed.

    Lemma still_lock t : lock rel never never (read h R1 t) (read h R2 t).
    Proof.
      eapply (lock_read rel never never); try exact (anything_lendable t).
      - intros _ er s [].
      - intros _ er s [].
      - exact still_locked.
      - intros lm t0 rd1 rd2 n _ _ Hrd. unfold read_cow. cbn [ChangingReader CopyingBufferReader rd_borrow].
        change (no_conv h R1 t0) with (no_conv h R2 t0).
        destruct (is_prim h t0 && no_conv h R2 t0)%bool; (eapply lock_vec; [exact still_locked|exact Hrd]).
      - intros _. repeat split.
      - intros c0 _ _. unfold read_constant. cbn [ChangingReader CopyingBufferReader rd_borrow]. apply lock_bind.
        + eapply lock_vec_u8, still_locked.
        + intros b. destruct (list_eq_dec _ _ _); [apply lock_ret|apply lock_fail].
      - intros b n s1 s2 Hr E. pose proof (rest_length s1 s2 Hr) as Hl. unfold ch_left in Hl.
        eapply (read_length_possible h VH R2 true (brep h) no_io); [apply copying_ok, VH| |exact E].
        split; [reflexivity|lia].
    Qed.
  End Still.
End Same.

(* ------------------------------------------------------------------ *)
(** * Contents *)

(** A content of [size] bytes made of the bytes the file had at the moments [ws], one
    for each offset; the moments do not go back. *)
Definition as_it_was (content : nat -> N -> byte) (ws : list nat) : bytes :=
  map (fun k => content (nth k ws 0%nat) (N.of_nat k)) (seq 0 (length ws)).

Definition forwards (ws : list nat) : Prop :=
  forall i j, (i < j < length ws)%nat -> (nth i ws 0 <= nth j ws 0)%nat.

Lemma seen_was content ws : forall t0 p b t1, seen content t0 p ws b t1 ->
  b = map (fun k => content (nth k ws 0%nat) (p + N.of_nat k)) (seq 0 (length ws)).
Proof.
  induction ws as [|w ws IH]; intros t0 p [|x b] t1 H; cbn [seen] in H; try contradiction; [reflexivity|].
  destruct H as (_ & -> & H). cbn [length seq map nth]. f_equal; [f_equal; lia|].
  rewrite (IH _ _ _ _ H), <- seq_shift, map_map. apply map_ext. intros k. cbn [nth]. f_equal. lia.
Qed.

Lemma seen_from content ws : forall t0 p b t1, seen content t0 p ws b t1 ->
  forall i, (i < length ws)%nat -> (t0 <= nth i ws 0 <= t1)%nat.
Proof.
  induction ws as [|w ws IH]; intros t0 p [|x b] t1 H i Hi; cbn [seen length] in *; try contradiction; [lia|].
  destruct H as (Hw & _ & H). pose proof (seen_le _ _ _ _ _ _ H). destruct i as [|i]; cbn [nth]; [lia|].
  specialize (IH _ _ _ _ H i ltac:(lia)). lia.
Qed.

Lemma seen_forwards content ws : forall t0 p b t1, seen content t0 p ws b t1 -> forwards ws.
Proof.
  induction ws as [|w ws IH]; intros t0 p [|x b] t1 H i j Hij; cbn [seen length] in *; try contradiction; [lia|].
  destruct H as (_ & _ & H). destruct j as [|j]; [lia|]. destruct i as [|i]; cbn [nth].
  - pose proof (seen_from _ _ _ _ _ _ H j ltac:(lia)). lia.
  - apply (IH _ _ _ _ H). lia.
Qed.

Section C137.
  Context (size : N) (content : nat -> N -> byte) (h : host) (VH : valid_host h) (e : endian).

  (** C137: however the file changes, a value that is returned is a valid value of its
      type. *)
  Theorem C137_valid t v : size <= h_alloc_max h -> sane h size LDefault t ->
    read_changing size content h e t = Ok v -> valid (h_lim h) t v.
  Proof.
    intros HL Hs. unfold read_changing. destruct (_ <? _); [discriminate|]. intros E.
    pose proof (read_safe h VH (ChangingReader size content e) _ (fun _ => True) size _
      (changing_safe size content h VH e _ HL) t 0 (sane_calm h size e _ t LDefault Hs) (or_introl eq_refl)
      ch_start size (cinv_start size)) as H.
    destruct (read h _ t _) as [r s]. cbn [fst] in E. subst r. apply H.
  Qed.

  (** The read panics only in the ways [allow]ed by the type, as for a file that stays
      as it is (C25). *)
  Theorem C137_faults allow t f : size <= h_alloc_max h ->
    calm h e allow size (buffer_room h size) LDefault t ->
    read_changing size content h e t = Fault f -> allow f.
  Proof.
    intros HL Hc. unfold read_changing. destruct (_ <? _); [discriminate|]. intros E.
    pose proof (read_safe h VH (ChangingReader size content e) _ allow size _
      (changing_safe size content h VH e _ HL) t 0 Hc (or_introl eq_refl) ch_start size (cinv_start size)) as H.
    destruct (read h _ t _) as [r s]. cbn [fst] in E. subst r. exact H.
  Qed.

  (** No changes lead to undefined behaviour of the kinds of C87. *)
  Theorem C137_defined t f : size <= h_alloc_max h ->
    read_changing size content h e t = Fault f -> ub f = false.
  Proof.
    intros HL. unfold read_changing. destruct (_ <? _); [discriminate|]. intros E.
    apply (no_view h VH (ChangingReader size content e) (cinv size) size (buffer_room h size) ch_start size t f).
    - intros f0. apply changing_safe; assumption.
    - reflexivity.
    - reflexivity.
    - apply cinv_start.
    - exact E.
  Qed.

  (** The result depends on the bytes inside the mapping only. *)
  Theorem C137_inside t other : size <= h_alloc_max h -> (forall k i, i < size -> content k i = other k i) ->
    read_changing size content h e t = read_changing size other h e t.
  Proof.
    intros HL Hc. unfold read_changing. destruct (_ <? _); [reflexivity|].
    destruct (contents_lock size h VH e HL content other Hc t ch_start ch_start) as [(er & _ & [])|[(er & _ & [])|[E _]]].
    - split; [reflexivity|]. cbn. lia.
    - exact E.
  Qed.

  (** If the file does not change, the result is that of reading its content. *)
  Theorem C137_unchanged t bs : size <= h_alloc_max h -> nlen bs = size ->
    (forall k i, i < size -> content k i = nth (N.to_nat i) bs x00) ->
    read_changing size content h e t = read_from_buffer_copying h e t bs.
  Proof.
    intros HL Hl Hc. unfold read_changing, read_from_buffer_copying, read_with_length_from_buffer_copying, with_min.
    rewrite Hl. destruct (_ <? _); [reflexivity|].
    destruct (still_lock size h VH e HL content bs Hl Hc t ch_start (br_start 0 bs)) as [(er & _ & [])|[(er & _ & [])|[E _]]].
    - split; [reflexivity|]. cbn. lia.
    - rewrite E. destruct (read h (CopyingBufferReader e) t _). reflexivity.
  Qed.

  (** Skipping, which only code written by hand does (no type here uses it), goes as far
      as in a buffer, fails where that fails, and leaves the next access the bytes
      behind what was skipped. *)
  Theorem C137_skip bs n m s : nlen bs = size -> ch_pos s <= size ->
    (forall k i, i < size -> content k i = nth (N.to_nat i) bs x00) ->
    match rd_skip (ChangingReader size content e) n s with
    | (Ok _, s') => ch_pos s + n <= size /\ ch_pos s' = ch_pos s + n
        /\ (ch_pos s + n + m <= size ->
            fst (rd_read (ChangingReader size content e) m s') = Ok (ntake m (ndrop (ch_pos s + n) bs)))
    | (Err er, s') => size < ch_pos s + n /\ er = UnexpectedEndOfInput /\ s' = s
    | (Fault _, _) => False
    end.
  Proof.
    intros Hl Hp Hc. cbn [ChangingReader rd_skip rd_read]. unfold ch_skip.
    destruct (N.leb_spec n (ch_left size s)) as [Hn|Hn]; unfold ch_left in Hn.
    - split; [lia|]. split; [reflexivity|]. intros Hm. unfold ch_read.
      assert (Hm' : m <= ch_left size (ch_after n s)) by (unfold ch_left, ch_after; cbn [ch_pos]; lia).
      destruct (N.leb_spec m (ch_left size (ch_after n s))) as [_|Hx]; [|lia]. cbn [fst].
      rewrite (look_still size content bs Hl Hc m (ch_after n s)); [reflexivity| |exact Hm']. unfold ch_after. cbn [ch_pos]. lia.
    - split; [lia|]. auto.
  Qed.

  (** For a type without `peek_tag` the result is that of reading one content, each of
      whose bytes the file had at some moment, later bytes not at earlier moments. *)
  Theorem C137_one_content t : no_peek t ->
    exists ws, nlen ws = size /\ forwards ws
      /\ read_changing size content h e t = read_from_buffer_copying h e t (as_it_was content ws).
  Proof.
    intros Hp. destruct (replay_read size content h e t Hp ch_start) as (ws & b & Hw & Hpos & Hs & H).
    { cbn. lia. }
    set (s' := snd (read h (ChangingReader size content e) t ch_start)) in *.
    cbn [ch_start ch_time ch_pos] in Hw, Hpos.
    set (k := N.to_nat (ch_left size s')).
    set (tail := map (fun i => content (ch_time s') (ch_pos s' + N.of_nat i)) (seq 0 k)).
    assert (Hall : seen content 0 0 (ws ++ repeat (ch_time s') k) (b ++ tail) (ch_time s')).
    { eapply seen_app; [exact Hw|]. rewrite <- Hpos. apply seen_once, le_n. }
    assert (Hlt : nlen tail = ch_left size s').
    { unfold tail. rewrite nlen_map. unfold nlen. rewrite seq_length. unfold k. lia. }
    assert (Hlen : nlen (b ++ tail) = size) by (rewrite nlen_app; unfold ch_left in *; lia).
    exists (ws ++ repeat (ch_time s') k). split; [|split].
    - pose proof (seen_length _ _ _ _ _ _ Hall) as E. unfold nlen in *. rewrite E. exact Hlen.
    - eapply seen_forwards, Hall.
    - assert (Hb : as_it_was content (ws ++ repeat (ch_time s') k) = b ++ tail).
      { rewrite (seen_was _ _ _ _ _ _ Hall). unfold as_it_was. apply map_ext. reflexivity. }
      rewrite Hb. unfold read_changing, read_from_buffer_copying, read_with_length_from_buffer_copying, with_min.
      rewrite Hlen. destruct (_ <? _); [reflexivity|].
      destruct (H (br_start 0 (b ++ tail)) tail eq_refl Hlt) as [E _].
      destruct (read h (CopyingBufferReader e) t _). cbn [fst] in *. congruence.
  Qed.

  (** ... in particular, when one content takes the place of another at a stroke, of
      the first bytes of the old one and the rest of the new one. *)
  Theorem C137_one_change t old new moment : no_peek t -> nlen old = size -> nlen new = size ->
    (forall k i, content k i = nth (N.to_nat i) (if (k <? moment)%nat then old else new) x00) ->
    exists n, n <= size
      /\ read_changing size content h e t = read_from_buffer_copying h e t (ntake n old ++ ndrop n new).
  Proof.
    intros Hp Ho Hn Hc. destruct (C137_one_content t Hp) as (ws & Hl & Hf & ->).
    assert (Hcut : forall ws, forwards ws -> exists n, (n <= length ws)%nat
      /\ forall i, (i < length ws)%nat -> ((nth i ws 0 < moment)%nat <-> (i < n)%nat)).
    { clear. induction ws as [|w ws IH]; intros Hf; [exists 0%nat; split; [lia|]; cbn; lia|].
      destruct (Nat.ltb_spec w moment) as [Hw|Hw].
      - destruct IH as (n & Hn & H).
        { intros i j Hij. apply (Hf (S i) (S j)). cbn [length]. lia. }
        exists (S n). split; [cbn [length]; lia|]. intros [|i] Hi; cbn [nth length] in *; [lia|].
        rewrite H by lia. lia.
      - exists 0%nat. split; [lia|]. intros i Hi. destruct i as [|i]; cbn [nth]; [lia|].
        pose proof (Hf 0%nat (S i) ltac:(lia)) as Hge. cbn [nth] in Hge. lia. }
    destruct (Hcut ws Hf) as (n & Hn' & Hcut'). exists (N.of_nat n). split; [unfold nlen in Hl; lia|]. f_equal.
    apply (nth_ext _ _ x00 x00).
    - unfold as_it_was. rewrite map_length, seq_length. unfold ntake, ndrop.
      rewrite app_length, firstn_length, skipn_length. unfold nlen in *. lia.
    - unfold as_it_was. rewrite map_length, seq_length. intros i Hi.
      rewrite (nth_indep _ x00 (content (nth 0%nat ws 0%nat) (N.of_nat 0))) by (rewrite map_length, seq_length; exact Hi).
      rewrite (map_nth (fun k => content (nth k ws 0%nat) (N.of_nat k)) (seq 0 (length ws)) 0%nat i).
      rewrite seq_nth by exact Hi. cbn [plus]. rewrite Hc, Nat2N.id. specialize (Hcut' i Hi).
      unfold ntake, ndrop. rewrite Nat2N.id.
      assert (Hlo : length (firstn n old) = n) by (rewrite firstn_length; unfold nlen in *; lia).
      destruct (Nat.ltb_spec (nth i ws 0%nat) moment) as [Hw|Hw].
      + rewrite app_nth1 by lia.
        rewrite <- (firstn_skipn n old) at 1. rewrite app_nth1 by lia. reflexivity.
      + rewrite app_nth2 by lia. rewrite Hlo.
        rewrite <- (firstn_skipn n new) at 1.
        assert (Hln : length (firstn n new) = n) by (rewrite firstn_length; unfold nlen in *; lia).
        rewrite app_nth2 by lia. rewrite Hln. reflexivity.
  Qed.
End C137.
Print Assumptions C137_valid.
Print Assumptions C137_faults.
Print Assumptions C137_defined.
Print Assumptions C137_inside.
Print Assumptions C137_unchanged.
Print Assumptions C137_skip.
Print Assumptions C137_one_content.
Print Assumptions C137_one_change.

(** With `peek_tag` the byte that selects the variant and the byte that is read into
    its first field may differ: a value that no content of the file encodes.
    [#[speedy(peek_tag)] #[speedy(tag_type = u8)] enum { #[speedy(tag = 0)] V( u8 ) }] *)
Definition look_ahead : ty := TEnum {| e_tag := BU8; e_peek := true |} [(0, [(plain, TP U8)])].

Theorem C137_peek_refuted : ~ forall size content t v, size <= h_alloc_max host64 ->
  read_changing size content host64 LE t = Ok v ->
  exists bs, nlen bs = size /\ read_from_buffer_copying host64 LE t bs = Ok v.
Proof.
  intros H.
  destruct (H 1 (fun k _ => match k with O => x00 | _ => n2b 7 end) look_ahead (VVar 0 [VInt 7])) as (bs & Hl & E).
  - vm_compute. discriminate.
  - vm_compute. reflexivity.
  - destruct bs as [|b [|b' bs]]; [discriminate| |rewrite !nlen_cons in Hl; lia].
    destruct b; vm_compute in E; discriminate.
Qed.
Print Assumptions C137_peek_refuted.

(* ------------------------------------------------------------------ *)
(** * Samples *)

(** `( u16, String )`, replaced while it is read. *)
Definition note : ty := TTuple [TP U16; TStr KString].
Definition old_note : bytes := map n2b [1; 0; 2; 0; 0; 0; 195; 169].
Definition new_note : bytes := map n2b [2; 0; 2; 0; 0; 0; 121; 111].

Definition switched (moment : nat) (old new : bytes) (k : nat) (i : N) : byte :=
  nth (N.to_nat i) (if (k <? moment)%nat then old else new) x00.

(** The number of the old content with the text of the new one. *)
Example C137_mixed : read_changing 8 (switched 2 old_note new_note) host64 LE note
  = Ok (VSeq [VInt 1; VBytes (map n2b [121; 111])]).
Proof. vm_compute. reflexivity. Qed.

Example C137_mixed_valid : valid (h_lim host64) note (VSeq [VInt 1; VBytes (map n2b [121; 111])]).
Proof.
  apply (C137_valid 8 (switched 2 old_note new_note) host64 host64_valid LE note).
  - vm_compute. discriminate.
  - apply saneb_sound. vm_compute. reflexivity.
  - exact C137_mixed.
Qed.

Example C137_mixed_cut : exists n, n <= 8
  /\ read_changing 8 (switched 2 old_note new_note) host64 LE note
     = read_from_buffer_copying host64 LE note (ntake n old_note ++ ndrop n new_note).
Proof.
  apply (C137_one_change 8 _ host64 LE note old_note new_note 2).
  - apply no_peekb_sound. vm_compute. reflexivity.
  - reflexivity.
  - reflexivity.
  - intros k i. reflexivity.
Qed.

(** A change in the middle of the text: half of one character.  What is tested is the
    copy, so that the string is refused. *)
Example C137_torn : read_changing 8 (fun k i => if (k <? 2)%nat || (i <? 7) then switched 1 old_note old_note k i
                                               else switched 0 old_note new_note k i) host64 LE note
  = Err InvalidUtf8.
Proof. vm_compute. reflexivity. Qed.

Example C137_note_faults content f : read_changing 8 content host64 LE note <> Fault f.
Proof.
  intros E.
  assert (Hc : calm host64 LE (allowed (fun _ => false)) 8 (buffer_room host64 8) LDefault note).
  { apply (calmb_sound host64 LE (fun _ => false) 8 (buffer_roomb host64 8)); [apply buffer_roomb_sound|]. vm_compute. reflexivity. }
  apply (C137_faults 8 content host64 host64_valid LE _ note f) with (2 := Hc) in E; [discriminate E|]. vm_compute. discriminate.
Qed.

(** Behind the first four bytes the text begins. *)
Example C137_skip_case k :
  let R := ChangingReader 8 (switched 0 old_note old_note) LE in
  let s := {| ch_pos := 0; ch_time := k; ch_log := [] |} in
  fst (rd_read R 4 (snd (rd_skip R 4 s))) = Ok (ntake 4 (ndrop 4 old_note)).
Proof.
  cbv zeta. set (s := {| ch_pos := 0; ch_time := k; ch_log := [] |}).
  pose proof (C137_skip 8 (switched 0 old_note old_note) LE old_note 4 4 s eq_refl) as H.
  destruct (rd_skip (ChangingReader 8 (switched 0 old_note old_note) LE) 4 s) as [[[]|er|f] s'].
  - apply H; [cbn; lia| |cbn; lia]. intros j i _. unfold switched. destruct (_ <? _)%nat; reflexivity.
  - destruct H as (H & _); [cbn; lia| |cbn in H; lia]. intros j i _. unfold switched. destruct (_ <? _)%nat; reflexivity.
  - destruct H; [cbn; lia|]. intros j i _. unfold switched. destruct (_ <? _)%nat; reflexivity.
Qed.
