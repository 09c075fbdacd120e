(* The ring buffer is a queue of bytes. *)
From Verif Require Export BaseFacts CircularBuffer.

(* ------------------------------------------------------------------ *)
(** * Lists by position *)

Lemma list_ext {A} (d : A) (l1 l2 : list A) :
  length l1 = length l2 -> (forall i, (i < length l1)%nat -> nth i l1 d = nth i l2 d) -> l1 = l2.
Proof. intros. eapply nth_ext; eauto. Qed.

Lemma nth_take {A} (d : A) n l i :
  nth i (ntake n l) d = if (i <? N.to_nat n)%nat then nth i l d else d.
Proof.
  unfold ntake. destruct (Nat.ltb_spec i (N.to_nat n)) as [H|H].
  - revert l i H. induction (N.to_nat n) as [|k IH]; intros l i H; [lia|].
    destruct l as [|x l]; [destruct i; reflexivity|]. destruct i as [|i]; [reflexivity|].
    cbn [firstn nth]. apply IH. lia.
  - apply nth_overflow. rewrite firstn_length. lia.
Qed.

Lemma nth_drop {A} (d : A) n l i : nth i (ndrop n l) d = nth (N.to_nat n + i) l d.
Proof.
  unfold ndrop. revert l. induction (N.to_nat n) as [|k IH]; intros l; [reflexivity|].
  destruct l as [|x l]; cbn [skipn Nat.add nth]; [destruct i; reflexivity|]. apply IH.
Qed.

Lemma nth_app {A} (d : A) l1 l2 i :
  nth i (l1 ++ l2) d = if (i <? length l1)%nat then nth i l1 d else nth (i - length l1) l2 d.
Proof.
  destruct (Nat.ltb_spec i (length l1)); [apply app_nth1|apply app_nth2]; lia.
Qed.

Lemma take_length {A} n (l : list A) : length (ntake n l) = Nat.min (N.to_nat n) (length l).
Proof. apply firstn_length. Qed.

Lemma drop_length {A} n (l : list A) : length (ndrop n l) = (length l - N.to_nat n)%nat.
Proof. apply skipn_length. Qed.

Lemma overlay_length img off b :
  off + nlen b <= nlen img -> length (overlay img off b) = length img.
Proof.
  unfold overlay, nlen. intros. rewrite !app_length, take_length, drop_length. lia.
Qed.

Lemma nlen_overlay img off b : off + nlen b <= nlen img -> nlen (overlay img off b) = nlen img.
Proof. intros. unfold nlen. rewrite overlay_length by assumption. reflexivity. Qed.

Lemma nth_overlay d img off b i : off + nlen b <= nlen img ->
  nth i (overlay img off b) d =
  if (i <? N.to_nat off)%nat then nth i img d
  else if (i <? N.to_nat off + length b)%nat then nth (i - N.to_nat off) b d
  else nth i img d.
Proof.
  unfold overlay, nlen. intros H. rewrite nth_app, take_length.
  destruct (Nat.ltb_spec i (N.to_nat off)) as [H1|H1].
  - destruct (Nat.ltb_spec i (Nat.min (N.to_nat off) (length img))); [|lia].
    rewrite nth_take. destruct (Nat.ltb_spec i (N.to_nat off)); [reflexivity|lia].
  - destruct (Nat.ltb_spec i (Nat.min (N.to_nat off) (length img))); [lia|].
    replace (Nat.min (N.to_nat off) (length img)) with (N.to_nat off) by lia.
    rewrite nth_app. destruct (Nat.ltb_spec i (N.to_nat off + length b)).
    + destruct (Nat.ltb_spec (i - N.to_nat off) (length b)); [reflexivity|lia].
    + destruct (Nat.ltb_spec (i - N.to_nat off) (length b)); [lia|].
      rewrite nth_drop. f_equal. unfold nlen. lia.
Qed.

Lemma slice_length {A} (l : list A) off len :
  off + len <= nlen l -> length (slice l off len) = N.to_nat len.
Proof. unfold slice, nlen. intros. rewrite take_length, drop_length. lia. Qed.

Lemma nlen_slice {A} (l : list A) off len : off + len <= nlen l -> nlen (slice l off len) = len.
Proof. intros. unfold nlen. rewrite slice_length by assumption. lia. Qed.

Lemma nth_slice {A} (d : A) l off len i :
  nth i (slice l off len) d = if (i <? N.to_nat len)%nat then nth (N.to_nat off + i) l d else d.
Proof. unfold slice. rewrite nth_take, nth_drop. reflexivity. Qed.

(* ------------------------------------------------------------------ *)
(** * Abstraction *)

Definition cb_inv (c : cbuf) : Prop :=
  cb_length c <= nlen (cb_buffer c)
  /\ (cb_position c = 0 \/ cb_position c < nlen (cb_buffer c)).

Definition wrapped (pos cap i : nat) : nat :=
  if (pos + i <? cap)%nat then pos + i else pos + i - cap.

Definition content (c : cbuf) : bytes :=
  map (fun i => nth (wrapped (N.to_nat (cb_position c)) (length (cb_buffer c)) i) (cb_buffer c) x00)
      (seq 0 (N.to_nat (cb_length c))).

Lemma content_length c : length (content c) = N.to_nat (cb_length c).
Proof. unfold content. rewrite map_length, seq_length. reflexivity. Qed.

Lemma nlen_content c : nlen (content c) = cb_length c.
Proof. unfold nlen. rewrite content_length. lia. Qed.

Lemma nth_content c i : (i < N.to_nat (cb_length c))%nat ->
  nth i (content c) x00 =
  nth (wrapped (N.to_nat (cb_position c)) (length (cb_buffer c)) i) (cb_buffer c) x00.
Proof.
  intros H. unfold content.
  set (f := fun i => _).
  rewrite (nth_indep _ _ (f 0%nat)) by (rewrite map_length, seq_length; assumption).
  rewrite map_nth. unfold f. rewrite seq_nth by assumption. reflexivity.
Qed.

(** Solve list equalities by position. *)
Ltac positions :=
  apply (list_ext x00);
  [ rewrite ?content_length, ?app_length, ?take_length, ?drop_length, ?content_length,
      ?overlay_length, ?repeat_length by (cbn; unfold nlen in *; lia); cbn in *; unfold nlen in *; lia
  | let i := fresh "i" in let Hi := fresh "Hi" in
    intros i Hi;
    rewrite ?content_length, ?app_length, ?take_length, ?drop_length, ?content_length in Hi
  ].

Section Ring.
  Context (mem : N -> bytes) (Hmem : forall n, n <= nlen (mem n)).

  Lemma with_capacity_ok n :
    cb_inv (with_capacity mem n) /\ content (with_capacity mem n) = []
    /\ cb_capacity (with_capacity mem n) = n.
  Proof.
    unfold cb_inv, with_capacity, cb_capacity. cbn [cb_length cb_position cb_buffer].
    rewrite nlen_take. specialize (Hmem n). repeat split; try lia. 
  Qed.

  Lemma reallocate_ok nb c : cb_inv c -> cb_length c <= nlen nb ->
    exists c', reallocate nb c = Ok c' /\ cb_inv c' /\ content c' = content c
      /\ cb_length c' = cb_length c /\ nlen (cb_buffer c') = nlen nb.
  Proof.
    intros [H1 H2] Hnb0. unfold reallocate.
    unfold occupied.
    destruct (N.leb_spec (cb_position c + cb_length c) (nlen (cb_buffer c))) as [Hp|Hp].
    + cbn [rbind]. unfold index at 1. cbn [r_start r_end].
      destruct (N.leb_spec (cb_position c) (cb_position c + cb_length c)); [|lia].
      destruct (N.leb_spec (cb_position c + cb_length c) (nlen (cb_buffer c))); [|lia].
      cbn [andb rbind]. unfold copy_into, r_len. cbn [r_start r_end].
      rewrite nlen_slice by lia.
      replace (cb_position c + cb_length c - cb_position c) with (cb_length c) by lia.
      destruct (N.leb_spec 0 (cb_length c)); [|lia].
      destruct (N.leb_spec (cb_length c) (nlen nb)); [|lia].
      rewrite N.sub_0_r, N.eqb_refl. cbn [andb rbind].
      assert (Hl : 0 + nlen (slice (cb_buffer c) (cb_position c) (cb_length c)) <= nlen nb)
        by (rewrite nlen_slice; lia).
      eexists. split; [reflexivity|]. unfold cb_inv. cbn [cb_length cb_position cb_buffer].
      rewrite nlen_overlay by assumption.
      repeat split; try lia.
      positions. rewrite !nth_content by (cbn; assumption).
      cbn [cb_length cb_position cb_buffer] in *.
      rewrite nth_overlay by assumption. rewrite overlay_length by assumption.
      rewrite slice_length by lia.
      unfold wrapped, nlen in *.
      change (N.to_nat 0) with 0%nat. cbn [Nat.add].
      destruct (Nat.ltb_spec i (length nb)); [|lia].
      destruct (Nat.ltb_spec i 0); [lia|].
      destruct (Nat.ltb_spec i (N.to_nat (cb_length c))); [|lia].
      rewrite nth_slice. rewrite Nat.sub_0_r.
      destruct (Nat.ltb_spec i (N.to_nat (cb_length c))); [|lia].
      destruct (Nat.ltb_spec (N.to_nat (cb_position c) + i) (length (cb_buffer c))); [|lia].
      reflexivity.
    + unfold r_len, usub. cbn [r_start r_end].
      destruct (N.leb_spec (nlen (cb_buffer c) - cb_position c) (cb_length c)); [|lia].
      cbn [rbind]. unfold index at 1. cbn [r_start r_end].
      destruct (N.leb_spec (cb_position c) (nlen (cb_buffer c))); [|lia].
      destruct (N.leb_spec (nlen (cb_buffer c)) (nlen (cb_buffer c))); [|lia].
      cbn [andb rbind]. unfold copy_into at 1, r_len. cbn [r_start r_end].
      rewrite nlen_slice by lia. rewrite N.sub_0_r, N.eqb_refl.
      destruct (N.leb_spec 0 (nlen (cb_buffer c) - cb_position c)); [|lia].
      destruct (N.leb_spec (nlen (cb_buffer c) - cb_position c) (nlen nb)); [|lia].
      cbn [andb rbind]. unfold index. cbn [r_start r_end].
      destruct (N.leb_spec 0 (cb_length c - (nlen (cb_buffer c) - cb_position c))); [|lia].
      destruct (N.leb_spec (cb_length c - (nlen (cb_buffer c) - cb_position c)) (nlen (cb_buffer c))); [|lia].
      cbn [andb rbind]. rewrite N.sub_0_r.
      set (sa := slice (cb_buffer c) (cb_position c) (nlen (cb_buffer c) - cb_position c)).
      set (sb := slice (cb_buffer c) 0 (cb_length c - (nlen (cb_buffer c) - cb_position c))).
      assert (Ha : nlen sa = nlen (cb_buffer c) - cb_position c) by (apply nlen_slice; lia).
      assert (Hb : nlen sb = cb_length c - (nlen (cb_buffer c) - cb_position c)) by (apply nlen_slice; lia).
      assert (Hna : nlen (overlay nb 0 sa) = nlen nb) by (apply nlen_overlay; lia).
      unfold copy_into, r_len. cbn [r_start r_end]. rewrite Hna.
      destruct (N.leb_spec (nlen (cb_buffer c) - cb_position c) (cb_length c)); [|lia].
      destruct (N.leb_spec (cb_length c) (nlen nb)); [|lia].
      rewrite Hb, N.eqb_refl. cbn [andb rbind].
      assert (Hnb : nlen (overlay (overlay nb 0 sa) (nlen (cb_buffer c) - cb_position c) sb) = nlen nb)
        by (rewrite nlen_overlay; lia).
      eexists. split; [reflexivity|]. unfold cb_inv. cbn [cb_length cb_position cb_buffer].
      rewrite Hnb. repeat split; try lia.
      positions. rewrite !nth_content by (cbn; assumption).
      cbn [cb_length cb_position cb_buffer] in *.
      unfold wrapped, nlen in *.
      rewrite nth_overlay by (unfold nlen; lia). rewrite nth_overlay by (unfold nlen; lia).
      change (N.to_nat 0) with 0%nat. cbn [Nat.add].
      destruct (Nat.ltb_spec i (length (overlay (overlay nb 0 sa)
         (N.of_nat (length (cb_buffer c)) - cb_position c) sb))); [|lia].
      destruct (Nat.ltb_spec i 0); [lia|].
      destruct (Nat.ltb_spec i (N.to_nat (N.of_nat (length (cb_buffer c)) - cb_position c))).
      * destruct (Nat.ltb_spec i (length sa)); [|lia].
        unfold sa. rewrite nth_slice, Nat.sub_0_r.
        match goal with |- (if ?b then _ else _) = _ => destruct b eqn:Eb end;
          [|apply Nat.ltb_ge in Eb; unfold nlen in *; lia].
        destruct (Nat.ltb_spec (N.to_nat (cb_position c) + i) (length (cb_buffer c))); [|lia].
        reflexivity.
      * destruct (Nat.ltb_spec i (N.to_nat (N.of_nat (length (cb_buffer c)) - cb_position c) + length sb)); [|lia].
        unfold sb. rewrite nth_slice.
        match goal with |- (if ?b then _ else _) = _ => destruct b eqn:Eb end;
          [|apply Nat.ltb_ge in Eb; unfold nlen in *; lia].
        destruct (Nat.ltb_spec (N.to_nat (cb_position c) + i) (length (cb_buffer c))); [lia|].
        f_equal. lia.
  Qed.

  Lemma reserve_ok size c : cb_inv c ->
    exists c', reserve mem size c = Ok c' /\ cb_inv c' /\ content c' = content c
      /\ cb_length c' = cb_length c /\ cb_length c + size <= nlen (cb_buffer c')
      /\ (c' = c \/ nlen (cb_buffer c) < cb_length c + size).
  Proof.
    intros Hc. unfold reserve.
    destruct (N.leb_spec (cb_length c + size) (nlen (cb_buffer c))) as [Hs|Hs].
    - exists c. auto 10.
    - specialize (Hmem (cb_length c + size)).
      destruct (reallocate_ok (mem (cb_length c + size)) c Hc ltac:(lia)) as (c' & E & Hi & Hcon & Hlen & Hn).
      exists c'. rewrite Hn. auto 10.
  Qed.

  (** The slice handed out follows the content, has at most [size] bytes, and is
      empty only if nothing was asked for. *)
  Lemma empty_ok size c : cb_inv c -> cb_length c + size <= nlen (cb_buffer c) ->
    exists r b, empty (cb_position c) (cb_length c) (nlen (cb_buffer c)) size = Ok (r, b)
      /\ r_start r <= r_end r <= nlen (cb_buffer c)
      /\ r_len r <= size /\ (0 < size -> 0 < r_len r)
      /\ forall data, nlen data <= r_len r ->
           cb_inv (append_done r data c) /\ content (append_done r data c) = content c ++ data.
  Proof.
    intros [H1 H2] Hs. unfold empty, r_len.
    assert (Done : forall r, r_start r <= r_end r <= nlen (cb_buffer c) ->
       (cb_position c + cb_length c < nlen (cb_buffer c) -> r_start r = cb_position c + cb_length c) ->
       (nlen (cb_buffer c) <= cb_position c + cb_length c -> r_start r < r_end r ->
          r_start r = cb_position c + cb_length c - nlen (cb_buffer c)) ->
       cb_length c + (r_end r - r_start r) <= nlen (cb_buffer c) ->
       forall data, nlen data <= r_end r - r_start r ->
           cb_inv (append_done r data c) /\ content (append_done r data c) = content c ++ data).
    { intros r Hr Hlt Hge Hfit data Hd.
      assert (Ho : nlen (overlay (cb_buffer c) (r_start r) data) = nlen (cb_buffer c))
        by (apply nlen_overlay; lia).
      assert (Ho' : length (overlay (cb_buffer c) (r_start r) data) = length (cb_buffer c))
        by (unfold nlen in Ho; lia).
      split.
      - unfold cb_inv, append_done. cbn [cb_length cb_position cb_buffer]. rewrite Ho. lia.
      - unfold append_done.
        apply (list_ext x00).
        { rewrite app_length, !content_length. cbn [cb_length]. unfold nlen. lia. }
        intros i Hi. rewrite content_length in Hi. cbn [cb_length] in Hi.
        rewrite nth_content by assumption. cbn [cb_length cb_position cb_buffer].
        rewrite nth_overlay by lia. rewrite Ho'.
        rewrite nth_app, content_length.
        unfold wrapped, nlen in *.
        destruct (Nat.ltb_spec i (N.to_nat (cb_length c))) as [Hl|Hl].
        + rewrite nth_content by assumption. unfold wrapped.
          destruct (Nat.ltb_spec (N.to_nat (cb_position c) + i) (length (cb_buffer c))) as [Ha|Ha].
          * destruct (Nat.ltb_spec (N.to_nat (cb_position c) + i) (N.to_nat (r_start r))); [reflexivity|].
            destruct (Nat.ltb_spec (N.to_nat (cb_position c) + i) (N.to_nat (r_start r) + length data)); [|reflexivity].
            exfalso. lia.
          * destruct (Nat.ltb_spec (N.to_nat (cb_position c) + i - length (cb_buffer c)) (N.to_nat (r_start r))); [reflexivity|].
            destruct (Nat.ltb_spec (N.to_nat (cb_position c) + i - length (cb_buffer c)) (N.to_nat (r_start r) + length data)); [|reflexivity].
            exfalso. lia.
        + destruct (Nat.ltb_spec (N.to_nat (cb_position c) + i) (length (cb_buffer c))) as [Ha|Ha].
          * destruct (Nat.ltb_spec (N.to_nat (cb_position c) + i) (N.to_nat (r_start r))); [lia|].
            destruct (Nat.ltb_spec (N.to_nat (cb_position c) + i) (N.to_nat (r_start r) + length data)); [|lia].
            f_equal. lia.
          * destruct (Nat.ltb_spec (N.to_nat (cb_position c) + i - length (cb_buffer c)) (N.to_nat (r_start r))); [lia|].
            destruct (Nat.ltb_spec (N.to_nat (cb_position c) + i - length (cb_buffer c)) (N.to_nat (r_start r) + length data)); [|lia].
            f_equal. lia. }
    destruct (N.eqb_spec (cb_position c) 0) as [E|E].
    - cbn [r_start r_end].
      destruct (N.ltb_spec size (nlen (cb_buffer c) - cb_length c));
        (eexists; eexists; split; [reflexivity|]); cbn [r_start r_end] in *;
        repeat split; try lia; apply Done; cbn [r_start r_end]; lia || (intros; lia).
    - destruct (N.leb_spec (nlen (cb_buffer c)) (cb_position c + cb_length c)) as [Hp|Hp].
      + unfold usub.
        destruct (N.leb_spec (cb_position c) (nlen (cb_buffer c))); [|lia]. cbn [rbind].
        destruct (N.leb_spec (nlen (cb_buffer c) - cb_position c) (cb_length c)); [|lia]. cbn [rbind].
        destruct (N.leb_spec (nlen (cb_buffer c) - cb_position c) (nlen (cb_buffer c))); [|lia]. cbn [rbind].
        cbn [r_start r_end].
        match goal with |- context [size <? ?x] => destruct (N.ltb_spec size x) end;
        (eexists; eexists; split; [reflexivity|]); cbn [r_start r_end] in *;
        repeat split; try lia; apply Done; cbn [r_start r_end]; lia || (intros; lia).
      + cbn [r_start r_end].
        destruct (N.leb_spec size (nlen (cb_buffer c) - (cb_position c + cb_length c)));
        (eexists; eexists; split; [reflexivity|]); cbn [r_start r_end] in *;
        repeat split; try lia; apply Done; cbn [r_start r_end]; lia || (intros; lia).
  Qed.

  Lemma append_slot_ok size c : cb_inv c ->
    exists r c', append_slot mem size c = Ok (r, c')
      /\ cb_inv c' /\ content c' = content c /\ cb_length c + size <= nlen (cb_buffer c')
      /\ (c' = c \/ nlen (cb_buffer c) < cb_length c + size)
      /\ r_len r <= size /\ (0 < size -> 0 < r_len r)
      /\ forall data, nlen data <= r_len r ->
           cb_inv (append_done r data c') /\ content (append_done r data c') = content c ++ data.
  Proof.
    intros Hc. unfold append_slot.
    destruct (reserve_ok size c Hc) as (c' & -> & Hi & Hcont & Hlen & Hfit & Hsame). cbn [rbind].
    rewrite <- Hlen in Hfit.
    destruct (empty_ok size c' Hi Hfit) as (r & b & -> & Hr & Hrs & Hpos & Hdone).
    cbn [rbind fst]. unfold index.
    destruct (N.leb_spec (r_start r) (r_end r)); [|lia].
    destruct (N.leb_spec (r_end r) (nlen (cb_buffer c'))); [|lia].
    cbn [andb rbind]. exists r, c'. rewrite <- Hcont. rewrite Hlen in Hfit.
    split; [reflexivity|]. split; [assumption|]. auto 10.
  Qed.
End Ring.

(* ------------------------------------------------------------------ *)
(** * Taking bytes out *)

Lemma as_slices_ok c : cb_inv c ->
  exists a b, as_slices c = Ok (a, b) /\
    content c = a ++ match b with Some b => b | None => [] end.
Proof.
  intros [H1 H2]. unfold as_slices, occupied.
  destruct (N.leb_spec (cb_position c + cb_length c) (nlen (cb_buffer c))) as [Hp|Hp].
  - cbn [rbind]. unfold index. cbn [r_start r_end].
    destruct (N.leb_spec (cb_position c) (cb_position c + cb_length c)); [|lia].
    destruct (N.leb_spec (cb_position c + cb_length c) (nlen (cb_buffer c))); [|lia].
    cbn [andb rbind]. eexists. eexists. split; [reflexivity|].
    rewrite app_nil_r.
    apply (list_ext x00).
    { rewrite content_length, slice_length; lia. }
    intros i Hi. rewrite content_length in Hi. rewrite nth_content by assumption.
    rewrite nth_slice. unfold wrapped, nlen in *.
    destruct (Nat.ltb_spec (N.to_nat (cb_position c) + i) (length (cb_buffer c))); [|lia].
    match goal with |- _ = if ?b then _ else _ => destruct b eqn:Eb end; [reflexivity|].
    apply Nat.ltb_ge in Eb. lia.
  - unfold r_len, usub. cbn [r_start r_end].
    destruct (N.leb_spec (nlen (cb_buffer c) - cb_position c) (cb_length c)); [|lia].
    cbn [rbind]. unfold index. cbn [r_start r_end].
    destruct (N.leb_spec (cb_position c) (nlen (cb_buffer c))); [|lia].
    destruct (N.leb_spec (nlen (cb_buffer c)) (nlen (cb_buffer c))); [|lia].
    cbn [andb rbind].
    match goal with |- context [0 <=? ?x] => destruct (N.leb_spec 0 x); [|lia] end.
    match goal with |- context [?x <=? nlen (cb_buffer c)] => destruct (N.leb_spec x (nlen (cb_buffer c))); [|lia] end.
    cbn [andb rbind]. eexists. eexists. split; [reflexivity|].
    apply (list_ext x00).
    { rewrite app_length, content_length, !slice_length; lia. }
    intros i Hi. rewrite content_length in Hi. rewrite nth_content by assumption.
    rewrite nth_app, slice_length by lia. rewrite !nth_slice. unfold wrapped, nlen in *.
    destruct (Nat.ltb_spec (N.to_nat (cb_position c) + i) (length (cb_buffer c))).
    + destruct (Nat.ltb_spec i (N.to_nat (N.of_nat (length (cb_buffer c)) - cb_position c))); [|lia].
      reflexivity.
    + destruct (Nat.ltb_spec i (N.to_nat (N.of_nat (length (cb_buffer c)) - cb_position c))); [lia|].
      match goal with |- _ = if ?b then _ else _ => destruct b eqn:Eb end.
      * f_equal. lia.
      * apply Nat.ltb_ge in Eb. lia.
Qed.

Lemma as_slices_of_length_ok n c : cb_inv c -> n <= cb_length c ->
  exists ab, as_slices_of_length n c = Ok ab /\ join n ab = Ok (ntake n (content c)).
Proof.
  intros Hc Hn. unfold as_slices_of_length.
  destruct (N.leb_spec n (cb_length c)); [|lia].
  destruct (as_slices_ok c Hc) as (a & b & -> & E). cbn [rbind].
  pose proof (nlen_content c) as Hl. rewrite E in *.
  destruct (N.leb_spec n (nlen a)) as [Ha|Ha].
  - eexists. split; [reflexivity|]. unfold join. rewrite nlen_take.
    destruct (N.leb_spec (N.min n (nlen a)) n); [|lia].
    replace (n - N.min n (nlen a)) with 0 by lia. cbn [repeat N.to_nat].
    rewrite take_app_le by assumption. rewrite app_nil_r. reflexivity.
  - destruct b as [b|].
    + rewrite nlen_app in Hl. unfold index. cbn [r_start r_end].
      destruct (N.leb_spec 0 (n - nlen a)); [|lia].
      destruct (N.leb_spec (n - nlen a) (nlen b)); [|lia].
      cbn [andb rbind]. eexists. split; [reflexivity|]. unfold join.
      rewrite nlen_slice by lia.
      destruct (N.eqb_spec (nlen a + (n - nlen a - 0)) n); [|lia].
      rewrite take_app, take_all by lia. rewrite N.sub_0_r. reflexivity.
    + rewrite app_nil_r in Hl. lia.
Qed.

Lemma consume_ok n c : cb_inv c -> n <= cb_length c -> (nlen (cb_buffer c) <> 0) ->
  exists c', consume n c = Ok c' /\ cb_inv c' /\ content c' = ndrop n (content c)
    /\ cb_buffer c' = cb_buffer c.
Proof.
  intros [H1 H2] Hn H0. unfold consume.
  destruct (N.leb_spec n (cb_length c)); [|lia].
  destruct (N.eqb_spec (nlen (cb_buffer c)) 0); [lia|].
  eexists. split; [reflexivity|].
  assert (Hm : (cb_position c + n) mod nlen (cb_buffer c)
          = if cb_position c + n <? nlen (cb_buffer c) then cb_position c + n
            else cb_position c + n - nlen (cb_buffer c)).
  { destruct (N.ltb_spec (cb_position c + n) (nlen (cb_buffer c))).
    - apply N.mod_small. assumption.
    - symmetry. apply (N.mod_unique _ _ 1); lia. }
  rewrite Hm. clear Hm.
  unfold cb_inv. cbn [cb_length cb_position cb_buffer].
  destruct (N.eqb_spec (cb_length c - n) 0) as [E0|E0].
  - split; [lia|]. split; [|reflexivity]. apply (list_ext x00).
    + rewrite drop_length, !content_length. cbn [cb_length]. lia.
    + rewrite content_length. cbn [cb_length]. lia.
  - split; [destruct (N.ltb_spec (cb_position c + n) (nlen (cb_buffer c))); lia|].
    split; [|reflexivity]. apply (list_ext x00).
    + rewrite drop_length, !content_length. cbn [cb_length]. lia.
    + rewrite content_length. cbn [cb_length]. intros i Hi.
      rewrite nth_content by (cbn [cb_length]; assumption).
      rewrite nth_drop, nth_content by lia. cbn [cb_length cb_position cb_buffer].
      unfold wrapped, nlen in *.
      destruct (N.ltb_spec (cb_position c + n) (N.of_nat (length (cb_buffer c)))).
      * replace (N.to_nat (cb_position c + n) + i)%nat with (N.to_nat (cb_position c) + (N.to_nat n + i))%nat by lia.
        reflexivity.
      * destruct (Nat.ltb_spec (N.to_nat (cb_position c + n - N.of_nat (length (cb_buffer c))) + i) (length (cb_buffer c))); [|lia].
        destruct (Nat.ltb_spec (N.to_nat (cb_position c) + (N.to_nat n + i)) (length (cb_buffer c))); [lia|].
        f_equal. lia.
Qed.

Lemma consume_into_ok n c : cb_inv c -> n <= cb_length c ->
  exists c', consume_into n c = Ok (ntake n (content c), c')
    /\ cb_inv c' /\ content c' = ndrop n (content c) /\ cb_buffer c' = cb_buffer c.
Proof.
  intros Hc Hn. unfold consume_into.
  replace (N.min (cb_length c) n) with n by lia.
  destruct (N.ltb_spec (cb_position c + n) (nlen (cb_buffer c))) as [Hp|Hp].
  - pose proof Hc as [H1 H2]. unfold index. cbn [r_start r_end].
    destruct (N.leb_spec (cb_position c) (cb_position c + n)); [|lia].
    destruct (N.leb_spec (cb_position c + n) (nlen (cb_buffer c))); [|lia].
    cbn [andb rbind]. eexists. split.
    + do 2 f_equal. apply (list_ext x00).
      { rewrite slice_length, take_length, content_length; lia. }
      rewrite slice_length by lia. intros i Hi.
      rewrite nth_take, nth_slice.
      replace (cb_position c + n - cb_position c) with n in * by lia.
      destruct (Nat.ltb_spec i (N.to_nat n)); [|lia].
      rewrite nth_content by lia. unfold wrapped, nlen in *.
      destruct (Nat.ltb_spec (N.to_nat (cb_position c) + i) (length (cb_buffer c))); [|lia].
      reflexivity.
    + unfold cb_inv. cbn [cb_length cb_position cb_buffer].
      split; [destruct (cb_length c - n =? 0); lia|]. split; [|reflexivity].
      apply (list_ext x00).
      { rewrite drop_length, !content_length. cbn [cb_length]. lia. }
      rewrite content_length. cbn [cb_length]. intros i Hi.
      rewrite nth_content by (cbn [cb_length]; assumption).
      rewrite nth_drop, nth_content by lia. cbn [cb_length cb_position cb_buffer].
      destruct (N.eqb_spec (cb_length c - n) 0); [lia|].
      unfold wrapped.
      replace (N.to_nat (cb_position c + n) + i)%nat with (N.to_nat (cb_position c) + (N.to_nat n + i))%nat by lia.
      reflexivity.
  - unfold consume_into_slow. destruct (N.eqb_spec n 0) as [->|E].
    + exists c. rewrite take_0, drop_0. auto.
    + destruct (N.leb_spec n (cb_length c)); [|lia].
      destruct (as_slices_of_length_ok n c Hc Hn) as (ab & -> & Hj). cbn [rbind].
      rewrite Hj. cbn [rbind].
      pose proof Hc as [H1 H2].
      destruct (consume_ok n c Hc Hn) as (c' & -> & Hi & Hcont & Hb); [lia|].
      cbn [rbind]. exists c'. auto.
Qed.
