(* The readers satisfy the laws of Safe.v. *)
From Verif Require Export Safe LockReaders.

(** There is room for a vector of [n] elements. *)
Definition stream_room (h : host) (size min n : N) : Prop := n * size <= h_alloc_max h.

(** ... or for as many as an input of [L] bytes can hold. *)
Definition buffer_room (h : host) (L size min n : N) : Prop :=
  n * size <= h_alloc_max h \/ forall m, m * min <= L -> m * size <= h_alloc_max h.

Section Buffers.
  Context (h : host) (VH : valid_host h) (e : endian) (allow : fault -> Prop) (L : N).
  Context (HL : L <= h_alloc_max h).

  Definition binv (s : breader) (n : N) : Prop := nlen (br_rest s) = n /\ n <= L.
  Notation tri := (tri binv allow).

  Lemma binv_advance s n k : binv s n -> k <= n -> binv (br_advance k s) (n - k).
  Proof. intros [H1 H2] Hk. unfold binv, br_advance. cbn. rewrite nlen_drop. lia. Qed.

  Lemma tri_br_read n : tri n (br_read n) (fun b => nlen b = n).
  Proof.
    intros s m Hs. unfold br_read. pose proof Hs as [H1 H2].
    destruct (N.leb_spec n (nlen (br_rest s))).
    - split; [rewrite nlen_take; lia|]. exists (m - n). split; [apply binv_advance; [exact Hs|lia]|lia].
    - intros _. exists m. split; [exact Hs|lia].
  Qed.

  Lemma tri_br_peek n : tri 0 (br_peek n) (fun b => nlen b = n).
  Proof.
    intros s m Hs. unfold br_peek. pose proof Hs as [H1 H2].
    destruct (N.leb_spec n (nlen (br_rest s))).
    - split; [rewrite nlen_take; lia|]. exists m. split; [exact Hs|lia].
    - intros _. exists m. split; [exact Hs|lia].
  Qed.

  Lemma tri_br_borrow n : tri n (br_borrow n) (fun p => nlen (snd p) = n /\ n <= L).
  Proof.
    intros s m Hs. unfold br_borrow. pose proof Hs as [H1 H2].
    destruct (N.leb_spec n (nlen (br_rest s))).
    - cbn [snd]. split; [split; [rewrite nlen_take; lia|lia]|].
      exists (m - n). split; [apply binv_advance; [exact Hs|lia]|lia].
    - intros _. exists m. split; [exact Hs|lia].
  Qed.

  Lemma tri_br_borrow_eof : tri 0 br_borrow_eof (fun p => nlen (snd p) <= L).
  Proof.
    intros s m Hs. unfold br_borrow_eof. pose proof Hs as [H1 H2]. cbn [snd]. split; [lia|].
    exists (m - m). split; [rewrite H1; apply binv_advance; [exact Hs|lia]|lia].
  Qed.

  Lemma tri_br_alloc n size min : n * size <= h_alloc_max h ->
    tri 0 (if h_alloc_max h <? n * size then crash PanicCapacity else br_alloc n size min) (fun _ => True).
  Proof.
    intros Hn. destruct (N.ltb_spec (h_alloc_max h) (n * size)); [lia|].
    intros s m Hs. cbn. split; [exact I|]. exists m. split; [exact Hs|lia].
  Qed.

  Lemma br_safe (R : reader breader) :
    rd_endian R = e -> rd_read R = br_read -> rd_read_ptr R = br_read -> rd_peek R = br_peek ->
    rd_peek_ptr R = br_peek -> rd_can R = br_can -> (rd_borrow R = Some br_borrow \/ rd_borrow R = None) ->
    rd_borrow_r R = Some br_borrow_r -> (rd_borrow_eof R = Some br_borrow_eof \/ rd_borrow_eof R = None) ->
    rd_alloc R = br_alloc -> rd_fuel R = br_fuel ->
    safe_reader h R binv allow L (buffer_room h L).
  Proof.
    intros He Hr Hrp Hp Hpp Hc Hb Hbr Hbe Ha Hf. pose proof (vh_alloc h VH) as Hau.
    constructor; rewrite ?Hr, ?Hrp, ?Hp, ?Hpp.
    - intros s n [_ H]. exact H.
    - lia.
    - apply tri_br_read.
    - apply tri_br_read.
    - intros n _. apply tri_br_peek.
    - intros n _. apply tri_br_peek.
    - intros b Eb n. destruct Hb as [Hb|Hb]; rewrite Hb in Eb; [injection Eb as <-|discriminate]. apply tri_br_borrow.
    - intros b Eb n. rewrite Hbr in Eb. injection Eb as <-. apply tri_br_read.
    - intros b Eb. destruct Hbe as [Hb'|Hb']; rewrite Hb' in Eb; [injection Eb as <-|discriminate].
      apply tri_br_borrow_eof.
    - intros _. exact HL.
    - intros s n [H _]. rewrite Hf. unfold br_fuel, nlen in *. lia.
    - intros n size min Hroom s m Hs. pose proof Hs as [H1 H2]. unfold bind at 1.
      destruct (N.ltb_spec (usize_max h) (min * n)) as [Ho|Ho]; [cbn; intros _; exists m; split; [exact Hs|lia]|].
      unfold require, alloc. rewrite Hc, Ha. unfold br_can.
      destruct (N.leb_spec (min * n) (nlen (br_rest s))) as [Hm|Hm]; [|cbn; intros _; exists m; split; [exact Hs|lia]].
      cbn [ret].
      destruct (N.ltb_spec (h_alloc_max h) (n * size)) as [Hbig|Hbig].
      + cbn. destruct Hroom as [Hal|[[H|H]|H]]; [exact Hal|lia| |lia]. specialize (H n ltac:(lia)). lia.
      + cbn. split; [exact Hbig|]. exists m. split; [exact Hs|lia].
    - intros b Eb n size. destruct Hb as [Hb|Hb]; rewrite Hb in Eb; [injection Eb as <-|discriminate].
      eapply tri_then; [apply tri_br_borrow|]. cbn beta. intros p [Hp1 Hp2].
      eapply tri_after; [|intros _ _; apply tri_ret; exact Hp1].
      unfold alloc. rewrite Ha. apply tri_br_alloc. lia.
  Qed.

  Lemma buffer_safe : safe_reader h (BufferReader e) binv allow L (buffer_room h L).
  Proof. apply br_safe; try reflexivity; left; reflexivity. Qed.

  Lemma copying_safe : safe_reader h (CopyingBufferReader e) binv allow L (buffer_room h L).
  Proof. apply br_safe; try reflexivity; right; reflexivity. Qed.
End Buffers.

Section Streams.
  Context (h : host) (e : endian) (mem : N -> bytes) (Hmem : forall n, n <= nlen (mem n)).
  Context (buffering : bool) (sched : list read_event) (Hclean : ~ In (RErr IoUnexpectedEof) sched).
  Context (allow : fault -> Prop) (L : N) (HL : L <= l_usize_max (h_lim h)).
  Notation rep := (srep h buffering true sched).

  Definition sinv (s : sreader) (n : N) : Prop := exists bs, rep s bs /\ nlen bs = n /\ n <= L.
  Notation tri := (tri sinv allow).

  Lemma io_not_eof er : sio buffering true sched er -> is_eof er = false.
  Proof. intros (k & -> & Hk & _). destruct k; try reflexivity. contradiction. Qed.

  Lemma tri_sr_read n : tri n (sr_read mem n) (fun b => nlen b = n).
  Proof.
    intros s m (bs & Hr & Hl & HL'). destruct (sr_read mem n s) as [r s'] eqn:E.
    apply (sr_read_cases h mem Hmem buffering true sched n s bs r s' Hr) in E.
    destruct E as [(er & -> & Hio)|(_ & [(Hn & -> & Hr')|(Hn & -> & Hr')])].
    - intros Ce. rewrite (io_not_eof _ Hio) in Ce. discriminate.
    - split; [rewrite nlen_take; lia|]. exists (m - n). split; [|lia].
      exists (ndrop n bs). split; [exact Hr'|]. rewrite nlen_drop. lia.
    - intros _. destruct (short buffering n _).
      + exists m. split; [exists bs; auto|lia].
      + exists 0. split; [exists []; split; [exact Hr'|]; split; [reflexivity|lia]|lia].
  Qed.

  Lemma tri_sr_peek n : tri 0 (sr_peek mem n) (fun b => nlen b = n).
  Proof.
    intros s m (bs & Hr & Hl & HL'). destruct (sr_peek mem n s) as [r s'] eqn:E.
    apply (sr_peek_cases h mem Hmem buffering true sched n s bs r s' eq_refl Hr) in E.
    destruct E as [(er & -> & Hio)|(Hr' & _ & [(Hn & ->)|(Hn & ->)])].
    - intros Ce. rewrite (io_not_eof _ Hio) in Ce. discriminate.
    - split; [rewrite nlen_take; lia|]. exists m. split; [exists bs; auto|lia].
    - intros _. exists m. split; [exists bs; auto|lia].
  Qed.

  Lemma stream_safe : safe_reader h (StreamReader mem e) sinv allow L (stream_room h).
  Proof.
    constructor; cbn [StreamReader rd_endian rd_read rd_read_ptr rd_peek rd_peek_ptr rd_can rd_borrow rd_borrow_r
      rd_borrow_eof rd_alloc rd_fuel]; try discriminate.
    - intros s n (bs & _ & _ & H). exact H.
    - exact HL.
    - apply tri_sr_read.
    - apply tri_sr_read.
    - intros n _. apply tri_sr_peek.
    - intros n _. apply tri_sr_peek.
    - intros [H|H]; contradiction H; reflexivity.
    - intros s n (bs & Hr & Hl & _). rewrite (sr_fuel_bs h buffering true s bs sched Hr). unfold nlen in Hl. lia.
    - intros n size min Hroom s m Hs. unfold bind.
      destruct (N.ltb_spec (usize_max h) (min * n)) as [Ho|Ho]; [cbn; intros _; exists m; split; [exact Hs|lia]|].
      unfold require, alloc. cbn [StreamReader rd_can rd_alloc ret].
      destruct (N.ltb_spec (h_alloc_max h) (n * size)) as [Hbig|Hbig].
      + cbn. destruct Hroom as [Hal|[H|H]]; [exact Hal|unfold stream_room in H; lia|lia].
      + cbn. split; [exact Hbig|]. exists m. split; [|lia]. destruct Hs as (bs & [H1 H2 H3 H4 H5 H6] & Hl).
        exists bs. split; [|exact Hl]. constructor; auto.
  Qed.
End Streams.
