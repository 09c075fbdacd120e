(* Property C109: how far ahead of the value a buffered reader reads its stream. *)
From Verif Require Import Samples Entry Extend Keep EncFacts PropReaders.

Section Ahead.
  Context (h : host) (VH : valid_host h) (e : endian) (mem : N -> bytes) (Hmem : forall n, n <= nlen (mem n)).
  Notation e6 := (ipv6_order h e).
  Notation decode := (decode (h_lim h) e e6).

  Definition ring_kept (sched : list read_event) (s : sreader) : Prop :=
    (exists bs, srep h true true sched s bs) /\ cb_capacity (sr_buffer s) = 8192.

  Lemma ring_kept_reader sched : no_errors sched -> keep_reader (ring_kept sched) h (StreamReader mem e).
  Proof.
    intros Hno.
    assert (Hesc : forall er, ~ sio true true sched er).
    { intros er (k & _ & Hk & _). exact (Hno k Hk). }
    assert (Hread : forall n, keeps (ring_kept sched) (sr_read mem n)).
    { intros n s [(bs & Hr) Hc]. destruct (sr_read mem n s) as [r s'] eqn:E. cbn [snd].
      destruct (sr_read_cases h mem Hmem true true sched n s bs r s' Hr E) as [(er & _ & Hx)|(Hcap & [(_ & _ & Hr')|(_ & _ & Hr')])].
      - destruct (Hesc er Hx).
      - split; [eauto|congruence].
      - split; [eauto|congruence]. }
    assert (Hpeek : forall n, n <= 8 -> keeps (ring_kept sched) (sr_peek mem n)).
    { intros n Hn s [(bs & Hr) Hc]. destruct (sr_peek mem n s) as [r s'] eqn:E. cbn [snd].
      destruct (sr_peek_cases h mem Hmem true true sched n s bs r s' eq_refl Hr E) as [(er & _ & Hx)|(Hr' & Hcap & _)].
      - destruct (Hesc er Hx).
      - split; [eauto|]. rewrite Hcap by (reflexivity || lia). exact Hc. }
    constructor; cbn [StreamReader rd_read rd_read_ptr rd_peek rd_peek_ptr rd_borrow rd_borrow_r rd_borrow_eof]; auto; try discriminate.
    intros n t s Hs. unfold bind, require, alloc, fail, crash. cbn [StreamReader rd_can rd_alloc].
    destruct (_ <? min_bytes h t * n); [exact Hs|]. destruct (_ <? n * h_size h t); [exact Hs|]. cbn [sr_alloc snd].
    destruct Hs as [(bs & Hr) Hc]. split; [|exact Hc]. exists bs. destruct Hr. constructor; assumption.
  Qed.

  (** C109: the buffer of a buffered reader has 8192 bytes and does not grow, whatever
      is read and however that ends. *)
  Theorem C109_ring t bs sched : no_errors sched -> nlen bs <= l_usize_max (h_lim h) ->
    let s := snd (deserialize h mem true e t {| is_rest := bs; is_sched := sched |}) in
    cb_capacity (sr_buffer s) = 8192 /\ cb_len (sr_buffer s) <= 8192.
  Proof.
    intros Hno Hl. unfold deserialize.
    pose proof (proj1 (keeps_read (ring_kept sched) h (StreamReader mem e) (ring_kept_reader sched Hno) t)) as H.
    destruct (H (sr_start mem true {| is_rest := bs; is_sched := sched |})) as [(bs' & Hr) Hc].
    { split.
      - exists bs. apply (sr_start_rep h mem Hmem true true sched {| is_rest := bs; is_sched := sched |} eq_refl Hl).
      - apply (with_capacity_ok mem Hmem (8 * 1024)). }
    cbn zeta. split; [exact Hc|]. pose proof (sp_inv _ _ _ _ _ _ Hr) as Hi. rewrite <- Hc. unfold cb_len, cb_capacity.
    apply Hi.
  Qed.

  Lemma ahead t bs v rest sched : supported h e false true LDefault t -> no_errors sched ->
    nlen bs <= l_usize_max (h_lim h) -> decode t bs = DOk v (Some rest) ->
    exists k sched', k <= 8192 /\ incl sched' sched
      /\ read_from_stream_buffered h mem e t {| is_rest := bs; is_sched := sched |}
         = (Ok v, {| is_rest := ndrop k rest; is_sched := sched' |}).
  Proof.
    intros Hs Hno Hl Hd. pose proof (C109_ring t bs sched Hno Hl) as [_ Hcap].
    pose proof (stream_agrees h VH e mem Hmem true true {| is_rest := bs; is_sched := sched |} (Hno _) Hl t Hs) as H.
    unfold read_from_stream_buffered. destruct (deserialize h mem true e t _) as [r s]. cbn [is_rest is_sched snd] in *.
    destruct H as [(k & _ & Hk & _)|[Ha Hrest]]; [destruct (Hno k Hk)|].
    destruct (Hrest _ _ Hd) as (Hre & Hin & _). rewrite Hd in Ha. cbn in Ha. subst r.
    exists (cb_len (sr_buffer s)), (is_sched (sr_stream s)). split; [exact Hcap|]. split; [exact Hin|]. rewrite <- Hre.
    rewrite drop_app_exact by apply nlen_content. destruct (sr_stream s); reflexivity.
  Qed.

  (** C109: after a value has been read, at most 8192 of the bytes behind it have been
      taken from the stream; the others are still there. *)
  Theorem C109_ahead t v b rest sched :
    covered h e false true t -> no_eof false t -> value_of h e t v ->
    write_to_vec h mem e t v = Ok b -> nlen (b ++ rest) <= l_usize_max (h_lim h) -> no_errors sched ->
    exists k sched', k <= 8192 /\ incl sched' sched
      /\ read_from_stream_buffered h mem e t {| is_rest := b ++ rest; is_sched := sched |}
         = (Ok (norm t v), {| is_rest := ndrop k rest; is_sched := sched' |}).
  Proof.
    intros [Hw Hs Hr] Hn Hv Hb Hl Hsc.
    assert (He : encode (h_iter h) e e6 t v = Ok b) by (destruct Hv as [Hv _]; eapply write_to_vec_err; eassumption).
    assert (Ho : opens false t = true -> rest = []) by (rewrite (no_eof_closed t false Hn); discriminate).
    pose proof (host_round_trip h VH e t v b rest Hr Hv He Ho) as Hd.
    apply ahead; assumption.
  Qed.

  (** C109: whatever the input, if a buffer with it is read as a value of which the
      first [n] bytes are all, so is a buffered stream, and at most 8192 bytes further
      have been taken. *)
  Theorem C109_ahead_any t bs v n sched : supported h e false true LDefault t -> no_eof false t ->
    nlen bs <= h_alloc_max h -> no_errors sched ->
    read_with_length_from_buffer_copying h e t bs = (Ok v, n) ->
    exists k sched', k <= 8192 /\ incl sched' sched
      /\ read_from_stream_buffered h mem e t {| is_rest := bs; is_sched := sched |}
         = (Ok v, {| is_rest := ndrop (n + k) bs; is_sched := sched' |}).
  Proof.
    intros Hs Hn Hl Hno Hb. pose proof (vh_alloc h VH) as Ha.
    assert (Hm : min_bytes h t <= nlen bs).
    { destruct (N.lt_ge_cases (nlen bs) (min_bytes h t)) as [Hc|Hc]; [|exact Hc].
      rewrite copying_small in Hb by exact Hc. discriminate. }
    destruct (copying_agrees h VH e t bs Hs Hl Hm) as [Ha2 Hlen].
    unfold read_from_buffer_copying in Ha2. rewrite Hb in Ha2. cbn [fst] in Ha2.
    destruct (decode t bs) as [w o| |er sure|f sure|] eqn:Hd; cbn in Ha2.
    - injection Ha2 as <-. destruct (decode_ok_rest _ _ _ t bs v o Hn Hd) as (c & r & -> & Ebs).
      specialize (Hlen v r eq_refl). rewrite Hb in Hlen. injection Hlen as ->.
      destruct (ahead t bs v r sched Hs Hno ltac:(lia) Hd) as (k & sched' & Hk & Hin & E).
      exists k, sched'. split; [exact Hk|]. split; [exact Hin|]. rewrite E. do 2 f_equal.
      rewrite N.add_comm, <- drop_drop. f_equal. rewrite Ebs, nlen_app. symmetry. apply drop_app_exact. lia.
    - destruct Ha2 as (er & E & _). discriminate.
    - destruct Ha2 as [[E _]|[_ (er' & E & _)]]; discriminate.
    - destruct Ha2 as [E|[_ (er' & E & _)]]; discriminate.
    - destruct (decode_spec _ _ _ _ _ Hn Hd).
  Qed.
End Ahead.

Print Assumptions C109_ring.
Print Assumptions C109_ahead.
Print Assumptions C109_ahead_any.

(** One byte is asked for, 8192 are taken; in chunks of three, three are. *)
Definition long_input : bytes := x07 :: repeat x00 (N.to_nat 8999).
Example eager :
  (let (r, i) := read_from_stream_buffered host64 dirty LE (TP U8) {| is_rest := long_input; is_sched := [] |} in
   (r, nlen (is_rest i))) = (Ok (VInt 7), 808)
  /\ (let (r, i) := read_from_stream_buffered host64 dirty LE (TP U8) {| is_rest := long_input; is_sched := [RChunk 3] |} in
     (r, nlen (is_rest i))) = (Ok (VInt 7), 8997).
Proof. split; vm_compute; reflexivity. Qed.

Example eager_bounded : exists k sched', k <= 8192 /\ incl sched' []
  /\ read_from_stream_buffered host64 dirty LE (TP U8) {| is_rest := long_input; is_sched := [] |}
     = (Ok (VInt 7), {| is_rest := ndrop (1 + k) long_input; is_sched := sched' |}).
Proof.
  apply (C109_ahead_any host64 host64_valid LE dirty dirty_enough (TP U8) long_input (VInt 7) 1 []).
  - exact I.
  - exact I.
  - vm_compute. discriminate.
  - intros k [].
  - vm_compute. reflexivity.
Qed.
