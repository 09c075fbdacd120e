(* Property C117: how far ahead of the value an unbuffered reader reads its stream if tags
   are peeked at. *)
From Verif Require Import Samples Checker Entry Extend Keep EncFacts PropReaders.

Section Unbuffered.
  Context (h : host) (VH : valid_host h) (e : endian) (mem : N -> bytes) (Hmem : forall n, n <= nlen (mem n)).
  Notation e6 := (ipv6_order h e).
  Notation decode := (decode (h_lim h) e e6).

  Definition few (s : sreader) : Prop :=
    sr_buffering s = false /\ cb_inv (sr_buffer s) /\ cb_len (sr_buffer s) <= 8.

  Lemma len_content c : cb_len c = nlen (content c).
  Proof. unfold cb_len. symmetry. apply nlen_content. Qed.

  Lemma append_few k s : few s -> cb_len (sr_buffer s) + k <= 8 -> few (snd (sr_append mem k s)).
  Proof.
    intros (Hb & Hi & Hl) Hk. rewrite len_content in Hl, Hk. unfold sr_append, bind, on_buffer.
    destruct (append_slot_ok mem Hmem k (sr_buffer s) Hi)
      as (slot & c & E & Hc1 & Hc2 & _ & _ & Hl1 & _ & Hdone).
    rewrite E. cbn [set_buffer sr_stream].
    destruct (is_read (r_len slot) (sr_stream s)) as [rr i] eqn:Ei.
    apply (is_read_cases mem Hmem) in Ei as [_ [(data & -> & _ & Hd & _)|(x & -> & _)]]; cbn [snd set_stream set_buffer sr_buffer].
    - destruct (Hdone data Hd) as [Hi' Hc']. split; [exact Hb|]. split; [exact Hi'|]. cbn [sr_buffer].
      rewrite len_content. unfold set_buffer. cbn [sr_buffer]. rewrite Hc', nlen_app. lia.
    - split; [exact Hb|]. split; [exact Hc1|]. unfold set_stream, set_buffer. cbn [sr_buffer]. rewrite len_content, Hc2. exact Hl.
  Qed.

  Lemma fill_few fuel n : n <= 8 -> keeps few (sr_peek_fill mem fuel n).
  Proof.
    intros Hn. induction fuel as [|fuel IH]; intros s Hs; cbn [sr_peek_fill];
      destruct (N.ltb_spec (cb_len (sr_buffer s)) n) as [Hc|Hc]; try exact Hs.
    pose proof (proj1 Hs) as Hb. rewrite Hb. unfold bind at 1. cbn [ret]. unfold bind.
    pose proof (append_few (n - cb_len (sr_buffer s)) s Hs ltac:(lia)) as Ha.
    destruct (sr_append mem _ s) as [[w|er|f] s']; cbn [snd] in *; try exact Ha.
    destruct (w =? 0); [exact Ha|]. apply IH, Ha.
  Qed.

  Lemma peek_few n : n <= 8 -> keeps few (sr_peek mem n).
  Proof.
    intros Hn s Hs. unfold sr_peek, bind. pose proof (fill_few (N.to_nat n) n Hn s Hs) as H.
    destruct (sr_peek_fill mem _ n s) as [[w|er|f] s']; exact H.
  Qed.

  Lemma consume_few n s : few s -> n <= cb_len (sr_buffer s) -> few (snd (on_buffer (consume_into n) s)).
  Proof.
    intros (Hb & Hi & Hl) Hn. unfold on_buffer.
    destruct (consume_into_ok n (sr_buffer s) Hi Hn) as (c & -> & Hc1 & Hc2 & _). split; [exact Hb|].
    split; [exact Hc1|]. cbn [snd set_buffer sr_buffer]. rewrite len_content in *.
    rewrite Hc2, nlen_drop. lia.
  Qed.

  Lemma read_few n : keeps few (sr_read mem n).
  Proof.
    intros s Hs. unfold sr_read. destruct (N.leb_spec n (cb_len (sr_buffer s))) as [Hn|Hn].
    - apply consume_few; assumption.
    - unfold sr_read_slow. rewrite (proj1 Hs). cbn [andb]. unfold bind at 1. cbn [ret]. unfold sr_drain, bind.
      assert (H1 : few (snd ((if 0 <? cb_len (sr_buffer s)
        then on_buffer (consume_into (N.min (cb_len (sr_buffer s)) n)) else ret []) s))).
      { destruct (0 <? _); [|exact Hs]. apply consume_few; [exact Hs|lia]. }
      set (m := if 0 <? cb_len (sr_buffer s) then _ else _) in *. destruct (m s) as [[a|er|f] s1]; cbn [snd] in *; try exact H1.
      destruct (_ =? 0); [exact H1|]. destruct (is_read_exact _ _) as [[b|er|f] i]; exact H1.
  Qed.

  Lemma few_reader : keep_reader few h (StreamReader mem e).
  Proof.
    constructor; cbn [StreamReader rd_read rd_read_ptr rd_peek rd_peek_ptr rd_borrow rd_borrow_r rd_borrow_eof];
      try discriminate; auto using read_few, peek_few.
    intros n t s Hs. unfold bind, require, alloc, fail, crash. cbn [StreamReader rd_can rd_alloc].
    destruct (_ <? min_bytes h t * n); [exact Hs|]. destruct (_ <? n * h_size h t); exact Hs.
  Qed.

  (** C117: the buffer of an unbuffered reader never holds more than eight bytes, whatever is
      read from whatever stream, failing ones included, and however that ends. *)
  Theorem C117_buffer t i : cb_len (sr_buffer (snd (deserialize h mem false e t i))) <= 8.
  Proof.
    unfold deserialize. apply (proj1 (keeps_read few h (StreamReader mem e) few_reader t)).
    destruct (with_capacity_ok mem Hmem 0) as (H1 & H2 & _). split; [reflexivity|]. split; [exact H1|].
    cbn [sr_start sr_buffer]. vm_compute. discriminate.
  Qed.

  Lemma peeked t bs v rest sched : supported h e false true LDefault t -> no_errors sched ->
    nlen bs <= l_usize_max (h_lim h) -> decode t bs = DOk v (Some rest) ->
    exists k sched', k <= 8 /\ incl sched' sched
      /\ read_from_stream_unbuffered h mem e t {| is_rest := bs; is_sched := sched |}
         = (Ok v, {| is_rest := ndrop k rest; is_sched := sched' |}).
  Proof.
    intros Hs Hno Hl Hd. pose proof (C117_buffer t {| is_rest := bs; is_sched := sched |}) as Hcap.
    pose proof (stream_agrees h VH e mem Hmem false true {| is_rest := bs; is_sched := sched |} (Hno _) Hl t Hs) as H.
    unfold read_from_stream_unbuffered. destruct (deserialize h mem false e t _) as [r s]. cbn [is_rest is_sched snd] in *.
    destruct H as [(k & _ & Hk & _)|[Ha Hrest]]; [destruct (Hno k Hk)|].
    destruct (Hrest _ _ Hd) as (Hre & Hin & _). rewrite Hd in Ha. cbn in Ha. subst r.
    exists (cb_len (sr_buffer s)), (is_sched (sr_stream s)). split; [exact Hcap|]. split; [exact Hin|]. rewrite <- Hre.
    rewrite drop_app_exact by apply nlen_content. destruct (sr_stream s); reflexivity.
  Qed.

  (** C117: after a value has been read, peeked tags or not, at most eight of the bytes
      behind it have been taken from the stream; the others are still there. *)
  Theorem C117_ahead t v b rest sched :
    covered h e false true t -> no_eof false t -> value_of h e t v ->
    write_to_vec h mem e t v = Ok b -> nlen (b ++ rest) <= l_usize_max (h_lim h) -> no_errors sched ->
    exists k sched', k <= 8 /\ incl sched' sched
      /\ read_from_stream_unbuffered h mem e t {| is_rest := b ++ rest; is_sched := sched |}
         = (Ok (norm t v), {| is_rest := ndrop k rest; is_sched := sched' |}).
  Proof.
    intros [Hw Hs Hr] Hn Hv Hb Hl Hsc.
    assert (He : encode (h_iter h) e e6 t v = Ok b) by (destruct Hv as [Hv _]; eapply write_to_vec_err; eassumption).
    assert (Ho : opens false t = true -> rest = []) by (rewrite (no_eof_closed t false Hn); discriminate).
    pose proof (host_round_trip h VH e t v b rest Hr Hv He Ho) as Hd.
    apply peeked; assumption.
  Qed.

  (** C117: whatever the input, if a buffer with it is read as a value of which the
      first [n] bytes are all, so is an unbuffered stream, and at most eight bytes further
      have been taken. *)
  Theorem C117_ahead_any t bs v n sched : supported h e false true LDefault t -> no_eof false t ->
    nlen bs <= h_alloc_max h -> no_errors sched ->
    read_with_length_from_buffer_copying h e t bs = (Ok v, n) ->
    exists k sched', k <= 8 /\ incl sched' sched
      /\ read_from_stream_unbuffered h mem e t {| is_rest := bs; is_sched := sched |}
         = (Ok v, {| is_rest := ndrop (n + k) bs; is_sched := sched' |}).
  Proof.
    intros Hs Hn Hl Hno Hb. pose proof (vh_alloc h VH) as Ha.
    assert (Hm : min_bytes h t <= nlen bs).
    { destruct (N.lt_ge_cases (nlen bs) (min_bytes h t)) as [Hc|Hc]; [|exact Hc].
      rewrite copying_small in Hb by exact Hc. discriminate. }
    destruct (copying_agrees h VH e t bs Hs Hl Hm) as [Ha2 Hlen].
    unfold read_from_buffer_copying in Ha2. rewrite Hb in Ha2. cbn [fst] in Ha2.
    destruct (decode t bs) as [w o| |er sure|f sure|] eqn:Hd; cbn in Ha2.
    - injection Ha2 as <-. destruct (decode_ok_rest _ _ _ t bs v o Hn Hd) as (c & r & -> & Ebs).
      specialize (Hlen v r eq_refl). rewrite Hb in Hlen. injection Hlen as ->.
      destruct (peeked t bs v r sched Hs Hno ltac:(lia) Hd) as (k & sched' & Hk & Hin & E).
      exists k, sched'. split; [exact Hk|]. split; [exact Hin|]. rewrite E. do 2 f_equal.
      rewrite N.add_comm, <- drop_drop. f_equal. rewrite Ebs, nlen_app. symmetry. apply drop_app_exact. lia.
    - destruct Ha2 as (er & E & _). discriminate.
    - destruct Ha2 as [[E _]|[_ (er' & E & _)]]; discriminate.
    - destruct Ha2 as [E|[_ (er' & E & _)]]; discriminate.
    - destruct (decode_spec _ _ _ _ _ Hn Hd).
  Qed.
End Unbuffered.

Print Assumptions C117_buffer.
Print Assumptions C117_ahead.
Print Assumptions C117_ahead_any.

(** Eight bytes are taken for a value of none: the widest tag there is, peeked at. *)
Definition wide : ty := TEnum {| e_tag := BU64; e_peek := true |} [(1, [])].
Definition wide_input : bytes := word LE 8 1 ++ [x07; x08].
Example eight :
  read_from_stream_unbuffered host64 dirty LE wide {| is_rest := wide_input; is_sched := [] |}
  = (Ok (VVar 0 []), {| is_rest := [x07; x08]; is_sched := [] |})
  /\ read_with_length_from_buffer_copying host64 LE wide wide_input = (Ok (VVar 0 []), 0).
Proof. split; vm_compute; reflexivity. Qed.

Example eight_bounded : exists k sched', k <= 8 /\ incl sched' [RChunk 1; RChunk 2]
  /\ read_from_stream_unbuffered host64 dirty LE wide {| is_rest := wide_input; is_sched := [RChunk 1; RChunk 2] |}
     = (Ok (VVar 0 []), {| is_rest := ndrop (0 + k) wide_input; is_sched := sched' |}).
Proof.
  apply (C117_ahead_any host64 host64_valid LE dirty dirty_enough).
  - apply supportedb_sound. vm_compute. reflexivity.
  - apply no_eofb_sound. vm_compute. reflexivity.
  - vm_compute. discriminate.
  - intros k [H|[H|[]]]; discriminate.
  - apply eight.
Qed.
