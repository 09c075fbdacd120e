(* The three readers are lawful. *)
From Verif Require Export ReadSim RingFacts Api.

(* ------------------------------------------------------------------ *)
(** * Buffers *)

Section Buffer.
  Context (h : host) (VH : valid_host h) (e : endian).

  (** What a buffer reader still holds; a slice has at most isize::MAX bytes. *)
  Definition brep (s : breader) (bs : bytes) : Prop := br_rest s = bs /\ nlen bs <= h_alloc_max h.

  Definition no_io (er : error) : Prop := False.
  Notation simb := (sim brep no_io).

  Lemma brep_advance n s bs : brep s bs -> n <= nlen bs -> brep (br_advance n s) (ndrop n bs).
  Proof.
    intros [H1 H2] Hn. unfold brep, br_advance. cbn. rewrite H1. split; [reflexivity|].
    rewrite nlen_drop. lia.
  Qed.

  Lemma brep_ended {A} s o : repo brep s o -> ended (A := A) brep o (Err UnexpectedEndOfInput) s.
  Proof.
    intros Hr. exists UnexpectedEndOfInput. split; [reflexivity|]. split; [reflexivity|].
    split; [destruct o; cbn in Hr; eauto|]. intros ->. exact Hr.
  Qed.

  Lemma br_step {A} (f : breader -> bytes -> A) n :
    forall (m : M breader A), (forall s, m s = if n <=? nlen (br_rest s)
      then (Ok (f s (ntake n (br_rest s))), br_advance n s) else (Err UnexpectedEndOfInput, s)) ->
    forall g, (forall s b, g (f s b) = b) -> simb (mmap g m) (dread n).
  Proof.
    intros m Hm g Hg s o Hr. right. unfold mmap, bind. rewrite Hm.
    unfold dread. destruct (N.eqb_spec n 0) as [->|Hn].
    - destruct (N.leb_spec 0 (nlen (br_rest s))); [|lia]. cbn [fst snd ret]. rewrite Hg, take_0.
      cbn. split; [reflexivity|]. split; [|auto].
      destruct o as [bs|]; cbn in *.
      + replace bs with (ndrop 0 bs) by apply drop_0. apply brep_advance; [assumption|lia].
      + destruct Hr as [bs Hr]. exists (ndrop 0 bs). apply brep_advance; [assumption|lia].
    - destruct o as [bs|]; [|exact I]. cbn in Hr. destruct Hr as [H1 H2]. rewrite H1.
      destruct (N.leb_spec n (nlen bs)) as [Hl|Hl].
      + cbn [fst snd ret]. rewrite Hg. cbn. split; [reflexivity|]. split.
        * apply brep_advance; [split; assumption|assumption].
        * intros E. injection E as ->. exfalso. rewrite nlen_nil in Hl. lia.
      + cbn [fst snd]. apply brep_ended. split; assumption.
  Qed.

  Lemma mmap_id {S A} (m : M S A) s : mmap (fun a => a) m s = m s.
  Proof. unfold mmap, bind, ret. destruct (m s) as [[]]; reflexivity. Qed.

  Lemma br_read_sim n : simb (br_read n) (dread n).
  Proof.
    eapply sim_ext; [intros s; apply mmap_id|reflexivity|].
    apply (br_step (fun _ b => b) n) with (g := fun b => b); auto.
  Qed.

  Lemma br_borrow_sim n : simb (mmap snd (br_borrow n)) (dread n).
  Proof. apply (br_step (fun s b => (br_addr s, b)) n); auto. Qed.

  Lemma br_skip_sim n : simb (br_skip n) (dmap (fun _ => tt) (dread n)).
  Proof.
    eapply (sim_ext _ _ (mmap (fun _ => tt) (br_read n))); [|reflexivity|].
    - intros s. unfold mmap, bind, br_read, br_skip. destruct (n <=? nlen (br_rest s)); reflexivity.
    - apply sim_map, br_read_sim.
  Qed.

  Lemma br_peek_sim n : simb (br_peek n) (dpeek (dread n)).
  Proof.
    intros s o Hr. right. unfold br_peek, dpeek, dread.
    destruct (N.eqb_spec n 0) as [->|Hn].
    - destruct (N.leb_spec 0 (nlen (br_rest s))); [|lia]. cbn [fst snd]. rewrite take_0. cbn. auto.
    - destruct o as [bs|]; [|exact I]. cbn in Hr. destruct Hr as [H1 H2]. rewrite H1.
      destruct (N.leb_spec n (nlen bs)) as [Hl|Hl]; cbn [fst snd].
      + cbn. split; [reflexivity|]. split; [split; assumption|auto].
      + apply brep_ended. split; assumption.
  Qed.

  Lemma br_borrow_eof_sim : simb (mmap snd br_borrow_eof) drest.
  Proof.
    intros s o Hr. right. unfold mmap, bind, br_borrow_eof, ret. cbn [fst snd].
    destruct o as [bs|]; [|exact I]. cbn in Hr. destruct Hr as [H1 H2]. cbn. rewrite H1.
    split; [reflexivity|]. split; [|auto].
    replace [] with (ndrop (nlen bs) bs) by (apply drop_all; lia).
    apply brep_advance; [split; assumption|lia].
  Qed.

  Lemma br_laws (R : reader breader) pk :
    rd_read R = br_read -> rd_read_ptr R = br_read -> rd_peek R = br_peek ->
    rd_peek_ptr R = br_peek -> rd_skip R = br_skip -> rd_can R = br_can ->
    (forall b, rd_borrow R = Some b -> b = br_borrow) ->
    rd_borrow_r R = Some br_borrow_r ->
    (forall b, rd_borrow_eof R = Some b -> b = br_borrow_eof) ->
    rd_alloc R = br_alloc -> rd_fuel R = br_fuel -> reader_ok h R pk brep no_io.
  Proof.
    intros E1 E2 E3 E4 E5 E6 E7 E8 E9 E10 E11. constructor.
    - intros er [].
    - rewrite E1. apply br_read_sim.
    - rewrite E2. apply br_read_sim.
    - rewrite E3. intros _. apply br_peek_sim.
    - rewrite E4. intros _. apply br_peek_sim.
    - rewrite E5. apply br_skip_sim.
    - rewrite E6. intros n s bs [H _]. right. unfold br_can. rewrite H. reflexivity.
    - intros b Hb. rewrite (E7 b Hb). apply br_borrow_sim.
    - intros b Hb. rewrite E8 in Hb. injection Hb as <-. apply br_read_sim.
    - intros b Hb. rewrite (E9 b Hb). apply br_borrow_eof_sim.
    - rewrite E10. intros n size min s bs [H1 H2]. eexists. split; [reflexivity|]. split; assumption.
    - rewrite E11. intros s bs [H _]. unfold br_fuel. rewrite H. reflexivity.
    - intros s bs [_ H]. pose proof (vh_alloc h VH). lia.
    - intros _ s bs [_ H]. exact H.
  Qed.

  Lemma buffer_ok pk : reader_ok h (BufferReader e) pk brep no_io.
  Proof.
    apply br_laws; try reflexivity; cbn; intros b Hb; injection Hb as <-; reflexivity.
  Qed.

  Lemma copying_ok pk : reader_ok h (CopyingBufferReader e) pk brep no_io.
  Proof. apply br_laws; try reflexivity; cbn; intros b Hb; discriminate Hb. Qed.
End Buffer.

(* ------------------------------------------------------------------ *)
(** * Streams *)

Section Stream.
  Context (h : host) (e : endian) (mem : N -> bytes) (Hmem : forall n, n <= nlen (mem n)).
  Context (buffering pk : bool) (sched0 : list read_event).
  Notation umax := (l_usize_max (h_lim h)).

  Definition unread (s : sreader) : bytes := content (sr_buffer s) ++ is_rest (sr_stream s).

  (** What a stream reader still holds: the ring buffer, then the stream. *)
  Record srep (s : sreader) (bs : bytes) : Prop := {
    sp_inv : cb_inv (sr_buffer s);
    sp_bytes : unread s = bs;
    sp_sched : incl (is_sched (sr_stream s)) sched0;
    sp_mode : sr_buffering s = buffering;
    sp_small : nlen bs <= umax;
    sp_empty : buffering = false -> pk = false -> cb_len (sr_buffer s) = 0
  }.

  (** The errors a stream may report; plain `read_exact` hides interruptions. *)
  Definition sio (er : error) : Prop :=
    exists k, er = IoError k /\ In (RErr k) sched0
              /\ (buffering = false -> pk = false -> k <> IoInterrupted).

  Context (Hclean : ~ In (RErr IoUnexpectedEof) sched0).
  Notation sims := (sim srep sio).

  Lemma sio_not_eof er : sio er -> is_eof er = false.
  Proof. intros (k & -> & Hk & _). destruct k; try reflexivity. contradiction. Qed.

  (** ** The stream itself *)

  Lemma is_read_cases n i r i' : is_read n i = (r, i') -> incl (is_sched i') (is_sched i) /\
    ((exists data, r = Ok data /\ is_rest i = data ++ is_rest i' /\ nlen data <= n
        /\ (data = [] -> 0 < n -> is_rest i = []))
     \/ (exists k, r = Err (IoError k) /\ In (RErr k) (is_sched i) /\ is_rest i' = is_rest i)).
  Proof.
    unfold is_read, is_take. destruct (is_sched i) as [|[k|k] sr] eqn:Es; intros E; injection E as <- <-; cbn.
    - split; [apply incl_refl|]. left. eexists. split; [reflexivity|].
      split; [symmetry; apply take_drop|]. split; [rewrite nlen_take; lia|].
      intros H Hn. apply nlen_0. apply (f_equal nlen) in H. rewrite nlen_take, nlen_nil in H. lia.
    - split; [apply incl_tl, incl_refl|]. left. eexists. split; [reflexivity|].
      split; [symmetry; apply take_drop|]. split; [rewrite nlen_take; lia|].
      intros H Hn. apply nlen_0. apply (f_equal nlen) in H. rewrite nlen_take, nlen_nil in H. lia.
    - split; [apply incl_tl, incl_refl|]. right. exists k. auto.
  Qed.

  (** Outcomes of `read_exact`. *)
  Lemma read_exact_cases n rest sched r i : read_exact_loop n rest sched = (r, i) ->
    incl (is_sched i) sched /\
    ((n <= nlen rest /\ r = Ok (ntake n rest) /\ is_rest i = ndrop n rest)
     \/ (nlen rest < n /\ r = Err (IoError IoUnexpectedEof) /\ is_rest i = [])
     \/ (exists k, r = Err (IoError k) /\ In (RErr k) sched /\ k <> IoInterrupted)).
  Proof.
    revert n rest r i. induction sched as [|ev sched IH]; intros n rest r i H; cbn in H.
    - destruct (N.eqb_spec n 0) as [->|Hn].
      { injection H as <- <-. cbn. split; [apply incl_refl|]. left. rewrite take_0, drop_0.
        split; [lia|auto]. }
      destruct (N.eqb_spec (nlen (ntake n rest)) 0) as [H0|H0].
      + injection H as <- <-. cbn. split; [apply incl_refl|]. right. left.
        rewrite nlen_take in H0. split; [lia|]. split; [reflexivity|].
        apply nlen_0. rewrite nlen_drop. lia.
      + injection H as <- <-. cbn. split; [apply incl_refl|]. rewrite nlen_take in *.
        destruct (N.eqb_spec (n - N.min n (nlen rest)) 0) as [Hz|Hz].
        * left. cbn. rewrite app_nil_r. split; [lia|auto].
        * right. left. split; [lia|]. split; [reflexivity|]. apply nlen_0. rewrite nlen_drop. lia.
    - destruct (N.eqb_spec n 0) as [->|Hn].
      { injection H as <- <-. cbn. split; [apply incl_refl|]. left. rewrite take_0, drop_0.
        split; [lia|auto]. }
      destruct ev as [c|k].
      + set (m := N.min n (N.max 1 c)) in *.
        destruct (N.eqb_spec (nlen (ntake m rest)) 0) as [H0|H0].
        * unfold is_read, is_take in H. cbn in H.
          injection H as <- <-. cbn. split; [apply incl_tl, incl_refl|]. right. left.
          rewrite nlen_take in H0. subst m. split; [lia|]. split; [reflexivity|].
          apply nlen_0. rewrite nlen_drop. lia.
        * destruct (read_exact_loop _ _ sched) as [r' i'] eqn:E. injection H as <- <-.
          apply IH in E as [Hi Hc]. split; [apply incl_tl; assumption|].
          rewrite nlen_take, nlen_drop in *. destruct Hc as [(H1 & -> & H2)|[(H1 & -> & H2)|(k & -> & Hk & Hk')]].
          -- left. split; [lia|]. split.
             ++ cbn. f_equal. replace n with (m + (n - m)) at 2 by lia. rewrite take_add.
                f_equal. f_equal. subst m. lia.
             ++ rewrite H2, drop_drop. f_equal. subst m. lia.
          -- right. left. split; [subst m; lia|auto].
          -- right. right. exists k. split; [reflexivity|]. split; [right; assumption|assumption].
      + assert (Hother : k <> IoInterrupted -> (r, i) = (Err (IoError k), {| is_rest := rest; is_sched := sched |})
          -> incl (is_sched i) (RErr k :: sched) /\
             ((n <= nlen rest /\ r = Ok (ntake n rest) /\ is_rest i = ndrop n rest)
              \/ (nlen rest < n /\ r = Err (IoError IoUnexpectedEof) /\ is_rest i = [])
              \/ (exists k', r = Err (IoError k') /\ In (RErr k') (RErr k :: sched) /\ k' <> IoInterrupted))).
        { intros Hk E. injection E as -> ->. cbn. split; [apply incl_tl, incl_refl|].
          right. right. exists k. auto. }
        destruct k; try (apply Hother; [discriminate|symmetry; exact H]).
        apply IH in H as [Hi Hc]. split; [apply incl_tl; assumption|].
        destruct Hc as [?|[?|(k & ? & ? & ?)]]; auto. right. right. exists k.
        split; [assumption|]. split; [right; assumption|assumption].
  Qed.

  (** ** Refilling *)

  (** One refill: it fails with a stream error, or moves bytes from the stream
      to the ring buffer. *)
  Lemma sr_append_cases size s bs r s' : srep s bs -> (buffering = true \/ pk = true) -> 0 < size ->
    sr_append mem size s = (r, s') ->
    (exists er, r = Err er /\ sio er)
    \/ (exists n, r = Ok n /\ srep s' bs
        /\ cb_len (sr_buffer s') = cb_len (sr_buffer s) + n
        /\ (n = 0 -> is_rest (sr_stream s') = [])
        /\ (cb_len (sr_buffer s) + size <= cb_capacity (sr_buffer s) ->
            cb_capacity (sr_buffer s') = cb_capacity (sr_buffer s))).
  Proof.
    intros Hr Hmode Hsz H. destruct Hr as [Hinv Hb Hs Hm Hsm Hem].
    unfold sr_append, bind, on_buffer in H.
    destruct (append_slot_ok mem Hmem size (sr_buffer s) Hinv)
      as (slot & c & E & Hc1 & Hc2 & Hc3 & Hc4 & Hl1 & Hl2 & Hdone).
    rewrite E in H. cbn [set_buffer sr_stream] in H.
    destruct (is_read (r_len slot) (sr_stream s)) as [rr i] eqn:Ei.
    apply is_read_cases in Ei as [Hincl [(data & -> & Hd1 & Hd2 & Hd3)|(k & -> & Hk & _)]].
    - injection H as <- <-. right. exists (nlen data). split; [reflexivity|].
      destruct (Hdone data Hd2) as [Hi' Hc'].
      assert (Hlen : cb_len (append_done slot data c) = cb_len (sr_buffer s) + nlen data).
      { unfold cb_len. rewrite <- !nlen_content, Hc', nlen_app. reflexivity. }
      cbn. split; [|split; [exact Hlen|split]].
      + constructor; cbn.
        * exact Hi'.
        * unfold unread. cbn. rewrite Hc', <- app_assoc, <- Hd1. exact Hb.
        * eapply incl_tran; eassumption.
        * exact Hm.
        * exact Hsm.
        * intros H1 H2. destruct Hmode; congruence.
      + intros H0. apply nlen_0 in H0. subst data.
        specialize (Hd3 eq_refl (Hl2 Hsz)). cbn in Hd1. congruence.
      + intros Hle. destruct Hc4 as [->|Hlt]; [|unfold cb_len, cb_capacity in *; lia].
        unfold cb_capacity, append_done. cbn. apply nlen_overlay.
        unfold append_slot in E.
        destruct (reserve mem size (sr_buffer s)) as [c1| |] eqn:Er; try discriminate E. cbn [rbind] in E.
        destruct (empty _ _ _ _) as [[sl b]| |] eqn:Ee; try discriminate E. cbn [rbind fst] in E.
        destruct (index (cb_buffer c1) sl) eqn:Ex; try discriminate E. cbn [rbind] in E.
        injection E as -> ->. unfold index in Ex.
        destruct (N.leb_spec (r_start slot) (r_end slot)); [|discriminate Ex].
        destruct (N.leb_spec (r_end slot) (nlen (cb_buffer (sr_buffer s)))); [|discriminate Ex].
        unfold r_len in *. lia.
    - injection H as <- <-. left. exists (IoError k). split; [reflexivity|].
      exists k. split; [reflexivity|]. split; [apply Hs; assumption|].
      intros H1 H2. destruct Hmode; congruence.
  Qed.

  Lemma sr_fill_cases fuel n s bs r s' : srep s bs -> buffering = true ->
    cb_capacity (sr_buffer s) - cb_len (sr_buffer s) <= N.of_nat fuel ->
    cb_len (sr_buffer s) < n -> n <= cb_capacity (sr_buffer s) ->
    sr_fill mem fuel n s = (r, s') ->
    (exists er, r = Err er /\ sio er)
    \/ (srep s' bs /\ cb_capacity (sr_buffer s') = cb_capacity (sr_buffer s)
        /\ ((r = Ok tt /\ n <= cb_len (sr_buffer s'))
                       \/ (r = Err UnexpectedEndOfInput /\ nlen bs < n))).
  Proof.
    intros Hr Hmode. revert s Hr.
    induction fuel as [|fuel IH]; intros s Hr Hf Hlt Hcap H; cbn [sr_fill] in H;
      destruct (N.ltb_spec (cb_len (sr_buffer s)) (cb_capacity (sr_buffer s))) as [Hc|Hc]; try lia.
    unfold bind in H.
    destruct (sr_append mem _ s) as [ra sa] eqn:Ea.
    apply (sr_append_cases _ _ bs) in Ea; [|assumption|left; assumption|lia].
    destruct Ea as [(er & -> & Hio)|(w & -> & Hr' & Hl & Hz & Hcp)].
    - injection H as <- <-. left. eauto.
    - specialize (Hcp ltac:(lia)).
      assert (Hle : forall s, srep s bs -> cb_len (sr_buffer s) + nlen (is_rest (sr_stream s)) = nlen bs).
      { intros x Hx. rewrite <- (sp_bytes _ _ Hx). unfold unread. rewrite nlen_app, nlen_content. reflexivity. }
      destruct (N.eqb_spec w 0) as [Hw|Hw].
      + specialize (Hz Hw). pose proof (Hle _ Hr') as Hb. rewrite Hz, nlen_nil in Hb.
        destruct (N.ltb_spec (cb_len (sr_buffer sa)) n) as [Hn|Hn]; injection H as <- <-;
          right; (split; [assumption|split; [assumption|]]); [right|left]; (split; [reflexivity|lia]).
      + destruct (N.leb_spec n (cb_len (sr_buffer sa))) as [Hn|Hn].
        * injection H as <- <-. right. split; [assumption|]. split; [assumption|]. left. split; [reflexivity|lia].
        * rewrite <- Hcp. apply IH in H; auto; lia.
  Qed.

  Lemma sr_peek_fill_cases fuel n s bs r s' : srep s bs -> pk = true ->
    n - cb_len (sr_buffer s) <= N.of_nat fuel ->
    sr_peek_fill mem fuel n s = (r, s') ->
    (exists er, r = Err er /\ sio er)
    \/ (srep s' bs
        /\ (buffering = true -> n <= cb_capacity (sr_buffer s) ->
            cb_capacity (sr_buffer s') = cb_capacity (sr_buffer s))
        /\ ((r = Ok tt /\ n <= cb_len (sr_buffer s'))
                       \/ (r = Err UnexpectedEndOfInput /\ nlen bs < n))).
  Proof.
    intros Hr Hmode. revert s Hr.
    induction fuel as [|fuel IH]; intros s Hr Hf H; cbn [sr_peek_fill] in H;
      destruct (N.ltb_spec (cb_len (sr_buffer s)) n) as [Hc|Hc]; try lia.
    1, 3: injection H as <- <-; right; split; [assumption|split; [auto|left; split; [reflexivity|assumption]]].
    set (more := if sr_buffering s then _ else _) in H.
    assert (Hmore : exists k, more s = (Ok k, s) /\ 0 < k
      /\ (buffering = true -> n <= cb_capacity (sr_buffer s) ->
          cb_len (sr_buffer s) + k <= cb_capacity (sr_buffer s))).
    { subst more. rewrite (sp_mode _ _ Hr). destruct buffering.
      - pose proof (sp_inv _ _ Hr) as [Hi _]. unfold lift, usub, cb_capacity, cb_len.
        destruct (N.leb_spec (cb_length (sr_buffer s)) (nlen (cb_buffer (sr_buffer s)))); [|lia].
        eexists. split; [reflexivity|]. unfold cb_len, cb_capacity in *. lia.
      - eexists. split; [reflexivity|]. split; [lia|discriminate]. }
    clearbody more. destruct Hmore as (k & Em & Hk & Hfit). unfold bind in H. rewrite Em in H.
    destruct (sr_append mem k s) as [ra sa] eqn:Ea.
    apply (sr_append_cases _ _ bs) in Ea; [|assumption|right; assumption|lia].
    destruct Ea as [(er & -> & Hio)|(w & -> & Hr' & Hl & Hz & Hcp)].
    - injection H as <- <-. left. eauto.
    - destruct (N.eqb_spec w 0) as [Hw|Hw].
      + injection H as <- <-. specialize (Hz Hw). right. split; [assumption|]. split; [auto|]. right.
        split; [reflexivity|]. rewrite <- (sp_bytes _ _ Hr'). unfold unread.
        rewrite Hz, app_nil_r, nlen_content. unfold cb_len in *. lia.
      + apply IH in H; [|assumption|lia]. destruct H as [H|(H1 & H2 & H3)]; [left; exact H|right].
        split; [exact H1|]. split; [|exact H3]. intros Hb Hn. specialize (Hcp (Hfit Hb Hn)).
        rewrite <- Hcp in *. apply H2; assumption.
  Qed.

  (** ** Reading *)

  Lemma srep_consume n s bs : srep s bs -> n <= cb_len (sr_buffer s) ->
    exists c, on_buffer (consume_into n) s = (Ok (ntake n bs), set_buffer c s)
      /\ srep (set_buffer c s) (ndrop n bs)
      /\ cb_len c = cb_len (sr_buffer s) - n
      /\ cb_capacity c = cb_capacity (sr_buffer s).
  Proof.
    intros [Hinv Hb Hs Hm Hsm Hem] Hn. unfold on_buffer.
    destruct (consume_into_ok n (sr_buffer s) Hinv Hn) as (c & E & Hc1 & Hc2 & Hc3).
    rewrite E. exists c.
    assert (Hl : cb_len c = cb_len (sr_buffer s) - n).
    { unfold cb_len. rewrite <- !nlen_content, Hc2, nlen_drop. reflexivity. }
    split; [|split; [|split; [exact Hl|unfold cb_capacity; rewrite Hc3; reflexivity]]].
    - f_equal. f_equal. rewrite <- Hb. unfold unread. rewrite take_app_le; [reflexivity|].
      rewrite nlen_content. exact Hn.
    - constructor; cbn; auto.
      + rewrite <- Hb. unfold unread. cbn. rewrite Hc2, drop_app_le; [reflexivity|].
        rewrite nlen_content. exact Hn.
      + rewrite nlen_drop. lia.
      + intros H1 H2. specialize (Hem H1 H2). lia.
  Qed.

  Lemma srep_stream s bs i r n : srep s bs -> cb_len (sr_buffer s) = 0 ->
    is_read_exact n (sr_stream s) = (r, i) ->
    (exists er, r = Err er /\ sio er)
    \/ (n <= nlen bs /\ r = Ok (ntake n bs) /\ srep (set_stream i s) (ndrop n bs))
    \/ (nlen bs < n /\ r = Err (IoError IoUnexpectedEof) /\ srep (set_stream i s) []).
  Proof.
    intros [Hinv Hb Hs Hm Hsm Hem] H0 H.
    assert (Hbs : is_rest (sr_stream s) = bs).
    { rewrite <- Hb. unfold unread. replace (content (sr_buffer s)) with (@nil byte); [reflexivity|].
      symmetry. apply nlen_0. rewrite nlen_content. exact H0. }
    assert (Hc : content (sr_buffer s) = []) by (apply nlen_0; rewrite nlen_content; exact H0).
    apply read_exact_cases in H as [Hi [(H1 & -> & H2)|[(H1 & -> & H2)|(k & -> & Hk & Hk')]]];
      rewrite ?Hbs in *.
    - right. left. split; [assumption|]. split; [reflexivity|]. constructor; cbn; auto.
      + unfold unread. cbn. rewrite Hc, H2. reflexivity.
      + eapply incl_tran; eassumption.
      + rewrite nlen_drop. lia.
    - right. right. split; [assumption|]. split; [reflexivity|]. constructor; cbn; auto.
      + unfold unread. cbn. rewrite Hc, H2. reflexivity.
      + eapply incl_tran; eassumption.
      + rewrite nlen_nil. lia.
    - left. exists (IoError k). split; [reflexivity|]. exists k. split; [reflexivity|].
      split; [apply Hs; assumption|]. auto.
  Qed.

  (** Outcomes of reading [n] bytes when [bs] are left and the ring buffer has
      capacity [cap].  If the input ends, a buffered read of less than the
      capacity leaves it where it was, any other takes what is left. *)
  Definition short (n cap : N) : bool := buffering && (n <? cap).

  Definition read_outcome (n : N) (bs : bytes) (cap : N) (r : res bytes) (s' : sreader) : Prop :=
    (exists er, r = Err er /\ sio er)
    \/ (cb_capacity (sr_buffer s') = cap /\
        ((n <= nlen bs /\ r = Ok (ntake n bs) /\ srep s' (ndrop n bs))
         \/ (nlen bs < n
             /\ r = Err (if short n cap then UnexpectedEndOfInput else IoError IoUnexpectedEof)
             /\ srep s' (if short n cap then bs else [])))).

  Lemma sr_drain_cases n s bs r s' : srep s bs ->
    (short n (cb_capacity (sr_buffer s)) = true -> n <= cb_len (sr_buffer s)) ->
    sr_drain n s = (r, s') -> read_outcome n bs (cb_capacity (sr_buffer s)) r s'.
  Proof.
    intros Hr Hshort H. unfold sr_drain in H. set (len := N.min (cb_len (sr_buffer s)) n) in *.
    assert (Hfirst : exists s1,
      (if 0 <? cb_len (sr_buffer s) then on_buffer (consume_into len) else ret []) s
      = (Ok (ntake len bs), s1) /\ srep s1 (ndrop len bs)
      /\ cb_len (sr_buffer s1) = cb_len (sr_buffer s) - len
      /\ cb_capacity (sr_buffer s1) = cb_capacity (sr_buffer s)).
    { destruct (N.ltb_spec 0 (cb_len (sr_buffer s))) as [H0|H0].
      - destruct (srep_consume len s bs Hr ltac:(lia)) as (c & E & Hc & Hl & Hcp). eauto 6.
      - exists s. replace len with 0 by lia. rewrite take_0, drop_0. split; [reflexivity|].
        split; [assumption|]. split; [lia|reflexivity]. }
    destruct Hfirst as (s1 & E1 & Hr1 & Hl1 & Hcp1). unfold bind in H. rewrite E1 in H.
    assert (Hlen : cb_len (sr_buffer s) <= nlen bs).
    { rewrite <- (sp_bytes _ _ Hr). unfold unread. rewrite nlen_app, nlen_content. unfold cb_len. lia. }
    destruct (N.eqb_spec (n - len) 0) as [Hz|Hz].
    - injection H as <- <-. right. split; [assumption|]. left. replace n with len by lia. split; [lia|].
      split; [reflexivity|assumption].
    - destruct (short n (cb_capacity (sr_buffer s))) eqn:Esh; [specialize (Hshort eq_refl); lia|].
      destruct (is_read_exact (n - len) (sr_stream s1)) as [rx i] eqn:Ex.
      apply (srep_stream _ (ndrop len bs)) in Ex; [|assumption|lia].
      rewrite nlen_drop in Ex.
      destruct Ex as [(er & -> & Hio)|[(H1 & -> & H2)|(H1 & -> & H2)]].
      + injection H as <- <-. left. eauto.
      + injection H as <- <-. right. split; [assumption|]. left. split; [lia|]. split.
        * f_equal. replace n with (len + (n - len)) at 2 by lia. rewrite take_add. reflexivity.
        * rewrite drop_drop in H2. replace n with (n - len + len) by lia. exact H2.
      + injection H as <- <-. right. split; [assumption|]. right. rewrite Esh. split; [lia|]. auto.
  Qed.

  Lemma sr_read_cases n s bs r s' : srep s bs ->
    sr_read mem n s = (r, s') -> read_outcome n bs (cb_capacity (sr_buffer s)) r s'.
  Proof.
    intros Hr H. unfold sr_read in H.
    destruct (N.leb_spec n (cb_len (sr_buffer s))) as [Hn|Hn].
    - destruct (srep_consume n s bs Hr Hn) as (c & E & Hc & Hl & Hcp). rewrite E in H.
      injection H as <- <-. right. split; [assumption|]. left. split; [|auto].
      rewrite <- (sp_bytes _ _ Hr). unfold unread. rewrite nlen_app, nlen_content.
      unfold cb_len in Hn. lia.
    - unfold sr_read_slow in H. unfold bind in H. rewrite (sp_mode _ _ Hr) in H.
      fold (short n (cb_capacity (sr_buffer s))) in H.
      destruct (short n (cb_capacity (sr_buffer s))) eqn:Eb.
      + pose proof Eb as Eb'. apply andb_true_iff in Eb as [Eb1 Eb2]. apply N.ltb_lt in Eb2.
        destruct (sr_fill mem _ n s) as [rf sf] eqn:Ef.
        apply (sr_fill_cases _ _ _ bs) in Ef; [|assumption|assumption|lia|assumption|lia].
        destruct Ef as [(er & -> & Hio)|(Hr' & Hcp & [[-> Hl]|[-> Hl]])].
        * injection H as <- <-. left. eauto.
        * rewrite <- Hcp. eapply sr_drain_cases; [eassumption| |eassumption]. auto.
        * injection H as <- <-. right. split; [assumption|]. right. rewrite Eb'. auto.
      + cbn [ret] in H. eapply sr_drain_cases; [eassumption| |eassumption]. congruence.
  Qed.

  Lemma read_outcome_post n s bs cap r s' : srep s bs -> read_outcome n bs cap r s' ->
    escape sio r \/ post srep (Some bs) (dread n (Some bs)) r s'.
  Proof.
    intros Hr [(er & -> & Hio)|(_ & [(H1 & -> & H2)|(H1 & -> & H2)])].
    - left. unfold escape. eauto.
    - right. unfold dread. destruct (N.eqb_spec n 0) as [->|Hn].
      + rewrite take_0, drop_0 in *. cbn. auto.
      + destruct (N.leb_spec n (nlen bs)); [|lia]. cbn. split; [reflexivity|]. split; [assumption|].
        intros E. injection E as ->. rewrite drop_nil. reflexivity.
    - right. unfold dread. destruct (N.eqb_spec n 0); [lia|].
      destruct (N.leb_spec n (nlen bs)); [lia|]. cbn. eexists. split; [reflexivity|].
      split; [destruct (short n cap); reflexivity|]. split; [eauto|].
      intros E. injection E as ->. destruct (short n cap); assumption.
  Qed.

  Lemma sr_read_sim n : sims (sr_read mem n) (dread n).
  Proof.
    intros s o Hr. destruct (sr_read mem n s) as [r s'] eqn:E. cbn [fst snd].
    destruct o as [bs|]; cbn in Hr.
    - eapply read_outcome_post; [eassumption|]. eapply sr_read_cases; eassumption.
    - destruct Hr as [bs Hr]. apply (sr_read_cases _ _ bs) in E; [|assumption].
      unfold dread. destruct (N.eqb_spec n 0) as [->|]; [|right; exact I].
      destruct (read_outcome_post _ _ _ _ _ _ Hr E) as [He|Hp]; [left; assumption|right].
      cbn in Hp |- *. destruct Hp as (H1 & H2 & _). split; [assumption|]. split; [eauto|discriminate].
  Qed.

  Lemma sr_peek_cases n s bs r s' : pk = true -> srep s bs -> sr_peek mem n s = (r, s') ->
    (exists er, r = Err er /\ sio er)
    \/ (srep s' bs
        /\ (buffering = true -> n <= cb_capacity (sr_buffer s) ->
            cb_capacity (sr_buffer s') = cb_capacity (sr_buffer s))
        /\ ((n <= nlen bs /\ r = Ok (ntake n bs))
            \/ (nlen bs < n /\ r = Err UnexpectedEndOfInput))).
  Proof.
    intros Hpk Hr H. unfold sr_peek, bind in H.
      destruct (sr_peek_fill mem (N.to_nat n) n s) as [rf sf] eqn:Ef.
      apply (sr_peek_fill_cases _ _ _ bs) in Ef; [|assumption|assumption|lia].
      destruct Ef as [(er & -> & Hio)|(Hr' & Hcp & [[-> Hl]|[-> Hl]])].
      - injection H as <- <-. left. eauto.
      - unfold see_buffer in H.
        destruct (as_slices_of_length_ok n (sr_buffer sf) (sp_inv _ _ Hr') Hl) as (ab & E1 & E2).
        rewrite E1 in H. cbn [rbind] in H. rewrite E2 in H. injection H as <- <-.
        right. split; [assumption|]. split; [assumption|]. left. rewrite <- (sp_bytes _ _ Hr'). unfold unread.
        rewrite nlen_app, nlen_content, take_app_le by (rewrite nlen_content; exact Hl).
        split; [unfold cb_len in Hl; lia|reflexivity].
      - injection H as <- <-. right. split; [assumption|]. split; [assumption|]. right. auto.
  Qed.

  Lemma sr_peek_sim n : pk = true -> sims (sr_peek mem n) (dpeek (dread n)).
  Proof.
    intros Hpk s o Hr. destruct (sr_peek mem n s) as [r s'] eqn:E. cbn [fst snd].
    destruct o as [bs|]; cbn in Hr.
    - destruct (sr_peek_cases n s bs r s' Hpk Hr E) as [(er & -> & Hio)|(Hr' & _ & [[Hl ->]|[Hl ->]])].
      + left. unfold escape. eauto.
      + right. unfold dpeek, dread. destruct (N.eqb_spec n 0) as [->|].
        * rewrite take_0. cbn. auto.
        * destruct (N.leb_spec n (nlen bs)); [|lia]. cbn. auto.
      + right. unfold dpeek, dread. destruct (N.eqb_spec n 0) as [->|]; [lia|].
        destruct (N.leb_spec n (nlen bs)); [lia|]. cbn. exists UnexpectedEndOfInput.
        split; [reflexivity|]. split; [reflexivity|]. split; [eauto|].
        intros E'. injection E' as ->. assumption.
    - destruct Hr as [bs Hr]. unfold dpeek, dread. destruct (N.eqb_spec n 0) as [->|]; [|right; exact I].
      destruct (sr_peek_cases 0 s bs r s' Hpk Hr E) as [(er & -> & Hio)|(Hr' & _ & [[Hl ->]|[Hl ->]])]; [|right|lia].
      + left. unfold escape. eauto.
      + cbn. rewrite take_0. split; [reflexivity|]. split; [eauto|discriminate].
  Qed.

  Lemma skip_sim (rd : N -> M sreader bytes) : (forall n, sims (rd n) (dread n)) ->
    forall n, sims (default_skip rd n) (dmap (fun _ => tt) (dread n)).
  Proof.
    intros Hrd n. unfold default_skip.
    assert (Hk : n <= 1024 * N.of_nat (N.to_nat ((n + 1023) / 1024))).
    { rewrite N2Nat.id. pose proof (N.div_mod (n + 1023) 1024 ltac:(lia)).
      pose proof (N.mod_lt (n + 1023) 1024 ltac:(lia)). lia. }
    revert Hk. generalize (N.to_nat ((n + 1023) / 1024)) as k. revert n.
    intros n k. revert n. induction k as [|k IH]; intros n Hk; cbn [skip_loop].
    - destruct (N.eqb_spec n 0) as [->|]; [|lia]. apply sim_ret.
    - destruct (N.eqb_spec n 0) as [->|]; [apply sim_ret|].
      set (c := if n <? 1024 then n else 1024).
      assert (Hc : c <= n /\ n - c <= 1024 * N.of_nat k /\ c + (n - c) = n).
      { subst c. destruct (N.ltb_spec n 1024); lia. }
      eapply (sim_ext _ _ _ _ (dbind (dread c) (fun _ => dmap (fun _ => tt) (dread (n - c))))).
      + reflexivity.
      + intros o. rewrite (dread_add c (n - c) (fun _ _ => dret tt)).
        replace (c + (n - c)) with n by lia. reflexivity.
      + apply sim_bind; [apply Hrd|]. intros _. apply IH. lia.
  Qed.

  Lemma stream_ok : reader_ok h (StreamReader mem e) pk srep sio.
  Proof.
    constructor; cbn.
    - apply sio_not_eof.
    - apply sr_read_sim.
    - apply sr_read_sim.
    - intros Hp n. apply sr_peek_sim. assumption.
    - intros Hp n. apply sr_peek_sim. assumption.
    - apply skip_sim, sr_read_sim.
    - auto.
    - discriminate.
    - discriminate.
    - discriminate.
    - intros n size min s bs [H1 H2 H3 H4 H5 H6]. eexists. split; [reflexivity|]. constructor; auto.
    - intros s bs Hr. unfold sr_fuel. rewrite <- (sp_bytes _ _ Hr). unfold unread.
      rewrite app_length, content_length. reflexivity.
    - intros s bs Hr. apply (sp_small _ _ Hr).
    - congruence.
  Qed.

  Lemma sr_start_rep i : is_sched i = sched0 -> nlen (is_rest i) <= umax ->
    srep (sr_start mem buffering i) (is_rest i).
  Proof.
    intros Hs Hl. pose proof (with_capacity_ok mem Hmem (if buffering then 8 * 1024 else 0)) as (H1 & H2 & H3).
    constructor; cbn [sr_start sr_buffer sr_stream sr_buffering]; auto.
    - rewrite Hs. apply incl_refl.
  Qed.
End Stream.
