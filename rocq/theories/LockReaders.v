(* Pairs of the readers of src/readable.rs that move in lock step. *)
From Verif Require Export Lock.

(** Lengths read by a lawful reader. *)
Lemma read_length_possible {St} h (VH : valid_host h) (R : reader St) pk rep io b n s bs :
  reader_ok h R pk rep io -> rep s bs -> fst (read_length h R b s) = Ok n -> possible_length h (LType b) n.
Proof.
  intros OK Hr E. pose proof (read_length_sim h R pk rep io OK (vh_usize_lo h VH) b s (Some bs) Hr) as H.
  rewrite E in H. destruct H as [(er & E' & _)|H]; [discriminate|]. unfold post in H.
  destruct (dprefix (h_lim h) (rd_endian R) b (Some bs)) as [a o| |er sure|f sure|] eqn:Ed.
  - destruct H as (E' & _). injection E' as ->. eapply dprefix_possible; eauto.
  - destruct H as (er & E' & _). discriminate.
  - destruct H as [[E' _]|[_ (er' & E' & _)]]; discriminate.
  - destruct H as [E'|[_ (er' & E' & _)]]; discriminate.
  - exfalso. revert Ed. unfold dprefix, dbasic, dvarint, dword, dmap, dbind, dread, dret.
    destruct b; cbn [N.of_nat N.eqb Pos.of_succ_nat];
      repeat match goal with
             | |- context [if ?c then _ else _] => destruct c
             | |- _ => discriminate
             end.
Qed.

(* ------------------------------------------------------------------ *)
(** * The two buffer readers *)

Section Buffers.
  Context (h : host) (VH : valid_host h) (e : endian).
  Notation B := (BufferReader e).
  Notation C := (CopyingBufferReader e).

  Definition same_rest (s1 s2 : breader) : Prop :=
    br_rest s1 = br_rest s2 /\ nlen (br_rest s2) <= h_alloc_max h.
  Notation nothing := (fun er (_ : breader) => no_io er).
  Notation lockb := (lock same_rest nothing nothing).

  Lemma same_advance n s1 s2 : same_rest s1 s2 -> same_rest (br_advance n s1) (br_advance n s2).
  Proof.
    intros [E H]. unfold same_rest, br_advance. cbn [br_rest]. rewrite E, nlen_drop.
    split; [reflexivity|lia].
  Qed.

  Lemma br_read_lock n : lockb (br_read n) (br_read n).
  Proof.
    intros s1 s2 Hr. right. right. unfold br_read. destruct (Hr) as [-> _].
    destruct (n <=? nlen (br_rest s2)); cbn [fst snd]; auto using same_advance.
  Qed.

  Lemma br_peek_lock n : lockb (br_peek n) (br_peek n).
  Proof.
    intros s1 s2 Hr. right. right. unfold br_peek. destruct (Hr) as [-> _].
    destruct (n <=? nlen (br_rest s2)); cbn [fst snd]; auto.
  Qed.

  Lemma buffers_locked : locked same_rest nothing nothing True B C True.
  Proof.
    constructor; cbn [BufferReader CopyingBufferReader rd_endian rd_read rd_read_ptr rd_peek rd_peek_ptr rd_can
                      rd_borrow_r rd_alloc rd_fuel]; auto using br_read_lock, br_peek_lock.
    - intros n s1 s2 [E _]. unfold br_can. rewrite E. reflexivity.
    - intros n size min s1 s2 [E H]. right. right. cbn. split; [reflexivity|split; assumption].
    - intros _ s1 s2 [E _]. unfold br_fuel. rewrite E. reflexivity.
  Qed.

  (** When a slice seen in place is the same as one copied. *)
  Definition same_in_place (lm : lenmode) (t : ty) : Prop :=
    is_prim h t = true -> no_conv h B t = true ->
    honest h t /\ h_size h t <> 0 /\ fits h lm (h_size h t)
    /\ (conversion_necessary (h_native h) e = true -> convertible t).

  (** What reading [k] elements of plain data by copying comes to. *)
  Lemma read_vec_plain t rd n s : honest h t -> is_prim h t = true -> h_size h t <> 0 ->
    no_conv h B t = true -> (conversion_necessary (h_native h) e = true -> convertible t) ->
    nlen (br_rest s) <= h_alloc_max h ->
    exists log, read_vec h C t rd n s =
      if n * h_size h t <=? nlen (br_rest s) then
        (Ok (map (mem_read h t) (chunks (N.to_nat (h_size h t)) (N.to_nat n) (ntake (n * h_size h t) (br_rest s)))),
         {| br_addr := br_addr s + n * h_size h t; br_rest := ndrop (n * h_size h t) (br_rest s);
            br_log := log |})
      else (Err UnexpectedEndOfInput, s).
  Proof.
    intros Hh Hp Hz Hnc Hc Hl. pose proof (prim_plain h VH t Hh Hp) as Hpl.
    pose proof (vh_alloc h VH) as Hal.
    unfold read_vec. rewrite (plain_min h VH) by exact Hpl. rewrite (N.mul_comm (h_size h t) n).
    rewrite (vh_capacity h VH) by exact Hz. rewrite Hp. unfold usize_max.
    destruct (N.leb_spec (n * h_size h t) (nlen (br_rest s))) as [Hn|Hn].
    - destruct (N.ltb_spec (l_usize_max (h_lim h)) (n * h_size h t)); [lia|].
      unfold alloc. destruct (N.ltb_spec (h_alloc_max h) (n * h_size h t)); [lia|].
      unfold bind, require, lift. cbn [CopyingBufferReader rd_can rd_alloc rd_read_ptr rd_endian br_can].
      destruct (N.leb_spec (n * h_size h t) (nlen (br_rest s))); [|lia].
      cbn [br_alloc]. unfold br_read. cbn [br_rest].
      destruct (N.leb_spec (n * h_size h t) (nlen (br_rest s))); [|lia].
      unfold br_advance. cbn [br_rest br_addr br_log].
      eexists. rewrite (conv_chunks h VH); auto.
      + rewrite (raw_chunks h e t); auto.
        * unfold no_conv in Hnc. cbn [BufferReader rd_endian] in Hnc. apply orb_prop in Hnc as [Hnc|Hnc].
          -- left. apply N.eqb_eq in Hnc. lia.
          -- right. unfold conversion_necessary in Hnc. destruct (h_native h), e; cbn in Hnc; congruence.
        * rewrite nlen_take, N2Nat.id. lia.
      + rewrite nlen_take, N2Nat.id. lia.
    - exists []. destruct (_ <? _); [reflexivity|]. unfold bind, require.
      cbn [CopyingBufferReader rd_can br_can]. destruct (N.leb_spec (n * h_size h t) (nlen (br_rest s))); [lia|].
      reflexivity.
  Qed.

  Lemma read_cow_lock lm t rd1 rd2 n : same_in_place lm t -> possible_length h lm n -> lockb rd1 rd2 ->
    lockb (read_cow h B t rd1 n) (read_cow h C t rd2 n).
  Proof.
    intros Hs Hn Hrd. unfold read_cow at 1. cbn [BufferReader rd_borrow].
    destruct (is_prim h t && no_conv h B t)%bool eqn:Ep.
    2: { unfold read_cow. cbn [CopyingBufferReader rd_borrow].
         change (no_conv h C t) with (no_conv h B t). rewrite Ep. eapply lock_vec, Hrd. apply buffers_locked. }
    apply andb_prop in Ep as [Hp Hnc]. destruct (Hs Hp Hnc) as (Hh & Hz & Hf & Hcv). specialize (Hf n Hn).
    unfold read_cow. cbn [CopyingBufferReader rd_borrow].
    replace (if is_prim h t && no_conv h C t then None else None)%bool with (@None (N -> M breader (N * bytes)))
      by (destruct (is_prim h t && no_conv h C t)%bool; reflexivity).
    intros s1 s2 Hr. right. right. destruct Hr as [Er Hl].
    destruct (read_vec_plain t rd2 n s2 Hh Hp Hz Hnc Hcv Hl) as [log ->].
    unfold usize_max. destruct (N.ltb_spec (l_usize_max (h_lim h)) (n * h_size h t)); [lia|]. cbn [andb].
    rewrite N.mod_small by lia.
    match goal with |- fst (?m s1) = _ /\ _ => assert (Hm : exists log1, m s1 =
      if n * h_size h t <=? nlen (br_rest s2) then
        (Ok (map (mem_read h t) (chunks (N.to_nat (h_size h t)) (N.to_nat n) (ntake (n * h_size h t) (br_rest s2)))),
         {| br_addr := br_addr s1 + n * h_size h t; br_rest := ndrop (n * h_size h t) (br_rest s2);
            br_log := log1 |})
      else (Err UnexpectedEndOfInput, s1)) end.
    { unfold bind at 1. unfold ret at 1. unfold bind at 1. unfold br_borrow.
      rewrite Er. destruct (N.leb_spec (n * h_size h t) (nlen (br_rest s2))) as [Hn2|Hn2]; [|exists []; reflexivity].
      assert (Hlt : nlen (ntake (n * h_size h t) (br_rest s2)) = n * h_size h t) by (rewrite nlen_take; lia).
      unfold br_advance. rewrite Er.
      destruct ((h_align h t =? 1) || (br_addr s1 mod h_align h t =? 0))%bool.
      - unfold bind, lift. rewrite (slice_count_prim h VH) by assumption. rewrite Hlt, N.div_mul by exact Hz.
        eexists. reflexivity.
      - unfold alloc. destruct (N.ltb_spec (h_alloc_max h) (n * h_size h t)); [lia|].
        eexists. reflexivity. }
    destruct Hm as [log1 ->]. destruct (_ <=? _); cbn [fst snd]; (split; [reflexivity|]).
    - unfold same_rest. cbn [br_rest]. rewrite nlen_drop. split; [reflexivity|lia].
    - split; assumption.
  Qed.

  Lemma plain_u8 : honest h TU8 /\ is_prim h TU8 = true /\ h_size h TU8 = 1 /\ convertible TU8 /\ no_conv h B TU8 = true.
  Proof.
    assert (h_size h TU8 = 1) by apply (vh_prim h VH U8).
    repeat split; auto. unfold no_conv. rewrite H. reflexivity.
  Qed.

  Lemma read_constant_lock c : lockb (read_constant h B c) (read_constant h C c).
  Proof.
    unfold read_constant. apply lock_bind.
    2: { intros b. destruct (list_eq_dec _ _ _); [apply lock_ret|apply lock_fail]. }
    cbn [BufferReader CopyingBufferReader rd_borrow]. unfold read_vec_u8.
    intros s1 s2 [Er Hl]. right. right. destruct plain_u8 as (Hh & Hp & Hz & Hcv & Hnc).
    destruct (read_vec_plain TU8 (read_elem_u8 h C) (nlen c) s2 Hh Hp ltac:(lia) Hnc (fun _ => Hcv) Hl) as [log E].
    unfold mmap, bind. rewrite E. rewrite Hz, N.mul_1_r. unfold br_borrow. rewrite Er.
    destruct (N.leb_spec (nlen c) (nlen (br_rest s2))).
    - cbn [fst snd ret]. split.
      + f_equal. change (N.to_nat 1) with 1%nat.
        assert (Hlt : nlen (ntake (nlen c) (br_rest s2)) = N.of_nat (N.to_nat (nlen c))) by (rewrite nlen_take; lia).
        pose proof (raw_chunks h e TU8 (N.to_nat (nlen c)) (ntake (nlen c) (br_rest s2)) I) as Hraw.
        rewrite Hz, N.mul_1_r in Hraw. change (N.to_nat 1) with 1%nat in Hraw. rewrite Hraw; [|left; lia|exact Hlt].
        symmetry. apply (as_bytes_chunks h C false), Hlt.
      + unfold same_rest, br_advance. cbn [br_rest]. rewrite Er, nlen_drop. split; [reflexivity|lia].
    - cbn [fst snd]. split; [reflexivity|]. split; assumption.
  Qed.

  (** No borrowed references; slices that may be seen in place look the same when
      copied. *)
  Definition owned (t : ty) : Prop := lendable True True same_in_place False (fun _ => True) LDefault t.

  Theorem buffers_lock t : owned t -> lockb (read h B t) (read h C t).
  Proof.
    intros Ho. eapply (lock_read same_rest nothing nothing); try exact Ho.
    - intros _ er _ [].
    - intros _ er _ [].
    - apply buffers_locked.
    - exact read_cow_lock.
    - intros [].
    - intros. apply read_constant_lock.
    - intros b n s1 s2 [_ Hl] E. eapply (read_length_possible h VH C true (brep h) no_io); [apply copying_ok, VH| |exact E].
      split; [reflexivity|exact Hl].
  Qed.
End Buffers.

(* ------------------------------------------------------------------ *)
(** * Two streams with the same content *)

Section Streams.
  Context (h : host) (VH : valid_host h) (e : endian) (buffering pk : bool).
  Context (mem1 mem2 : N -> bytes) (Hmem1 : forall n, n <= nlen (mem1 n)) (Hmem2 : forall n, n <= nlen (mem2 n)).
  Context (sched1 sched2 : list read_event).
  Context (Hclean1 : ~ In (RErr IoUnexpectedEof) sched1) (Hclean2 : ~ In (RErr IoUnexpectedEof) sched2).

  Notation rep1 := (srep h buffering pk sched1).
  Notation rep2 := (srep h buffering pk sched2).
  Notation io1 := (fun er (_ : sreader) => sio buffering pk sched1 er).
  Notation io2 := (fun er (_ : sreader) => sio buffering pk sched2 er).

  Definition same_unread (s1 s2 : sreader) : Prop := exists bs, rep1 s1 bs /\ rep2 s2 bs
    /\ (buffering = true -> cb_capacity (sr_buffer s1) = cb_capacity (sr_buffer s2)
                            /\ 16 <= cb_capacity (sr_buffer s1)).
  Notation locks := (lock same_unread io1 io2).

  Lemma short_same n c1 c2 : (buffering = true -> c1 = c2) -> short buffering n c1 = short buffering n c2.
  Proof. intros H. unfold short. destruct buffering; [rewrite H; reflexivity|reflexivity]. Qed.

  Lemma sr_read_lock n : locks (sr_read mem1 n) (sr_read mem2 n).
  Proof.
    intros s1 s2 (bs & Hr1 & Hr2 & Hcap).
    destruct (sr_read mem1 n s1) as [r1 s1'] eqn:E1. destruct (sr_read mem2 n s2) as [r2 s2'] eqn:E2.
    pose proof (sr_read_cases h mem1 Hmem1 buffering pk sched1 n s1 bs r1 s1' Hr1 E1) as H1.
    pose proof (sr_read_cases h mem2 Hmem2 buffering pk sched2 n s2 bs r2 s2' Hr2 E2) as H2.
    cbn [fst snd].
    destruct H1 as [(er & -> & Hio)|(Hc1 & H1)]; [left; exists er; auto|].
    destruct H2 as [(er & -> & Hio)|(Hc2 & H2)]; [right; left; exists er; auto|].
    right. right.
    assert (Hsh : short buffering n (cb_capacity (sr_buffer s1)) = short buffering n (cb_capacity (sr_buffer s2)))
      by (apply short_same; intros Hb; apply Hcap, Hb).
    destruct H1 as [(Hn & -> & H1)|(Hn & -> & H1)], H2 as [(Hn2 & -> & H2)|(Hn2 & -> & H2)]; try lia.
    - split; [reflexivity|]. exists (ndrop n bs). split; [assumption|]. split; [assumption|].
      intros Hb. rewrite Hc1, Hc2. auto.
    - rewrite Hsh in *. split; [reflexivity|].
      exists (if short buffering n (cb_capacity (sr_buffer s2)) then bs else []). split; [assumption|]. split; [assumption|].
      intros Hb. rewrite Hc1, Hc2. auto.
  Qed.

  Lemma sr_peek_lock n : pk = true -> n <= 16 -> locks (sr_peek mem1 n) (sr_peek mem2 n).
  Proof.
    intros Hpk H16 s1 s2 (bs & Hr1 & Hr2 & Hcap).
    destruct (sr_peek mem1 n s1) as [r1 s1'] eqn:E1. destruct (sr_peek mem2 n s2) as [r2 s2'] eqn:E2.
    pose proof (sr_peek_cases h mem1 Hmem1 buffering pk sched1 n s1 bs r1 s1' Hpk Hr1 E1) as H1.
    pose proof (sr_peek_cases h mem2 Hmem2 buffering pk sched2 n s2 bs r2 s2' Hpk Hr2 E2) as H2.
    cbn [fst snd].
    destruct H1 as [(er & -> & Hio)|(Hr1' & Hc1 & H1)]; [left; exists er; auto|].
    destruct H2 as [(er & -> & Hio)|(Hr2' & Hc2 & H2)]; [right; left; exists er; auto|].
    right. right. split.
    - destruct H1 as [(Hn & ->)|(Hn & ->)], H2 as [(Hn2 & ->)|(Hn2 & ->)]; try lia; reflexivity.
    - exists bs. split; [assumption|]. split; [assumption|]. intros Hb. destruct (Hcap Hb) as [Hc Hle].
      rewrite Hc1, Hc2 by (auto; lia). auto.
  Qed.

  Lemma sr_fuel_bs s bs sched : srep h buffering pk sched s bs -> sr_fuel s = S (length bs).
  Proof.
    intros Hr. unfold sr_fuel. rewrite <- (sp_bytes _ _ _ _ _ _ Hr). unfold unread.
    rewrite app_length. pose proof (nlen_content (sr_buffer s)) as H. unfold nlen, cb_len in *. lia.
  Qed.

  Lemma streams_locked : locked same_unread io1 io2 True (StreamReader mem1 e) (StreamReader mem2 e) (pk = true).
  Proof.
    constructor; cbn [StreamReader rd_endian rd_read rd_read_ptr rd_peek rd_peek_ptr rd_can rd_borrow_r rd_alloc rd_fuel];
      auto using sr_read_lock, sr_peek_lock.
    - intros n size min s1 s2 (bs & Hr1 & Hr2 & Hcap). right. right. split; [reflexivity|]. exists bs.
      split; [|split; [|exact Hcap]].
      + destruct Hr1. constructor; assumption.
      + destruct Hr2. constructor; assumption.
    - intros _ s1 s2 (bs & Hr1 & Hr2 & _). rewrite (sr_fuel_bs s1 bs sched1 Hr1), (sr_fuel_bs s2 bs sched2 Hr2). reflexivity.
  Qed.

  (** Only `peek_tag` matters. *)
  Definition may_peek (t : ty) : Prop := lendable True (pk = true) (fun _ _ => True) True (fun _ => True) LDefault t.

  Theorem streams_lock t : may_peek t -> locks (read h (StreamReader mem1 e) t) (read h (StreamReader mem2 e) t).
  Proof.
    intros Ht.
    eapply (lock_read same_unread io1 io2); try exact Ht.
    - intros _ er _. apply sio_not_eof. exact Hclean1.
    - intros _ er _. apply sio_not_eof. exact Hclean2.
    - apply streams_locked.
    - intros lm t0 rd1 rd2 n _ _ Hrd. unfold read_cow. cbn [StreamReader rd_borrow].
      replace (if is_prim h t0 && no_conv h (StreamReader mem1 e) t0 then None else None)%bool
        with (@None (N -> M sreader (N * bytes))) by (destruct (_ && _)%bool; reflexivity).
      replace (if is_prim h t0 && no_conv h (StreamReader mem2 e) t0 then None else None)%bool
        with (@None (N -> M sreader (N * bytes))) by (destruct (_ && _)%bool; reflexivity).
      eapply lock_vec; [apply streams_locked|exact Hrd].
    - intros _. repeat split.
    - intros c _ _. unfold read_constant. cbn [StreamReader rd_borrow]. apply lock_bind.
      + eapply lock_vec_u8, streams_locked.
      + intros b. destruct (list_eq_dec _ _ _); [apply lock_ret|apply lock_fail].
    - intros b n s1 s2 (bs & _ & Hr2 & _) E.
      eapply (read_length_possible h VH (StreamReader mem2 e) pk rep2 (sio buffering pk sched2)); [|exact Hr2|exact E].
      apply stream_ok; assumption.
  Qed.
End Streams.

Lemma peeks_anything t : may_peek true t.
Proof.
  assert (H : forall t lm, lendable True (true = true) (fun _ _ => True) True (fun _ => True) lm t); [|apply H].
  clear. induction t as [s|k|k t IH|t n IH|t n IH|t IH|t1 t2 IH1 IH2|ts IH|i t IH|k t IH|k tk tv IHk IHv|t IH|d fs IH|d vs IH|]
    using ty_ind'; intros lm; cbn [lendable]; auto.
  - destruct k; auto.
  - destruct k; auto.
  - induction IH; cbn; auto.
  - induction IH as [|f r Hf Hr IHr]; cbn; [exact I|]. split; [|exact IHr]. right. auto.
  - split; [auto|]. induction IH as [|v r Hv Hr IHr]; cbn; [exact I|]. split; [|exact IHr].
    induction Hv as [|f r' Hf Hr' IHr']; cbn; [exact I|]. split; [|exact IHr']. right. auto.
Qed.

(** Without `peek_tag`. *)
Lemma no_peek_may t pk : no_peek t -> may_peek pk t.
Proof.
  assert (H : forall t lm, no_peek t -> lendable True (pk = true) (fun _ _ => True) True (fun _ => True) lm t); [|apply H].
  clear. induction t as [s|k|k t IH|t n IH|t n IH|t IH|t1 t2 IH1 IH2|ts IH|i t IH|k t IH|k tk tv IHk IHv|t IH|d fs IH|d vs IH|]
    using ty_ind'; intros lm; cbn [lendable no_peek]; auto.
  - destruct k; auto.
  - destruct k; auto.
  - intros []. auto.
  - induction IH; cbn; intuition.
  - intros []. auto.
  - induction IH as [|f r Hf Hr IHr]; cbn; [auto|]. intros [[H1|H1] H2]; (split; [|auto]); [left|right]; auto.
  - intros [Hp Hv]. split; [congruence|]. clear Hp. induction IH as [|v r Hv' Hr IHr]; cbn in *; [exact I|].
    destruct Hv as [Hv Hvr]. split; [|auto]. clear -Hv Hv'.
    induction Hv' as [|f r' Hf Hr' IHr']; cbn in *; [exact I|].
    destruct Hv as [[H1|H1] H2]; (split; [|auto]); [left|right]; auto.
Qed.

(** Every type the wire format theorems are about is [owned], if it holds no
    references. *)
Lemma supported_owned h (VH : valid_host h) e pk t : supported h e false pk LDefault t -> owned h e t.
Proof.
  assert (H : forall t lm, supported h e false pk lm t ->
    lendable True True (same_in_place h e) False (fun _ => True) lm t); [|apply H].
  assert (Hu : forall lm, fits h lm 1 -> same_in_place h e lm TU8).
  { intros lm Hf _ _. pose proof (vh_prim h VH U8) as Hs. change (TP U8) with TU8 in Hs. rewrite Hs.
    repeat split; auto. discriminate. }
  clear t. induction t as [s|k|k t IH|t n IH|t n IH|t IH|t1 t2 IH1 IH2|ts IH|i t IH|k t IH|k tk tv IHk IHv|t IH|d fs IH|d vs IH|]
    using ty_ind'; intros lm; cbn [lendable supported]; auto.
  - destruct k; auto. discriminate.
  - intros [He Hs]. split; [|auto]. destruct k; auto; cbn in He.
    + destruct He as [Hv Hc]. intros Hp Hnc. unfold vec_elem in Hv. rewrite Hp in Hv.
      destruct Hv as [_ Hcv]. destruct (Hc Hp) as (? & ? & ?). auto.
    + destruct He as [He _]. discriminate.
  - intros []. auto.
  - intros [He _]. discriminate.
  - intros []. auto.
  - induction IH; cbn; intuition.
  - intros []. auto.
  - intros (_ & ? & ?). auto.
  - induction IH as [|f r Hf Hr IHr]; cbn; [auto|]. intros [[H1|(_ & _ & H1)] H2]; (split; [|auto]); [left|right]; auto.
  - intros [_ Hv]. split; [auto|]. induction IH as [|v r Hv' Hr IHr]; cbn in *; [exact I|].
    destruct Hv as [Hv Hvr]. split; [|auto]. clear -Hv Hv'.
    induction Hv' as [|f r' Hf Hr' IHr']; cbn in *; [exact I|].
    destruct Hv as [[H1|(_ & _ & H1)] H2]; (split; [|auto]); [left|right]; auto.
Qed.
