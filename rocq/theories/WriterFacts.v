(* The writers of the crate are lawful; bytes_needed is the size of the encoding. *)
From Verif Require Export WriteSim RingFacts Api.

(* ------------------------------------------------------------------ *)
(** * Writers built on write_bytes *)

Section Collector.
  Context {St : Type} (h : host) (e : endian) (wrep : St -> bytes -> Prop) (werr : error -> Prop)
          (room : bytes -> Prop) (wb : bytes -> M St unit)
          (Hwb : forall b, wsim wrep werr room (wb b) (Ok b)).

  Lemma collector_u8 n : wsim wrep werr room (default_u8 wb n) (Ok [n2b n]).
  Proof. apply Hwb. Qed.

  Lemma collector_uint w n : wsim wrep werr room (default_uint h e wb w n) (Ok (word e w n)).
  Proof. unfold default_uint. rewrite to_ne_swap. apply Hwb. Qed.
End Collector.

(* ------------------------------------------------------------------ *)
(** * BufferCollector *)

Section Buffer.
  Context (h : host) (e : endian) (buf0 : bytes).

  Definition bcrep (s : bcoll) (out : bytes) : Prop :=
    bc_position s = nlen out /\ nlen out <= nlen buf0 /\ bc_buffer s = out ++ ndrop (nlen out) buf0.
  Definition bcerr (er : error) : Prop := er = UnexpectedEndOfOutputBuffer.
  Definition bcroom (b : bytes) : Prop := nlen b <= nlen buf0.

  Lemma bc_len s out : bcrep s out -> nlen (bc_buffer s) = nlen buf0.
  Proof. intros (_ & H & ->). rewrite nlen_app, nlen_drop. lia. Qed.

  Lemma bc_write_sim b : wsim bcrep bcerr bcroom (bc_write b) (Ok b).
  Proof.
    intros s out Hs. pose proof (bc_len s out Hs) as Hl. destruct Hs as (H1 & H2 & H3).
    unfold bc_write. rewrite Hl, H1.
    destruct (N.leb_spec (nlen out + nlen b) (nlen buf0)) as [E|E].
    - left. split; [reflexivity|]. cbn [snd]. unfold bcrep. cbn [bc_position bc_buffer].
      rewrite nlen_app. split; [reflexivity|]. split; [assumption|].
      unfold overlay. rewrite H3. rewrite take_app_exact by reflexivity.
      rewrite drop_app_ge by lia. rewrite drop_drop.
      rewrite <- app_assoc. do 3 f_equal. lia.
    - right. exists UnexpectedEndOfOutputBuffer, [], b. cbn [fst snd app].
      repeat split; auto; rewrite ?app_nil_r; auto.
      unfold bcroom. rewrite nlen_app. lia.
  Qed.

  Lemma buffer_collector_ok : writer_ok h (BufferCollector h e) bcrep bcerr bcroom.
  Proof.
    constructor; cbn [BufferCollector wr_bytes wr_u8 wr_uint wr_can wr_endian].
    - apply bc_write_sim.
    - intros. apply collector_u8, bc_write_sim.
    - intros. apply collector_uint, bc_write_sim.
    - intros n s out b Hs Hc Hn. pose proof (bc_len s out Hs) as Hl. unfold bc_can in Hc.
      injection Hc as Hc. destruct Hs as (H1 & _ & _). rewrite H1, Hl in Hc.
      split; [|reflexivity]. unfold bcroom. rewrite nlen_app. lia.
    - intros a b. unfold bcroom. rewrite nlen_app. lia.
  Qed.

  Lemma bc_start_rep : bcrep {| bc_buffer := buf0; bc_position := 0 |} [].
  Proof. split; [reflexivity|]. rewrite nlen_nil. split; [lia|reflexivity]. Qed.
End Buffer.

(* ------------------------------------------------------------------ *)
(** * WritingCollector *)

(** The error a call of `Write::write` leads to, if any. *)
Definition event_error (ev : write_event) : option error :=
  match ev with
  | WAccept k => if k =? 0 then Some (IoError IoWriteZero) else None
  | WErr IoInterrupted => None
  | WErr k => Some (IoError k)
  end.

Section Stream.
  Context (h : host) (e : endian) (s0 : ostream).

  Definition osrep (s : ostream) (out : bytes) : Prop :=
    os_out s = os_out s0 ++ out /\ incl (os_sched s) (os_sched s0).
  Definition oserr (er : error) : Prop := exists ev, In ev (os_sched s0) /\ event_error ev = Some er.
  Definition osroom (_ : bytes) : Prop := forall ev, In ev (os_sched s0) -> event_error ev = None.

  Lemma write_all_cases sched : forall b out,
    let (r, s') := write_all_loop b out sched in
    incl (os_sched s') sched
    /\ ((r = Ok tt /\ os_out s' = out ++ b)
        \/ exists er ev b1 b2, b = b1 ++ b2 /\ r = Err er /\ os_out s' = out ++ b1
                               /\ In ev sched /\ event_error ev = Some er).
  Proof.
    induction sched as [|ev sched IH]; intros b out.
    - destruct b; cbn.
      + split; [apply incl_refl|]. left. rewrite app_nil_r. auto.
      + split; [apply incl_refl|]. left. auto.
    - destruct b as [|x b].
      + cbn. split; [apply incl_refl|]. left. rewrite app_nil_r. auto.
      + cbn [write_all_loop]. set (bb := x :: b). destruct ev as [k|k].
        * destruct (k =? 0) eqn:Ek.
          { split; [cbn; apply incl_tl, incl_refl|]. right.
            exists (IoError IoWriteZero), (WAccept k), [], bb. cbn [os_out app event_error].
            rewrite app_nil_r, Ek. repeat split; auto. left. reflexivity. }
          specialize (IH (ndrop k bb) (out ++ ntake k bb)).
          destruct (write_all_loop _ _ sched) as [r s']. destruct IH as [Hi IH].
          split; [apply incl_tl, Hi|]. destruct IH as [[-> Ho]|(er & ev & b1 & b2 & Hb & -> & Ho & Hin & Hev)].
          { left. rewrite Ho, <- app_assoc, take_drop. auto. }
          right. exists er, ev, (ntake k bb ++ b1), b2. rewrite <- app_assoc, <- Hb, take_drop.
          rewrite Ho, <- app_assoc. repeat split; auto. right. assumption.
        * assert (Hfail : k <> IoInterrupted ->
            incl (os_sched {| os_out := out; os_sched := sched |}) (WErr k :: sched)
            /\ ((@Err unit (IoError k) = Ok tt /\ os_out {| os_out := out; os_sched := sched |} = out ++ bb)
                \/ exists er ev b1 b2, bb = b1 ++ b2 /\ @Err unit (IoError k) = Err er
                     /\ os_out {| os_out := out; os_sched := sched |} = out ++ b1
                     /\ In ev (WErr k :: sched) /\ event_error ev = Some er)).
          { intros Hk. split; [cbn; apply incl_tl, incl_refl|]. right.
            exists (IoError k), (WErr k), [], bb. cbn [os_out app]. rewrite app_nil_r.
            repeat split; auto; [left; reflexivity|]. destruct k; cbn; congruence. }
          destruct k; try (apply Hfail; discriminate).
          specialize (IH bb out). destruct (write_all_loop bb out sched) as [r s']. destruct IH as [Hi IH].
          split; [apply incl_tl, Hi|]. destruct IH as [IH|(er & ev & b1 & b2 & Hb & -> & Ho & Hin & Hev)]; auto.
          right. exists er, ev, b1, b2. repeat split; auto. right. assumption.
  Qed.

  Lemma os_write_sim b : wsim osrep oserr osroom (os_write_all b) (Ok b).
  Proof.
    intros s out [H1 H2]. unfold os_write_all. pose proof (write_all_cases (os_sched s) b (os_out s)) as H.
    destruct (write_all_loop b (os_out s) (os_sched s)) as [r s']. cbn [fst snd].
    destruct H as [Hi [[-> Ho]|(er & ev & b1 & b2 & Hb & -> & Ho & Hin & Hev)]].
    - left. split; [reflexivity|]. split; [rewrite Ho, H1, app_assoc; reflexivity|].
      eapply incl_tran; eassumption.
    - right. exists er, b1, b2. split; [assumption|]. split; [reflexivity|]. split; [exists ev; auto|].
      split; [|intros Hr; specialize (Hr ev (H2 ev Hin)); congruence].
      split; [rewrite Ho, H1, app_assoc; reflexivity|]. eapply incl_tran; eassumption.
  Qed.

  Lemma writing_collector_ok : writer_ok h (WritingCollector h e) osrep oserr osroom.
  Proof.
    constructor; cbn [WritingCollector wr_bytes wr_u8 wr_uint wr_can wr_endian].
    - apply os_write_sim.
    - intros. apply collector_u8, os_write_sim.
    - intros. apply collector_uint, os_write_sim.
    - discriminate.
    - auto.
  Qed.

  Lemma os_start_rep : osrep s0 [].
  Proof. split; [rewrite app_nil_r; reflexivity|apply incl_refl]. Qed.
End Stream.

(* ------------------------------------------------------------------ *)
(** * WritingCollector over a BufWriter *)

Section File.
  Context (h : host) (e : endian) (sched0 : list write_event).
  Definition f0 : ostream := {| os_out := []; os_sched := sched0 |}.

  Definition fwrep (s : bufwriter) (out : bytes) : Prop :=
    os_out (bw_inner s) ++ bw_buf s = out /\ incl (os_sched (bw_inner s)) sched0.

  Lemma bw_flush_cases s out : fwrep s out ->
    let (r, s') := bw_flush s in
    fwrep s' out /\ ((r = Ok tt /\ bw_buf s' = []) \/ exists er, r = Err er /\ oserr f0 er).
  Proof.
    intros [H1 H2]. unfold bw_flush, os_write_all.
    pose proof (write_all_cases (os_sched (bw_inner s)) (bw_buf s) (os_out (bw_inner s))) as H.
    destruct (write_all_loop _ _ _) as [r i].
    destruct H as [Hi [[-> Ho]|(er & ev & b1 & b2 & Hb & -> & Ho & Hin & Hev)]].
    - assert (Hd : ndrop (nlen (os_out i) - nlen (os_out (bw_inner s))) (bw_buf s) = []).
      { rewrite Ho, nlen_app. apply drop_all. lia. }
      rewrite Hd. split.
      + split; cbn [bw_inner bw_buf]; [rewrite Ho, app_nil_r; assumption|eapply incl_tran; eassumption].
      + left. auto.
    - assert (Hd : ndrop (nlen (os_out i) - nlen (os_out (bw_inner s))) (bw_buf s) = b2).
      { rewrite Ho, nlen_app, Hb. apply drop_app_exact. lia. }
      rewrite Hd. split.
      + split; cbn [bw_inner bw_buf]; [rewrite Ho, <- app_assoc, <- Hb; assumption|eapply incl_tran; eassumption].
      + right. exists er. split; [reflexivity|]. exists ev. auto.
  Qed.

  Lemma bw_write_sim b : wsim fwrep (oserr f0) (osroom f0) (bw_write_all b) (Ok b).
  Proof.
    intros s out Hs. unfold bw_write_all.
    assert (Hpush : forall s, fwrep s out ->
      fwrep {| bw_buf := bw_buf s ++ b; bw_inner := bw_inner s |} (out ++ b)).
    { intros s1 [Ha Hb]. split; cbn [bw_inner bw_buf]; [rewrite app_assoc, Ha; reflexivity|assumption]. }
    destruct (N.ltb_spec (nlen b) (bw_capacity - nlen (bw_buf s))) as [E|E].
    { left. split; [reflexivity|]. apply Hpush, Hs. }
    assert (Hfl : let (r, s') := (if bw_capacity - nlen (bw_buf s) <? nlen b then bw_flush else ret tt) s in
      fwrep s' out /\ ((r = Ok tt /\ (bw_capacity <= nlen b -> bw_buf s' = []))
                       \/ exists er, r = Err er /\ oserr f0 er)).
    { destruct (N.ltb_spec (bw_capacity - nlen (bw_buf s)) (nlen b)) as [E2|E2].
      - pose proof (bw_flush_cases s out Hs) as H. destruct (bw_flush s) as [r s']. destruct H as [Ha H].
        split; [assumption|]. destruct H as [[-> H]|H]; auto.
      - cbn. split; [assumption|]. left. split; [reflexivity|]. intros Hc. apply nlen_0.
        unfold bw_capacity in *. lia. }
    unfold bind. destruct ((if _ <? nlen b then bw_flush else ret tt) s) as [r s'].
    destruct Hfl as [Ha [[-> Hb]|(er & -> & He)]].
    - destruct (N.leb_spec bw_capacity (nlen b)) as [E3|E3].
      + pose proof (os_write_sim (bw_inner s') b) as Ho.
        pose proof (write_all_cases (os_sched (bw_inner s')) b (os_out (bw_inner s'))) as H.
        unfold os_write_all. destruct (write_all_loop _ _ _) as [r i]. cbn [fst snd].
        rewrite (Hb E3). destruct Ha as [Ha1 Ha2]. rewrite (Hb E3), app_nil_r in Ha1.
        destruct H as [Hi [[-> Hx]|(er & ev & b1 & b2 & Hbb & -> & Hx & Hin & Hev)]].
        * left. split; [reflexivity|]. split; cbn [bw_buf bw_inner]; [|eapply incl_tran; eassumption].
          rewrite app_nil_r, Hx, Ha1. reflexivity.
        * right. exists er, b1, b2. split; [assumption|]. split; [reflexivity|].
          split; [exists ev; auto|].
          split; [|intros Hr; specialize (Hr ev (Ha2 ev Hin)); congruence].
          split; cbn [bw_buf bw_inner]; [|eapply incl_tran; eassumption].
          rewrite app_nil_r, Hx, Ha1. reflexivity.
      + left. split; [reflexivity|]. apply Hpush, Ha.
    - right. exists er, [], b. cbn [fst snd app]. rewrite app_nil_r.
      split; [reflexivity|]. split; [reflexivity|]. split; [assumption|]. split; [assumption|].
      destruct He as (ev & Hin & Hev). intros Hr. specialize (Hr ev Hin). congruence.
  Qed.

  Lemma file_collector_ok : writer_ok h (FileCollector h e) fwrep (oserr f0) (osroom f0).
  Proof.
    constructor; cbn [FileCollector wr_bytes wr_u8 wr_uint wr_can wr_endian].
    - apply bw_write_sim.
    - intros. apply collector_u8, bw_write_sim.
    - intros. apply collector_uint, bw_write_sim.
    - discriminate.
    - auto.
  Qed.
End File.

(* ------------------------------------------------------------------ *)
(** * SizeCalculator *)

Section Size.
  Context (h : host).

  Definition screp (s : N) (out : bytes) : Prop := s = nlen out.

  Lemma size_calculator_ok : writer_ok h (SizeCalculator h) screp (fun _ => False) (fun _ => True).
  Proof.
    constructor; cbn [SizeCalculator wr_bytes wr_u8 wr_uint wr_can wr_endian].
    - intros b s out ->. left. split; [reflexivity|]. unfold screp. cbn. rewrite nlen_app. reflexivity.
    - intros b s out ->. left. split; [reflexivity|]. unfold screp. cbn. rewrite nlen_app. reflexivity.
    - intros w n s out ->. left. split; [reflexivity|]. unfold screp. cbn. rewrite nlen_app, nlen_word. reflexivity.
    - discriminate.
    - auto.
  Qed.
End Size.
