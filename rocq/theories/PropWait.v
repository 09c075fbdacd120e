(* Property C120: a stream is not read once it has delivered the bytes of the value, so that
   reading does not wait for what comes after. *)
From Verif Require Import Samples Checker Entry Extend PropReaders PropUnbuffered PropRoundTrip LockReaders.

(** [read_exact] fails before it has all the bytes. *)
Lemma exact_fails n rest sched er i : read_exact_loop n rest sched = (Err er, i) -> nlen rest < n + nlen (is_rest i).
Proof.
  revert n rest er i. induction sched as [|ev sched IH]; intros n rest er i H; cbn [read_exact_loop] in H;
    destruct (N.eqb_spec n 0) as [->|Hn]; try discriminate.
  - destruct (N.eqb_spec (nlen (ntake n rest)) 0) as [H0|H0].
    + injection H as <- <-. rewrite nlen_take in H0. lia.
    + destruct (N.eqb_spec (n - nlen (ntake n rest)) 0) as [H1|H1]; cbn [rmap] in H; [discriminate|].
      injection H as <- <-. rewrite nlen_take in H1. lia.
  - destruct ev as [c|k].
    + destruct (N.eqb_spec (nlen (ntake (N.min n (N.max 1 c)) rest)) 0) as [H0|H0].
      * injection H as <- <-. rewrite nlen_take in H0. lia.
      * destruct (read_exact_loop _ _ sched) as [r i'] eqn:E. destruct r as [a|er'|f]; try discriminate.
        cbn [rmap] in H. injection H as <- <-. apply IH in E. rewrite nlen_take, nlen_drop in *. lia.
    + destruct k; try (injection H as <- <-; cbn [is_rest]; lia). eapply IH, H.
Qed.

Section Wait.
  Context (h : host) (VH : valid_host h) (e : endian) (mem : N -> bytes) (Hmem : forall n, n <= nlen (mem n)).
  Context (buffering : bool) (sched : list read_event).
  Notation rep1 := (srep h buffering true sched).
  Notation rep2 := (srep h false true []).

  Lemma rep_length b sc s bs : srep h b true sc s bs -> nlen bs = cb_len (sr_buffer s) + nlen (is_rest (sr_stream s)).
  Proof. intros H. rewrite <- (sp_bytes _ _ _ _ _ _ H). unfold unread. rewrite nlen_app, nlen_content. reflexivity. Qed.

  Lemma append_fails size s bs er s' : rep1 s bs -> sr_append mem size s = (Err er, s') ->
    is_rest (sr_stream s') = is_rest (sr_stream s).
  Proof.
    intros Hr H. unfold sr_append, bind, on_buffer in H.
    destruct (append_slot_ok mem Hmem size (sr_buffer s) (sp_inv _ _ _ _ _ _ Hr)) as (slot & c & E & _).
    rewrite E in H. cbn [set_buffer sr_stream] in H.
    destruct (is_read (r_len slot) (sr_stream s)) as [rr i] eqn:Ei.
    apply (is_read_cases mem Hmem) in Ei as [_ [(data & -> & _)|(k & -> & _ & E')]]; [discriminate|].
    injection H as <- <-. exact E'.
  Qed.

  Lemma fill_fails fuel n s bs er s' : rep1 s bs -> buffering = true ->
    cb_len (sr_buffer s) < n -> n <= cb_capacity (sr_buffer s) ->
    sr_fill mem fuel n s = (Err er, s') -> nlen bs < n + nlen (is_rest (sr_stream s')).
  Proof.
    intros Hr Hb. revert s Hr. induction fuel as [|fuel IH]; intros s Hr Hlt Hcap H; cbn [sr_fill] in H;
      destruct (N.ltb_spec (cb_len (sr_buffer s)) (cb_capacity (sr_buffer s))) as [Hc|Hc]; try discriminate.
    unfold bind in H. destruct (sr_append mem _ s) as [ra sa] eqn:Ea.
    destruct ra as [w|er'|f]; [| |discriminate].
    - apply (sr_append_cases h mem Hmem buffering true sched _ _ bs) in Ea; [|assumption|left; assumption|lia].
      destruct Ea as [(x & E & _)|(w' & E & Hr' & Hl & _ & Hcp)]; [discriminate|].
      specialize (Hcp ltac:(lia)). pose proof (rep_length _ _ _ _ Hr') as Hlen.
      destruct (w =? 0).
      + destruct (N.ltb_spec (cb_len (sr_buffer sa)) n) as [Hn|Hn]; [|discriminate]. injection H as <- <-. lia.
      + destruct (N.leb_spec n (cb_len (sr_buffer sa))) as [Hn|Hn]; [discriminate|].
        apply (IH sa); auto. rewrite Hcp. exact Hcap.
    - injection H as <- <-. rewrite (append_fails _ _ _ _ _ Hr Ea). rewrite (rep_length _ _ _ _ Hr). lia.
  Qed.

  Lemma drain_fails n s bs er s' : rep1 s bs -> sr_drain n s = (Err er, s') ->
    nlen bs < n + nlen (is_rest (sr_stream s')).
  Proof.
    intros Hr H. unfold sr_drain in H. set (len := N.min (cb_len (sr_buffer s)) n) in *.
    assert (Hfirst : exists s1 b1,
      (if 0 <? cb_len (sr_buffer s) then on_buffer (consume_into len) else ret []) s = (Ok b1, s1)
      /\ sr_stream s1 = sr_stream s).
    { destruct (N.ltb_spec 0 (cb_len (sr_buffer s))) as [H0|H0].
      - destruct (srep_consume h mem Hmem buffering true sched len s bs Hr ltac:(lia)) as (c & E & _). rewrite E. eauto.
      - exists s, []. auto. }
    destruct Hfirst as (s1 & b1 & E1 & Hs1). unfold bind in H. rewrite E1 in H.
    destruct (N.eqb_spec (n - len) 0) as [Hz|Hz]; [discriminate|].
    destruct (is_read_exact (n - len) (sr_stream s1)) as [rx i] eqn:Ex. destruct rx as [a|er'|f]; try discriminate.
    injection H as <- <-. apply exact_fails in Ex. rewrite Hs1 in Ex. cbn [set_stream sr_stream].
    rewrite (rep_length _ _ _ _ Hr). lia.
  Qed.

  Lemma read_fails n s bs er s' : rep1 s bs -> sr_read mem n s = (Err er, s') ->
    nlen bs < n + nlen (is_rest (sr_stream s')).
  Proof.
    intros Hr H. unfold sr_read in H. destruct (N.leb_spec n (cb_len (sr_buffer s))) as [Hn|Hn].
    - destruct (srep_consume h mem Hmem buffering true sched n s bs Hr Hn) as (c & E & _). rewrite E in H. discriminate.
    - unfold sr_read_slow, bind in H. rewrite (sp_mode _ _ _ _ _ _ Hr) in H.
      destruct (buffering && (n <? cb_capacity (sr_buffer s)))%bool eqn:Eb.
      + apply andb_prop in Eb as [Eb1 Eb2]. apply N.ltb_lt in Eb2.
        destruct (sr_fill mem _ n s) as [rf sf] eqn:Ef. destruct rf as [[]|er'|f]; [| |discriminate].
        * apply (sr_fill_cases h mem Hmem buffering true sched _ _ _ bs) in Ef; [|assumption|assumption|lia|assumption|lia].
          destruct Ef as [(x & E & _)|(Hr' & _)]; [discriminate|]. eapply drain_fails; eassumption.
        * injection H as <- <-. eapply fill_fails; try eassumption; lia.
      + cbn [ret] in H. eapply drain_fails; eassumption.
  Qed.

  Lemma peek_fill_fails fuel n s bs er s' : rep1 s bs ->
    sr_peek_fill mem fuel n s = (Err er, s') -> nlen bs < n + nlen (is_rest (sr_stream s')).
  Proof.
    revert s. induction fuel as [|fuel IH]; intros s Hr H; cbn [sr_peek_fill] in H;
      destruct (N.ltb_spec (cb_len (sr_buffer s)) n) as [Hc|Hc]; try discriminate.
    set (more := if sr_buffering s then _ else _) in H.
    assert (Hmore : exists k, more s = (Ok k, s) /\ 0 < k).
    { subst more. destruct (sr_buffering s).
      - pose proof (sp_inv _ _ _ _ _ _ Hr) as [Hi _]. unfold lift, usub, cb_capacity, cb_len.
        destruct (N.leb_spec (cb_length (sr_buffer s)) (nlen (cb_buffer (sr_buffer s)))); [|lia].
        eexists. split; [reflexivity|]. unfold cb_len in *. lia.
      - eexists. split; [reflexivity|]. lia. }
    clearbody more. destruct Hmore as (k & Em & Hk). unfold bind in H. rewrite Em in H.
    destruct (sr_append mem k s) as [ra sa] eqn:Ea. destruct ra as [w|er'|f]; [| |discriminate].
    - apply (sr_append_cases h mem Hmem buffering true sched _ _ bs) in Ea; [|assumption|right; reflexivity|lia].
      destruct Ea as [(x & E & _)|(w' & E & Hr' & Hl & Hz & _)]; [discriminate|]. injection E as <-.
      destruct (N.eqb_spec w 0) as [Hw|Hw].
      + injection H as <- <-. rewrite (rep_length _ _ _ _ Hr'). lia.
      + eapply IH; eassumption.
    - injection H as <- <-. rewrite (append_fails _ _ _ _ _ Hr Ea). rewrite (rep_length _ _ _ _ Hr). lia.
  Qed.

  Lemma peek_fails n s bs er s' : rep1 s bs -> sr_peek mem n s = (Err er, s') ->
    nlen bs < n + nlen (is_rest (sr_stream s')).
  Proof.
    intros Hr H. unfold sr_peek, bind in H. destruct (sr_peek_fill mem (N.to_nat n) n s) as [rf sf] eqn:Ef.
    destruct rf as [[]|er'|f]; [| |discriminate].
    - apply (sr_peek_fill_cases h mem Hmem buffering true sched _ _ _ bs) in Ef; [|assumption|reflexivity|lia].
      destruct Ef as [(x & E & _)|(Hr' & _ & [[_ Hl]|[E _]])]; try discriminate.
      unfold see_buffer in H.
      destruct (as_slices_of_length_ok n (sr_buffer sf) (sp_inv _ _ _ _ _ _ Hr') Hl) as (ab & E1 & E2).
      rewrite E1 in H. cbn [rbind] in H. rewrite E2 in H. discriminate.
    - injection H as <- <-. eapply peek_fill_fails; eassumption.
  Qed.

  (* ---------------------------------------------------------------- *)

  Context (rest : bytes).

  (** A reader that has all that another one has, and then [rest]. *)
  Definition with_rest (s1 s2 : sreader) : Prop := exists bs, rep1 s1 (bs ++ rest) /\ rep2 s2 bs.

  (** The stream failed when it still held a byte before [rest]. *)
  Definition early (er : error) (s : sreader) : Prop :=
    (exists k, er = IoError k /\ In (RErr k) sched) /\ nlen rest < nlen (is_rest (sr_stream s)).
  Definition anyhow (er : error) (s : sreader) : Prop := True.
  Notation locks := (lock with_rest early anyhow).

  Lemma read_wait n : locks (sr_read mem n) (sr_read mem n).
  Proof.
    intros s1 s2 (bs & Hr1 & Hr2).
    destruct (sr_read mem n s1) as [r1 s1'] eqn:E1. destruct (sr_read mem n s2) as [r2 s2'] eqn:E2.
    pose proof (sr_read_cases h mem Hmem false true [] n s2 bs r2 s2' Hr2 E2) as H2.
    pose proof (sr_read_cases h mem Hmem buffering true sched n s1 (bs ++ rest) r1 s1' Hr1 E1) as H1.
    cbn [fst snd].
    destruct H2 as [(er & -> & _)|(_ & [(Hn & -> & H2)|(Hn & -> & H2)])];
      [right; left; eexists; split; [reflexivity|exact I]| |right; left; eexists; split; [reflexivity|exact I]].
    destruct H1 as [(er & -> & k & -> & Hk & _)|(_ & [(Hn1 & -> & H1)|(Hn1 & _ & _)])].
    - left. eexists. split; [reflexivity|]. split; [eauto|]. apply read_fails with (bs := bs ++ rest) in E1; [|exact Hr1].
      rewrite nlen_app in E1. lia.
    - right. right. rewrite take_app_le by exact Hn. split; [reflexivity|]. exists (ndrop n bs).
      rewrite drop_app_le in H1 by exact Hn. auto.
    - rewrite nlen_app in Hn1. lia.
  Qed.

  Lemma peek_wait n : locks (sr_peek mem n) (sr_peek mem n).
  Proof.
    intros s1 s2 (bs & Hr1 & Hr2).
    destruct (sr_peek mem n s1) as [r1 s1'] eqn:E1. destruct (sr_peek mem n s2) as [r2 s2'] eqn:E2.
    pose proof (sr_peek_cases h mem Hmem false true [] n s2 bs r2 s2' eq_refl Hr2 E2) as H2.
    pose proof (sr_peek_cases h mem Hmem buffering true sched n s1 (bs ++ rest) r1 s1' eq_refl Hr1 E1) as H1.
    cbn [fst snd].
    destruct H2 as [(er & -> & _)|(Hr2' & _ & [(Hn & ->)|(Hn & ->)])];
      [right; left; eexists; split; [reflexivity|exact I]| |right; left; eexists; split; [reflexivity|exact I]].
    destruct H1 as [(er & -> & k & -> & Hk & _)|(Hr1' & _ & [(Hn1 & ->)|(Hn1 & _)])].
    - left. eexists. split; [reflexivity|]. split; [eauto|]. apply peek_fails with (bs := bs ++ rest) in E1; [|exact Hr1].
      rewrite nlen_app in E1. lia.
    - right. right. rewrite take_app_le by exact Hn. split; [reflexivity|]. exists bs. auto.
    - rewrite nlen_app in Hn1. lia.
  Qed.

  Lemma wait_locked : locked with_rest early anyhow False (StreamReader mem e) (StreamReader mem e) True.
  Proof.
    constructor; cbn [StreamReader rd_endian rd_read rd_read_ptr rd_peek rd_peek_ptr rd_can rd_borrow_r rd_alloc rd_fuel];
      auto using read_wait, peek_wait.
    - intros n size min s1 s2 (bs & Hr1 & Hr2). right. right. split; [reflexivity|]. exists bs. split.
      + destruct Hr1. constructor; assumption.
      + destruct Hr2. constructor; assumption.
    - intros [].
  Qed.

  Definition uncaught : lenmode -> ty -> Prop := lendable False True (fun _ _ => True) True (fun _ => True).

  Lemma no_eof_uncaught t : forall lm b, (lm = LEof -> b = true) -> no_eof b t -> uncaught lm t.
  Proof.
    unfold uncaught.
    assert (Hfs : forall fs,
      Forall (fun f => forall lm b, (lm = LEof -> b = true) -> no_eof b (snd f) ->
                lendable False True (fun _ _ => True) True (fun _ => True) lm (snd f)) fs ->
      all_fields (fun a t' => f_skip a = true \/ (f_eof a = false /\ no_eof (field_eof a t') t')) fs ->
      all_fields (lendable_field False (fun _ => True) (lendable False True (fun _ _ => True) True (fun _ => True))) fs).
    { induction 1 as [|f r Hf Hr IHr]; cbn [all_fields]; [auto|]. intros [H1 H2]. split; [|apply IHr, H2].
      destruct H1 as [H1|(H1 & H3)]; [left; exact H1|right]. split; [exact I|]. split; [congruence|].
      apply (Hf _ _) with (2 := H3). unfold field_eof. destruct (sized_field _ _); [|discriminate]. intros ->. reflexivity. }
    induction t as [s|k|k t IH|t n IH|t n IH|t IH|t1 t2 IH1 IH2|ts IH|i t IH|k t IH|k tk tv IHk IHv|t IH|d fs IH|d vs IH|]
      using ty_ind'; intros lm b Hb; cbn [lendable no_eof].
    - auto.
    - intros ->. split; [destruct k; exact I|]. intros E. specialize (Hb E). discriminate.
    - intros [-> H]. split; [destruct k; exact I|]. split; [eapply IH; [|exact H]; discriminate|].
      intros E. specialize (Hb E). discriminate.
    - intros H. eapply IH; [|exact H]. discriminate.
    - auto.
    - intros H. eapply IH; eassumption.
    - intros [H1 H2]. split; [eapply IH1; [|exact H1]|eapply IH2; [|exact H2]]; discriminate.
    - induction IH as [|t r Ht Hr IHr]; cbn [all_tys]; [auto|]. intros [H1 H2]. split; [eapply Ht; [|exact H1]; discriminate|auto].
    - intros H. eapply IH; [|exact H]. discriminate.
    - intros [-> H]. split; [eapply IH; [|exact H]; discriminate|]. intros E. specialize (Hb E). discriminate.
    - intros (-> & H1 & H2). split; [eapply IHk; [|exact H1]; discriminate|]. split; [eapply IHv; [|exact H2]; discriminate|].
      intros E. specialize (Hb E). discriminate.
    - intros H. eapply IH; [|exact H]. discriminate.
    - apply Hfs, IH.
    - intros H. split; [auto|]. induction IH as [|v r Hv Hr IHr]; cbn [all_variants] in *; [exact I|].
      destruct H as [H1 H2]. split; [apply Hfs; assumption|apply IHr, H2].
    - auto.
  Qed.

  Lemma wait_lock t : no_eof false t -> locks (read h (StreamReader mem e) t) (read h (StreamReader mem e) t).
  Proof.
    intros Ht. pose proof (no_eof_uncaught t LDefault false ltac:(discriminate) Ht) as Hl. unfold uncaught in Hl.
    eapply (lock_read with_rest early anyhow); try exact Hl.
    - intros [].
    - intros [].
    - apply wait_locked.
    - intros lm t0 rd1 rd2 n _ _ Hrd. unfold read_cow. cbn [StreamReader rd_borrow].
      replace (if is_prim h t0 && no_conv h (StreamReader mem e) t0 then None else None)%bool
        with (@None (N -> M sreader (N * bytes))) by (destruct (_ && _)%bool; reflexivity).
      eapply lock_vec; [apply wait_locked|exact Hrd].
    - intros _. repeat split.
    - intros c _ _. unfold read_constant. cbn [StreamReader rd_borrow]. apply lock_bind.
      + eapply lock_vec_u8, wait_locked.
      + intros b. destruct (list_eq_dec _ _ _); [apply lock_ret|apply lock_fail].
    - intros b n s1 s2 (bs & _ & Hr2) E.
      eapply (read_length_possible h VH (StreamReader mem e) true rep2 (sio false true [])); [|exact Hr2|exact E].
      apply stream_ok; [assumption|]. intros [].
  Qed.

  (** If [b] is enough for a buffer, then a stream of these bytes and others behind them gives
      the same value, however it delivers them and however it fails, or fails before it has
      delivered all of [b]. *)
  Theorem C120_wait t b v n : supported h e false true LDefault t -> no_eof false t ->
    nlen b <= h_alloc_max h -> nlen (b ++ rest) <= l_usize_max (h_lim h) ->
    read_with_length_from_buffer_copying h e t b = (Ok v, n) ->
    let (r, s) := deserialize h mem buffering e t {| is_rest := b ++ rest; is_sched := sched |} in
    r = Ok v
    \/ (exists k, r = Err (IoError k) /\ In (RErr k) sched) /\ nlen rest < nlen (is_rest (sr_stream s)).
  Proof.
    intros Hs Hn Hl Hl' Hb.
    destruct (C117_ahead_any h VH e mem Hmem t b v n [] Hs Hn Hl ltac:(intros k []) Hb) as (k & sched' & _ & _ & E).
    unfold read_from_stream_unbuffered, deserialize in *.
    assert (Hr : with_rest (sr_start mem buffering {| is_rest := b ++ rest; is_sched := sched |})
                           (sr_start mem false {| is_rest := b; is_sched := [] |})).
    { exists b. split; apply (sr_start_rep h mem Hmem); cbn [is_sched is_rest]; auto. rewrite nlen_app in Hl'. lia. }
    pose proof (wait_lock t Hn _ _ Hr) as H.
    destruct (read h (StreamReader mem e) t (sr_start mem buffering _)) as [r s].
    destruct (read h (StreamReader mem e) t (sr_start mem false _)) as [r2 s2]. injection E as -> _. cbn [fst snd] in H.
    destruct H as [(er & -> & (k' & -> & Hk) & Hlt)|[(er & E & _)|(-> & _)]].
    - right. split; [eauto|exact Hlt].
    - discriminate.
    - left. reflexivity.
  Qed.

  (** What is written can be read as soon as it has arrived. *)
  Theorem C120_written t v b : covered h e false true t -> no_eof false t -> value_of h e t v ->
    write_to_vec h mem e t v = Ok b -> nlen b <= h_alloc_max h -> nlen (b ++ rest) <= l_usize_max (h_lim h) ->
    let (r, s) := deserialize h mem buffering e t {| is_rest := b ++ rest; is_sched := sched |} in
    r = Ok (norm t v)
    \/ (exists k, r = Err (IoError k) /\ In (RErr k) sched) /\ nlen rest < nlen (is_rest (sr_stream s)).
  Proof.
    intros Hc Hn Hv Hb Hl Hl'. apply C120_wait with (n := nlen b); try assumption; [apply Hc|].
    rewrite <- (app_nil_r b) at 1.
    apply (C02_exact_consumption_copying h VH e mem Hmem t v b []); try assumption. rewrite app_nil_r. exact Hl.
  Qed.
End Wait.
Print Assumptions C120_wait.
Print Assumptions C120_written.

(** The two entry points. *)
Theorem C120_streams h e mem t b rest v n sched : valid_host h -> (forall n, n <= nlen (mem n)) ->
  supported h e false true LDefault t -> no_eof false t ->
  nlen b <= h_alloc_max h -> nlen (b ++ rest) <= l_usize_max (h_lim h) ->
  read_with_length_from_buffer_copying h e t b = (Ok v, n) ->
  Forall (fun out => fst out = Ok v
      \/ (exists k, fst out = Err (IoError k) /\ In (RErr k) sched) /\ nlen rest < nlen (is_rest (snd out)))
    [read_from_stream_unbuffered h mem e t {| is_rest := b ++ rest; is_sched := sched |};
     read_from_stream_buffered h mem e t {| is_rest := b ++ rest; is_sched := sched |}].
Proof.
  intros VH Hmem Hs Hn Hl Hl' Hb. unfold read_from_stream_unbuffered, read_from_stream_buffered.
  constructor; [|constructor; [|constructor]].
  - pose proof (C120_wait h VH e mem Hmem false sched rest t b v n Hs Hn Hl Hl' Hb) as H.
    destruct (deserialize _ _ _ _ _ _) as [r s]. exact H.
  - pose proof (C120_wait h VH e mem Hmem true sched rest t b v n Hs Hn Hl Hl' Hb) as H.
    destruct (deserialize _ _ _ _ _ _) as [r s]. exact H.
Qed.
Print Assumptions C120_streams.

(* ------------------------------------------------------------------ *)
(** * The hypotheses are met *)

(** A stream that delivers the bytes of the value in two pieces and then fails: it is read,
      with two bytes behind it or none, in a buffer or not. *)
Definition arrives : list read_event := [RChunk 10; RChunk (nlen sample_bytes64 - 10); RErr (IoOther 11)].

Example C120_in_time buffering rest :
  nlen (sample_bytes64 ++ rest) <= 2 ^ 64 - 1 ->
  let (r, s) := deserialize host64 dirty buffering LE sample {| is_rest := sample_bytes64 ++ rest; is_sched := arrives |} in
  r = Ok sample_back
  \/ (exists k, r = Err (IoError k) /\ In (RErr k) arrives) /\ nlen rest < nlen (is_rest (sr_stream s)).
Proof.
  intros Hl. rewrite <- norm_sample.
  apply (C120_written host64 host64_valid LE dirty dirty_enough buffering arrives rest sample sample_value sample_bytes64).
  - apply (covered_weaken _ _ false false false true); [discriminate|discriminate|apply sample_covered64].
  - apply sample_no_eof.
  - apply sample_value64.
  - apply written64.
  - vm_compute. discriminate.
  - exact Hl.
Qed.

Example C120_arrives :
  fst (read_from_stream_buffered host64 dirty LE sample {| is_rest := sample_bytes64 ++ [x07; x08]; is_sched := arrives |})
  = Ok sample_back.
Proof. vm_compute. reflexivity. Qed.

(** One byte less has arrived: the error is met. *)
Definition too_early : list read_event := [RChunk 10; RChunk (nlen sample_bytes64 - 11); RErr (IoOther 11)].
Example C120_early :
  let (r, i) := read_from_stream_buffered host64 dirty LE sample
    {| is_rest := sample_bytes64 ++ [x07; x08]; is_sched := too_early |} in
  r = Err (IoError (IoOther 11)) /\ is_rest i = ndrop (nlen sample_bytes64 - 1) sample_bytes64 ++ [x07; x08].
Proof. vm_compute. split; reflexivity. Qed.

(** Without the condition on [default_on_eof] (or on lengths until the end of input) the claim
    is false: the byte is there and makes a value, but the optional field behind it is
    waited for. *)
Definition optional : ty :=
  TStruct (sd 96 RRust)
    [(plain, TP U8);
     ({| f_eof := true; f_skip := false; f_varint := false; f_opaque := false;
         f_len := LDefault; f_prefix := []; f_default := VInt 0 |}, TP U8)].
Theorem C120_optional_refuted : exists t b v n sched,
  supported host64 LE false true LDefault t
  /\ read_with_length_from_buffer_copying host64 LE t b = (Ok v, n)
  /\ let (r, i) := read_from_stream_buffered host64 dirty LE t {| is_rest := b; is_sched := sched |} in
     r = Err (IoError (IoOther 11)) /\ is_rest i = [].
Proof.
  exists optional, [x05], (VSeq [VInt 5; VInt 0]), 1, [RChunk 1; RErr (IoOther 11)].
  split; [apply supportedb_sound; vm_compute; reflexivity|]. split; [vm_compute; reflexivity|].
  vm_compute. split; reflexivity.
Qed.
Print Assumptions C120_optional_refuted.
