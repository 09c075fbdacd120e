(* Whatever the calls of a stream did can be done again by a stream of [Readers]. *)
From Verif Require Import Closed AnyRead PropAnyRead RingFacts LockReaders PropErrors Entry Api.

(** The rules of `Read::read`: what is claimed has been stored and depends on nothing
    else; no panics; errors are errors of `std::io`. *)
Record keeps_rules {S} (read : any_read S) : Prop := {
  kr_fills : fills read;
  kr_calm : forall s slice f, fst (fst (read s slice)) <> Fault f;
  kr_io : forall s slice er, fst (fst (read s slice)) = Err er -> exists k, er = IoError k
}.
Arguments kr_fills {S read} _.
Arguments kr_calm {S read} _.
Arguments kr_io {S read} _.

Section Replay.
  (** Direct calls of `read`, and those inside `read_exact`. *)
  Context {S : Type} (read part : any_read S).
  Definition called (s : S) (slice : bytes) (x : res N * bytes * S) : Prop := read s slice = x \/ part s slice = x.

  (** What successive calls did. *)
  Inductive served : S -> list read_event -> bytes -> S -> Prop :=
  | none_served s : served s [] [] s
  | call_served s slice n out s' evs b s'' :
      slice <> [] -> called s slice (Ok n, out, s') -> served s' evs b s'' ->
      served s (RChunk n :: evs) (ntake n out ++ b) s''
  | call_refused s slice k out s' evs b s'' :
      slice <> [] -> called s slice (Err (IoError k), out, s') -> served s' evs b s'' ->
      served s (RErr k :: evs) b s''.

  Lemma served_app s e1 b1 s1 e2 b2 s2 : served s e1 b1 s1 -> served s1 e2 b2 s2 ->
    served s (e1 ++ e2) (b1 ++ b2) s2.
  Proof.
    induction 1 as [s|s slice n out s' evs b s'' Hs E H IH|s slice k out s' evs b s'' Hs E H IH]; intros H2; cbn [app].
    - exact H2.
    - rewrite <- app_assoc. eapply call_served; eauto.
    - eapply call_refused; eauto.
  Qed.

  Context (h : host) (mem : N -> bytes) (fuel fuel' : nat) (catching : Prop) (over : S -> Prop).
  Context (KR : keeps_rules read) (KP : keeps_rules part) (Hm : forall n, n <= nlen (mem n)).
  Context (Hroom : forall n, n <= 8192 -> nlen (mem n) <= l_usize_max (h_lim h)).
  Context (Hstays : forall s slice r out s', over s -> called s slice (r, out, s') -> over s' /\ forall n, r = Ok n -> n = 0).
  Context (Hend : catching -> forall s slice out s', slice <> [] -> called s slice (Ok 0, out, s') -> over s').

  (** [AnyReader] with another way of reading. *)
  Definition mixed (rd : N -> M (areader S) bytes) (e : endian) : reader (areader S) :=
    {| rd_endian := e; rd_read := rd; rd_read_ptr := rd;
       rd_peek := ar_peek h read mem; rd_peek_ptr := ar_peek h read mem; rd_skip := default_skip rd;
       rd_can := fun _ _ => None;
       rd_borrow := None; rd_borrow_r := None; rd_borrow_eof := None;
       rd_alloc := fun _ _ _ => ret tt; rd_fuel := fun _ => fuel |}.
  (** [ar_read], with the other calls inside `read_exact`. *)
  Definition mixed_read (n : N) : M (areader S) bytes := fun s =>
    if n <=? cb_len (ar_buffer s) then ar_on (consume_into n) s
    else
      let cap := cb_capacity (ar_buffer s) in
      ((if ar_buffering s && (n <? cap) then ar_fill h read mem (N.to_nat cap) n else ret tt) ;;;
       ar_drain part mem fuel' n) s.

  Lemma served_over s evs b s' : served s evs b s' -> over s -> b = [] /\ over s'.
  Proof.
    induction 1 as [s|s slice n out s' evs b s'' Hs E H IH|s slice k out s' evs b s'' Hs E H IH]; intros Ho; [auto| |];
      destruct (Hstays _ _ _ _ _ Ho E) as [Ho' Hn]; destruct (IH Ho') as [-> ?]; [|auto].
    rewrite (Hn n eq_refl). auto.
  Qed.

  (** The reader [s1] of any stream and one of [Readers] with the same buffered bytes. *)
  Definition beside (s1 : areader S) (s2 : sreader) : Prop :=
    ar_buffering s1 = sr_buffering s2 /\ same_ring (ar_buffer s1) (sr_buffer s2).
  Definition sound (s1 : areader S) : Prop :=
    cb_inv (ar_buffer s1) /\ nlen (cb_buffer (ar_buffer s1)) <= l_usize_max (h_lim h).

  (** The end was reported: nothing more comes, or the whole reading is about to
      fail.  An error was reported: it is what the reading fails with, unless errors
      may be caught. *)
  Definition settled {A} (evs : list read_event) (r : res A) (s' : S) : Prop :=
    (In (RChunk 0) evs -> (catching \/ exists a, r = Ok a) -> over s')
    /\ (~ catching -> forall k, In (RErr k) evs -> k <> IoInterrupted -> r = Err (IoError k)).

  (** What [m1] does with the stream can be replayed to [m2], here to all runs of something. *)
  Definition replayed_at {A} (s1 : areader S) (m1 : M (areader S) A) (run : sreader -> res A * sreader -> Prop) : Prop :=
    forall r s1', sound s1 -> m1 s1 = (r, s1') ->
      r = Fault Diverges
      \/ sound s1' /\ exists evs b,
           served (ar_stream s1) evs b (ar_stream s1')
           /\ settled evs r (ar_stream s1')
           /\ forall s2 x2 tail rest, beside s1 s2 ->
                sr_stream s2 = {| is_rest := b ++ rest; is_sched := evs ++ tail |} ->
                (In (RChunk 0) evs -> rest = []) -> run s2 x2 ->
                (catching /\ fst x2 = Fault Diverges)
                \/ (fst x2 = r /\ beside s1' (snd x2) /\ sr_stream (snd x2) = {| is_rest := rest; is_sched := tail |}).
  Definition replayed_by {A} (m1 : M (areader S) A) (run : sreader -> res A * sreader -> Prop) : Prop :=
    forall s1, replayed_at s1 m1 run.
  Definition runs {A} (m2 : M sreader A) : sreader -> res A * sreader -> Prop := fun s x => m2 s = x.
  Definition replayed A (m1 : M (areader S) A) (m2 : M sreader A) : Prop := replayed_by m1 (runs m2).

  Lemma replayed_lift A (r : res A) : replayed A (lift r) (lift r).
  Proof.
    intros s1 r' s1' Hs [= <- <-]. right. split; [exact Hs|]. exists [], []. split; [constructor|]. split; [split; [intros []|intros _ ? []]|].
    intros s2 x2 tail rest Hb Hst _ <-. right. cbn. auto.
  Qed.

  Lemma replayed_ext A (m1 m1' : M (areader S) A) (m2 m2' : M sreader A) :
    (forall s, m1 s = m1' s) -> (forall s, m2 s = m2' s) -> replayed A m1 m2 -> replayed A m1' m2'.
  Proof.
    intros H1 H2 H s1 r s1' Hs E. rewrite <- H1 in E. destruct (H s1 r s1' Hs E) as [D|(Hs' & evs & b & Hd & Hi & Hr)]; [auto|].
    right. split; [exact Hs'|]. exists evs, b. split; [exact Hd|]. split; [exact Hi|]. intros s2 x2 tail rest Hb Hst Hz Ex.
    apply (Hr s2); auto. unfold runs. rewrite H2. exact Ex.
  Qed.

  (** One thing after the other. *)
  Lemma replayed_then {A B} (m1 : M (areader S) A) (run1 : sreader -> res A * sreader -> Prop) (k1 : A -> M (areader S) B) (run2 : A -> sreader -> res B * sreader -> Prop)
    (run : sreader -> res B * sreader -> Prop) :
    forall s1, replayed_at s1 m1 run1 -> (forall a s1', m1 s1 = (Ok a, s1') -> replayed_at s1' (k1 a) (run2 a)) ->
    (forall s x, beside s1 s -> run s x -> exists y, run1 s y /\
       match fst y with Ok a => run2 a (snd y) x | Err er => x = (Err er, snd y) | Fault f => x = (Fault f, snd y) end) ->
    replayed_at s1 (bind m1 k1) run.
  Proof.
    intros s1 H1 H2 Hrun r s1'' Hs E. unfold bind in E. destruct (m1 s1) as [a s1'] eqn:E1.
    destruct (H1 a s1' Hs E1) as [->|(Hs' & evs & b & Hd & Hi & Hr)]; [injection E as <- _; auto|].
    destruct a as [a|er|f].
    - destruct (H2 a s1' eq_refl r s1'' Hs' E) as [D|(Hs'' & evs' & b' & Hd' & Hi' & Hr')]; [auto|]. right. split; [exact Hs''|].
      assert (Hov : In (RChunk 0) evs -> over (ar_stream s1')).
      { intros H. apply (proj1 Hi H). eauto. }
      exists (evs ++ evs'), (b ++ b'). split; [eapply served_app; eassumption|]. split.
      { split.
        - intros H Hx. apply in_app_or in H as [H|H]; [|exact (proj1 Hi' H Hx)]. eapply served_over; eauto.
        - intros Hc k H Hk. apply in_app_or in H as [H|H]; [|exact (proj2 Hi' Hc k H Hk)]. discriminate (proj2 Hi Hc k H Hk). }
      intros s2 x2 tail rest Hb Hst Hz Hx. rewrite <- !app_assoc in Hst.
      destruct (Hrun s2 x2 Hb Hx) as ([a2 s2'] & Hy & Hy'). cbn [fst snd] in Hy'.
      assert (Hz1 : In (RChunk 0) evs -> b' ++ rest = []).
      { intros H. rewrite (Hz (in_or_app _ _ _ (or_introl H))), app_nil_r. eapply served_over; eauto. }
      destruct (Hr s2 (a2, s2') _ _ Hb Hst Hz1 Hy) as [Dx|(Ea & Hb' & Hst')]; cbn [fst snd] in *.
      + destruct Dx as [Hc Dx]. subst a2. rewrite Hy'. auto.
      + subst a2. apply (Hr' s2' x2 tail rest Hb' Hst'); auto. intros H. apply Hz, in_or_app. auto.
    - injection E as <- <-. right. split; [exact Hs'|]. exists evs, b. split; [exact Hd|]. split.
      { split; [intros H [Hx|(? & [=])]; apply (proj1 Hi H); auto|]. intros Hc k H Hk. specialize (proj2 Hi Hc k H Hk). congruence. }
      intros s2 x2 tail rest Hb Hst Hz Hx. destruct (Hrun s2 x2 Hb Hx) as ([a2 s2'] & Hy & Hy'). cbn [fst snd] in Hy'.
      destruct (Hr s2 (a2, s2') _ _ Hb Hst Hz Hy) as [[Hc Dx]|(Ea & Hb' & Hst')]; cbn [fst snd] in *; subst a2; rewrite Hy'; auto.
    - injection E as <- <-. right. split; [exact Hs'|]. exists evs, b. split; [exact Hd|]. split.
      { split; [intros H [Hx|(? & [=])]; apply (proj1 Hi H); auto|]. intros Hc k H Hk. specialize (proj2 Hi Hc k H Hk). congruence. }
      intros s2 x2 tail rest Hb Hst Hz Hx. destruct (Hrun s2 x2 Hb Hx) as ([a2 s2'] & Hy & Hy'). cbn [fst snd] in Hy'.
      destruct (Hr s2 (a2, s2') _ _ Hb Hst Hz Hy) as [[Hc Dx]|(Ea & Hb' & Hst')]; cbn [fst snd] in *; subst a2; rewrite Hy'; auto.
  Qed.

  Lemma replayed_bind_at {A B} s1 (m1 : M (areader S) A) (m2 : M sreader A) (k1 : A -> M (areader S) B) k2 :
    replayed_at s1 m1 (runs m2) -> (forall a, replayed B (k1 a) (k2 a)) -> replayed_at s1 (bind m1 k1) (runs (bind m2 k2)).
  Proof.
    intros H1 H2. eapply replayed_then; [apply H1|intros a s1' _; apply H2|]. intros s x _ <-. exists (m2 s). split; [reflexivity|].
    unfold bind. destruct (m2 s) as [[a|er|f] s']; reflexivity.
  Qed.
  Lemma replayed_bind A B (m1 : M (areader S) A) (m2 : M sreader A) (k1 : A -> M (areader S) B) k2 :
    replayed A m1 m2 -> (forall a, replayed B (k1 a) (k2 a)) -> replayed B (bind m1 k1) (bind m2 k2).
  Proof. intros H1 H2 s1. apply replayed_bind_at; [apply H1|exact H2]. Qed.

  Lemma replayed_catch A (dflt : A) (m1 : M (areader S) A) (m2 : M sreader A) :
    catching -> replayed A m1 m2 -> replayed A (catch_eof dflt m1) (catch_eof dflt m2).
  Proof.
    intros Hc H s1 r s1' Hs E. unfold catch_eof in E. destruct (m1 s1) as [a s1x] eqn:E1.
    destruct (H s1 a s1x Hs E1) as [->|(Hs' & evs & b & Hd & Hi & Hr)]; [injection E as <- _; auto|].
    assert (s1x = s1') as -> by (destruct a as [x|er|f]; [|destruct (is_eof er)|]; injection E as _ E; exact E).
    right. split; [exact Hs'|]. exists evs, b. split; [exact Hd|]. split.
    { split; [intros Hin _; apply (proj1 Hi Hin); auto|contradiction]. }
    intros s2 x2 tail rest Hb Hst Hz <-. unfold catch_eof. specialize (Hr s2 (m2 s2) tail rest Hb Hst Hz eq_refl).
    destruct (m2 s2) as [a2 s2']. cbn [fst snd] in Hr. destruct Hr as [[_ ->]|(-> & Hb' & Hst')]; [auto|].
    right. destruct a as [x|er|f]; [|destruct (is_eof er)|]; cbn [fst snd]; injection E as <-; auto.
  Qed.

  Lemma until_replayed (m1 : M (areader S) val) (m2 : M sreader val) : catching -> replayed _ m1 m2 -> forall k,
    replayed_by (until_eof_loop m1 k) (fun s x => exists k2, until_eof_loop m2 k2 s = x).
  Proof.
    intros Hc Hm2 k. induction k as [|k IH]; intros s1 r s1' Hs E; cbn [until_eof_loop] in E.
    { injection E as <- _. auto. }
    destruct (m1 s1) as [a s1x] eqn:E1.
    destruct (Hm2 s1 a s1x Hs E1) as [->|(Hs' & evs & b & Hd & Hi & Hr)]; [injection E as <- _; auto|].
    assert (Hov : In (RChunk 0) evs -> over (ar_stream s1x)).
    { intros H. apply (proj1 Hi H). auto. }
    destruct a as [v|er|f].
    - unfold mmap in E. rename E into E3.
      unfold bind in E3. destruct (until_eof_loop m1 k s1x) as [q s1y] eqn:E4.
      destruct (IH s1x q s1y Hs' E4) as [->|(Hs'' & evs' & b' & Hd' & Hi' & Hr')]; [injection E3 as <- _; auto|].
      assert (Eq : r = rmap (cons v) q /\ s1y = s1') by (destruct q; injection E3 as <- <-; auto). destruct Eq as [-> ->].
      right. split; [exact Hs''|]. exists (evs ++ evs'), (b ++ b'). split; [eapply served_app; eassumption|]. split.
      { split; [|contradiction]. intros H _. apply in_app_or in H as [H|H].
        - eapply served_over; eauto.
        - apply (proj1 Hi' H). auto. }
      intros s2 x2 tail rest Hb Hst Hz (k2 & <-). rewrite <- !app_assoc in Hst.
      destruct k2 as [|k2]; [left; split; [exact Hc|reflexivity]|]. cbn [until_eof_loop].
      assert (Hz1 : In (RChunk 0) evs -> b' ++ rest = []).
      { intros H. rewrite (Hz (in_or_app _ _ _ (or_introl H))), app_nil_r. eapply served_over; eauto. }
      specialize (Hr s2 (m2 s2) _ _ Hb Hst Hz1 eq_refl). destruct (m2 s2) as [a2 s2']. cbn [fst snd] in Hr.
      destruct Hr as [[_ ->]|(-> & Hb' & Hst')]; [left; split; [exact Hc|reflexivity]|].
      specialize (Hr' s2' (until_eof_loop m2 k2 s2') tail rest Hb' Hst'
        (fun H => Hz (in_or_app _ _ _ (or_intror H))) (ex_intro _ k2 eq_refl)).
      unfold mmap, bind. destruct (until_eof_loop m2 k2 s2') as [q2 s2'']. cbn [fst snd] in Hr'.
      destruct Hr' as [[_ ->]|(-> & Hb'' & Hst'')]; [left; split; [exact Hc|reflexivity]|].
      right. destruct q; cbn [fst snd rmap]; auto.
    - destruct (is_eof er) eqn:Ee; injection E as <- <-; right; (split; [exact Hs'|]); exists evs, b; (split; [exact Hd|]);
        (split; [split; [intros H _; auto|contradiction]|]); intros s2 x2 tail rest Hb Hst Hz (k2 & <-); (destruct k2 as [|k2]; [left; split; [exact Hc|reflexivity]|]);
        cbn [until_eof_loop]; specialize (Hr s2 (m2 s2) _ _ Hb Hst Hz eq_refl); destruct (m2 s2) as [a2 s2']; cbn [fst snd] in Hr;
        (destruct Hr as [[_ ->]|(-> & Hb' & Hst')]; [left; split; [exact Hc|reflexivity]|]); rewrite Ee; right; auto.
    - injection E as <- <-. right. split; [exact Hs'|]. exists evs, b. split; [exact Hd|]. split; [split; [intros H _; auto|contradiction]|].
      intros s2 x2 tail rest Hb Hst Hz (k2 & <-). destruct k2 as [|k2]; [left; split; [exact Hc|reflexivity]|].
      cbn [until_eof_loop]. specialize (Hr s2 (m2 s2) _ _ Hb Hst Hz eq_refl). destruct (m2 s2) as [a2 s2']. cbn [fst snd] in Hr.
      destruct Hr as [[_ ->]|(-> & Hb' & Hst')]; [left; split; [exact Hc|reflexivity]|]. right. auto.
  Qed.

  Lemma replayed_until e (m1 : M (areader S) val) (m2 : M sreader val) : catching -> replayed _ m1 m2 ->
    forall rd, replayed _ (read_until_eof (mixed rd e) m1) (read_until_eof (StreamReader mem e) m2).
  Proof.
    intros Hc H rd s1 r s1' Hs E. unfold read_until_eof in E. cbn [mixed rd_fuel] in E.
    destruct (until_replayed m1 m2 Hc H fuel s1 r s1' Hs E) as [D|(Hs' & evs & b & Hd & Hi & Hr)]; [auto|].
    right. split; [exact Hs'|]. exists evs, b. split; [exact Hd|]. split; [exact Hi|].
    intros s2 x2 tail rest Hb Hst Hz <-. apply (Hr s2 _ tail rest Hb Hst Hz). exists (sr_fuel s2). reflexivity.
  Qed.

  (* ---------------------------------------------------------------- *)
  (** ** The methods of the reader *)

  Lemma read_cases (f : any_read S) (K : keeps_rules f) s slice : (exists n out s', f s slice = (Ok n, out, s') /\ n <= nlen slice /\ nlen out = nlen slice)
    \/ (exists k out s', f s slice = (Err (IoError k), out, s') /\ nlen out = nlen slice).
  Proof.
    pose proof (kr_fills K s slice slice eq_refl) as HF. pose proof (kr_calm K s slice) as Hf. pose proof (kr_io K s slice) as Hi.
    destruct (f s slice) as [[r out] s']. destruct HF as (_ & _ & Ho & Hn). cbn [fst] in *.
    destruct r as [n|er|x].
    - left. exists n, out, s'. split; [reflexivity|]. split; [apply (Hn n eq_refl)|exact Ho].
    - right. destruct (Hi er eq_refl) as [k ->]. exists k, out, s'. auto.
    - destruct (Hf x eq_refl).
  Qed.

  Lemma slice_nonempty (slice : bytes) : 0 < nlen slice -> slice <> [].
  Proof. intros H ->. unfold nlen in H. cbn in H. lia. Qed.

  (** One call of `read`, given to a stream of [Readers] as an event. *)
  Lemma is_read_chunk n len (b rest : bytes) tail : nlen b = n -> n <= len -> (n = 0 -> rest = []) ->
    is_read len {| is_rest := b ++ rest; is_sched := RChunk n :: tail |} = (Ok b, {| is_rest := rest; is_sched := tail |}).
  Proof.
    intros Hb Hn Hz. unfold is_read, is_take. cbn [is_sched is_rest].
    assert (E : ntake (N.min len (N.max 1 n)) (b ++ rest) = b /\ ndrop (N.min len (N.max 1 n)) (b ++ rest) = rest).
    { destruct (N.eq_dec n 0) as [E0|E0].
      - rewrite (Hz E0), app_nil_r. subst n. destruct b; [|unfold nlen in E0; cbn [length] in E0; lia].
        unfold ntake, ndrop. rewrite firstn_nil, skipn_nil. auto.
      - replace (N.min len (N.max 1 n)) with (nlen b) by lia. unfold ntake, ndrop, nlen. rewrite Nat2N.id, firstn_app, skipn_app, Nat.sub_diag, firstn_all, skipn_all, firstn_O, app_nil_r. auto. }
    destruct E as [-> ->]. reflexivity.
  Qed.

  Lemma append_replayed size s1 r s1' : 0 < size -> sound s1 ->
    cb_length (ar_buffer s1) + size <= N.max (nlen (cb_buffer (ar_buffer s1))) 8192 ->
    ar_append h read mem size s1 = (r, s1') ->
    sound s1' /\ exists ev b,
      served (ar_stream s1) [ev] b (ar_stream s1')
      /\ ((exists n, r = Ok n /\ ev = RChunk n /\ cb_length (ar_buffer s1') = cb_length (ar_buffer s1) + n)
          \/ (exists k, r = Err (IoError k) /\ ev = RErr k))
      /\ forall s2 tail rest, beside s1 s2 ->
           sr_stream s2 = {| is_rest := b ++ rest; is_sched := ev :: tail |} ->
           (ev = RChunk 0 -> rest = []) ->
           exists s2', sr_append mem size s2 = (r, s2') /\ beside s1' s2' /\ sr_stream s2' = {| is_rest := rest; is_sched := tail |}.
  Proof.
    intros Hz (Hinv & Hbig) Hsize E. unfold ar_append, bind, ar_on in E.
    destruct (append_slot_ok mem Hm size _ Hinv) as (slot & d & Es & Hi & Hc & Hfit & Hsame & Hle & Hpos & Hdone).
    specialize (Hpos Hz). rewrite Es in E. unfold ar_set in E. cbn [ar_buffer ar_stream ar_buffering] in E.
    destruct (append_slot_shape _ _ _ _ _ Es) as (Er & b0 & Ee).
    assert (Hbig' : nlen (cb_buffer d) <= l_usize_max (h_lim h)).
    { destruct (reserve_shape _ _ _ _ Er) as [(-> & _)|(Hlt & _ & ->)]; [exact Hbig|]. apply Hroom. lia. }
    assert (Hix : exists slice, index (cb_buffer d) slot = Ok slice /\ nlen slice = r_len slot
      /\ r_start slot <= r_end slot /\ r_end slot <= nlen (cb_buffer d)).
    { revert Es. unfold append_slot. rewrite Er. cbn [rbind]. rewrite Ee. cbn [rbind fst]. unfold index.
      destruct (N.leb_spec (r_start slot) (r_end slot)); [|discriminate].
      destruct (N.leb_spec (r_end slot) (nlen (cb_buffer d))); [|discriminate]. cbn [andb]. intros _. eexists. split; [reflexivity|].
      rewrite nlen_slice by lia. unfold r_len. auto. }
    destruct Hix as (slice & Ei & Hsl & Hst1 & Hst2). rewrite Ei in E.
    assert (Hover : forall out, nlen out = r_len slot -> nlen (overlay (cb_buffer d) (r_start slot) out) = nlen (cb_buffer d)).
    { intros out Ho. apply nlen_overlay. unfold r_len in *. lia. }
    assert (Hshort : forall out n, nlen out = r_len slot -> n <= r_len slot ->
      let c := {| cb_buffer := overlay (cb_buffer d) (r_start slot) out; cb_position := cb_position d; cb_length := cb_length d + n |} in
      cb_inv c /\ content c = content d ++ ntake n out).
    { intros out n Ho Hn. destruct (Hdone out) as [[Hd1 Hd2] Hd3]; [lia|]. unfold append_done in *. cbn [cb_buffer cb_position cb_length] in *.
      split; [split; cbn [cb_buffer cb_position cb_length]; [lia|exact Hd2]|].
      rewrite (content_shorter _ _ (cb_length d + nlen out)) by lia. rewrite Hd3, <- Hc.
      rewrite (take_app_take _ n) by (rewrite nlen_content; lia).
      unfold ntake. apply firstn_all2. pose proof (nlen_content d) as Hl. unfold nlen in *. rewrite app_length, firstn_length. lia. }
    (* the other reader gets the same slot *)
    assert (Hother : forall s2, beside s1 s2 -> exists d2, append_slot mem size (sr_buffer s2) = Ok (slot, d2) /\ same_ring d d2
      /\ forall data, nlen data <= r_len slot -> cb_inv (append_done slot data d2) /\ content (append_done slot data d2) = content d2 ++ data
                                       /\ nlen (cb_buffer (append_done slot data d2)) = nlen (cb_buffer d)).
    { intros s2 (_ & Hring).
      destruct (same_slot mem mem Hm (fun n => eq_refl) size _ _ Hring) as (slot' & d' & d2 & E1 & E2 & SD & _ & Hd2 & sl & sl' & Ex & Ex' & Hxx & Hxl & Hxe).
      rewrite Es in E1. injection E1 as <- <-. exists d2. split; [exact E2|]. split; [exact SD|]. intros data Hdt.
      destruct (Hd2 data Hdt) as [? ?]. split; [assumption|]. split; [assumption|]. unfold append_done. cbn [cb_buffer].
      rewrite nlen_overlay; [symmetry; apply SD|]. rewrite <- (sg_capacity _ _ SD). unfold r_len in *. lia. }
    destruct (read_cases read KR (ar_stream s1) slice) as [(n & out & i & Erd & Hn & Ho)|(k & out & i & Erd & Ho)]; rewrite Erd in E.
    - unfold ar_set_stream, claimed in E. cbn [ar_buffer ar_stream ar_buffering] in E. rewrite Hsl in Hn, Ho.
      destruct (Hshort out n Ho Hn) as [Hi1 Hc1].
      destruct (N.ltb_spec (l_usize_max (h_lim h)) (cb_length d + n)) as [Hbad|_].
      { exfalso. destruct Hi1 as [Hi1 _]. cbn [cb_buffer cb_length] in Hi1. rewrite (Hover out Ho) in Hi1. lia. }
      cbn [rmap] in E. injection E as <- <-. split.
      { split; cbn [ar_buffer]; [exact Hi1|]. cbn [cb_buffer]. rewrite (Hover out Ho). exact Hbig'. }
      exists (RChunk n), (ntake n out ++ []). split.
      { cbn [ar_stream]. eapply call_served; [apply (slice_nonempty slice); lia|left; exact Erd|constructor]. }
      split; [left; exists n; split; [reflexivity|]; split; [reflexivity|]; cbn [ar_buffer cb_length]; rewrite <- (nlen_content d), Hc, nlen_content; reflexivity|].
      intros s2 tail rest Hb Hst Hzero. rewrite app_nil_r in Hst.
      assert (Hlen : nlen (ntake n out) = n) by (rewrite nlen_take; lia).
      destruct (Hother s2 Hb) as (d2 & E2 & SD & Hd2). destruct (Hd2 (ntake n out)) as (Hi2 & Hc2 & Hn2); [lia|].
      unfold sr_append, bind, on_buffer. rewrite E2. unfold set_buffer. cbn [sr_stream sr_buffer sr_buffering sr_log].
      rewrite Hst, (is_read_chunk n (r_len slot) (ntake n out) rest tail Hlen Hn) by (intros ->; auto).
      unfold set_stream. cbn [sr_stream sr_buffer sr_buffering sr_log]. rewrite Hlen. eexists. split; [reflexivity|].
      split; [|reflexivity]. split; [apply Hb|]. cbn [ar_buffer sr_buffer]. constructor; auto.
      + cbn [cb_position append_done]. apply SD.
      + cbn [cb_buffer]. rewrite (Hover out Ho). symmetry. exact Hn2.
      + rewrite Hc1, Hc2, (sg_content _ _ SD). reflexivity.
    - unfold ar_set_stream in E. cbn [ar_buffer ar_stream ar_buffering] in E. rewrite Hsl in Ho.
      destruct (Hshort out 0 Ho ltac:(lia)) as [Hi1 Hc1]. rewrite N.add_0_r in Hi1, Hc1. cbn [ntake N.to_nat firstn] in Hc1.
      change (ntake 0 out) with (@nil byte) in Hc1. rewrite app_nil_r in Hc1.
      injection E as <- <-. split.
      { split; cbn [ar_buffer]; [exact Hi1|]. cbn [cb_buffer]. rewrite (Hover out Ho). exact Hbig'. }
      exists (RErr k), []. split.
      { cbn [ar_stream]. eapply call_refused; [apply (slice_nonempty slice); lia|left; exact Erd|constructor]. }
      split; [right; eauto|]. intros s2 tail rest Hb Hst _.
      destruct (Hother s2 Hb) as (d2 & E2 & SD & _).
      unfold sr_append, bind, on_buffer. rewrite E2. unfold set_buffer. cbn [sr_stream sr_buffer sr_buffering sr_log].
      rewrite Hst. unfold is_read. cbn [is_sched is_rest app]. eexists. split; [reflexivity|]. split; [|reflexivity].
      split; [apply Hb|]. cbn [ar_buffer sr_buffer set_stream]. constructor; auto; cbn [cb_buffer cb_position].
      + apply SD.
      + apply SD.
      + rewrite (Hover out Ho). apply SD.
      + rewrite Hc1. apply SD.
  Qed.

  (** Appending, followed by something that fails if nothing came. *)
  Lemma replayed_more {B} size s1 (k1 : N -> M (areader S) B) k2 : 0 < size ->
    cb_length (ar_buffer s1) + size <= N.max (nlen (cb_buffer (ar_buffer s1))) 8192 ->
    (forall n s1', n <> 0 -> cb_length (ar_buffer s1') = cb_length (ar_buffer s1) + n -> replayed_at s1' (k1 n) (runs (k2 n))) ->
    (exists er, forall s1' s2', cb_length (ar_buffer s1') = cb_length (ar_buffer s1) -> cb_length (sr_buffer s2') = cb_length (ar_buffer s1) ->
       k1 0 s1' = (Err er, s1') /\ k2 0 s2' = (Err er, s2')) ->
    replayed_at s1 (bind (ar_append h read mem size) k1) (runs (bind (sr_append mem size) k2)).
  Proof.
    intros Hz Hsize Hk (er & Hk0) r s1'' Hs E. unfold bind in E. destruct (ar_append h read mem size s1) as [a s1'] eqn:Ea.
    destruct (append_replayed size s1 a s1' Hz Hs Hsize Ea) as (Hs' & ev & b & Hd & Hcase & Hr).
    destruct Hcase as [(n & -> & -> & Hl)|(k & -> & ->)].
    - destruct (N.eq_dec n 0) as [->|Hn].
      + rewrite N.add_0_r in Hl. destruct (Hk0 s1' {| sr_stream := {| is_rest := []; is_sched := [] |}; sr_buffer := ar_buffer s1';
           sr_buffering := false; sr_log := [] |} Hl Hl) as [E' _]. rewrite E' in E. injection E as <- <-.
        right. split; [exact Hs'|]. exists [RChunk 0], b. split; [exact Hd|]. split.
        { split; [|intros _ k [[=]|[]]]. intros _ [Hc|(? & [=])]. inversion Hd as [| ? slice ? ? ? ? ? ? Hsl Er Hd'|]; subst. inversion Hd'; subst. eapply Hend; eassumption. }
        intros s2 x2 tail rest Hb Hst Hrest <-. destruct (Hr s2 tail rest Hb Hst) as (s2' & E2 & Hb' & Hst').
        { intros _. apply Hrest. left. reflexivity. }
        unfold bind. rewrite E2. right. destruct (Hk0 s1' s2' Hl) as [_ ->]; [|auto].
        destruct Hb' as [_ SR]. rewrite <- (same_length _ _ SR). exact Hl.
      + destruct (Hk n s1' Hn Hl r s1'' Hs' E) as [D|(Hs'' & evs & b' & Hd' & Hi & Hr')]; [auto|].
        assert (Hin : In (RChunk 0) (RChunk n :: evs) -> In (RChunk 0) evs).
        { intros [H|H]; [injection H as H; congruence|exact H]. }
        right. split; [exact Hs''|]. exists (RChunk n :: evs), (b ++ b'). split; [exact (served_app _ [_] _ _ _ _ _ Hd Hd')|].
        split; [split; [intros H; exact (proj1 Hi (Hin H))|intros Hc k [[=]|H]; exact (proj2 Hi Hc k H)]|].
        intros s2 x2 tail rest Hb Hst Hrest <-. rewrite <- app_assoc in Hst. cbn [app] in Hst.
        destruct (Hr s2 (evs ++ tail) (b' ++ rest) Hb Hst) as (s2' & E2 & Hb' & Hst'); [intros [= ?]; congruence|].
        unfold bind. rewrite E2. apply (Hr' s2' _ tail rest Hb' Hst'); [|reflexivity]. intros H. apply Hrest. right. exact H.
    - injection E as <- <-. right. split; [exact Hs'|]. exists [RErr k], b. split; [exact Hd|].
      split; [split; [intros [[=]|[]]|intros _ k' [[= ->]|[]] _; reflexivity]|].
      intros s2 x2 tail rest Hb Hst _ <-. destruct (Hr s2 tail rest Hb Hst) as (s2' & E2 & Hb' & Hst'); [discriminate|].
      unfold bind. rewrite E2. right. auto.
  Qed.

  (** Programs that look at the state first. *)
  Lemma replayed_here {A} s1 (m1 m1' : M (areader S) A) (m2 m2' : M sreader A) :
    m1 s1 = m1' s1 -> (forall s2, beside s1 s2 -> m2 s2 = m2' s2) -> replayed_at s1 m1' (runs m2') -> replayed_at s1 m1 (runs m2).
  Proof.
    intros E1 E2 H r s1' Hs E. rewrite E1 in E. destruct (H r s1' Hs E) as [D|(Hs' & evs & b & Hd & Hi & Hr)]; [auto|].
    right. split; [exact Hs'|]. exists evs, b. split; [exact Hd|]. split; [exact Hi|]. intros s2 x2 tail rest Hb Hst Hrest <-.
    rewrite (E2 s2 Hb). apply (Hr s2 _ tail rest Hb Hst Hrest). reflexivity.
  Qed.

  Lemma beside_length s1 s2 : beside s1 s2 -> cb_length (sr_buffer s2) = cb_length (ar_buffer s1).
  Proof. intros [_ H]. symmetry. apply same_length, H. Qed.
  Lemma beside_capacity s1 s2 : beside s1 s2 -> nlen (cb_buffer (sr_buffer s2)) = nlen (cb_buffer (ar_buffer s1)).
  Proof. intros [_ H]. symmetry. apply H. Qed.

  Lemma fill_replayed k n : forall s1, cb_length (ar_buffer s1) < n ->
    replayed_at s1 (ar_fill h read mem k n) (runs (sr_fill mem k n)).
  Proof.
    induction k as [|k IH]; intros s1 Hn.
    - destruct (N.lt_ge_cases (cb_length (ar_buffer s1)) (nlen (cb_buffer (ar_buffer s1)))) as [Hc|Hc].
      + apply (replayed_here s1 _ (lift (Fault Diverges)) _ (lift (Fault Diverges))).
        * cbn [ar_fill]. unfold cb_len, cb_capacity. apply N.ltb_lt in Hc. rewrite Hc. reflexivity.
        * intros s2 Hb. cbn [sr_fill]. unfold cb_len, cb_capacity. rewrite (beside_length _ _ Hb), (beside_capacity _ _ Hb).
          apply N.ltb_lt in Hc. rewrite Hc. reflexivity.
        * apply replayed_lift.
      + apply (replayed_here s1 _ (ret tt) _ (ret tt)).
        * cbn [ar_fill]. unfold cb_len, cb_capacity. apply N.ltb_ge in Hc. rewrite Hc. reflexivity.
        * intros s2 Hb. cbn [sr_fill]. unfold cb_len, cb_capacity. rewrite (beside_length _ _ Hb), (beside_capacity _ _ Hb).
          apply N.ltb_ge in Hc. rewrite Hc. reflexivity.
        * apply (replayed_lift unit (Ok tt)).
    - destruct (N.lt_ge_cases (cb_length (ar_buffer s1)) (nlen (cb_buffer (ar_buffer s1)))) as [Hc|Hc].
      2:{ apply (replayed_here s1 _ (ret tt) _ (ret tt)).
        * cbn [ar_fill]. unfold cb_len, cb_capacity. apply N.ltb_ge in Hc. rewrite Hc. reflexivity.
        * intros s2 Hb. cbn [sr_fill]. unfold cb_len, cb_capacity. rewrite (beside_length _ _ Hb), (beside_capacity _ _ Hb).
          apply N.ltb_ge in Hc. rewrite Hc. reflexivity.
        * apply (replayed_lift unit (Ok tt)). }
      set (size := nlen (cb_buffer (ar_buffer s1)) - cb_length (ar_buffer s1)).
      eapply (replayed_here s1 _ (bind (ar_append h read mem size) _) _ (bind (sr_append mem size) _)).
      + cbn [ar_fill]. unfold cb_len, cb_capacity. apply N.ltb_lt in Hc. rewrite Hc. reflexivity.
      + intros s2 Hb. cbn [sr_fill]. unfold cb_len, cb_capacity. rewrite (beside_length _ _ Hb), (beside_capacity _ _ Hb).
        apply N.ltb_lt in Hc. rewrite Hc. reflexivity.
      + apply replayed_more; [unfold size; lia|unfold size; lia| |].
        * intros w s1' Hw Hl. apply N.eqb_neq in Hw. destruct (N.le_gt_cases n (cb_length (ar_buffer s1'))) as [Hle|Hgt].
          -- apply (replayed_here s1' _ (ret tt) _ (ret tt)); [| |apply (replayed_lift unit (Ok tt))].
             ++ rewrite Hw. apply N.leb_le in Hle. unfold cb_len. rewrite Hle. reflexivity.
             ++ intros s2 Hb. rewrite Hw. unfold cb_len. rewrite (beside_length _ _ Hb). apply N.leb_le in Hle. rewrite Hle. reflexivity.
          -- apply (replayed_here s1' _ (ar_fill h read mem k n) _ (sr_fill mem k n)); [| |apply IH, Hgt].
             ++ rewrite Hw. apply N.leb_gt in Hgt. unfold cb_len. rewrite Hgt. reflexivity.
             ++ intros s2 Hb. rewrite Hw. unfold cb_len. rewrite (beside_length _ _ Hb). apply N.leb_gt in Hgt. rewrite Hgt. reflexivity.
        * exists UnexpectedEndOfInput. intros s1' s2' H1 H2. unfold cb_len. cbn [N.eqb]. rewrite H1, H2.
          apply N.ltb_lt in Hn. rewrite Hn. auto.
  Qed.

  Lemma consume_replayed n s1 : n <= cb_length (ar_buffer s1) ->
    replayed_at s1 (ar_on (consume_into n)) (runs (on_buffer (consume_into n))).
  Proof.
    intros Hn r s1' [Hi Hbig] E. unfold ar_on in E. destruct (consume_into_ok n _ Hi Hn) as (c & Ec & Hi' & _ & Hbuf).
    rewrite Ec in E. injection E as <- <-. right. split; [split; cbn [ar_set ar_buffer]; [exact Hi'|rewrite Hbuf; exact Hbig]|].
    exists [], []. split; [constructor|]. split; [split; [intros []|intros _ ? []]|]. intros s2 x2 tail rest [Hb SR] Hst _ <-.
    destruct (same_consume mem mem Hm (fun n => eq_refl) n _ _ SR Hn) as (out & d & d' & E1 & E2 & SD & _). rewrite Ec in E1. injection E1 as <- <-.
    unfold on_buffer. rewrite E2. right. cbn [fst snd]. split; [reflexivity|]. split; [|exact Hst]. split; [exact Hb|exact SD].
  Qed.

  Lemma exact_replayed k : forall s done todo r s', any_exact part k s done todo = (r, s') ->
    r = Fault Diverges
    \/ exists evs b, served s evs b s'
        /\ settled evs r s' /\ (In (RChunk 0) evs -> exists er, r = Err er)
        /\ (forall d, r = Ok d -> d = done ++ b)
        /\ forall tail rest, (In (RChunk 0) evs -> rest = []) ->
             read_exact_loop (nlen todo) (b ++ rest) (evs ++ tail) = (rmap (fun _ => b) r, {| is_rest := rest; is_sched := tail |}).
  Proof.
    assert (Hnil : forall s (done : bytes) r s', (Ok done, s) = (r, s') ->
      r = Fault Diverges
      \/ exists evs b, served s evs b s'
        /\ settled evs r s' /\ (In (RChunk 0) evs -> exists er, r = Err er)
        /\ (forall d, r = Ok d -> d = done ++ b)
        /\ forall tail rest, (In (RChunk 0) evs -> rest = []) ->
             read_exact_loop 0 (b ++ rest) (evs ++ tail) = (rmap (fun _ => b) r, {| is_rest := rest; is_sched := tail |})).
    { intros s done r s' [= <- <-]. right. exists [], []. split; [constructor|]. split; [split; [intros []|intros _ ? []]|]. split; [intros []|].
      split; [intros d [= <-]; rewrite app_nil_r; reflexivity|]. intros tail rest _. cbn [app rmap].
      destruct tail as [|[]]; reflexivity. }
    induction k as [|k IH]; intros s done todo r s' E; (destruct todo as [|x todo]; [exact (Hnil _ _ _ _ E)|]).
    { cbn [any_exact] in E. injection E as <- _. auto. }
    cbn [any_exact] in E. set (slice := x :: todo) in *. assert (Hsl : slice <> []) by discriminate.
    assert (Hpos : nlen slice <> 0) by (unfold slice, nlen; cbn [length]; lia).
    pose proof Hpos as Hpos'. apply N.eqb_neq in Hpos'.
    destruct (read_cases part KP s slice) as [(n & out & i & Erd & Hn & Ho)|(kd & out & i & Erd & Ho)]; rewrite Erd in E.
    - destruct (N.eqb_spec n 0) as [->|Hn0].
      + injection E as <- <-. right. exists [RChunk 0], (ntake 0 out ++ []). split.
        { eapply call_served; [exact Hsl|right; exact Erd|constructor]. }
        split; [split; [intros _ [Hc|(? & [=])]; eapply Hend; [exact Hc|exact Hsl|right; exact Erd]|intros _ k' [[=]|[]]]|]. split; [eauto|]. split; [discriminate|].
        intros tail rest Hrest. rewrite (Hrest (or_introl eq_refl)). rewrite take_0. cbn [app rmap].
        cbn [read_exact_loop]. rewrite Hpos'. unfold is_read, is_take. cbn [is_sched is_rest snd].
        rewrite take_nil, drop_nil. reflexivity.
      + destruct (N.leb_spec n (nlen out)); [|lia].
        destruct (IH _ _ _ _ _ E) as [D|(evs & b & Hd & Hi & Hi2 & Hok & Hr)]; [auto|]. right.
        assert (Hin : In (RChunk 0) (RChunk n :: evs) -> In (RChunk 0) evs).
        { intros [H'|H']; [injection H' as H'; congruence|exact H']. }
        assert (Hlen : nlen (ntake n out) = n) by (rewrite nlen_take; lia).
        exists (RChunk n :: evs), (ntake n out ++ b). split; [eapply call_served; [exact Hsl|right; exact Erd|exact Hd]|].
        split; [split; [intros H'; exact (proj1 Hi (Hin H'))|intros Hc k' [[=]|H']; exact (proj2 Hi Hc k' H')]|].
        split; [intros H'; exact (Hi2 (Hin H'))|]. split; [intros d Ed; rewrite (Hok d Ed), app_assoc; reflexivity|].
        intros tail rest Hrest. cbn [app read_exact_loop]. rewrite Hpos'.
        replace (N.min (nlen slice) (N.max 1 n)) with n by lia. rewrite <- app_assoc.
        rewrite take_app_exact, drop_app_exact by exact Hlen. rewrite Hlen. apply N.eqb_neq in Hn0. rewrite Hn0.
        replace (nlen slice - n) with (nlen (ndrop n out)) by (rewrite nlen_drop; lia).
        rewrite Hr by (intros H'; apply Hrest; right; exact H'). destruct r; reflexivity.
    - assert (Hint : kd = IoInterrupted \/ kd <> IoInterrupted) by (destruct kd; (left; reflexivity) || (right; discriminate)).
      destruct Hint as [->|Hk].
      + destruct (IH _ _ _ _ _ E) as [D|(evs & b & Hd & Hi & Hi2 & Hok & Hr)]; [auto|]. right.
        exists (RErr IoInterrupted :: evs), b. split; [eapply call_refused; [exact Hsl|right; exact Erd|exact Hd]|].
        split; [split; [intros [[=]|H']; exact (proj1 Hi H')|intros Hc k' [[= <-]|H'] Hk; [congruence|exact (proj2 Hi Hc k' H' Hk)]]|].
        split; [intros [[=]|H']; exact (Hi2 H')|]. split; [exact Hok|]. intros tail rest Hrest.
        cbn [app read_exact_loop]. rewrite Hpos'. rewrite <- Ho. apply Hr. intros H'. apply Hrest. right. exact H'.
      + assert (E' : (Err (IoError kd), i) = (r, s')) by (destruct kd; congruence). injection E' as <- <-.
        right. exists [RErr kd], []. split; [eapply call_refused; [exact Hsl|right; exact Erd|constructor]|].
        split; [split; [intros [[=]|[]]|intros _ k' [[= ->]|[]] _; reflexivity]|]. split; [intros [[=]|[]]|]. split; [discriminate|]. intros tail rest _. cbn [app rmap read_exact_loop]. rewrite Hpos'.
        destruct kd; congruence || reflexivity.
  Qed.

  Lemma exact_part n :
    replayed _ (fun s => let (r, i) := any_exact part fuel' (ar_stream s) [] (ntake n (mem n)) in (r, ar_set_stream i s))
               (fun s => let (r, i) := is_read_exact n (sr_stream s) in (r, set_stream i s)).
  Proof.
    intros s1 r s1' Hs E. destruct (any_exact part fuel' (ar_stream s1) [] (ntake n (mem n))) as [q i] eqn:Ea. injection E as <- <-.
    destruct (exact_replayed _ _ _ _ _ _ Ea) as [D|(evs & b & Hd & Hi & _ & Hok & Hr)]; [auto|]. right. split; [exact Hs|].
    exists evs, b. split; [exact Hd|]. split; [exact Hi|].
    intros s2 x2 tail rest Hb Hst Hrest <-. unfold is_read_exact. rewrite Hst. cbn [is_rest is_sched].
    specialize (Hr tail rest Hrest). replace (nlen (ntake n (mem n))) with n in Hr by (rewrite nlen_take; pose proof (Hm n); lia).
    rewrite Hr. right. cbn [fst snd]. split; [|split; [exact Hb|reflexivity]].
    destruct q as [d| |]; cbn [rmap]; [|reflexivity..]. rewrite (Hok d eq_refl). reflexivity.
  Qed.

  Lemma drain_replayed n : replayed _ (ar_drain part mem fuel' n) (sr_drain n).
  Proof.
    intros s1. set (len := N.min (cb_length (ar_buffer s1)) n).
    eapply (replayed_here s1 _ (bind (if 0 <? cb_length (ar_buffer s1) then ar_on (consume_into len) else ret [])
              (fun first => if n - len =? 0 then ret first else
                 bind (fun s => let (r, i) := any_exact part fuel' (ar_stream s) [] (ntake (n - len) (mem (n - len))) in (r, ar_set_stream i s))
                      (fun rest => ret (first ++ rest))))
            _ (bind (if 0 <? cb_length (ar_buffer s1) then on_buffer (consume_into len) else ret [])
              (fun first => if n - len =? 0 then ret first else
                 bind (fun s => let (r, i) := is_read_exact (n - len) (sr_stream s) in (r, set_stream i s))
                      (fun rest => ret (first ++ rest))))).
    - reflexivity.
    - intros s2 Hb. unfold sr_drain, cb_len. rewrite (beside_length _ _ Hb). reflexivity.
    - apply replayed_bind_at.
      + destruct (0 <? cb_length (ar_buffer s1)); [apply consume_replayed; unfold len; lia|apply (replayed_lift _ (Ok []))].
      + intros first. destruct (n - len =? 0); [apply (replayed_lift _ (Ok first))|].
        apply replayed_bind; [apply exact_part|]. intros rest. apply (replayed_lift _ (Ok (first ++ rest))).
  Qed.

  Lemma read_replayed n : replayed _ (mixed_read n) (sr_read mem n).
  Proof.
    intros s1. destruct (N.le_gt_cases n (cb_length (ar_buffer s1))) as [Hn|Hn].
    - apply (replayed_here s1 _ (ar_on (consume_into n)) _ (on_buffer (consume_into n))); [| |apply consume_replayed, Hn].
      + unfold mixed_read, cb_len. apply N.leb_le in Hn. rewrite Hn. reflexivity.
      + intros s2 Hb. unfold sr_read, cb_len. rewrite (beside_length _ _ Hb). apply N.leb_le in Hn. rewrite Hn. reflexivity.
    - set (cap := nlen (cb_buffer (ar_buffer s1))). set (b := (ar_buffering s1 && (n <? cap))%bool).
      apply (replayed_here s1 _ (bind (if b then ar_fill h read mem (N.to_nat cap) n else ret tt) (fun _ => ar_drain part mem fuel' n))
             _ (bind (if b then sr_fill mem (N.to_nat cap) n else ret tt) (fun _ => sr_drain n))).
      + unfold mixed_read, cb_len. apply N.leb_gt in Hn. rewrite Hn. reflexivity.
      + intros s2 Hb. unfold sr_read, cb_len. rewrite (beside_length _ _ Hb). apply N.leb_gt in Hn. rewrite Hn.
        unfold sr_read_slow, cb_capacity. rewrite (beside_capacity _ _ Hb). destruct Hb as [Hbb _]. rewrite <- Hbb. reflexivity.
      + apply replayed_bind_at; [|intros _; apply drain_replayed].
        destruct b; [apply fill_replayed, Hn|apply (replayed_lift _ (Ok tt))].
  Qed.

  Lemma when_sound {A} s1 (m : M (areader S) A) run : (sound s1 -> replayed_at s1 m run) -> replayed_at s1 m run.
  Proof. intros H r s1' Hs. exact (H Hs r s1' Hs). Qed.

  Lemma peek_fill_replayed k n : n <= 16 -> replayed _ (ar_peek_fill h read mem k n) (sr_peek_fill mem k n).
  Proof.
    intros Hn16. induction k as [|k IH]; intros s1; apply when_sound; intros Hs;
      (destruct (N.lt_ge_cases (cb_length (ar_buffer s1)) n) as [Hn|Hn];
        [|apply (replayed_here s1 _ (ret tt) _ (ret tt)); [| |apply (replayed_lift unit (Ok tt))];
          [cbn [ar_peek_fill]; unfold cb_len; apply N.ltb_ge in Hn; rewrite Hn; reflexivity
          |intros s2 Hb; cbn [sr_peek_fill]; unfold cb_len; rewrite (beside_length _ _ Hb); apply N.ltb_ge in Hn; rewrite Hn; reflexivity]]).
    - apply (replayed_here s1 _ (lift (Fault Diverges)) _ (lift (Fault Diverges))); [| |apply replayed_lift].
      + cbn [ar_peek_fill]. unfold cb_len. apply N.ltb_lt in Hn. rewrite Hn. reflexivity.
      + intros s2 Hb. cbn [sr_peek_fill]. unfold cb_len. rewrite (beside_length _ _ Hb). apply N.ltb_lt in Hn. rewrite Hn. reflexivity.
    - set (len := cb_length (ar_buffer s1)) in *. set (cap := nlen (cb_buffer (ar_buffer s1))).
      assert (Hlc : len <= cap) by apply Hs.
      set (more := if ar_buffering s1 then N.max (n - len) (cap - len) else n - len).
      assert (Hus : usub cap len = Ok (cap - len)).
      { unfold usub. destruct (N.leb_spec len cap); [reflexivity|lia]. }
      apply (replayed_here s1 _ (bind (ar_append h read mem more) (fun w => if w =? 0 then fail UnexpectedEndOfInput else ar_peek_fill h read mem k n))
             _ (bind (sr_append mem more) (fun w => if w =? 0 then fail UnexpectedEndOfInput else sr_peek_fill mem k n))).
      + cbn [ar_peek_fill]. unfold cb_len, cb_capacity. fold len cap. apply N.ltb_lt in Hn. rewrite Hn, Hus. unfold more.
        destruct (ar_buffering s1); reflexivity.
      + intros s2 Hb. cbn [sr_peek_fill]. unfold cb_len, cb_capacity. rewrite (beside_length _ _ Hb), (beside_capacity _ _ Hb).
        fold len cap. apply N.ltb_lt in Hn. rewrite Hn, Hus. destruct Hb as [Hbb _]. rewrite <- Hbb. unfold more.
        destruct (ar_buffering s1); reflexivity.
      + apply replayed_more; fold len cap.
        * unfold more. destruct (ar_buffering s1); lia.
        * unfold more. destruct (ar_buffering s1); lia.
        * intros w s1' Hw _. apply N.eqb_neq in Hw. rewrite Hw. apply IH.
        * exists UnexpectedEndOfInput. intros s1' s2' _ _. cbn [N.eqb]. split; reflexivity.
  Qed.

  Lemma peek_replayed n : n <= 16 -> replayed _ (ar_peek h read mem n) (sr_peek mem n).
  Proof.
    intros Hn. apply replayed_bind; [apply peek_fill_replayed, Hn|]. intros _ s1 r s1' Hs [= <- <-]. right. split; [exact Hs|].
    exists [], []. split; [constructor|]. split; [split; [intros []|intros _ ? []]|]. intros s2 x2 tail rest Hb Hst _ <-. right. unfold see_buffer. cbn [fst snd].
    split; [|split; [exact Hb|exact Hst]]. destruct Hb as [_ Hc]. pose proof (same_length _ _ Hc) as Hl.
    destruct (N.leb_spec n (cb_length (ar_buffer s1))) as [Hle|Hgt].
    - destruct (as_slices_of_length_ok n _ (sg_inv _ _ Hc) Hle) as (ab & -> & Hj).
      destruct (as_slices_of_length_ok n (sr_buffer s2) (sg_inv' _ _ Hc)) as (ab' & -> & Hj'); [lia|].
      cbn [rbind]. rewrite Hj, Hj', (sg_content _ _ Hc). reflexivity.
    - unfold as_slices_of_length. rewrite <- Hl. destruct (N.leb_spec n (cb_length (ar_buffer s1))); [lia|]. reflexivity.
  Qed.

  Lemma replayed_closed (rd : N -> M (areader S) bytes) e : (forall n s, rd n s = mixed_read n s) -> closed (mixed rd e) (StreamReader mem e) catching replayed.
  Proof.
    intros Hrd. assert (Hread : forall n, replayed _ (rd n) (sr_read mem n)).
    { intros n. apply (replayed_ext _ (mixed_read n) _ (sr_read mem n)); [symmetry; apply Hrd|reflexivity|apply read_replayed]. }
    constructor; cbn [mixed StreamReader rd_endian rd_read rd_read_ptr rd_peek rd_peek_ptr rd_can rd_borrow rd_borrow_r rd_borrow_eof rd_alloc];
      auto using replayed_lift, replayed_bind, replayed_catch, replayed_until, peek_replayed; [|exact replayed_ext].
    intros n size min s1 r s1' Hs [= <- <-]. right. split; [exact Hs|]. exists [], []. split; [constructor|]. split; [split; [intros []|intros _ ? []]|].
    intros s2 x2 tail rest Hb Hst _ <-. right. cbn. auto.
  Qed.

  Lemma read_from_replayed (rd : N -> M (areader S) bytes) e (buffering : bool) t s r s' : (forall n s, rd n s = mixed_read n s) ->
    lendable catching True (fun _ _ => True) True (fun _ => True) LDefault t ->
    (let (r, s') := ReadImpl.read h (mixed rd e) t
                     {| ar_stream := s; ar_buffer := with_capacity mem (if buffering then 8 * 1024 else 0);
                        ar_buffering := buffering |} in
    (r, ar_stream s')) = (r, s') ->
    r = Fault Diverges
    \/ exists evs b, served s evs b s'
        /\ settled evs r s'
        /\ forall tail rest, (In (RChunk 0) evs -> rest = []) ->
             let (r2, i) := deserialize h mem buffering e t {| is_rest := b ++ rest; is_sched := evs ++ tail |} in
             (catching /\ r2 = Fault Diverges) \/ (r2 = r /\ sr_stream i = {| is_rest := rest; is_sched := tail |}).
  Proof.
    intros Hrd Ht E.
    set (s0 := {| ar_stream := s; ar_buffer := with_capacity mem _; ar_buffering := buffering |}) in E.
    assert (H0 : sound s0).
    { destruct (with_capacity_ok mem Hm (if buffering then 8 * 1024 else 0)) as (Hi & Hc & Hk). split; [exact Hi|].
      cbn [s0 ar_buffer]. unfold cb_capacity in Hk. rewrite Hk. pose proof (Hroom 8192 ltac:(lia)) as Hr. pose proof (Hm 8192).
      destruct buffering; lia. }
    destruct (ReadImpl.read h (mixed rd e) t s0) as [q s1] eqn:E1. injection E as <- <-.
    destruct (both_read h _ _ catching replayed (replayed_closed rd e Hrd) t Ht s0 q s1 H0 E1) as [D|(_ & evs & b & Hd & Hi & Hr)]; [auto|].
    right. exists evs, b. split; [exact Hd|]. split; [exact Hi|]. intros tail rest Hrest. unfold deserialize.
    set (s2 := sr_start mem buffering {| is_rest := b ++ rest; is_sched := evs ++ tail |}).
    assert (Hb : beside s0 s2).
    { split; [reflexivity|]. cbn [s0 s2 sr_start ar_buffer sr_buffer].
      destruct (with_capacity_ok mem Hm (if buffering then 8 * 1024 else 0)) as (Hi0 & Hc & Hk). constructor; auto. }
    specialize (Hr s2 (ReadImpl.read h (StreamReader mem e) t s2) tail rest Hb eq_refl Hrest eq_refl).
    destruct (ReadImpl.read h (StreamReader mem e) t s2) as [r2 s2']. cbn [fst snd] in Hr.
    destruct Hr as [D|(D & _ & Hst)]; auto.
  Qed.
End Replay.
