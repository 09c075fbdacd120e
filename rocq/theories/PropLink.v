(* Property C110: values that are sent one after another over a stream that may
   break, and files that may not have been written completely. *)
From Verif Require Import Samples Checker Entry Extend EncFacts PropReaders PropRoundTrip PropWrite.

Section Link.
  Context (h : host) (VH : valid_host h) (e : endian).
  Context (mem : N -> bytes) (Hmem : forall n, n <= nlen (mem n)).
  Notation e6 := (ipv6_order h e).

  (** The sender writes one value after the other until a write fails, and knows how
      many were accepted. *)
  Fixpoint send (tvs : list (ty * val)) (o : ostream) : nat * ostream :=
    match tvs with
    | [] => (0%nat, o)
    | (t, v) :: r =>
      match write_to_stream h e t v o with
      | (Ok _, o1) => let (n, o2) := send r o1 in (S n, o2)
      | (_, o1) => (0%nat, o1)
      end
    end.

  (** The receiver reads one value after the other until a read fails. *)
  Fixpoint receive (ts : list ty) (i : istream) : list val * option (res val) :=
    match ts with
    | [] => ([], None)
    | t :: r =>
      match read_from_stream_unbuffered h mem e t i with
      | (Ok v, i1) => let (vs, end_) := receive r i1 in (v :: vs, end_)
      | (x, _) => ([], Some x)
      end
    end.

  Definition message (tv : ty * val) : Prop :=
    covered h e false false (fst tv) /\ no_eof false (fst tv) /\ value_of h e (fst tv) (snd tv)
    /\ exists b, write_to_vec h mem e (fst tv) (snd tv) = Ok b.

  Lemma messages_written tvs : Forall message tvs -> exists bs, Forall2 (written_item h e mem) tvs bs.
  Proof.
    induction 1 as [|tv tvs (Hc & Hn & Hv & b & Hb) _ (bs & IH)]; [exists []; constructor|].
    exists (b :: bs). constructor; [|exact IH]. repeat (split; [assumption|]). exact Hb.
  Qed.

  (** What arrives is cut off somewhere, not before the end of what was accepted. *)
  Lemma sent_bytes tvs bs : Forall2 (written_item h e mem) tvs bs -> forall o n o', send tvs o = (n, o') ->
    exists p q, os_out o' = os_out o ++ p /\ concat bs = p ++ q
      /\ (n <= length tvs)%nat /\ (exists p', p = concat (firstn n bs) ++ p')
      /\ (well_behaved (os_sched o) -> n = length tvs).
  Proof.
    induction 1 as [|[t v] b tvs bs (Hc & Hn & Hv & Hb) HF IH]; intros o n o' E; cbn [send] in E.
    - injection E as <- <-. exists [], []. rewrite app_nil_r. cbn. repeat split; auto. exists []. reflexivity.
    - cbn [fst snd] in *. destruct Hc as [Hw Hs Hr]. destruct Hv as [Hv Ht].
      assert (He : encode (h_iter h) e e6 t v = Ok b) by (eapply write_to_vec_err; eassumption).
      destruct (write_to_stream h e t v o) as [r o1] eqn:E1.
      destruct (C43_failed_writes h VH e t v b o r o1 Hw Hv He E1) as (b1 & b2 & Eb & Eo & Hx).
      assert (Hwb : well_behaved (os_sched o) -> r = Ok tt /\ incl (os_sched o1) (os_sched o)).
      { intros H. pose proof (write_to_stream_spec h VH e t v Hw Hv o) as W. rewrite E1 in W.
        unfold Spec.encode in He. rewrite He in W. cbn in W.
        destruct W as [[-> [_ Hi]]|(er & c1 & c2 & _ & _ & _ & _ & C)]; [auto|exfalso].
        apply C. intros ev Hev. destruct (H ev Hev) as [->|(k & -> & Hk)]; [reflexivity|].
        cbn. destruct (N.eqb_spec k 0); [contradiction|reflexivity]. }
      destruct r as [[]|er|f].
      + destruct (send tvs o1) as [m o2] eqn:E2. injection E as <- <-.
        destruct Hx as [[_ ->]|(ev & er & _ & _ & C)]; [|discriminate]. rewrite app_nil_r in Eb. subst b1.
        destruct (IH o1 m o2 E2) as (p & q & Ep & Eq & Hm & (p' & Hp') & Hall).
        exists (b ++ p), q. rewrite Ep, Eo, <- app_assoc. split; [reflexivity|]. cbn [concat].
        rewrite Eq, app_assoc. split; [reflexivity|]. cbn [length firstn concat]. split; [lia|]. split.
        * exists p'. rewrite Hp', app_assoc. reflexivity.
        * intros H. rewrite Hall; [reflexivity|]. intros ev Hev. apply H, Hwb; assumption.
      + injection E as <- <-. exists b1, (b2 ++ concat bs). split; [exact Eo|]. cbn [concat]. rewrite Eb, <- app_assoc.
        split; [reflexivity|]. split; [lia|]. split; [exists b1; reflexivity|]. intros H. destruct (Hwb H). discriminate.
      + injection E as <- <-. exists b1, (b2 ++ concat bs). split; [exact Eo|]. cbn [concat]. rewrite Eb, <- app_assoc.
        split; [reflexivity|]. split; [lia|]. split; [exists b1; reflexivity|]. intros H. destruct (Hwb H). discriminate.
  Qed.

  Lemma received tvs bs : Forall2 (written_item h e mem) tvs bs -> forall p q sched,
    concat bs = p ++ q -> nlen p <= l_usize_max (h_lim h) -> only_interrupted sched ->
    let (vs, end_) := receive (map fst tvs) {| is_rest := p; is_sched := sched |} in
    exists k, (k <= length tvs)%nat /\ vs = map (fun tv => norm (fst tv) (snd tv)) (firstn k tvs)
      /\ match end_ with None => k = length tvs | Some r => (k < length tvs)%nat /\ ran_out r end
      /\ forall n p', (n <= length tvs)%nat -> p = concat (firstn n bs) ++ p' -> (n <= k)%nat.
  Proof.
    induction 1 as [|[t v] b tvs bs (Hc & Hn & Hv & Hb) HF IH]; intros p q sched E Hl Hsc; cbn [map receive fst].
    - exists 0%nat. cbn. auto.
    - cbn [fst snd concat] in *.
      assert (Hcase : (exists p', p = b ++ p' /\ concat bs = p' ++ q) \/ exists c, c <> [] /\ b = p ++ c).
      { destruct (app_eq_app _ _ _ _ E) as (c & [[-> Eq]|[-> Eq]]).
        - destruct c as [|x c].
          + left. exists []. rewrite !app_nil_r. cbn in Eq |- *. auto.
          + right. exists (x :: c). split; [discriminate|reflexivity].
        - left. exists c. auto. }
      destruct Hcase as [(p' & -> & E')|(c & Hne & ->)].
      + destruct (C10_nothing_extra h VH e mem Hmem t v b p' sched Hc Hn Hv Hb Hl Hsc) as (sc & Hin & Er).
        rewrite Er. rewrite nlen_app in Hl.
        specialize (IH p' q sc E' ltac:(lia) ltac:(intros k Hk; apply Hsc, Hin, Hk)).
        destruct (receive (map fst tvs) {| is_rest := p'; is_sched := sc |}) as [vs end_].
        destruct IH as (k & Hk & -> & Hend & Hmax). exists (S k). cbn [length firstn map fst snd].
        split; [lia|]. split; [reflexivity|]. split.
        * destruct end_; [split; [lia|apply Hend]|lia].
        * intros [|n] p'' Hle Ep; [lia|]. cbn [firstn concat] in Ep. rewrite <- app_assoc in Ep.
          apply app_inv_head in Ep. apply le_n_S, (Hmax n p''); [lia|exact Ep].
      + assert (Hne' : ~ In (RErr IoUnexpectedEof) sched) by (intros Hin; apply Hsc in Hin; discriminate).
        pose proof (C14_truncated_stream h VH e mem Hmem t v p c false false sched Hc Hn Hv Hne Hb Hl Hne') as Ht.
        cbn zeta in Ht. unfold read_from_stream_unbuffered.
        destruct (deserialize h mem false e t {| is_rest := p; is_sched := sched |}) as [r s]. cbn [fst] in Ht.
        assert (Hr : ran_out r).
        { destruct Ht as [Ht|(k & _ & Hk & Hi)]; [exact Ht|]. destruct (Hi eq_refl eq_refl (Hsc _ Hk)). }
        assert (Hnk : forall w, r <> Ok w) by (intros w ->; destruct Hr as (er & Hr & _); discriminate).
        destruct r as [w|er|f]; [destruct (Hnk w eq_refl)| |destruct Hr as (er & Hr & _); discriminate].
        exists 0%nat. cbn [length firstn map]. split; [lia|]. split; [reflexivity|]. split; [split; [lia|exact Hr]|].
        intros [|n] p'' Hle Ep; [lia|]. exfalso. cbn [firstn concat] in Ep. apply (f_equal nlen) in Ep.
        rewrite !nlen_app in Ep. destruct c; [congruence|]. rewrite nlen_cons in Ep. lia.
  Qed.

  (** C110: whatever goes wrong while values are sent, the receiver gets the first of
      them as they were, among them all whose sending succeeded; then the input ends. *)
  Theorem C110_link tvs sched n o' sched_in :
    Forall message tvs -> send tvs {| os_out := []; os_sched := sched |} = (n, o') ->
    nlen (os_out o') <= l_usize_max (h_lim h) -> only_interrupted sched_in ->
    let (vs, end_) := receive (map fst tvs) {| is_rest := os_out o'; is_sched := sched_in |} in
    exists k, (n <= k <= length tvs)%nat
      /\ vs = map (fun tv => norm (fst tv) (snd tv)) (firstn k tvs)
      /\ match end_ with None => k = length tvs | Some r => (k < length tvs)%nat /\ ran_out r end.
  Proof.
    intros Hm Hs Hl Hsc. destruct (messages_written tvs Hm) as (bs & HF).
    destruct (sent_bytes tvs bs HF _ _ _ Hs) as (p & q & Ep & Eq & Hn & (p' & Hp) & _). cbn [os_out app] in Ep.
    rewrite Ep in *. pose proof (received tvs bs HF p q sched_in Eq Hl Hsc) as H.
    destruct (receive (map fst tvs) {| is_rest := p; is_sched := sched_in |}) as [vs end_].
    destruct H as (k & Hk & -> & Hend & Hmax). exists k. split; [|split; [reflexivity|exact Hend]].
    split; [|exact Hk]. apply (Hmax n p' Hn Hp).
  Qed.

  (** C110: if nothing goes wrong, all of them are received. *)
  Theorem C110_all tvs sched n o' sched_in :
    Forall message tvs -> well_behaved sched -> send tvs {| os_out := []; os_sched := sched |} = (n, o') ->
    nlen (os_out o') <= l_usize_max (h_lim h) -> only_interrupted sched_in ->
    n = length tvs
    /\ receive (map fst tvs) {| is_rest := os_out o'; is_sched := sched_in |}
       = (map (fun tv => norm (fst tv) (snd tv)) tvs, None).
  Proof.
    intros Hm Hw Hs Hl Hsc. pose proof (C110_link tvs sched n o' sched_in Hm Hs Hl Hsc) as H.
    destruct (messages_written tvs Hm) as (bs & HF).
    destruct (sent_bytes tvs bs HF _ _ _ Hs) as (p & q & _ & _ & _ & _ & Hall). specialize (Hall Hw).
    destruct (receive (map fst tvs) {| is_rest := os_out o'; is_sched := sched_in |}) as [vs end_].
    destruct H as (k & Hk & -> & Hend). split; [exact Hall|]. assert (k = length tvs) as -> by lia.
    rewrite firstn_all. f_equal. destruct end_; [lia|reflexivity].
  Qed.

  (** C110: a file that was not written completely, with or without the error having
      been reported, is not mistaken for another value: it is read as what was to be
      written, or not at all. *)
  Theorem C110_file t v b sched r o' mmapped sched_in w :
    covered h e false true t -> no_eof false t -> value_of h e t v -> write_to_vec h mem e t v = Ok b ->
    write_to_file h None e t v sched = (r, o') -> nlen b <= h_alloc_max h ->
    ~ In (RErr IoUnexpectedEof) sched_in ->
    read_from_file h mmapped mem None e t (os_out o') sched_in = Ok w -> w = norm t v /\ os_out o' = b.
  Proof.
    intros Hc Hn Hv Hb Hw Hl Hsc Hr. destruct Hc as [Cw Cs Cr]. pose proof (conj Cw (conj Cs Cr)) as Hc0.
    assert (Hc : covered h e false true t) by (constructor; assumption).
    assert (He : encode (h_iter h) e e6 t v = Ok b) by (destruct Hv as [Hv _]; eapply write_to_vec_err; eassumption).
    destruct (C44_file_prefix_partial h VH e t v b sched r o' Cw (proj1 Hv) He Hw) as (q & Eb & _).
    pose proof (vh_alloc h VH) as Ha.
    assert (Hlp : nlen (os_out o') <= h_alloc_max h) by (rewrite Eb, nlen_app in Hl; lia).
    destruct q as [|x q].
    - rewrite app_nil_r in Eb. split; [|auto]. rewrite <- Eb in Hr.
      pose proof (host_round_trip h VH e t v b [] Cr Hv He (fun _ => eq_refl)) as Hd. rewrite app_nil_r in Hd.
      unfold read_from_file in Hr. destruct mmapped.
      + destruct (copying_agrees h VH e t b Cs Hl (host_min h VH e _ _ t v b Cs Hv He)) as [H _].
        rewrite Hd in H. cbn in H. congruence.
      + unfold read_from_stream_buffered in Hr.
        pose proof (stream_agrees h VH e mem Hmem true true {| is_rest := b; is_sched := sched_in |} Hsc ltac:(cbn; lia) t Cs) as H.
        destruct (deserialize h mem true e t {| is_rest := b; is_sched := sched_in |}) as [r1 s1]. cbn [fst is_rest] in *.
        destruct H as [(k & -> & _)|[H _]]; [discriminate|]. rewrite Hd in H. cbn in H. congruence.
    - exfalso. rewrite Eb in Hb. unfold read_from_file in Hr. destruct mmapped.
      + revert Hr. apply (C13_truncated_buffer_copying h VH e mem Hmem t v _ (x :: q)); auto. discriminate.
      + revert Hr. unfold read_from_stream_buffered.
        pose proof (C13_truncated_stream h VH e mem Hmem t v _ (x :: q) true true sched_in w Hc Hn Hv ltac:(discriminate) Hb ltac:(lia) Hsc) as H.
        destruct (deserialize h mem true e t {| is_rest := os_out o'; is_sched := sched_in |}). exact H.
  Qed.

  (** C110: if nothing goes wrong with the file, it is read as what was written. *)
  Theorem C110_file_kept t v b sched r o' mmapped sched_in :
    covered h e false true t -> value_of h e t v -> write_to_vec h mem e t v = Ok b ->
    write_to_file h None e t v sched = (r, o') -> nlen b <= h_alloc_max h ->
    well_behaved sched -> no_errors sched_in ->
    r = Ok tt /\ os_out o' = b /\ read_from_file h mmapped mem None e t (os_out o') sched_in = Ok (norm t v).
  Proof.
    intros [Cw Cs Cr] Hv Hb Hw Hl Hwb Hsc.
    assert (He : encode (h_iter h) e e6 t v = Ok b) by (destruct Hv as [Hv _]; eapply write_to_vec_err; eassumption).
    destruct (C44_file_prefix_partial h VH e t v b sched r o' Cw (proj1 Hv) He Hw) as (q & Eb & Hall).
    destruct (Hall Hwb) as [-> ->]. rewrite app_nil_r in Eb. rewrite <- Eb. split; [reflexivity|]. split; [reflexivity|].
    pose proof (vh_alloc h VH) as Ha.
    pose proof (host_round_trip h VH e t v b [] Cr Hv He (fun _ => eq_refl)) as Hd. rewrite app_nil_r in Hd.
    unfold read_from_file. destruct mmapped.
    - destruct (copying_agrees h VH e t b Cs Hl (host_min h VH e _ _ t v b Cs Hv He)) as [H _].
      rewrite Hd in H. exact H.
    - unfold read_from_stream_buffered.
      pose proof (stream_agrees h VH e mem Hmem true true {| is_rest := b; is_sched := sched_in |} (Hsc _) ltac:(cbn; lia) t Cs) as H.
      destruct (deserialize h mem true e t {| is_rest := b; is_sched := sched_in |}) as [r1 s1]. cbn [fst is_rest] in *.
      destruct H as [(k & -> & Hk & _)|[H _]]; [destruct (Hsc k Hk)|]. rewrite Hd in H. exact H.
  Qed.
End Link.

Print Assumptions C110_link.
Print Assumptions C110_all.
Print Assumptions C110_file.
Print Assumptions C110_file_kept.

(* ------------------------------------------------------------------ *)
(** * Examples *)

Definition talk : list (ty * val) :=
  [(TP U8, VInt 7); (shape, VVar 1 [VInt 5; VInt 1065353216]); (TStr KString, VBytes [x61; x62])].

Example talk_messages : Forall (message host64 LE dirty) talk.
Proof.
  repeat (constructor; [split; [apply coveredb_sound; vm_compute; reflexivity|split; [apply no_eofb_sound; vm_compute; reflexivity|
    split; [apply value_ofb_sound; vm_compute; reflexivity|eexists; vm_compute; reflexivity]]]|]). constructor.
Qed.

(** The line breaks after nine bytes: the first two of three values are received, the
    sender knows of both; after seven bytes it is one. *)
Example talk_broken :
  let try_ sched :=
    let (n, o) := send host64 LE talk {| os_out := []; os_sched := sched |} in
    (n, receive host64 LE dirty (map fst talk) {| is_rest := os_out o; is_sched := [RErr IoInterrupted; RChunk 2] |}) in
  try_ [WAccept 1; WAccept 2; WErr IoInterrupted; WAccept 1; WAccept 4; WAccept 1; WErr (IoOther 32)]
  = (2%nat, ([VInt 7; VVar 1 [VInt 5; VInt 1065353216]], Some (Err (IoError IoUnexpectedEof))))
  /\ try_ [WAccept 1; WAccept 2; WAccept 1; WAccept 3; WErr (IoOther 32)] = (1%nat, ([VInt 7], Some (Err (IoError IoUnexpectedEof))))
  /\ try_ [] = (3%nat, (map snd talk, None)).
Proof. vm_compute. auto. Qed.

Example talk_holds :
  let o := snd (send host64 LE talk {| os_out := []; os_sched := [WAccept 1; WErr (IoOther 32)] |}) in
  let (vs, end_) := receive host64 LE dirty (map fst talk) {| is_rest := os_out o; is_sched := [] |} in
  exists k, (1 <= k <= 3)%nat /\ vs = map (fun tv => norm (fst tv) (snd tv)) (firstn k talk)
    /\ match end_ with None => k = 3%nat | Some r => (k < 3)%nat /\ ran_out r end.
Proof.
  apply (C110_link host64 host64_valid LE dirty dirty_enough talk [WAccept 1; WErr (IoOther 32)] 1 _ [] talk_messages).
  - vm_compute. reflexivity.
  - vm_compute. discriminate.
  - intros k [].
Qed.

(** The buffered reader is no receiver: it takes the second value from the stream
    together with the first. *)
Example buffered_receiver :
  let o := snd (send host64 LE talk {| os_out := []; os_sched := [] |}) in
  let (r, i) := read_from_stream_buffered host64 dirty LE (TP U8) {| is_rest := os_out o; is_sched := [] |} in
  r = Ok (VInt 7) /\ is_rest i = [].
Proof. vm_compute. auto. Qed.

(** The error of the last write is lost, but the file is not read as something else. *)
Example file_cut :
  let file := write_to_file host64 None LE (TStr KString) (VBytes [x61; x62]) [WAccept 5; WErr (IoOther 28)] in
  fst file = Ok tt /\ os_out (snd file) = [x02; x00; x00; x00; x61]
  /\ read_from_file host64 true dirty None LE (TStr KString) (os_out (snd file)) [] = Err UnexpectedEndOfInput
  /\ read_from_file host64 false dirty None LE (TStr KString) (os_out (snd file)) [] = Err UnexpectedEndOfInput.
Proof. vm_compute. auto. Qed.

Example file_holds w :
  read_from_file host64 true dirty None LE shape
    (os_out (snd (write_to_file host64 None LE shape (VVar 1 [VInt 5; VInt 1065353216]) [WAccept 4]))) [] = Ok w ->
  w = VVar 1 [VInt 5; VInt 1065353216].
Proof.
  intros H.
  destruct (C110_file host64 host64_valid LE dirty dirty_enough shape (VVar 1 [VInt 5; VInt 1065353216]) _ [WAccept 4] _ _ true [] w
    ltac:(apply coveredb_sound; vm_compute; reflexivity) ltac:(apply no_eofb_sound; vm_compute; reflexivity)
    ltac:(apply value_ofb_sound; vm_compute; reflexivity) ltac:(vm_compute; reflexivity) (surjective_pairing _)
    ltac:(vm_compute; discriminate) ltac:(intros []) H) as [-> _].
  reflexivity.
Qed.

(** A sequence to the end of the input is another matter: what remains of it is read. *)
Definition tail_ty : ty := TStruct (sd 91 RRust) [(with_len LEof, TSeq KVec (TP U8))].
Theorem C110_until_eof_refuted : exists h t v b sched r o' w,
  valid_host h /\ covered h LE false true t /\ value_of h LE t v /\ write_to_vec h dirty LE t v = Ok b
  /\ write_to_file h None LE t v sched = (r, o')
  /\ read_from_file h true dirty None LE t (os_out o') [] = Ok w /\ w <> norm t v.
Proof.
  exists host64, tail_ty, (VSeq [VSeq [VInt 1; VInt 2]]), [x01; x02], [WAccept 1; WErr (IoOther 28)]. do 3 eexists.
  split; [apply host64_valid|]. split; [apply coveredb_sound; vm_compute; reflexivity|].
  split; [apply value_ofb_sound; vm_compute; reflexivity|].
  split; [vm_compute; reflexivity|]. split; [vm_compute; reflexivity|]. split; [vm_compute; reflexivity|]. vm_compute. discriminate.
Qed.

Print Assumptions C110_until_eof_refuted.
