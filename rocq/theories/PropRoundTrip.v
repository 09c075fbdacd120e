(* Properties C01, C02, C13, C14, C45: what is written is what is read. *)
From Verif Require Import Samples.

Section RoundTrip.
  Context (h : host) (VH : valid_host h) (e : endian).
  Context (mem : N -> bytes) (Hmem : forall n, n <= nlen (mem n)).
  Notation e6 := (ipv6_order h e).

  Lemma written t v b : wsup h t -> value_of h e t v -> write_to_vec h mem e t v = Ok b ->
    encode (h_iter h) e e6 t v = Ok b.
  Proof. intros Hs [Hv _] Hw. eapply write_to_vec_err; eassumption. Qed.

  (** C01: writing to a vector and reading from a buffer at any address gives the
      value back, except for skipped fields (and the flag of an exhausted
      `RangeInclusive`), see [norm].  [nlen b <= h_alloc_max h]: the vector
      exists. *)
  Theorem C01_round_trip t v b addr :
    covered h e true true t -> value_of h e t v ->
    write_to_vec h mem e t v = Ok b -> nlen b <= h_alloc_max h ->
    read_from_buffer h e t addr b = Ok (norm t v).
  Proof.
    intros [Hw Hs Hr] Hv Hb Hl. pose proof (written t v b Hw Hv Hb) as He.
    pose proof (host_round_trip h VH e t v b [] Hr Hv He (fun _ => eq_refl)) as Hd. rewrite app_nil_r in Hd.
    destruct (buffer_agrees h VH e t addr b Hs Hl (host_min h VH e _ _ t v b Hs Hv He)) as [H _].
    rewrite Hd in H. exact H.
  Qed.

  (** With nothing skipped and no inclusive ranges inside, it is the same value. *)
  Theorem C01_round_trip_exact t v b addr :
    covered h e true true t -> value_of h e t v -> exact t ->
    write_to_vec h mem e t v = Ok b -> nlen b <= h_alloc_max h ->
    read_from_buffer h e t addr b = Ok v.
  Proof.
    intros Hc Hv Hx Hb Hl. rewrite <- (norm_exact (h_lim h) t Hx v (proj1 Hv)). apply C01_round_trip; assumption.
  Qed.

  (** C02: with arbitrary bytes behind it, the value and its size are the same. *)
  Theorem C02_exact_consumption t v b rest addr :
    covered h e true true t -> no_eof false t -> value_of h e t v ->
    write_to_vec h mem e t v = Ok b -> nlen (b ++ rest) <= h_alloc_max h ->
    read_with_length_from_buffer h e t addr (b ++ rest) = (Ok (norm t v), nlen b).
  Proof.
    intros [Hw Hs Hr] Hn Hv Hb Hl. pose proof (written t v b Hw Hv Hb) as He.
    assert (Ho : opens false t = true -> rest = []) by (rewrite (no_eof_closed t false Hn); discriminate).
    pose proof (host_round_trip h VH e t v b rest Hr Hv He Ho) as Hd.
    assert (Hm : min_bytes h t <= nlen (b ++ rest)).
    { rewrite nlen_app. pose proof (host_min h VH e _ _ t v b Hs Hv He). lia. }
    destruct (buffer_agrees h VH e t addr (b ++ rest) Hs Hl Hm) as [_ H].
    rewrite (H _ _ Hd). rewrite nlen_app. f_equal. lia.
  Qed.

  Theorem C02_exact_consumption_copying t v b rest :
    covered h e false true t -> no_eof false t -> value_of h e t v ->
    write_to_vec h mem e t v = Ok b -> nlen (b ++ rest) <= h_alloc_max h ->
    read_with_length_from_buffer_copying h e t (b ++ rest) = (Ok (norm t v), nlen b).
  Proof.
    intros [Hw Hs Hr] Hn Hv Hb Hl. pose proof (written t v b Hw Hv Hb) as He.
    assert (Ho : opens false t = true -> rest = []) by (rewrite (no_eof_closed t false Hn); discriminate).
    pose proof (host_round_trip h VH e t v b rest Hr Hv He Ho) as Hd.
    assert (Hm : min_bytes h t <= nlen (b ++ rest)).
    { rewrite nlen_app. pose proof (host_min h VH e _ _ t v b Hs Hv He). lia. }
    destruct (copying_agrees h VH e t (b ++ rest) Hs Hl Hm) as [_ H].
    rewrite (H _ _ Hd). rewrite nlen_app. f_equal. lia.
  Qed.

  (* ---------------------------------------------------------------- *)
  (** ** Truncation *)

  Lemma cut_decode bw pk t v p q : covered h e bw pk t -> no_eof false t -> value_of h e t v -> q <> [] ->
    write_to_vec h mem e t v = Ok (p ++ q) -> decode (h_lim h) e e6 t p = DEof.
  Proof.
    intros [Hw Hs Hr] Hn Hv Hq Hb. pose proof (written t v _ Hw Hv Hb) as He. destruct Hv as [Hv Ht].
    eapply decode_truncated; try eassumption; try reflexivity;
      [apply (vh_usize_hi h VH)|apply (vh_systime h VH)|apply (vh_iter h VH)].
  Qed.

  (** C14: a strict prefix of an encoding is reported as the end of the input by
      the buffer readers, or as a too small buffer, with the two sizes. *)
  Theorem C14_truncated_buffer t v p q addr :
    covered h e true true t -> no_eof false t -> value_of h e t v -> q <> [] ->
    write_to_vec h mem e t v = Ok (p ++ q) -> nlen p <= h_alloc_max h ->
    if nlen p <? min_bytes h t
    then read_from_buffer h e t addr p = Err (InputBufferIsTooSmall (nlen p) (min_bytes h t))
    else ran_out (read_from_buffer h e t addr p).
  Proof.
    intros Hc Hn Hv Hq Hb Hl. pose proof (cut_decode _ _ t v p q Hc Hn Hv Hq Hb) as Hd.
    destruct (N.ltb_spec (nlen p) (min_bytes h t)) as [Hs|Hs].
    - unfold read_from_buffer. rewrite buffer_small by assumption. reflexivity.
    - destruct (buffer_agrees h VH e t addr p (cv_read _ _ _ _ _ Hc) Hl Hs) as [H _]. rewrite Hd in H. exact H.
  Qed.

  Theorem C14_truncated_buffer_copying t v p q :
    covered h e false true t -> no_eof false t -> value_of h e t v -> q <> [] ->
    write_to_vec h mem e t v = Ok (p ++ q) -> nlen p <= h_alloc_max h ->
    if nlen p <? min_bytes h t
    then read_from_buffer_copying h e t p = Err (InputBufferIsTooSmall (nlen p) (min_bytes h t))
    else ran_out (read_from_buffer_copying h e t p).
  Proof.
    intros Hc Hn Hv Hq Hb Hl. pose proof (cut_decode _ _ t v p q Hc Hn Hv Hq Hb) as Hd.
    destruct (N.ltb_spec (nlen p) (min_bytes h t)) as [Hs|Hs].
    - unfold read_from_buffer_copying. rewrite copying_small by assumption. reflexivity.
    - destruct (copying_agrees h VH e t p (cv_read _ _ _ _ _ Hc) Hl Hs) as [H _]. rewrite Hd in H. exact H.
  Qed.

  (** A stream that ends there gives the same, unless it failed before. *)
  Theorem C14_truncated_stream t v p q buffering pk sched :
    covered h e false pk t -> no_eof false t -> value_of h e t v -> q <> [] ->
    write_to_vec h mem e t v = Ok (p ++ q) -> nlen p <= l_usize_max (h_lim h) ->
    ~ In (RErr IoUnexpectedEof) sched ->
    let i := {| is_rest := p; is_sched := sched |} in
    let r := fst (deserialize h mem buffering e t i) in
    ran_out r \/ stream_failed buffering pk i r.
  Proof.
    intros Hc Hn Hv Hq Hb Hl Hsc i r. pose proof (cut_decode _ _ t v p q Hc Hn Hv Hq Hb) as Hd.
    pose proof (stream_agrees h VH e mem Hmem buffering pk i Hsc Hl t (cv_read _ _ _ _ _ Hc)) as H.
    subst r. destruct (deserialize h mem buffering e t i) as [r s]. cbn [fst].
    destruct H as [H|[H _]]; [right; exact H|left]. subst i. cbn in H. rewrite Hd in H. exact H.
  Qed.

  (** C13: no reader accepts a strict prefix of an encoding. *)
  Lemma ran_out_not_ok r v : ran_out r -> r <> Ok v.
  Proof. intros (er & -> & _). discriminate. Qed.

  Theorem C13_truncated_buffer t v p q addr w :
    covered h e true true t -> no_eof false t -> value_of h e t v -> q <> [] ->
    write_to_vec h mem e t v = Ok (p ++ q) -> nlen p <= h_alloc_max h ->
    read_from_buffer h e t addr p <> Ok w.
  Proof.
    intros Hc Hn Hv Hq Hb Hl. pose proof (C14_truncated_buffer t v p q addr Hc Hn Hv Hq Hb Hl) as H.
    destruct (nlen p <? min_bytes h t); [rewrite H; discriminate|apply ran_out_not_ok, H].
  Qed.

  Theorem C13_truncated_buffer_copying t v p q w :
    covered h e false true t -> no_eof false t -> value_of h e t v -> q <> [] ->
    write_to_vec h mem e t v = Ok (p ++ q) -> nlen p <= h_alloc_max h ->
    read_from_buffer_copying h e t p <> Ok w.
  Proof.
    intros Hc Hn Hv Hq Hb Hl. pose proof (C14_truncated_buffer_copying t v p q Hc Hn Hv Hq Hb Hl) as H.
    destruct (nlen p <? min_bytes h t); [rewrite H; discriminate|apply ran_out_not_ok, H].
  Qed.

  Theorem C13_truncated_stream t v p q buffering pk sched w :
    covered h e false pk t -> no_eof false t -> value_of h e t v -> q <> [] ->
    write_to_vec h mem e t v = Ok (p ++ q) -> nlen p <= l_usize_max (h_lim h) ->
    ~ In (RErr IoUnexpectedEof) sched ->
    fst (deserialize h mem buffering e t {| is_rest := p; is_sched := sched |}) <> Ok w.
  Proof.
    intros Hc Hn Hv Hq Hb Hl Hsc.
    destruct (C14_truncated_stream t v p q buffering pk sched Hc Hn Hv Hq Hb Hl Hsc) as [H|(k & H & _)].
    - apply ran_out_not_ok, H.
    - rewrite H. discriminate.
  Qed.

  (** Encodings of one type are prefix-free. *)
  Theorem C13_prefix_free bw pk t v1 v2 b1 b2 rest :
    covered h e bw pk t -> no_eof false t -> value_of h e t v1 -> value_of h e t v2 ->
    write_to_vec h mem e t v1 = Ok b1 -> write_to_vec h mem e t v2 = Ok b2 ->
    b2 = b1 ++ rest -> rest = [].
  Proof.
    intros Hc Hn Hv1 Hv2 H1 H2 ->.
    destruct rest as [|x rest]; [reflexivity|exfalso].
    pose proof (cut_decode bw pk t v2 b1 (x :: rest) Hc Hn Hv2 ltac:(discriminate) H2) as Hd.
    pose proof (written t v1 b1 (cv_write _ _ _ _ _ Hc) Hv1 H1) as He.
    pose proof (host_round_trip h VH e t v1 b1 [] (cv_back _ _ _ _ _ Hc) Hv1 He (fun _ => eq_refl)) as Hd'.
    rewrite app_nil_r in Hd'. congruence.
  Qed.

  (* ---------------------------------------------------------------- *)
  (** ** Injectivity *)

  (** C45: equal encodings come from values that are equal up to [norm]. *)
  Theorem C45_injective bw pk t v1 v2 b :
    covered h e bw pk t -> value_of h e t v1 -> value_of h e t v2 ->
    write_to_vec h mem e t v1 = Ok b -> write_to_vec h mem e t v2 = Ok b ->
    norm t v1 = norm t v2.
  Proof.
    intros [Hw _ Hr] Hv1 Hv2 H1 H2.
    pose proof (host_round_trip h VH e t v1 b [] Hr Hv1 (written t v1 b Hw Hv1 H1) (fun _ => eq_refl)) as D1.
    pose proof (host_round_trip h VH e t v2 b [] Hr Hv2 (written t v2 b Hw Hv2 H2) (fun _ => eq_refl)) as D2.
    congruence.
  Qed.

  Theorem C45_injective_exact bw pk t v1 v2 b :
    covered h e bw pk t -> exact t -> value_of h e t v1 -> value_of h e t v2 ->
    write_to_vec h mem e t v1 = Ok b -> write_to_vec h mem e t v2 = Ok b ->
    v1 = v2.
  Proof.
    intros Hc Hx Hv1 Hv2 H1 H2.
    rewrite <- (norm_exact (h_lim h) t Hx v1 (proj1 Hv1)), <- (norm_exact (h_lim h) t Hx v2 (proj1 Hv2)).
    eapply C45_injective; eassumption.
  Qed.

  (** A sequence of encodings can be split in one way only. *)
  Definition all_written (t : ty) (vs : list val) (bs : list bytes) : Prop :=
    Forall2 (fun v b => value_of h e t v /\ write_to_vec h mem e t v = Ok b) vs bs.

  Theorem C45_unique_split bw pk t : covered h e bw pk t -> no_eof false t -> min_bytes h t <> 0 ->
    forall vs1 vs2 bs1 bs2, all_written t vs1 bs1 -> all_written t vs2 bs2 ->
    concat bs1 = concat bs2 -> bs1 = bs2 /\ map (norm t) vs1 = map (norm t) vs2.
  Proof.
    intros [Hw Hs Hr] Hn Hm vs1 vs2 bs1 bs2 H1. revert vs2 bs2.
    assert (Hpos : forall v b, value_of h e t v -> write_to_vec h mem e t v = Ok b -> b <> []).
    { intros v b Hv Hb ->. pose proof (host_min h VH e _ _ t v [] Hs Hv (written t v [] Hw Hv Hb)) as H.
      rewrite nlen_nil in H. lia. }
    assert (Hd : forall v b rest, value_of h e t v -> write_to_vec h mem e t v = Ok b ->
      decode (h_lim h) e e6 t (b ++ rest) = DOk (norm t v) (Some rest)).
    { intros v b rest Hv Hb. apply host_round_trip; auto; [apply written; assumption|].
      rewrite (no_eof_closed t false Hn). discriminate. }
    induction H1 as [|v1 b1 vs1 bs1 [Hv1 Hb1] _ IH]; intros vs2 bs2 H2 E.
    - destruct H2 as [|v2 b2 vs2 bs2 [Hv2 Hb2] _]; [auto|exfalso]. cbn in E. symmetry in E.
      apply app_eq_nil in E as [-> _]. apply (Hpos _ _ Hv2 Hb2). reflexivity.
    - destruct H2 as [|v2 b2 vs2 bs2 [Hv2 Hb2] H2].
      + exfalso. cbn in E. apply app_eq_nil in E as [-> _]. apply (Hpos _ _ Hv1 Hb1). reflexivity.
      + cbn in E. pose proof (Hd v1 b1 (concat bs1) Hv1 Hb1) as D1. pose proof (Hd v2 b2 (concat bs2) Hv2 Hb2) as D2.
        rewrite E in D1. rewrite D1 in D2. injection D2 as En Ec.
        rewrite Ec in E. apply app_inv_tail in E. subst b2.
        destruct (IH vs2 bs2 H2 Ec) as [-> Em]. cbn. rewrite En, Em. auto.
  Qed.
End RoundTrip.

Print Assumptions C01_round_trip.
Print Assumptions C01_round_trip_exact.
Print Assumptions C02_exact_consumption.
Print Assumptions C02_exact_consumption_copying.
Print Assumptions C13_truncated_buffer.
Print Assumptions C13_truncated_buffer_copying.
Print Assumptions C13_truncated_stream.
Print Assumptions C13_prefix_free.
Print Assumptions C14_truncated_buffer.
Print Assumptions C14_truncated_buffer_copying.
Print Assumptions C14_truncated_stream.
Print Assumptions C45_injective.
Print Assumptions C45_injective_exact.
Print Assumptions C45_unique_split.

(* ------------------------------------------------------------------ *)
(** * The hypotheses are met *)

Example written64 : write_to_vec host64 dirty LE sample sample_value = Ok sample_bytes64.
Proof. vm_compute. reflexivity. Qed.
Example written32be : write_to_vec host32be dirty LE sample sample_value = Ok sample_bytes32be.
Proof. vm_compute. reflexivity. Qed.
Example written32 : write_to_vec host32 dirty BE sample sample_value = Ok sample_bytes32.
Proof. vm_compute. reflexivity. Qed.

Lemma norm_sample : norm sample sample_value = sample_back.
Proof. reflexivity. Qed.

Example C01_holds64 addr : read_from_buffer host64 LE sample addr sample_bytes64 = Ok sample_back.
Proof.
  rewrite <- norm_sample.
  apply (C01_round_trip host64 host64_valid LE dirty dirty_enough).
  - apply (covered_weaken _ _ false true false true); [discriminate|discriminate|apply sample_covered64].
  - apply sample_value64.
  - apply written64.
  - vm_compute. discriminate.
Qed.

Example C01_holds32be addr : read_from_buffer host32be LE sample addr sample_bytes32be = Ok sample_back.
Proof.
  rewrite <- norm_sample.
  apply (C01_round_trip host32be host32be_valid LE dirty dirty_enough).
  - apply (covered_weaken _ _ false true false true); [discriminate|discriminate|apply sample_covered32be].
  - apply sample_value32be.
  - apply written32be.
  - vm_compute. discriminate.
Qed.

Lemma sample_no_eof : no_eof false sample.
Proof. apply no_eofb_sound. vm_compute. reflexivity. Qed.

Example C02_holds32 addr :
  read_with_length_from_buffer host32 BE sample addr (sample_bytes32 ++ [x01; x02])
  = (Ok sample_back, nlen sample_bytes32).
Proof.
  rewrite <- norm_sample.
  apply (C02_exact_consumption host32 host32_valid BE dirty dirty_enough).
  - apply (covered_weaken _ _ false true false true); [discriminate|discriminate|apply sample_covered32].
  - apply sample_no_eof.
  - apply sample_value32.
  - apply written32.
  - vm_compute. discriminate.
Qed.

(** Cut in the middle of the vector of points. *)
Example C14_holds32 :
  read_from_buffer host32 BE sample 5 (ntake 40 sample_bytes32) = Err UnexpectedEndOfInput
  /\ min_bytes host32 sample <= 40 < nlen sample_bytes32.
Proof. vm_compute. repeat split; discriminate. Qed.

(** Two maps that differ in one entry have different encodings. *)
Definition map_ty : ty := TMap CBTree (TP U8) (TOption (TP U16)).
Lemma map_covered : covered host64 BE false false map_ty.
Proof. apply coveredb_sound. vm_compute. reflexivity. Qed.

Example C45_holds b :
  write_to_vec host64 dirty BE map_ty (VSeq [VSeq [VInt 1; VNone]]) = Ok b ->
  write_to_vec host64 dirty BE map_ty (VSeq [VSeq [VInt 2; VNone]]) <> Ok b.
Proof.
  intros H1 H2. cut (VSeq [VSeq [VInt 1; VNone]] = VSeq [VSeq [VInt 2; VNone]]); [discriminate|].
  eapply (C45_injective_exact host64 host64_valid BE dirty dirty_enough); try eassumption.
  - apply map_covered.
  - apply exactb_sound. reflexivity.
  - apply value_ofb_sound. vm_compute. reflexivity.
  - apply value_ofb_sound. vm_compute. reflexivity.
Qed.
Example C45_split_hypotheses : min_bytes host64 map_ty = 4 /\ no_eof false map_ty.
Proof. split; [reflexivity|]. apply no_eofb_sound. reflexivity. Qed.
(** Types with an empty encoding have to be excluded from unique splitting. *)
Example C45_empty_encodings : all_written host64 LE dirty (TScalar SUnit) [VUnit] [[]]
  /\ all_written host64 LE dirty (TScalar SUnit) [] [] /\ concat [[]] = @concat byte [].
Proof. repeat constructor. Qed.
