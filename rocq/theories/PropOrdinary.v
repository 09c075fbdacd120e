(* Properties C65 to C73: what holds of ordinary types on 64-bit hosts.  The
   conditions can be read off the declaration of a type: no references, no
   `repr(transparent)`, `repr(packed)` or `unsafe_is_primitive`, no `peek_tag`,
   no `default_on_eof`, no `length` expressions and no `length = ..`. *)
From Verif Require Import Ordinary OrdinaryHost Portable Samples Entry ValOrder EncFacts Extend StructFacts.
From Verif Require Import PropRoundTrip PropWrite PropStream PropReaders PropSafe PropField PropBulk PropCollections
  PropDefault PropStable PropNoPanic PropInterop.

Section OrdinaryTypes.
  Context (h : host) (H6 : host_64 h) (e : endian).
  Context (mem : N -> bytes) (Hmem : forall n, n <= nlen (mem n)).
  Context (t : ty) (Ho : ordinary t) (Hc : compact h t).
  Notation VH := (h6_valid h H6).
  Notation e6 := (ipv6_order h e).

  Let covers bw pk : covered h e bw pk t := ordinary_covered h H6 e bw pk t Ho Hc.
  Let supports bw pk : supported h e bw pk LDefault t := cv_read _ _ _ _ _ (covers bw pk).
  Let closed : no_eof false t := ordinary_no_eof t Ho.

  (* ---------------------------------------------------------------- *)
  (** ** C65: round trip *)

  (** With anything behind the encoding, both buffer readers return the value and
      the size of the encoding. *)
  Theorem C65_round_trip v b rest addr : valid (h_lim h) t v ->
    write_to_vec h mem e t v = Ok b -> nlen (b ++ rest) <= h_alloc_max h ->
    read_with_length_from_buffer h e t addr (b ++ rest) = (Ok (norm t v), nlen b)
    /\ read_with_length_from_buffer_copying h e t (b ++ rest) = (Ok (norm t v), nlen b).
  Proof.
    intros Hv Hw Hl. apply (ordinary_value h e) in Hv; [|exact Ho]. split.
    - apply (C02_exact_consumption h VH e mem Hmem); auto.
    - apply (C02_exact_consumption_copying h VH e mem Hmem); auto.
  Qed.

  (** Every entry point returns the value. *)
  Theorem C65_every_entry_point v b rest bw r : valid (h_lim h) t v ->
    write_to_vec h mem e t v = Ok b -> nlen (b ++ rest) <= h_alloc_max h ->
    reading h e t (b ++ rest) bw r -> r = Ok (norm t v).
  Proof.
    intros Hv Hw Hl Hr.
    assert (H : reading h e t (b ++ rest) true (Ok (norm t v))).
    { destruct (C65_round_trip v b rest 0 Hv Hw Hl) as [E _].
      replace (Ok (norm t v)) with (read_from_buffer h e t 0 (b ++ rest)) by (unfold read_from_buffer; rewrite E; reflexivity).
      constructor. exact Hl. }
    assert (Hs : same_value (Ok (norm t v)) r).
    { apply (readings_same h VH e t (b ++ rest) true bw); auto; [apply ordinary_minok, Ho|apply decode_spec, closed]. }
    apply Hs. reflexivity.
  Qed.

  (** A stream that is read without buffering is left behind the encoding; being
      interrupted is no obstacle. *)
  Theorem C65_nothing_extra v b rest sched : valid (h_lim h) t v ->
    write_to_vec h mem e t v = Ok b -> nlen (b ++ rest) <= l_usize_max (h_lim h) -> only_interrupted sched ->
    exists sched', incl sched' sched /\
      read_from_stream_unbuffered h mem e t {| is_rest := b ++ rest; is_sched := sched |}
      = (Ok (norm t v), {| is_rest := rest; is_sched := sched' |}).
  Proof. intros Hv. apply (ordinary_value h e) in Hv; [|exact Ho]. apply (C10_nothing_extra h VH e mem Hmem); auto. Qed.

  (** [norm] resets skipped fields (and the flag of inclusive ranges). *)
  Theorem C65_exact v : exact t -> valid (h_lim h) t v -> norm t v = v.
  Proof. intros Hx. apply norm_exact, Hx. Qed.

  (** A strict prefix of an encoding is no encoding, and no reader accepts it. *)
  Theorem C65_truncated v p q bw r : valid (h_lim h) t v -> q <> [] ->
    write_to_vec h mem e t v = Ok (p ++ q) -> reading h e t p bw r ->
    exists er, r = Err er
      /\ (is_eof er = true \/ er = InputBufferIsTooSmall (nlen p) (min_bytes h t)).
  Proof.
    intros Hv Hq Hw Hr. apply (ordinary_value h e) in Hv; [|exact Ho].
    pose proof (cut_decode h VH e mem Hmem bw true t v p q (covers _ _) closed Hv Hq Hw) as Hd.
    destruct (reading_agrees h VH e t p bw r (supports _ _) Hr) as [[_ ->]|Ha]; [eauto|].
    rewrite Hd in Ha. destruct Ha as (er & -> & Ha). eauto.
  Qed.

  Theorem C65_prefix_free v1 v2 b1 b2 rest : valid (h_lim h) t v1 -> valid (h_lim h) t v2 ->
    write_to_vec h mem e t v1 = Ok b1 -> write_to_vec h mem e t v2 = Ok b2 -> b2 = b1 ++ rest -> rest = [].
  Proof.
    intros H1 H2. apply (ordinary_value h e) in H1, H2; try exact Ho.
    exact (C13_prefix_free h VH e mem Hmem true true t v1 v2 b1 b2 rest (covers _ _) closed H1 H2).
  Qed.

  Theorem C65_injective v1 v2 b : valid (h_lim h) t v1 -> valid (h_lim h) t v2 ->
    write_to_vec h mem e t v1 = Ok b -> write_to_vec h mem e t v2 = Ok b -> norm t v1 = norm t v2.
  Proof.
    intros H1 H2. apply (ordinary_value h e) in H1, H2; try exact Ho.
    exact (C45_injective h VH e mem Hmem true true t v1 v2 b (covers _ _) H1 H2).
  Qed.

  (* ---------------------------------------------------------------- *)
  (** ** C66: writers *)

  Theorem C66_writers v b o buffer : valid (h_lim h) t v -> write_to_vec h mem e t v = Ok b ->
    bytes_needed h t v = Ok (nlen b)
    /\ (nlen b <= nlen buffer -> write_to_buffer h e t v buffer = (Ok tt, b ++ ndrop (nlen b) buffer))
    /\ (nlen buffer < nlen b ->
          write_to_buffer h e t v buffer = (Err (OutputBufferIsTooSmall (nlen buffer) (nlen b)), buffer))
    /\ (well_behaved (os_sched o) ->
          exists o', write_to_stream h e t v o = (Ok tt, o') /\ os_out o' = os_out o ++ b).
  Proof.
    intros Hv Hw. pose proof (ordinary_wsup h t Ho) as Hs.
    pose proof (C04_bytes_needed h VH e mem t v b Hmem Hs Hv Hw) as Hn.
    pose proof (proj1 (C03_wire_format h VH e mem t v b Hmem Hs Hv) Hw) as He.
    pose proof (C05_write_to_buffer h VH e t v buffer Hs Hv) as Hb.
    destruct (write_to_buffer h e t v buffer) as [r buffer'] eqn:Eb. destruct Hb as (B1 & B2 & B3).
    split; [exact Hn|]. split; [|split].
    - intros Hl. rewrite (B2 b He Hl). f_equal. apply B1. eauto.
    - intros Hl. destruct (B3 _ Hn Hl) as [-> ->]. reflexivity.
    - intros Hwb. assert (Hl : nlen b <= nlen b) by lia.
      apply (C06_writers_agree h VH e mem t v b o b Hmem Hs Hv Hwb Hw Hl).
  Qed.

  (** Nothing is half written to memory: if writing to a vector fails, so does
      every other way of writing. *)
  Theorem C66_writers_fail v o buffer : valid (h_lim h) t v -> (forall b, write_to_vec h mem e t v <> Ok b) ->
    fst (write_to_buffer h e t v buffer) <> Ok tt /\ fst (write_to_stream h e t v o) <> Ok tt.
  Proof. intros Hv. apply (C06_writers_fail h VH e mem t v o buffer Hmem); [apply ordinary_wsup, Ho|exact Hv]. Qed.

  (* ---------------------------------------------------------------- *)
  (** ** C67: readers *)

  Theorem C67_buffers addr1 addr2 bs : nlen bs <= h_alloc_max h ->
    read_with_length_from_buffer h e t addr1 bs = read_with_length_from_buffer h e t addr2 bs
    /\ read_with_length_from_buffer h e t addr1 bs = read_with_length_from_buffer_copying h e t bs.
  Proof.
    intros Hl. pose proof (ordinary_owned h H6 e t Ho Hc) as Hw. split.
    - apply (C07_any_address_partial h VH e); assumption.
    - apply (C07_buffer_readers_agree_partial h VH e); assumption.
  Qed.

  Theorem C67_same_value bs bw1 bw2 r1 r2 : reading h e t bs bw1 r1 -> reading h e t bs bw2 r2 -> same_value r1 r2.
  Proof. apply (readings_same h VH e); [auto|apply ordinary_minok, Ho|apply decode_spec, closed]. Qed.

  Theorem C67_files addr content sched : nlen content <= h_alloc_max h ->
    read_from_file h true mem None e t content sched = read_from_buffer h e t addr content
    /\ (no_errors sched ->
        same_value (read_from_buffer h e t addr content) (read_from_file h false mem None e t content sched)).
  Proof.
    intros Hl. split.
    - apply (C50_mapped_file_partial h VH e); [apply ordinary_owned; assumption|exact Hl].
    - apply (C50_streamed_file_partial h VH e mem Hmem); auto. apply ordinary_minok; assumption.
  Qed.

  (* ---------------------------------------------------------------- *)
  (** ** C68: the minimum *)

  Context (Hd : defaults_valid (h_lim h) t).

  Theorem C68_buffer_consumes addr bs v n : nlen bs <= h_alloc_max h ->
    read_with_length_from_buffer h e t addr bs = (Ok v, n) \/ read_with_length_from_buffer_copying h e t bs = (Ok v, n) ->
    min_bytes h t <= n <= nlen bs.
  Proof.
    intros Hl. apply (C15_buffer_consumes_partial h VH e (nlen bs)); [exact (ordinary_least h H6 t Ho)| |apply N.le_refl|exact Hl].
    exact (ordinary_sane h H6 _ t LDefault I Ho Hd).
  Qed.

  Theorem C68_stream_consumes bs buffering sched v s : nlen bs <= l_usize_max (h_lim h) ->
    ~ In (RErr IoUnexpectedEof) sched ->
    deserialize h mem buffering e t {| is_rest := bs; is_sched := sched |} = (Ok v, s) ->
    nlen (unread s) + min_bytes h t <= nlen bs.
  Proof.
    intros Hl Hs. apply (C15_stream_consumes_partial h VH e (nlen bs)) with (sched := sched) (v := v);
      [exact (ordinary_least h H6 t Ho)| |apply N.le_refl|exact Hl|exact Hmem|exact Hs].
    exact (ordinary_sane h H6 _ t LDefault I Ho Hd).
  Qed.

  (** The check at the entry refuses nothing that could be read. *)
  Theorem C68_entry_check addr bs v : nlen bs <= h_alloc_max h -> nlen bs < min_bytes h t ->
    fst (read h (BufferReader e) t (br_start addr bs)) <> Ok v
    /\ fst (read h (CopyingBufferReader e) t (br_start addr bs)) <> Ok v.
  Proof.
    intros Hl Hm. apply (C15_entry_check_partial h VH e (nlen bs)); [exact (ordinary_least h H6 t Ho)| |apply N.le_refl|exact Hl|exact Hm].
    exact (ordinary_sane h H6 _ t LDefault I Ho Hd).
  Qed.

  (** Nor does the check before a vector is allocated. *)
  Theorem C68_vector_check n addr bs vs : nlen bs <= h_alloc_max h -> nlen bs < min_bytes h t * n ->
    fst (repeatM (read h (BufferReader e) t) (N.to_nat n) (br_start addr bs)) <> Ok vs
    /\ fst (repeatM (read h (CopyingBufferReader e) t) (N.to_nat n) (br_start addr bs)) <> Ok vs.
  Proof.
    intros Hl Hm. apply (C15_vector_check_partial h VH e (nlen bs)); [exact (ordinary_least h H6 t Ho)| |apply N.le_refl|exact Hl|exact Hm].
    exact (ordinary_sane h H6 _ t LDefault I Ho Hd).
  Qed.

  (* ---------------------------------------------------------------- *)
  (** ** C69: what is read is valid, can be written and is then stable *)

  Theorem C69_valid bs buf v : nlen bs <= max_input h buf -> outcome h e t bs buf (Ok v) -> valid (h_lim h) t v.
  Proof.
    intros Hl. apply (C24_values_valid_partial h VH e (nlen bs)); [|apply N.le_refl|exact Hl].
    exact (ordinary_sane h H6 _ t LDefault I Ho Hd).
  Qed.

  (* ---------------------------------------------------------------- *)
  (** ** C70: panics *)

  (** Only `Duration`, `SystemTime` and `DateTime` can make a read panic, and only
      in one way. *)
  Theorem C70_one_panic bs buf f : nlen bs <= max_input h buf -> outcome h e t bs buf (Fault f) -> f = PanicExplicit.
  Proof.
    intros Hl Hr. revert Hr. apply (C25_faults_partial h VH e (nlen bs) (fun f => f = PanicExplicit)); [apply N.le_refl|exact Hl|].
    apply (ordinary_calm h H6 e _ (nlen bs) buf t LDefault); auto. exact I.
  Qed.

  Theorem C70_never_panics bs buf f : timeless t -> nlen bs <= max_input h buf -> ~ outcome h e t bs buf (Fault f).
  Proof.
    intros Ht Hl. apply (C25_never_panics_partial h VH e (nlen bs)); [apply N.le_refl|exact Hl|].
    apply (ordinary_calm h H6 e _ (nlen bs) buf t LDefault); auto. exact I.
  Qed.

  Lemma reading_outcome bs bw r : reading h e t bs bw r ->
    exists buf, outcome h e t bs buf r /\ nlen bs <= max_input h buf.
  Proof.
    intros [addr Hl|Hl|m sched Hm Hsc Hl|m sched Hm Hsc Hl]; [exists true|exists true|exists false|exists false];
      (split; [constructor; auto; apply Hsc|exact Hl]).
  Qed.

  (** So that all readers have the same outcome. *)
  Theorem C70_same_outcome bs bw1 bw2 r1 r2 : timeless t ->
    reading h e t bs bw1 r1 -> reading h e t bs bw2 r2 -> same_outcome r1 r2.
  Proof.
    intros Ht R1 R2. pose proof (C67_same_value bs bw1 bw2 r1 r2 R1 R2) as Hs.
    assert (Hn : forall bw r f, reading h e t bs bw r -> r <> Fault f).
    { intros bw r f Hr ->. destruct (reading_outcome bs bw _ Hr) as (buf & Hout & Hl).
      exact (C70_never_panics bs buf f Ht Hl Hout). }
    destruct r1 as [v|er|f]; [|destruct r2 as [v|er2|f]|destruct (Hn _ _ f R1 eq_refl)].
    - left. exists v. split; [reflexivity|]. apply Hs. reflexivity.
    - pose proof (proj2 (Hs v) eq_refl). discriminate.
    - right. eauto.
    - destruct (Hn _ _ f R2 eq_refl).
  Qed.
End OrdinaryTypes.

Print Assumptions C65_round_trip.
Print Assumptions C65_every_entry_point.
Print Assumptions C65_nothing_extra.
Print Assumptions C65_exact.
Print Assumptions C65_truncated.
Print Assumptions C65_prefix_free.
Print Assumptions C65_injective.
Print Assumptions C66_writers.
Print Assumptions C66_writers_fail.
Print Assumptions C67_buffers.
Print Assumptions C67_same_value.
Print Assumptions C67_files.
Print Assumptions C68_buffer_consumes.
Print Assumptions C68_stream_consumes.
Print Assumptions C68_entry_check.
Print Assumptions C68_vector_check.
Print Assumptions C69_valid.
Print Assumptions C70_one_panic.
Print Assumptions C70_never_panics.
Print Assumptions C70_same_outcome.

(* ------------------------------------------------------------------ *)
(** * More conditions that follow *)

Lemma ordinary_rewritable lim t : forall lm, Ordinary.short lm -> ordinary t -> defaults_valid lim t -> rewritable lim lm t.
Proof.
  assert (Hx : forall lm, Ordinary.short lm -> expr_typed lim lm) by (intros [| | |]; cbn; auto; contradiction).
  assert (Hw : forall lm, Ordinary.short lm -> own_length lm) by (intros [| | |]; cbn; auto; contradiction).
  assert (Hfs : forall fs, Forall (fun f : fattrs * ty => forall lm, Ordinary.short lm -> ordinary (snd f) -> defaults_valid lim (snd f) ->
      rewritable lim lm (snd f)) fs ->
    all_fields (ordinary_field ordinary) fs ->
    all_fields (fun a t' => (f_skip a = true -> valid lim t' (f_default a)) /\ defaults_valid lim t') fs ->
    all_fields (rewritable_field lim (rewritable lim)) fs).
  { induction 1 as [|[a t0] fs IH _ IHfs]; [auto|]. intros [H Hs] [Hd Hds]. split; [|apply IHfs; assumption].
    cbn [fst snd] in *. destruct H as [H1 H2], Hd as [Hd1 Hd2]. unfold rewritable_field.
    destruct (f_skip a) eqn:Es; [apply Hd1; reflexivity|]. destruct H2 as [?|(H2 & H3 & _ & H5)]; [discriminate|].
    split; [exact H2|]. destruct (f_varint a) eqn:Ev; [apply H5; reflexivity|].
    apply IH; [apply field_mode; exact H3|assumption..]. }
  induction t as [s|k|k t IH|t n IH|t n IH|t IH|t1 t2 IH1 IH2|ts IH|i t IH|k t IH|k tk tv IHk IHv|t IH|d fs IH|d vs IH|]
    using ty_ind'; intros lm Hl; cbn [ordinary defaults_valid rewritable]; auto; try contradiction.
  - intros [_ Ho] Hd. split; [auto|apply IH; [exact I|assumption..]].
  - intros Ho Hd. apply IH; [exact I|assumption..].
  - intros [H1 H2] [D1 D2]. split; [apply IH1|apply IH2]; auto; exact I.
  - intros Ho Hd. induction IH as [|t ts IH _ IHts]; [exact I|]. destruct Ho, Hd. split; [apply IH; auto; exact I|auto].
  - intros Ho Hd. apply IH; [exact I|assumption..].
  - intros (_ & _ & Ho) Hd. split; [auto|apply IH; [exact I|assumption..]].
  - intros (_ & _ & Hk & Hv) [Dk Dv]. repeat split; [auto|apply IHk|apply IHv]; auto; exact I.
  - intros Ho Hd. apply IH; [exact I|assumption..].
  - intros (_ & _ & Ho) Hd. apply Hfs; assumption.
  - intros (_ & _ & _ & _ & Ho) Hd. induction IH as [|[tag fs] vs IH _ IHvs]; [exact I|].
    destruct Ho, Hd. split; [apply Hfs; assumption|auto].
Qed.

Lemma ordinary_total lim t : ordinary t -> total_lens lim t.
Proof.
  assert (Hfs : forall fs, Forall (fun f : fattrs * ty => ordinary (snd f) -> total_lens lim (snd f)) fs ->
    all_fields (ordinary_field ordinary) fs -> forall pre, total_fields lim (total_lens lim) pre fs).
  { induction 1 as [|[a t0] fs IH _ IHfs]; [intros; exact I|]. intros [H Hs] pre. split; [|apply IHfs; assumption].
    cbn [fst snd] in *. destruct H as [H1 [H2|(H2 & H3 & _ & H5)]]; [left; exact H2|right].
    split; [|auto]. destruct (f_len a); try exact I; contradiction. }
  induction t as [s|k|k t IH|t n IH|t n IH|t IH|t1 t2 IH1 IH2|ts IH|i t IH|k t IH|k tk tv IHk IHv|t IH|d fs IH|d vs IH|]
    using ty_ind'; cbn [ordinary total_lens]; try tauto.
  - induction IH as [|t ts IH _ IHts]; [auto|]. intros [H1 H2]. split; auto.
  - intros (_ & _ & Ho). apply Hfs; assumption.
  - intros (_ & _ & _ & _ & Ho). induction IH as [|[tag fs] vs IH _ IHvs]; [exact I|].
    destruct Ho. split; [apply Hfs; assumption|auto].
Qed.

Section OrdinaryTypes.
  Context (h : host) (H6 : host_64 h) (e : endian).
  Context (mem : N -> bytes) (Hmem : forall n, n <= nlen (mem n)).
  Notation VH := (h6_valid h H6).

  Let covers t (Ho : ordinary t) (Hc : compact h t) bw pk : covered h e bw pk t := ordinary_covered h H6 e bw pk t Ho Hc.
  Let supports t (Ho : ordinary t) (Hc : compact h t) bw pk : supported h e bw pk LDefault t :=
    cv_read _ _ _ _ _ (covers t Ho Hc bw pk).

  (** C69: a value that was read can be written, in no more bytes, from which every
      entry point reads it back. *)
  Theorem C69_stable t bs bw v : ordinary t -> compact h t -> defaults_valid (h_lim h) t ->
    reading h e t bs bw (Ok v) ->
    exists b, write_to_vec h mem e t v = Ok b /\ nlen b <= nlen bs
      /\ forall rest bw' r, reading h e t (b ++ rest) bw' r -> r = Ok v.
  Proof.
    intros Ho Hc Hd Hr.
    assert (Hr' : exists bw0, (bw0 = true -> False) /\ reading h e t bs bw0 (Ok v)).
    { destruct bw; [|exists false; split; [discriminate|exact Hr]]. exists false. split; [discriminate|].
      remember (Ok v) as r eqn:Er. destruct Hr as [addr Hl|Hl|m s Hm Hs Hl|m s Hm Hs Hl]; try (rewrite Er; rewrite <- Er; constructor; assumption).
      replace (read_from_buffer h e t addr bs) with (read_from_buffer_copying h e t bs); [constructor; exact Hl|].
      unfold read_from_buffer, read_from_buffer_copying. destruct (C67_buffers h H6 e t Ho Hc addr addr bs Hl) as [_ ->]. reflexivity. }
    destruct Hr' as (bw0 & Hb0 & Hr').
    destruct (C63_stable h VH e mem Hmem t bs bw0 v (covers t Ho Hc bw0 true) (ordinary_rewritable _ t LDefault I Ho Hd)
      (ordinary_no_peek t Ho) Hr') as (b & H1 & H2 & H3).
    exists b. split; [exact H1|]. split; [exact H2|]. intros rest bw' r. apply H3. intros E. destruct (Hb0 E).
  Qed.

  (** C70: writing does not panic. *)
  Theorem C70_writing_never_panics t v : ordinary t -> valid (h_lim h) t v -> modest v ->
    (forall f, write_to_vec h mem e t v <> Fault f)
    /\ (forall f, bytes_needed h t v <> Fault f)
    /\ (forall f buffer, fst (write_to_buffer h e t v buffer) <> Fault f)
    /\ (forall f o, fst (write_to_stream h e t v o) <> Fault f)
    /\ (forall f oserr sched, fst (write_to_file h oserr e t v sched) <> Fault f).
  Proof.
    intros Ho Hv Hm. pose proof (ordinary_wsup h t Ho) as Hs. pose proof (ordinary_total (h_lim h) t Ho) as Ht.
    repeat split; intros f.
    - intros E. apply (C61_vec h VH e mem t v f Hmem Hs Hv Hm) in E as [_ E]. exact (E Ht).
    - intros E. apply (C61_bytes_needed h VH t v f Hs Hv Hm) in E as [_ E]. exact (E Ht).
    - intros buffer E. destruct (write_to_buffer h e t v buffer) as [r b'] eqn:Eb. cbn in E. subst r.
      apply (C61_buffer h VH e t v buffer f b' Hs Hv Hm) in Eb as [_ Eb]. exact (Eb Ht).
    - intros o E. destruct (write_to_stream h e t v o) as [r b'] eqn:Eb. cbn in E. subst r.
      apply (C61_stream h VH e t v o f b' Hs Hv) in Eb as [_ Eb]. exact (Eb Ht).
    - intros oserr sched E. destruct (write_to_file h oserr e t v sched) as [r b'] eqn:Eb. cbn in E. subst r.
      apply (C61_file h VH e t v oserr sched f b' Hs Hv) in Eb as [_ Eb]. exact (Eb Ht).
  Qed.

  (* ---------------------------------------------------------------- *)
  (** ** C71: fast paths and special cases change nothing *)

  (** A struct with one field without attributes is written and read like the
      field, whatever the field's type. *)
  Theorem C71_field_write d a t v b : bare a -> ordinary t -> valid (h_lim h) t v ->
    write_to_vec h mem e (TStruct d [(a, t)]) (VSeq [v]) = Ok b <-> write_to_vec h mem e t v = Ok b.
  Proof. intros Ha Ho Hv. apply (C26_struct_write_partial h VH mem e d a t v b Hmem Ha); [apply ordinary_wsup, Ho|exact Hv]. Qed.

  Theorem C71_field_read d a t bs bw bw' r1 r2 v : bare a -> ordinary t -> compact h t ->
    reading h e (TStruct d [(a, t)]) bs bw r1 -> reading h e t bs bw' r2 ->
    r1 = Ok (VSeq [v]) <-> r2 = Ok v.
  Proof.
    intros Ha Ho Hc. apply (C26_struct_read_partial h VH e); auto; [apply ordinary_no_eof, Ho|apply ordinary_minok, Ho].
  Qed.

  (** A sequence is written as its length and what is written for the elements
      one by one. *)
  Theorem C71_write_seq k t vs b : ordinary (TSeq k t) -> valid (h_lim h) (TSeq k t) (VSeq vs) ->
    write_to_vec h mem e (TSeq k t) (VSeq vs) = Ok b
    <-> nlen vs < 2 ^ 32 /\ exists bs, written_each h e mem t vs bs /\ b = word e 4 (nlen vs) ++ concat bs.
  Proof. intros Ho. apply (C36_write_seq_partial h VH e mem Hmem). apply ordinary_wsup, Ho. Qed.

  Theorem C71_write_array t n vs b : ordinary t -> valid (h_lim h) (TArr t n) (VSeq vs) ->
    write_to_vec h mem e (TArr t n) (VSeq vs) = Ok b <-> exists bs, written_each h e mem t vs bs /\ b = concat bs.
  Proof. intros Ho. apply (C36_write_array_partial h VH e mem Hmem). apply (ordinary_wsup h (TArr t n) Ho). Qed.

  Theorem C71_write_set k t vs b : ordinary t -> valid (h_lim h) (TSet k t) (VSeq vs) ->
    write_to_vec h mem e (TSet k t) (VSeq vs) = Ok b
    <-> nlen vs < 2 ^ 32 /\ exists bs, written_each h e mem t (iter_order (h_iter h) k vs) bs
                                       /\ b = word e 4 (nlen vs) ++ concat bs.
  Proof. intros Ho. apply (C36_write_set_partial h VH e mem Hmem). apply ordinary_wsup, Ho. Qed.

  Theorem C71_write_map k tk tv vs b : ordinary tk -> ordinary tv -> valid (h_lim h) (TMap k tk tv) (VSeq vs) ->
    write_to_vec h mem e (TMap k tk tv) (VSeq vs) = Ok b
    <-> nlen vs < 2 ^ 32 /\ exists bs, written_each h e mem (TTuple [tk; tv]) (iter_order (h_iter h) k vs) bs
                                       /\ b = word e 4 (nlen vs) ++ concat bs.
  Proof. intros Hk Hv. apply (C36_write_map_partial h VH e mem Hmem); apply ordinary_wsup; assumption. Qed.

  (** A sequence is read as its elements one by one, and an array. *)
  Theorem C71_read_seq k t n body bw bw' r r' : n < 2 ^ 32 -> ordinary (TSeq k t) -> compact h (TSeq k t) ->
    reading h e (TSeq k t) (word e 4 n ++ body) bw r -> reading h e (separately (N.to_nat n) t) body bw' r' ->
    same_value r r'.
  Proof.
    clear mem Hmem. intros Hn Ho Hc Hr Hr'. pose proof (supports _ Ho Hc bw true) as Hs.
    assert (Ho' : ordinary t) by apply Ho. destruct Hc as [Hsize Hc'].
    pose proof (supports _ Ho' Hc' bw' true) as Hs'. pose proof (ordinary_no_eof t Ho') as Hne.
    set (d := drepeat (decl (h_lim h) e (ipv6_order h e) len0 t) (N.to_nat n)).
    assert (Hd : decode (h_lim h) e (ipv6_order h e) (TSeq k t) (word e 4 n ++ body) = dmap VSeq (dunsure d) (Some body)).
    { unfold Spec.decode. cbn [Spec.decl dlen len0]. unfold dmap at 1, dbind. rewrite (length_first h VH) by exact Hn.
      unfold dsized. rewrite (vh_fits h VH).
      destruct (N.leb_spec (n * h_size h t) (h_alloc_max h)) as [_|Hl]; [reflexivity|]. exfalso.
      rewrite (h6_alloc h H6) in Hl. apply N.lt_nge in Hl. apply Hl.
      apply N.le_trans with ((2 ^ 32 - 1) * 2 ^ 31); [apply N.mul_le_mono; [num_pow; lia|exact Hsize]|vm_compute; discriminate]. }
    intros v. split.
    - intros ->. destruct (reading_decodes h VH e _ _ bw v Hs Hr) as [(o & E)|E].
      + rewrite Hd in E. unfold dmap, dbind, dunsure in E.
        destruct (d (Some body)) as [us o1| |er sure|f sure|] eqn:Ed; try discriminate. injection E as <- <-.
        apply (separate_ok h VH e _ t body bw' r' us o1 Hs' (ordinary_minok h t Ho') Ed Hr').
      + exfalso. refine (decode_spec _ _ _ _ _ _ E). apply (ordinary_no_eof (TSeq k t) Ho).
    - intros ->. destruct (separate_back h VH e _ t body bw' v Hs' Hne Hr') as (us & o & -> & E).
      apply (reading_ok h VH e _ _ bw r _ o Hs Hr).
      + rewrite Hd. unfold dmap, dbind, dunsure, d. rewrite E. reflexivity.
      + pose proof (prefix_long e n body). cbn [min_bytes]. lia.
  Qed.

  Theorem C71_read_array t n body bw bw' r r' : ordinary t -> compact h t ->
    reading h e (TArr t n) body bw r -> reading h e (separately n t) body bw' r' -> same_value r r'.
  Proof.
    clear mem Hmem. intros Ho Hc Hr Hr'. pose proof (supports (TArr t n) Ho Hc bw true) as Hs.
    pose proof (supports _ Ho Hc bw' true) as Hs'. pose proof (ordinary_no_eof t Ho) as Hne.
    pose proof (ordinary_minok h t Ho) as Hm.
    set (d := drepeat (decl (h_lim h) e (ipv6_order h e) len0 t) n).
    assert (Hd : decode (h_lim h) e (ipv6_order h e) (TArr t n) body = dmap VSeq d (Some body)) by reflexivity.
    intros v. split.
    - intros ->. destruct (reading_decodes h VH e _ _ bw v Hs Hr) as [(o & E)|E].
      + rewrite Hd in E. unfold dmap, dbind in E.
        destruct (d (Some body)) as [us o1| |er sure|f sure|] eqn:Ed; try discriminate. injection E as <- <-.
        apply (separate_ok h VH e _ t body bw' r' us o1 Hs' Hm Ed Hr').
      + exfalso. refine (decode_spec _ _ _ _ _ _ E). apply (ordinary_no_eof (TArr t n) Ho).
    - intros ->. destruct (separate_back h VH e _ t body bw' v Hs' Hne Hr') as (us & o & -> & E).
      apply (reading_ok h VH e _ _ bw r _ o Hs Hr).
      + rewrite Hd. unfold dmap, dbind, d. rewrite E. reflexivity.
      + cbn [min_bytes]. pose proof (atleast_repeat _ _ n (atleast_min h VH (h_lim h) e (ipv6_order h e) t Hm) _ _ _ E) as Hl.
        cbn in Hl. destruct o; lia.
  Qed.

  (* ---------------------------------------------------------------- *)
  (** ** C72: sets and maps *)

  Theorem C72_set k t n body bw bw' r r' : n < 2 ^ 32 -> ordinary (TSet k t) -> compact h (TSet k t) ->
    reading h e (TSet k t) (word e 4 n ++ body) bw r -> reading h e (separately (N.to_nat n) t) body bw' r' ->
    ((exists m, r = Ok m) <-> (exists xs, r' = Ok xs))
    /\ forall m xs, r = Ok m -> r' = Ok xs ->
       exists ms us, m = VSeq ms /\ xs = VSeq us /\ nlen us = n
       /\ NoDup ms /\ (forall x, In x ms <-> In x us).
  Proof.
    intros Hn Ho Hc. assert (Ho' : ordinary t) by apply Ho.
    apply (C38_set_partial h VH e); auto; [apply supports; [exact Ho'|apply Hc]|apply ordinary_minok, Ho'|apply ordinary_no_eof, Ho'].
  Qed.

  Theorem C72_map k tk tv n body bw bw' r r' : n < 2 ^ 32 -> ordinary (TMap k tk tv) -> compact h (TMap k tk tv) ->
    reading h e (TMap k tk tv) (word e 4 n ++ body) bw r ->
    reading h e (separately (N.to_nat n) (TTuple [tk; tv])) body bw' r' ->
    ((exists m, r = Ok m) <-> (exists xs, r' = Ok xs))
    /\ forall m xs, r = Ok m -> r' = Ok xs ->
       exists ms us, m = VSeq ms /\ xs = VSeq us /\ nlen us = n
       /\ (exists ks, Forall2 (fun q x => exists v, x = VSeq [q; v]) ks ms /\ NoDup ks)
       /\ (forall q v, In (VSeq [q; v]) ms <-> last_value q v us).
  Proof.
    intros Hn Ho Hc. assert (Hk : ordinary tk) by apply Ho. assert (Hv : ordinary tv) by apply Ho.
    assert (Ck : compact h tk) by apply Hc. assert (Cv : compact h tv) by apply Hc.
    apply (C38_map_partial h VH e); auto using ordinary_minok, ordinary_no_eof.
  Qed.
End OrdinaryTypes.

(* ------------------------------------------------------------------ *)
(** * C73: from host to host *)

Section Hosts.
  Context (h1 h2 : host) (H1 : host_64 h1) (H2 : host_64 h2) (e : endian).
  Context (mem1 mem2 : N -> bytes) (Hmem1 : forall n, n <= nlen (mem1 n)) (Hmem2 : forall n, n <= nlen (mem2 n)).

  (** Two 64-bit hosts write the same bytes, unless there are IPv6 addresses or hash
      tables inside. *)
  Theorem C73_same_bytes t v b : ordinary t -> portable t -> valid (h_lim h1) t v -> valid (h_lim h2) t v ->
    write_to_vec h1 mem1 e t v = Ok b <-> write_to_vec h2 mem2 e t v = Ok b.
  Proof.
    intros Ho Hp V1 V2. apply C03_host_independent_partial; auto using ordinary_wsup; apply h6_valid; assumption.
  Qed.

  (** With hash tables: what one wrote the other reads. *)
  Theorem C73_interop t v b addr : ordinary t -> compact h2 t -> same_bytes h1 h2 t ->
    valid (h_lim h1) t v -> valid (h_lim h2) t v ->
    write_to_vec h1 mem1 e t v = Ok b -> nlen b <= h_alloc_max h2 ->
    read_from_buffer h2 e t addr b = Ok (norm t v).
  Proof.
    intros Ho Hc Hb V1 V2. pose proof (ordinary_covered h2 H2 e true true t Ho Hc) as [_ Hs Hr].
    apply (C62_interop h1 h2 (h6_valid _ H1) (h6_valid _ H2) e mem1 Hmem1); auto.
    - apply ordinary_wsup, Ho.
    - apply ordinary_value; assumption.
  Qed.
End Hosts.

Print Assumptions C69_stable.
Print Assumptions C70_writing_never_panics.
Print Assumptions C71_field_write.
Print Assumptions C71_field_read.
Print Assumptions C71_write_seq.
Print Assumptions C71_write_array.
Print Assumptions C71_write_set.
Print Assumptions C71_write_map.
Print Assumptions C71_read_seq.
Print Assumptions C71_read_array.
Print Assumptions C72_set.
Print Assumptions C72_map.
Print Assumptions C73_same_bytes.
Print Assumptions C73_interop.

(* ------------------------------------------------------------------ *)
(** * The hypotheses are met *)

(* struct Letter {
     count: u8,
     #[speedy(varint)] size: u64,
     #[speedy(skip)] cache: u32,
     #[speedy(length_type = u8)] samples: Vec<u16>,
     names: HashMap<u8, String>,
     points: Cow<[Point]>,
     #[speedy(constant_prefix = "SH")] shape: Option<Shape>,
     pair: Box<(char, i64)>,
     result: Result<[u16; 2], bool>,
     grid: [[Point; 2]; 1],
     tags: BTreeSet<[u8; 2]>,
     units: Vec<()>,
   } *)
Definition letter : ty :=
  TStruct (sd 69 RRust)
    [ (plain, TP U8); (with_varint, TP U64); (with_skip (VInt 0), TP U32);
      (with_len (LType BU8), TSeq KVec (TP U16));
      (plain, TMap CHash (TP U8) (TStr KString)); (plain, TSeq KCow point);
      (with_prefix [x53; x48], TOption shape); (plain, TBox (TTuple [TScalar SChar; TP I64]));
      (plain, TResult (TArr (TP U16) 2) (TScalar SBool));
      (plain, TArr (TArr point 2) 1); (plain, TSet CBTree (TArr (TP U8) 2));
      (plain, TSeq KVec (TScalar SUnit)) ].

Ltac decide_ordinary :=
  cbn; repeat split; try discriminate; try reflexivity; auto; try lia;
  repeat match goal with
         | |- _ \/ _ => first [left; cbn; reflexivity | right]
         | |- _ /\ _ => split
         | |- NoDup _ => constructor
         | |- Forall _ _ => constructor
         | |- ~ In _ _ => cbn; intuition discriminate
         | _ => progress (cbn; intuition (try discriminate; try lia; auto))
         end.

Example letter_ordinary : ordinary letter.
Proof. decide_ordinary; vm_compute; reflexivity. Qed.

Example letter_compact : compact host64 letter.
Proof. cbn [letter compact all_fields all_tys all_variants shape point]. repeat split; vm_compute; discriminate. Qed.

Example letter_defaults : defaults_valid (h_lim host64) letter.
Proof.
  cbn [letter defaults_valid all_fields all_tys all_variants shape point fst snd plain f_skip f_default with_varint with_skip with_len with_prefix].
  repeat split; try discriminate.
Qed.

Example letter_timeless : timeless letter.
Proof. cbn. tauto. Qed.

Definition letter_value : val :=
  VSeq [ VInt 2; VInt 300; VInt 77; VSeq [VInt 1; VInt 515];
         VSeq [VSeq [VInt 1; VBytes [x61]]; VSeq [VInt 2; VBytes [x62; x63]]];
         VSeq [VSeq [VInt 258; VInt (-2)]; VSeq [VInt 3; VInt 4]];
         VSome (VVar 1 [VInt 5; VInt 1065353216]); VSeq [VInt 8364; VInt (-1)];
         VOk (VSeq [VInt 1; VInt 2]);
         VSeq [VSeq [VSeq [VInt 1; VInt 2]; VSeq [VInt 3; VInt 4]]];
         VSeq [VSeq [VInt 1; VInt 9]; VSeq [VInt 2; VInt 0]];
         VSeq [VUnit; VUnit; VUnit] ].

Example letter_valid : valid (h_lim host64) letter letter_value.
Proof. apply validb_sound. vm_compute. reflexivity. Qed.

Definition letter_bytes : bytes :=
  match encode (h_iter host64) BE (ipv6_order host64 BE) letter letter_value with Ok b => b | _ => [] end.

Example letter_written : write_to_vec host64 dirty BE letter letter_value = Ok letter_bytes.
Proof. vm_compute. reflexivity. Qed.

Example letter_modest : modest letter_value.
Proof. cbn [modest letter_value all_vals]. repeat split; vm_compute; reflexivity. Qed.

(** In the foreign byte order, with bytes behind it, at an odd address. *)
Example letter_back addr :
  read_with_length_from_buffer host64 BE letter addr (letter_bytes ++ [xff]) = (Ok (norm letter letter_value), nlen letter_bytes).
Proof.
  apply (C65_round_trip host64 host64_64 BE dirty dirty_enough letter letter_ordinary letter_compact letter_value);
    [exact letter_valid|exact letter_written|vm_compute; discriminate].
Qed.

(** Hostile input: no panic, whatever the bytes. *)
Example letter_safe bs addr : nlen bs <= h_alloc_max host64 ->
  (exists v, read_from_buffer host64 BE letter addr bs = Ok v /\ valid (h_lim host64) letter v)
  \/ exists er, read_from_buffer host64 BE letter addr bs = Err er.
Proof.
  intros Hl. pose proof (of_buffer host64 BE letter bs addr) as Hr.
  destruct (read_from_buffer host64 BE letter addr bs) as [v|er|f].
  - left. exists v. split; [reflexivity|].
    exact (C69_valid host64 host64_64 BE letter letter_ordinary letter_defaults bs true v Hl Hr).
  - right. eauto.
  - destruct (C70_never_panics host64 host64_64 BE letter letter_ordinary letter_compact letter_defaults bs true f letter_timeless Hl Hr).
Qed.

(** A sequence of points and a map, element by element. *)
Example points_read r r' :
  reading host64 BE (TSeq KCow point) (word BE 4 2 ++ points_body) true r ->
  reading host64 BE (separately 2 point) points_body false r' -> same_value r r'.
Proof.
  change 2%nat with (N.to_nat 2).
  apply (C71_read_seq host64 host64_64 BE KCow point 2 points_body true false); [reflexivity| |].
  - decide_ordinary; vm_compute; reflexivity.
  - cbn [compact point all_fields]. repeat split; vm_compute; discriminate.
Qed.



