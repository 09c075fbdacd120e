(* Properties C87-C90: undefined behaviour when reading, and which slices can be
   borrowed. *)
From Verif Require Import Derive Undefined ZeroCopy SafeReaders PropSafe Checker Samples Conditions PropRoundTrip PropBulk PropBorrowed.

Section Never.
  Context (h : host) (VH : valid_host h) (e : endian).

  (** The slice itself never gives the fault. *)
  Definition spared (f0 : fault) (t : ty) : Prop := forall St (s : St) n b, fst (cast_slice h t n b s) <> Fault f0.

  Lemma spared_only {St} (inv : St -> N -> Prop) f0 t n b : spared f0 t -> only inv f0 (cast_slice h t n b).
  Proof.
    intros H s m Hs. specialize (H St s n b). unfold cast_slice, ret, crash in *.
    destruct (fst b mod h_align h t =? 0); [destruct (forallb _ _)|]; cbn [fst] in *.
    - split; [exact I|]. exists m. split; [exact Hs|lia].
    - intros E. congruence.
    - intros E. congruence.
  Qed.

  (** The fault [f0] does not occur if slices of the types in [t] do not give it. *)
  Lemma never f0 t bs buf r : ub f0 = true -> views (spared f0) t -> nlen bs <= max_input h buf ->
    outcome h e t bs buf r -> r <> Fault f0.
  Proof.
    intros Hf Hv Hl Hr.
    destruct (outcome_via h VH e (max_input h buf) t bs buf r (but f0) Hl (N.le_refl _) Hr)
      as [(er & ->)|(St & R & inv & s & HR & He & Hs & ->)]; [discriminate|].
    pose proof (proj1 (only_read_type h VH R inv f0 Hf _ _ HR (spared f0)
                  (fun t n p H _ => spared_only inv f0 t n p H) t) Hv s _ Hs) as H.
    destruct (read h R t s) as [[v|er|f] s']; cbn [fst]; [discriminate|discriminate|]. intros E. injection E as ->.
    exact (H eq_refl).
  Qed.

  Lemma views_mono (P Q : ty -> Prop) : (forall t, P t -> Q t) -> forall t, views P t -> views Q t.
  Proof.
    intros HPQ.
    assert (Hfs : forall fs, Forall (fun f => views P (snd f) -> views Q (snd f)) fs ->
      all_fields (fun a t' => f_skip a = true \/ views P t') fs -> all_fields (fun a t' => f_skip a = true \/ views Q t') fs).
    { induction 1 as [|f r Hf Hr IH]; [auto|]. intros [H1 H2]. split; [destruct H1; auto|apply IH, H2]. }
    induction t as [s|k|k t IH|t n IH|t n IH|t IH|t1 t2 IH1 IH2|ts IH|i t IH|k t IH|k tk tv IHk IHv|t IH|d fs IH|d vs IH|]
      using ty_ind'; cbn [views]; auto.
    - destruct k; auto.
    - intros [H1 H2]. auto.
    - induction IH as [|t r Ht Hr IHr]; [auto|]. intros [H1 H2]. split; [apply Ht, H1|apply IHr, H2].
    - intros [H1 H2]. auto.
    - induction IH as [|v r Hv Hr IHr]; [auto|]. intros [H1 H2]. split; [apply Hfs; assumption|apply IHr, H2].
  Qed.

  Lemma views_both (P Q : ty -> Prop) t : views P t -> views Q t -> views (fun t => P t /\ Q t) t.
  Proof.
    assert (Hfs : forall fs, Forall (fun f => views P (snd f) -> views Q (snd f) -> views (fun t => P t /\ Q t) (snd f)) fs ->
      all_fields (fun a t' => f_skip a = true \/ views P t') fs -> all_fields (fun a t' => f_skip a = true \/ views Q t') fs ->
      all_fields (fun a t' => f_skip a = true \/ views (fun t => P t /\ Q t) t') fs).
    { induction 1 as [|f r Hf Hr IH]; [auto|]. intros [H1 H2] [H3 H4]. split; [|apply IH; assumption].
      destruct H1 as [H1|H1]; [auto|]. destruct H3 as [H3|H3]; auto. }
    induction t as [s|k|k t IH|t n IH|t n IH|t IH|t1 t2 IH1 IH2|ts IH|i t IH|k t IH|k tk tv IHk IHv|t IH|d fs IH|d vs IH|]
      using ty_ind'; cbn [views]; auto.
    - destruct k; auto.
    - intros [H1 H2] [H3 H4]. auto.
    - induction IH as [|t r Ht Hr IHr]; [auto|]. intros [H1 H2] [H3 H4]. split; [apply Ht; assumption|apply IHr; assumption].
    - intros [H1 H2] [H3 H4]. auto.
    - induction IH as [|v r Hv Hr IHr]; [auto|]. intros [H1 H2] [H3 H4]. split; [apply Hfs; assumption|apply IHr; assumption].
  Qed.

  Lemma views_true t : views (fun _ => True) t.
  Proof.
    assert (Hfs : forall fs, Forall (fun f => views (fun _ => True) (snd f)) fs ->
      all_fields (fun a t' => f_skip a = true \/ views (fun _ => True) t') fs).
    { induction 1 as [|f r Hf Hr IH]; [exact I|]. split; [auto|exact IH]. }
    induction t as [s|k|k t IH|t n IH|t n IH|t IH|t1 t2 IH1 IH2|ts IH|i t IH|k t IH|k tk tv IHk IHv|t IH|d fs IH|d vs IH|]
      using ty_ind'; cbn [views]; auto.
    - destruct k; auto.
    - induction IH; cbn; auto.
    - induction IH; cbn; auto.
  Qed.

  (* ---------------------------------------------------------------- *)
  (** ** C87 *)

  (** Reading any type from any input through any entry point never reaches
      `unreachable_unchecked`. *)
  Theorem C87_unreachable t bs buf r : nlen bs <= max_input h buf ->
    outcome h e t bs buf r -> r <> Fault UbUnreachable.
  Proof.
    intros Hl. apply never; [reflexivity| |exact Hl]. eapply views_mono; [|apply views_true].
    intros t' _ St s n b. unfold cast_slice. destruct (_ =? 0); [destruct (forallb _ _)|]; discriminate.
  Qed.

  (** No reference is misaligned if no element of a borrowed slice has an
      alignment. *)
  Theorem C87_misaligned t bs buf r : views (fun t' => h_align h t' = 1) t -> nlen bs <= max_input h buf ->
    outcome h e t bs buf r -> r <> Fault UbMisaligned.
  Proof.
    intros Hv Hl. apply never; [reflexivity| |exact Hl]. eapply views_mono; [|exact Hv].
    intros t' Ha St s n b. unfold cast_slice. rewrite Ha, N.mod_1_r. cbn [N.eqb]. destruct (forallb _ _); discriminate.
  Qed.

  (** No bytes are taken for a value they are not if the elements of borrowed slices
      are numbers and structs of numbers. *)
  Theorem C87_invalid t bs buf r : views numeric t -> nlen bs <= max_input h buf ->
    outcome h e t bs buf r -> r <> Fault UbInvalid.
  Proof.
    intros Hv Hl. apply never; [reflexivity| |exact Hl]. eapply views_mono; [|exact Hv].
    intros t' Hn St s n b. unfold cast_slice. rewrite numeric_all_ok by exact Hn. destruct (_ =? 0); discriminate.
  Qed.

  (** Without borrowed slices and arrays, reading has no undefined behaviour. *)
  Theorem C87_no_slices t bs buf f : views (fun _ => False) t -> nlen bs <= max_input h buf ->
    outcome h e t bs buf (Fault f) -> ub f = false.
  Proof.
    intros Hv Hl Hr. destruct (ub f) eqn:E; [exfalso|reflexivity].
    refine (never f t bs buf (Fault f) E _ Hl Hr eq_refl). eapply views_mono; [|exact Hv]. contradiction.
  Qed.

  (** Nor does it have any if the input is copied: every entry point but
      `read_from_buffer`. *)
  Lemma no_view {St} (R : reader St) inv L vec_ok s n t f : (forall f0, safe_reader h R inv (but f0) L vec_ok) ->
    rd_borrow R = None -> rd_borrow_eof R = None -> inv s n -> fst (read h R t s) = Fault f -> ub f = false.
  Proof.
    intros HR H1 H2 Hs E. destruct (ub f) eqn:Ef; [exfalso|reflexivity].
    assert (Hv : forall t n p, True -> rd_borrow R <> None \/ rd_borrow_eof R <> None -> only inv f (cast_slice (St := St) h t n p)).
    { intros t' n' p _ [H|H]; contradiction. }
    pose proof (proj1 (only_read_type h VH R inv f Ef _ _ (HR f) (fun _ => True) Hv t) (views_true t) s n Hs) as H.
    destruct (read h R t s) as [[v|er|x] s']; try discriminate. injection E as ->. exact (H eq_refl).
  Qed.

  Theorem C87_copying_buffer t bs f : nlen bs <= h_alloc_max h ->
    read_from_buffer_copying h e t bs = Fault f -> ub f = false.
  Proof.
    intros Hl. unfold read_from_buffer_copying, read_with_length_from_buffer_copying, with_min.
    destruct (_ <? _); [discriminate|]. intros E.
    apply (no_view (CopyingBufferReader e) (binv (h_alloc_max h)) (h_alloc_max h) (buffer_room h (h_alloc_max h))
             (br_start 0 bs) (nlen bs) t f).
    - intros f0. apply copying_safe; [exact VH|apply N.le_refl].
    - reflexivity.
    - reflexivity.
    - exact (conj eq_refl Hl).
    - destruct (read h (CopyingBufferReader e) t (br_start 0 bs)). exact E.
  Qed.

  Theorem C87_streams t bs mem buffering sched f : nlen bs <= l_usize_max (h_lim h) ->
    (forall n, n <= nlen (mem n)) -> ~ In (RErr IoUnexpectedEof) sched ->
    fst (deserialize h mem buffering e t {| is_rest := bs; is_sched := sched |}) = Fault f -> ub f = false.
  Proof.
    intros Hl Hmem Hsc E.
    apply (no_view (StreamReader mem e) (sinv h buffering sched (l_usize_max (h_lim h))) (l_usize_max (h_lim h)) (stream_room h)
             (sr_start mem buffering {| is_rest := bs; is_sched := sched |}) (nlen bs) t f).
    - intros f0. apply stream_safe; [exact Hmem|exact Hsc|apply N.le_refl].
    - reflexivity.
    - reflexivity.
    - exists bs. split; [|auto].
      apply (sr_start_rep h mem Hmem buffering true sched {| is_rest := bs; is_sched := sched |} eq_refl). exact Hl.
    - exact E.
  Qed.

  Theorem C87_files t bs mapped mem oserr sched f : nlen bs <= h_alloc_max h ->
    (forall n, n <= nlen (mem n)) -> ~ In (RErr IoUnexpectedEof) sched ->
    read_from_file h mapped mem oserr e t bs sched = Fault f -> ub f = false.
  Proof.
    intros Hl Hmem Hsc. unfold read_from_file. destruct oserr; [discriminate|]. destruct mapped.
    - apply C87_copying_buffer, Hl.
    - intros E. pose proof (vh_alloc h VH).
      apply (C87_streams t bs mem true sched f); [lia|assumption|assumption|].
      unfold read_from_stream_buffered in E. destruct (deserialize h mem true e t _). exact E.
  Qed.

  (* ---------------------------------------------------------------- *)
  (** ** C88 *)

  Lemma zero_copy_numeric native t : zero_copy native t = true -> unforced t -> numeric t.
  Proof.
    induction t as [s| | | | | | | | | | | |d fs IH| |] using ty_ind'; cbn [zero_copy unforced numeric];
      try discriminate; [destruct s; try discriminate; auto|].
    intros Hz [Hd Hu]. rewrite Hd in Hz. apply andb_prop in Hz as [_ Hz]. cbn [orb] in Hz.
    rewrite forallb_forall in Hz. apply all_fields_forall in Hu. apply all_fields_forall.
    rewrite Forall_forall in *. intros f Hin. specialize (Hz f Hin). apply Bool.orb_prop in Hz as [Hz|Hz].
    - apply andb_prop in Hz as [_ Hz]. apply andb_prop in Hz as [_ Hz].
      destruct (snd f) as [[]| | | | | | | | | | | | | |]; try discriminate. exact I.
    - apply IH; [exact Hin|exact Hz|apply (Hu f Hin)].
  Qed.

  (** Every bit pattern is a value of a type that implements `ZeroCopyable`, unless
      `unsafe_is_primitive` is used. *)
  Theorem C88_every_pattern native t bs : zero_copy native t = true -> unforced t -> nlen bs = h_size h t ->
    mem_ok h t bs = true /\ valid (h_lim h) t (mem_read h t bs).
  Proof.
    intros Hz Hu Hl. pose proof (zero_copy_numeric native t Hz Hu) as Hn.
    split; [apply numeric_ok, Hn|apply (mem_read_valid h VH); assumption].
  Qed.

  (** So slices and arrays of such elements are never invalid, wherever they occur. *)
  Theorem C88_slices native t bs buf r : views (fun t' => zero_copy native t' = true /\ unforced t') t ->
    nlen bs <= max_input h buf -> outcome h e t bs buf r -> r <> Fault UbInvalid.
  Proof.
    intros Hv. apply C87_invalid. eapply views_mono; [|exact Hv].
    intros t' [Hz Hu]. exact (zero_copy_numeric native t' Hz Hu).
  Qed.

  (** In a context other than the native one such elements have no alignment. *)
  Lemma zero_copy_align t : rust_alignment h -> zero_copy false t = true -> unforced t -> h_align h t = 1.
  Proof.
    intros RA. induction t as [s| | | | | | | | | | | |d fs IH| |] using ty_ind'; cbn [zero_copy unforced]; try discriminate.
    - destruct s; try discriminate. intros Hz _. apply (ra_byte h RA). apply Nat.eqb_eq, Hz.
    - intros Hz [Hd Hu]. rewrite Hd in Hz. apply andb_prop in Hz as [Hk Hz]. cbn [orb] in Hz. rewrite Bool.orb_false_r in Hk.
      unfold is_packed, is_transparent in *. destruct (sd_repr d) eqn:Er; try discriminate.
      + apply (ra_packed h RA), Er.
      + destruct fs as [|f [|]]; try discriminate. rewrite (ra_transparent h RA) by exact Er.
        inversion_clear IH as [|? ? Hf _]. cbn [forallb andb] in Hz. rewrite Bool.andb_true_r in Hz. cbn [orb] in Hz.
        apply Hf; [exact Hz|apply Hu].
  Qed.

  (** So there reading has no undefined behaviour at all. *)
  Theorem C88_other_contexts t bs buf f : rust_alignment h ->
    views (fun t' => zero_copy false t' = true /\ unforced t') t ->
    nlen bs <= max_input h buf -> outcome h e t bs buf (Fault f) -> ub f = false.
  Proof.
    intros RA Hv Hl Hr. destruct f; try reflexivity; exfalso.
    - apply (C87_misaligned t bs buf _) in Hr; [contradiction| |exact Hl]. eapply views_mono; [|exact Hv].
      intros t' [Hz Hu]. apply zero_copy_align; assumption.
    - exact (C88_slices false t bs buf _ Hv Hl Hr eq_refl).
    - exact (C87_unreachable t bs buf _ Hl Hr eq_refl).
  Qed.

  (* ---------------------------------------------------------------- *)
  (** ** C89 *)

  Lemma accepted_views native P t : accepted native P t -> views (fun t' => P t' \/ zero_copy native t' = true) t.
  Proof.
    assert (Hfs : forall fs, Forall (fun f => accepted native P (snd f) -> views (fun t' => P t' \/ zero_copy native t' = true) (snd f)) fs ->
      all_fields (accepted_field P (accepted native P)) fs ->
      all_fields (fun a t' => f_skip a = true \/ views (fun t' => P t' \/ zero_copy native t' = true) t') fs).
    { induction 1 as [|[a t'] r Hf Hr IH]; [auto|]. intros [H1 H2]. split; [clear H2|apply IH, H2]. cbn [fst snd] in *.
      destruct H1 as [H1|H1]; [left; exact H1|right]. destruct (f_opaque a); [exact (Hf H1)|].
      destruct t' as [s|k|k t'|t' n|t' n|t'| | | | | | | | |]; try exact (Hf H1).
      - destruct k; try exact (Hf H1). left. exact H1.
      - destruct t' as [s|k|k t'|t' n|t' n|t'| | | | | | | | |]; try exact (Hf H1).
        destruct k; try exact (Hf H1). left. exact H1. }
    induction t as [s|k|k t IH|t n IH|t n IH|t IH|t1 t2 IH1 IH2|ts IH|i t IH|k t IH|k tk tv IHk IHv|t IH|d fs IH|d vs IH|]
      using ty_ind'; cbn [accepted views]; auto.
    - destruct k; auto.
    - intros [H1 H2]. auto.
    - induction IH as [|t r Ht Hr IHr]; [auto|]. intros [H1 H2]. split; [apply Ht, H1|apply IHr, H2].
    - intros [H1 H2]. auto.
    - intros [H1 _]. apply Hfs; assumption.
    - induction IH as [|v r Hv Hr IHr]; [auto|]. intros [H1 H2]. split; [apply Hfs; assumption|apply IHr, H2].
  Qed.

  (** C89, for types whose fields spelled `&'a [T]` have numbers and structs of
      numbers for elements; the compiler takes care of all the others. *)
  Theorem C89_derived_partial native t bs buf r : accepted native numeric t -> views unforced t ->
    nlen bs <= max_input h buf -> outcome h e t bs buf r -> r <> Fault UbInvalid.
  Proof.
    intros Ha Hu. apply C87_invalid. apply accepted_views in Ha.
    eapply views_mono; [|apply (views_both _ _ _ Ha Hu)].
    intros t' [[Hn|Hz] Hf]; [exact Hn|exact (zero_copy_numeric native t' Hz Hf)].
  Qed.
End Never.

Print Assumptions C87_unreachable.
Print Assumptions C87_misaligned.
Print Assumptions C87_invalid.
Print Assumptions C87_no_slices.
Print Assumptions C87_copying_buffer.
Print Assumptions C87_streams.
Print Assumptions C87_files.
Print Assumptions C88_every_pattern.
Print Assumptions C88_slices.
Print Assumptions C88_other_contexts.
Print Assumptions C89_derived_partial.

(* ------------------------------------------------------------------ *)
(** * C90 *)

Section ReadBack.
  Context (h : host) (VH : valid_host h) (e : endian).
  Context (mem : N -> bytes) (Hmem : forall n, n <= nlen (mem n)).
  Notation e6 := (ipv6_order h e).

  Lemma can_be_plain a : can_be_primitive a = true -> f_skip a = false /\ f_varint a = false /\ f_len a = LDefault.
  Proof.
    unfold can_be_primitive. destruct (f_eof a); [discriminate|]. destruct (f_len a); try discriminate.
    destruct (f_skip a); [discriminate|]. destruct (f_varint a); [discriminate|]. auto.
  Qed.

  (** Plain data can be read back. *)
  Lemma plain_back t : plain_data h t ->
    rtok (h_lim h) e e6 false t /\ opens false t = false /\ exact t /\ no_peek t.
  Proof.
    induction t as [s| | | | | | | | | | | |d fs IH| |] using ty_ind'; cbn [plain_data]; try contradiction.
    - destruct s; try contradiction. intros _. cbn. auto.
    - intros (Hf & _). cbn [rtok opens exact no_peek]. induction IH as [|[a t] r IHf IHr IH]; [cbn; auto|].
      cbn [fst snd] in *. destruct Hf as [[Ha Hp] Hf]. destruct (IHf Hp) as (H1 & H2 & H3 & H4).
      destruct (IH Hf) as (I1 & I2 & I3 & I4). destruct (can_be_plain a Ha) as (S1 & S2 & S3).
      assert (Ef : field_eof a t = false) by (unfold field_eof; rewrite S3; apply Bool.andb_false_r).
      cbn [rt_fields fields_open all_fields fst snd]. rewrite Ef, H2, I2, S1, S2, Bool.andb_false_r. cbn [orb].
      repeat split; auto. right. repeat split; auto; discriminate.
  Qed.

  (** C90, for plain data without attributes, in the byte order of the host and at
      an address where elements may lie. *)
  Theorem C90_read_back_partial k t vs b addr : zero_copyable h t -> order_matches h e t ->
    valid (h_lim h) (TSeq k t) (VSeq vs) -> write_to_vec h mem e (TSeq k t) (VSeq vs) = Ok b ->
    nlen b <= h_alloc_max h -> aligned h t (addr + 4) ->
    read_from_buffer h e (TSeq KRef t) addr b = Ok (VSeq vs).
  Proof.
    intros Hz Ho Hv Hw Hl Ha. pose proof (prim_plain h VH t (proj2 Hz) (proj1 Hz)) as Hp.
    destruct (plain_back t Hp) as (H1 & H2 & H3 & H4).
    assert (Hws : wsup h (TSeq k t)).
    { split; [intros _; exact (proj2 Hz)|apply plain_wsup, Hp]. }
    assert (Hval : value_of h e (TSeq k t) (VSeq vs)).
    { split; [exact Hv|]. apply (no_peek_tagged (h_lim h)); [exact H4|exact Hv]. }
    pose proof (written h VH e mem Hmem _ _ _ Hws Hval Hw) as He.
    assert (Hr : rtok (h_lim h) e e6 false (TSeq k t)) by (split; [exact H1|split; [exact H2|discriminate]]).
    pose proof (host_round_trip h VH e _ _ b [] Hr Hval He (fun _ => eq_refl)) as Hd. rewrite app_nil_r in Hd.
    rewrite (norm_exact (h_lim h) (TSeq k t) H3 _ Hv) in Hd.
    destruct (proj1 (C36_write_seq_partial h VH e mem Hmem k t vs b Hws Hv) Hw) as (Hn & bs & _ & ->).
    rewrite slice_cases by assumption. set (body := concat bs) in *. set (n := nlen vs) in *.
    unfold Spec.decode in Hd. cbn [Spec.decl dlen len0] in Hd. unfold dmap at 1, dbind in Hd.
    rewrite (length_first h VH) in Hd by exact Hn. unfold dsized in Hd.
    destruct Hv as (_ & _ & Hfit). rewrite (vh_fits h VH) in Hfit, Hd. pose proof (vh_alloc h VH).
    destruct (N.leb_spec (n * h_size h t) (h_alloc_max h)) as [Hf|Hf]; [|discriminate].
    destruct (N.ltb_spec (l_usize_max (h_lim h)) (n * h_size h t)); [lia|].
    unfold dunsure in Hd. rewrite (drepeat_plain h VH), N2Nat.id in Hd by exact Hp.
    unfold dmap, dbind, dread in Hd.
    assert (Hc : (addr + 4) mod h_align h t =? 0 = true) by (rewrite Ha; reflexivity). rewrite Hc.
    destruct (N.leb_spec (n * h_size h t) (nlen body)) as [Hs|Hs];
      destruct (N.eqb_spec (n * h_size h t) 0) as [E0|E0]; cbn in Hd; try discriminate; try lia.
    - injection Hd as Hd _. rewrite <- Hd, E0, take_0. f_equal. f_equal. apply (raw_chunks h e t); [exact Hp| |].
      + destruct Ho as [Ho|Ho]; [left; lia|right; exact Ho].
      + rewrite N2Nat.id. rewrite E0. reflexivity.
    - injection Hd as Hd _. rewrite <- Hd. f_equal. f_equal. apply (raw_chunks h e t); [exact Hp| |].
      + destruct Ho as [Ho|Ho]; [left; lia|right; exact Ho].
      + rewrite N2Nat.id, nlen_take. lia.
  Qed.
End ReadBack.

Print Assumptions C90_read_back_partial.

(* ------------------------------------------------------------------ *)
(** * Examples and counterexamples *)

Lemma made_alignment ptr reversed native checks : rust_alignment (make_host ptr reversed native checks).
Proof.
  constructor; cbn [make_host h_align].
  - intros [] H; vm_compute in H; try discriminate H; reflexivity.
  - intros d fs Hd. cbn [layout]. unfold struct_layout. rewrite Hd.
    destruct (map (fun f => layout ptr reversed (snd f)) fs) as [|x [|y r]]; reflexivity.
  - intros d f Hd. cbn [layout map]. unfold struct_layout. rewrite Hd. reflexivity.
Qed.

(** A byte and a packed struct holding one, behind references in several places. *)
Definition cell : ty := TStruct (sd 70 RPacked) [(plain, TP U8); (plain, TStruct (sd 71 RTransparent) [(plain, TP I8)])].
Definition shelf : ty :=
  TStruct {| sd_id := 72; sd_repr := RRust; sd_forced := false; sd_generic := true |}
    [(plain, TSeq KRef cell); (plain, TOption (TSeq KRef (TP U8))); (plain, TRefArr cell 2); (plain, TSeq KVec (TP U32))].

Example shelf_meets : rust_alignment host64 /\ rust_alignment host32be
  /\ views (fun t => zero_copy false t = true /\ unforced t) shelf
  /\ compiles false shelf /\ views numeric shelf /\ views (fun t => h_align host64 t = 1) shelf
  /\ accepted false numeric shelf /\ views unforced shelf.
Proof. repeat split; try apply made_alignment; cbn; try (left; reflexivity); repeat (right; repeat split) || exact I; discriminate. Qed.

Example shelf_read : read_from_buffer host64 LE shelf 3
    [x01; x00; x00; x00; xff; xfe;  x01; x01; x00; x00; x00; x09;  x01; x02; x03; x04;  x00; x00; x00; x00]
  = Ok (VSeq [VSeq [VSeq [VInt 255; VSeq [VInt (-2)]]]; VSome (VSeq [VInt 9]);
              VSeq [VSeq [VInt 1; VSeq [VInt 2]]; VSeq [VInt 3; VSeq [VInt 4]]]; VSeq []]).
Proof. vm_compute. reflexivity. Qed.

(** `struct Flags<'a> { flags: &'a [bool] }`: the generated code asks nothing of the
    elements, so the compiler accepts it, and a byte 2 becomes a `bool`. *)
Definition flags_decl : list rfield :=
  [{| rf_attrs := []; rf_opaque := false; rf_ty := TSeq KRef (TScalar SBool); rf_default := VSeq [] |}].

Theorem C89_refuted : exists t, derive_struct 73 RRust true [] flags_decl = Some t
  /\ compiles true t /\ compiles false t /\ views unforced t
  /\ read_from_buffer host64 LE t 0 [x01; x00; x00; x00; x02] = Fault UbInvalid.
Proof.
  eexists. split; [reflexivity|]. cbn. repeat split; try discriminate; try (right; exact I).
Qed.

(** `struct Names<'a> { names: &'a [String] }`: bytes of the input become pointers. *)
Definition names_decl : list rfield :=
  [{| rf_attrs := []; rf_opaque := false; rf_ty := TSeq KRef (TStr KString); rf_default := VSeq [] |}].

Theorem C89_pointers_refuted : exists t, derive_struct 74 RRust true [] names_decl = Some t
  /\ compiles true t /\ views unforced t
  /\ read_from_buffer host64 LE t 4 (x01 :: repeat x00 27) = Fault UbInvalid.
Proof.
  eexists. split; [reflexivity|]. cbn. repeat split; try discriminate; try (right; exact I).
Qed.

(** As a type of its own the same slice is refused. *)
Example slices_refused : ~ compiles true (TSeq KRef (TScalar SBool)) /\ ~ compiles true (TSeq KRef (TStr KString)).
Proof. split; discriminate. Qed.

(** `#[repr(packed)] struct Tagged(#[speedy(constant_prefix = 7u8)] u8)` implements
    `ZeroCopyable` all the same: the prefixes are read as values. *)
Definition tagged_decl : list rfield :=
  [{| rf_attrs := [AConstantPrefix [x07]]; rf_opaque := false; rf_ty := TP U8; rf_default := VInt 0 |}].

Theorem C90_refuted : exists t vs ws b, derive_struct 75 RPacked false [] tagged_decl = Some t
  /\ zero_copy true t = true /\ unforced t /\ h_align host64 t = 1 /\ valid (h_lim host64) (TSeq KVec t) (VSeq vs)
  /\ write_to_vec host64 dirty LE (TSeq KVec t) (VSeq vs) = Ok b
  /\ read_from_buffer host64 LE (TSeq KVec t) 0 b = Ok (VSeq vs)
  /\ read_from_buffer host64 LE (TSeq KRef t) 0 b = Ok (VSeq ws) /\ ws <> vs.
Proof.
  eexists _, [VSeq [VInt 1]; VSeq [VInt 2]], [VSeq [VInt 7]; VSeq [VInt 1]], _. split; [reflexivity|].
  split; [reflexivity|]. split; [cbn; auto|]. split; [vm_compute; reflexivity|].
  split; [vm_compute; repeat constructor; discriminate|].
  split; [vm_compute; reflexivity|]. split; [vm_compute; reflexivity|].
  split; [vm_compute; reflexivity|discriminate].
Qed.

(** Plain data that can be borrowed and is read back. *)
Example cells_back : zero_copyable host64 cell /\ order_matches host64 LE cell /\ aligned host64 cell (3 + 4)
  /\ valid (h_lim host64) (TSeq KVec cell) (VSeq [VSeq [VInt 255; VSeq [VInt (-2)]]])
  /\ write_to_vec host64 dirty LE (TSeq KVec cell) (VSeq [VSeq [VInt 255; VSeq [VInt (-2)]]])
     = Ok [x01; x00; x00; x00; xff; xfe]
  /\ read_from_buffer host64 LE (TSeq KRef cell) 3 [x01; x00; x00; x00; xff; xfe]
     = Ok (VSeq [VSeq [VInt 255; VSeq [VInt (-2)]]]).
Proof.
  split; [split; [reflexivity|apply honestb_sound; vm_compute; reflexivity]|]. split; [right; reflexivity|]. split; [reflexivity|].
  split; [vm_compute; repeat constructor; discriminate|]. split; vm_compute; reflexivity.
Qed.

Print Assumptions C89_refuted.
Print Assumptions C89_pointers_refuted.
Print Assumptions C90_refuted.
