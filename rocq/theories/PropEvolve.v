(* Property C121: programs whose types have got new enum variants and new optional fields exchange
   data with their earlier versions. *)
From Verif Require Import Samples Checker Entry EncFacts Evolve PropDefault PropRoundTrip PropReaders.

Section Evolution.
  Context (h : host) (VH : valid_host h) (e : endian) (mem : N -> bytes) (Hmem : forall n, n <= nlen (mem n)).
  Notation e6 := (ipv6_order h e).
  Notation decode := (decode (h_lim h) e e6).
  Notation widens := (widens (h_lim h)).
  Notation extends := (extends (h_lim h)).

  (** ** The minimum size *)

  Lemma fold_min l : fold_left N.min l 0 = 0.
  Proof. induction l as [|x l IH]; [reflexivity|]. cbn [fold_left]. rewrite N.min_0_l. exact IH. Qed.

  Definition kept (t1 : ty) : Prop := forall short t2, widens short t1 t2 -> min_bytes h t2 = min_bytes h t1.

  Lemma wide_field_min f1 f2 : kept (snd f1) -> wide_field widens f1 f2 ->
    field_min (min_bytes h) f2 = field_min (min_bytes h) f1.
  Proof.
    intros IH [Ha [Hs|Hw]]; unfold field_min; rewrite <- Ha; [rewrite Hs, !orb_true_r; reflexivity|].
    destruct (_ || _ || _)%bool; [reflexivity|]. f_equal. destruct (f_opaque _); [eapply IH, Hw|].
    rewrite <- (widens_container _ _ _ _ Hw). pose proof (IH _ _ Hw) as Hm.
    destruct (snd f1) eqn:E1, (snd f2) eqn:E2; cbn [Evolve.widens] in Hw; try contradiction; try reflexivity;
      try exact Hm; (destruct (is_container _); [reflexivity|]; destruct (f_varint _); [reflexivity|]; exact Hm).
  Qed.

  Lemma wide_fields_min l1 : Forall (fun f => kept (snd f)) l1 -> forall l2, wide_fields widens l1 l2 ->
    nsum (map (field_min (min_bytes h)) l2) = nsum (map (field_min (min_bytes h)) l1).
  Proof.
    induction 1 as [|f1 r1 Hf Hr IH]; intros [|f2 r2] Hw; cbn [wide_fields] in Hw; try contradiction; [reflexivity|].
    destruct Hw as [H1 H2]. cbn [map nsum fold_right]. unfold nsum in IH. rewrite (IH r2 H2). f_equal.
    apply wide_field_min; assumption.
  Qed.

  Lemma widens_min t1 : kept t1.
  Proof.
    induction t1 as [s|k|k t IH|t n IH|t n IH|t IH|ta tb IHa IHb|ts IH|i t IH|k t IH|k ta tb IHa IHb|t IH|d fs IH|d vs IH|]
      using ty_ind'; intros short t2 Hw; destruct t2; cbn [Evolve.widens] in Hw; try contradiction; cbn [min_bytes]; try reflexivity.
    - subst. reflexivity.
    - destruct Hw as [<- Hw]. f_equal. eapply IH, Hw.
    - destruct Hw as [<- <-]. reflexivity.
    - revert ts0 Hw. induction IH as [|t1 r1 Ht Hr IHr]; intros [|t2 r2] Hw; cbn [wide_tys] in Hw; try contradiction; [reflexivity|].
      destruct Hw as [H1 H2]. cbn [map nsum fold_right]. f_equal; [eapply Ht, H1|]. apply IHr, H2.
    - destruct Hw as [<- Hw]. f_equal. eapply IH, Hw.
    - eapply IH, Hw.
    - apply wide_fields_min; assumption.
    - destruct Hw as [<- _]. rewrite !fold_min. reflexivity.
  Qed.

  Lemma extends_min_bytes :
    (forall t1 t2 up down, extends t1 t2 up down -> min_bytes h t2 = min_bytes h t1)
    /\ (forall fs1 fs2 up down, ext_fields (h_lim h) fs1 fs2 up down ->
          nsum (map (field_min (min_bytes h)) fs2) = nsum (map (field_min (min_bytes h)) fs1))
    /\ (forall vs1 vs2 ups downs, ext_variants (h_lim h) vs1 vs2 ups downs -> True).
  Proof.
    apply extends_mut; auto.
    - intros t1 t2 Hw. eapply widens_min, Hw.
    - intros d vs1 vs2 up down _ _. cbn [min_bytes]. rewrite !fold_min. reflexivity.
    - intros gs Hg. apply eof_min, (fall_back_eof h gs []), Hg.
    - intros f1 f2 r1 r2 up down Hf _ IH. cbn [map nsum fold_right]. unfold nsum in IH. rewrite IH. f_equal.
      apply wide_field_min; [apply widens_min|exact Hf].
    - intros a t1 t2 gs up down Hs He Hv Hz1 Hz2 Hx IH Hg. cbn [map nsum fold_right].
      pose proof (eof_min h gs (fall_back_eof h gs [] (Hg []))) as E0. unfold nsum in E0. rewrite E0. f_equal.
      unfold field_min. cbn [fst snd]. destruct (_ || _ || _)%bool; [reflexivity|]. f_equal.
      rewrite Hv. destruct (f_opaque a) eqn:Eo; [exact IH|]. unfold sized_field in Hz1, Hz2. rewrite Eo in *. cbn [negb andb] in *.
      destruct Hx as [t1 t2 Hw| | | |]; try reflexivity; try (cbn; exact IH).
      destruct t1, t2; cbn [Evolve.widens] in Hw; try contradiction; try reflexivity; try exact IH;
        rewrite Hz1, Hz2; exact IH.
  Qed.

  (* ---------------------------------------------------------------- *)

  (** A new program reads what an old one wrote; the new fields have their defaults. *)
  Theorem C121_new_reads_old t1 t2 up down v b bw0 pk0 bw r : extends t1 t2 up down ->
    covered h e bw0 pk0 t1 -> supported h e bw true LDefault t2 ->
    value_of h e t1 v -> write_to_vec h mem e t1 v = Ok b ->
    reading h e t2 b bw r -> r = Ok (up (norm t1 v)).
  Proof.
    intros Hx [Hw Hs Hr] Hs2 Hv Hb Hrd. pose proof (written h VH e mem Hmem t1 v b Hw Hv Hb) as He.
    pose proof (host_round_trip h VH e t1 v b [] Hr Hv He (fun _ => eq_refl)) as Hd. rewrite app_nil_r in Hd.
    eapply reading_ok; [exact VH|exact Hs2|exact Hrd| |].
    - eapply (proj1 (extends_forward (h_lim h) e e6 (fits_nothing h VH))); [exact Hx|exact I|exact Hd].
    - rewrite (proj1 extends_min_bytes _ _ _ _ Hx). eapply host_min; eassumption.
  Qed.

  (** An old program reads what a new one wrote, if it has the variants, without the new fields. *)
  Theorem C121_old_reads_new t1 t2 up down v b rest bw0 pk0 bw r : extends t1 t2 up down ->
    covered h e bw0 pk0 t2 -> covered h e bw true t1 -> opens false t1 = false ->
    value_of h e t2 v -> value_of h e t1 (down v) ->
    write_to_vec h mem e t2 v = Ok b -> reading h e t1 (b ++ rest) bw r -> r = Ok (norm t1 (down v)).
  Proof.
    intros Hx [Hw2 Hs2 Hr2] [Hw Hs Hr] Ho Hv2 Hv Hb Hrd. pose proof (written h VH e mem Hmem t2 v b Hw2 Hv2 Hb) as He.
    destruct (proj1 (extends_written (h_lim h) e e6 (h_iter h) (vh_iter h VH)) _ _ _ _ Hx len0 v b He (proj1 Hv))
      as (b1 & new & E1 & ->).
    rewrite <- app_assoc in Hrd.
    assert (Hd : decode t1 (b1 ++ new ++ rest) = DOk (norm t1 (down v)) (Some (new ++ rest))).
    { eapply host_round_trip; try eassumption. congruence. }
    eapply reading_ok; [exact VH|exact Hs|exact Hrd|exact Hd|].
    rewrite nlen_app. pose proof (host_min h VH e _ _ t1 (down v) b1 Hs Hv E1). lia.
  Qed.

  (** Whatever a new program wrote, an old one does not take it for anything else: it reads the value
      without the new fields, or reports a variant that it does not know. *)
  Theorem C121_never_wrong t1 t2 up down v b rest bw0 pk0 bw r : extends t1 t2 up down ->
    covered h e bw0 pk0 t2 -> supported h e bw true LDefault t1 -> no_eof false t1 ->
    value_of h e t2 v -> (opens false t2 = true -> rest = []) ->
    write_to_vec h mem e t2 v = Ok b -> reading h e t1 (b ++ rest) bw r ->
    r = Ok (down (norm t2 v)) \/ exists er, r = Err er /\ (er = InvalidEnumVariant \/ is_eof er = true).
  Proof.
    intros Hx [Hw2 Hs2 Hr2] Hs Hn Hv2 Ho Hb Hrd. pose proof (written h VH e mem Hmem t2 v b Hw2 Hv2 Hb) as He.
    pose proof (host_round_trip h VH e t2 v b rest Hr2 Hv2 He Ho) as Hd.
    destruct (reading_agrees h VH e t1 _ bw r Hs Hrd) as [[Hm _]|Ha].
    { rewrite <- (proj1 extends_min_bytes _ _ _ _ Hx), nlen_app in Hm.
      pose proof (host_min h VH e _ _ t2 v b Hs2 Hv2 He). lia. }
    unfold Spec.decode in *.
    destruct (proj1 (extends_backward (h_lim h) e e6) _ _ _ _ Hx len0 _ _ _ I Hd) as [[o1 E]|[E|[s E]]]; rewrite E in Ha.
    - left. exact Ha.
    - destruct (decode_spec (h_lim h) e e6 t1 (b ++ rest) Hn E).
    - right. destruct Ha as [[-> _]|[_ (er & -> & Hf)]]; eauto.
  Qed.

  (** New variants alone: the two versions write the same bytes for the values that both have ... *)
  Theorem C121_same_bytes t1 t2 v b : widens true t1 t2 -> wsup h t1 -> wsup h t2 ->
    value_of h e t1 v -> value_of h e t2 v ->
    (write_to_vec h mem e t1 v = Ok b <-> write_to_vec h mem e t2 v = Ok b).
  Proof.
    intros Hx H1 H2 [V1 _] [V2 _].
    pose proof (widens_alike (h_lim h) (h_iter h) e e6 (vh_iter h VH) t1 true t2 v len0 Hx V1) as E.
    split; intros H.
    - apply (write_to_vec_err h VH) in H; [|assumption..]. apply (write_to_vec_ok h VH); try assumption. rewrite <- E. exact H.
    - apply (write_to_vec_err h VH) in H; [|assumption..]. apply (write_to_vec_ok h VH); try assumption. rewrite E. exact H.
  Qed.

  (** ... and the new one reads every input that the old one reads, to the same value. *)
  Theorem C121_same_input t1 t2 bs bw v bw' r : widens true t1 t2 ->
    supported h e bw true LDefault t1 -> supported h e bw' true LDefault t2 -> no_eof false t1 ->
    min_bytes h t1 <= nlen bs -> reading h e t1 bs bw (Ok v) -> reading h e t2 bs bw' r -> r = Ok v.
  Proof.
    intros Hx Hs1 Hs2 Hn Hm H1 H2.
    destruct (reading_decodes h VH e t1 bs bw v Hs1 H1) as [[o E]|E]; [|destruct (decode_spec _ _ _ t1 bs Hn E)].
    eapply reading_ok; [exact VH|exact Hs2|exact H2| |rewrite (widens_min t1 true t2 Hx); exact Hm].
    unfold Spec.decode in *. destruct (widens_upto (h_lim h) e e6 t1 true t2 len0 Hx (fun _ => I) (Some bs)) as [E'|[E'|[s E']]].
    - rewrite <- E'. exact E.
    - rewrite E in E'. discriminate.
    - rewrite E in E'. discriminate.
  Qed.
End Evolution.
Print Assumptions C121_new_reads_old.
Print Assumptions C121_old_reads_new.
Print Assumptions C121_never_wrong.
Print Assumptions C121_same_bytes.
Print Assumptions C121_same_input.

(* ------------------------------------------------------------------ *)
(** * The hypotheses are met *)

Definition optionally (d : val) : fattrs :=
  {| f_eof := true; f_skip := false; f_varint := false; f_opaque := false;
     f_len := LDefault; f_prefix := []; f_default := d |}.

(** `enum Event { Start, Moved { to: Point } }`, then also `Stopped( u8 )`. *)
Definition event1 : ty := TEnum {| e_tag := BU8; e_peek := false |} [(0, []); (1, [(plain, point)])].
Definition event2 : ty :=
  TEnum {| e_tag := BU8; e_peek := false |} [(0, []); (1, [(plain, point)]); (2, [(plain, TP U8)])].

(** `enum Message { Hello { name: String }, Log { events: Vec< Event > } }`; the later version has
    `#[speedy(default_on_eof)] colour: u16` and `#[speedy(default_on_eof)] tags: Vec< u8 >` in `Hello` and
    a further variant. *)
Definition message1 : ty :=
  TEnum {| e_tag := BU16; e_peek := false |} [(7, [(plain, TStr KString)]); (9, [(plain, TSeq KVec event1)])].
Definition message2 : ty :=
  TEnum {| e_tag := BU16; e_peek := false |}
    [(7, [(plain, TStr KString); (optionally (VInt 5), TP U16); (optionally (VSeq []), TSeq KVec (TP U8))]);
     (9, [(plain, TSeq KVec event2)]);
     (11, [])].
Definition message_up := in_var
  [keep_head (fun _ : list val => [VInt 5; VSeq []]); keep_head (fun _ : list val => [])].
Definition message_down := in_var [keep_head (fun _ : list val => []); keep_head (fun _ : list val => [])].

Lemma event_widens lim : widens lim true event1 event2.
Proof.
  cbn [event1 event2 Evolve.widens wide_variants wide_fields]. split; [reflexivity|]. split; [reflexivity|]. split; [exact I|].
  split; [reflexivity|]. split; [|exact I]. cbn [snd wide_fields]. split; [|exact I]. split; [reflexivity|right].
  cbn [snd point Evolve.widens wide_fields]. split; [split; [reflexivity|right; reflexivity]|].
  split; [split; [reflexivity|right; reflexivity]|exact I].
Qed.

Lemma event_fits n : n < 2 ^ 32 -> l_fits (h_lim host64) event1 n = true /\ l_fits (h_lim host64) event2 n = true.
Proof.
  intros Hn. rewrite !(vh_fits host64 host64_valid).
  assert (h_size host64 event1 <= 1024) by (vm_compute; discriminate).
  assert (h_size host64 event2 <= 1024) by (vm_compute; discriminate).
  change (h_alloc_max host64) with (2 ^ 63 - 1). change (2 ^ 63 - 1) with 9223372036854775807. change (2 ^ 32) with 4294967296 in Hn.
  split; apply N.leb_le; nia.
Qed.

Lemma message_extends : extends (h_lim host64) message1 message2 message_up message_down.
Proof.
  apply ex_enum. apply ev_next; [|apply ev_next; [|apply ev_new]].
  - apply ef_next; [split; [reflexivity|]; right; reflexivity|]. 
    apply (ef_new _ [(optionally (VInt 5), TP U16); (optionally (VSeq []), TSeq KVec (TP U8))]).
    intros prev. cbn [all_fall_back fst snd optionally f_skip]. split; [reflexivity|]. split.
    + right. right. left. split; reflexivity.
    + split; [reflexivity|]. split; [|exact I]. right. right. right. right. split; [reflexivity|]. split; [reflexivity|exact I].
  - apply ef_next; [split; [reflexivity|]; right|].
    + cbn [snd Evolve.widens]. split; [reflexivity|]. split; [apply event_widens|]. right. split; [reflexivity|].
      exact event_fits.
    + apply (ef_new _ []). intros prev. exact I.
Qed.

Lemma message1_covered : covered host64 LE false true message1.
Proof. apply coveredb_sound. vm_compute. reflexivity. Qed.
Lemma message2_covered : covered host64 LE false true message2.
Proof. apply coveredb_sound. vm_compute. reflexivity. Qed.

Definition hello1 : val := VVar 0 [VBytes [x68; x69]].
Definition hello2 : val := VVar 0 [VBytes [x68; x69]; VInt 3; VSeq [VInt 1; VInt 2]].
Definition log1 : val := VVar 1 [VSeq [VVar 1 [VSeq [VInt 1; VInt 2]]; VVar 0 []]].
Definition log2 : val := VVar 1 [VSeq [VVar 1 [VSeq [VInt 1; VInt 2]]; VVar 2 [VInt 4]]].

Example C121_holds1 b r : write_to_vec host64 dirty LE message1 hello1 = Ok b -> reading host64 LE message2 b false r ->
  r = Ok (VVar 0 [VBytes [x68; x69]; VInt 5; VSeq []]).
Proof.
  intros Hb Hr. apply (C121_new_reads_old host64 host64_valid LE dirty dirty_enough _ _ _ _ hello1 b false true false r message_extends);
    auto using message1_covered; [apply message2_covered|apply value_ofb_sound; vm_compute; reflexivity].
Qed.
Example C121_holds2 b rest r : write_to_vec host64 dirty LE message2 hello2 = Ok b ->
  reading host64 LE message1 (b ++ rest) false r -> r = Ok hello1.
Proof.
  intros Hb Hr. apply (C121_old_reads_new host64 host64_valid LE dirty dirty_enough _ _ _ _ hello2 b rest false true false r message_extends);
    auto using message1_covered, message2_covered; try (apply value_ofb_sound; vm_compute; reflexivity).
Qed.
Example C121_written : exists b1 b2, write_to_vec host64 dirty LE message1 hello1 = Ok b1
  /\ write_to_vec host64 dirty LE message2 hello2 = Ok b2
  /\ write_to_vec host64 dirty LE message1 log1 = write_to_vec host64 dirty LE message2 log1.
Proof. do 2 eexists. split; [vm_compute; reflexivity|]. split; vm_compute; reflexivity. Qed.

(** A new variant in a list. *)
Example C121_unknown b : write_to_vec host64 dirty LE message2 log2 = Ok b ->
  read_from_buffer_copying host64 LE message1 b = Err InvalidEnumVariant.
Proof. intros H. vm_compute in H. injection H as <-. vm_compute. reflexivity. Qed.

Example C121_unknown_any b r : write_to_vec host64 dirty LE message2 log2 = Ok b -> reading host64 LE message1 b false r ->
  r = Ok (message_down log2) \/ exists er, r = Err er /\ (er = InvalidEnumVariant \/ is_eof er = true).
Proof.
  intros Hb Hr. rewrite <- (app_nil_r b) in Hr.
  apply (C121_never_wrong host64 host64_valid LE dirty dirty_enough _ _ _ _ log2 b [] false true false r message_extends); auto.
  - apply message2_covered.
  - apply message1_covered.
  - apply no_eofb_sound. vm_compute. reflexivity.
  - apply value_ofb_sound. vm_compute. reflexivity.
Qed.

Example C121_inputs addr bs v : nlen bs <= h_alloc_max host64 -> 1 <= nlen bs ->
  read_from_buffer host64 LE event1 addr bs = Ok v -> read_from_buffer host64 LE event2 addr bs = Ok v.
Proof.
  intros Hl H1 Hr. apply (C121_same_input host64 host64_valid LE event1 event2 bs true v true).
  - apply event_widens.
  - apply supportedb_sound. vm_compute. reflexivity.
  - apply supportedb_sound. vm_compute. reflexivity.
  - apply no_eofb_sound. vm_compute. reflexivity.
  - exact H1.
  - rewrite <- Hr. apply from_buffer, Hl.
  - apply from_buffer, Hl.
Qed.
Example C121_some_input : read_from_buffer host64 LE event1 8 [x01; x01; x00; x02; x00; x09] = Ok (VVar 1 [VSeq [VInt 1; VInt 2]]).
Proof. vm_compute. reflexivity. Qed.

(** New fields that are not at the end are not optional: in a list, the field takes a byte of
    the next element, and the data are read as something else without any error. *)
Definition entry1 : ty := TStruct (sd 97 RRust) [(plain, TP U8)].
Definition entry2 : ty := TStruct (sd 98 RRust) [(plain, TP U8); (optionally (VInt 0), TP U8)].
Definition tail (t : ty) : ty := TStruct (sd 99 RRust) [({| f_eof := false; f_skip := false; f_varint := false; f_opaque := false;
  f_len := LEof; f_prefix := []; f_default := VSeq [] |}, TSeq KVec t)].
Theorem C121_inside_refuted : exists v b,
  extends (h_lim host64) entry1 entry2 (in_seq (keep_head (fun _ => [VInt 0]))) (in_seq (keep_head (fun _ => [])))
  /\ covered host64 LE false true (tail entry1) /\ supported host64 LE false true LDefault (tail entry2)
  /\ value_of host64 LE (tail entry1) v
  /\ write_to_vec host64 dirty LE (tail entry1) v = Ok b
  /\ v = VSeq [VSeq [VSeq [VInt 1]; VSeq [VInt 2]; VSeq [VInt 3]; VSeq [VInt 4]]]
  /\ read_from_buffer_copying host64 LE (tail entry2) b = Ok (VSeq [VSeq [VSeq [VInt 1; VInt 2]; VSeq [VInt 3; VInt 4]]]).
Proof.
  exists (VSeq [VSeq [VSeq [VInt 1]; VSeq [VInt 2]; VSeq [VInt 3]; VSeq [VInt 4]]]). eexists.
  split. { apply ex_struct. apply ef_next; [split; [reflexivity|right; reflexivity]|]. apply (ef_new _ [(optionally (VInt 0), TP U8)]). intros prev.
    split; [reflexivity|]. split; [|exact I]. right. right. left. split; reflexivity. }
  split; [apply coveredb_sound; vm_compute; reflexivity|]. split; [apply supportedb_sound; vm_compute; reflexivity|].
  split; [apply value_ofb_sound; vm_compute; reflexivity|]. split; [vm_compute; reflexivity|]. split; [reflexivity|].
  vm_compute. reflexivity.
Qed.
Print Assumptions C121_inside_refuted.

