(* When an implementation follows a format, and that everything built from such
   implementations follows the format built in the same way. *)
From Verif Require Import BaseFacts SpecFacts ValOrder.
From Verif Require Export Impls Formats ReadApi WriteApi RoundTrip.

(** Reading follows the decoder on every lawful reader, and writing the encoder on every
    lawful writer; `minimum_bytes_needed` is true, `bytes_needed` exact in any byte order, and
    what is written is read back. *)
Record implements (h : host) (X : impl) (F : format) : Prop := {
  im_size : i_size X = fm_size F;
  im_read : forall St (R : reader St) rep io, reader_ok h R true rep io ->
    sim rep io (i_read X R) (fm_dec F (rd_endian R));
  im_min : forall e, atleast (i_min X) (fm_dec F e);
  im_write : forall St (W : writer St) wrep werr room v, writer_ok h W wrep werr room -> fm_ok F v ->
    wsim wrep werr room (i_write X W v) (fm_enc F (wr_endian W) v);
  im_same : forall e e' v, fm_ok F v -> samelen (fm_enc F e v) (fm_enc F e' v);
  im_needed : forall e v b, fm_ok F v -> fm_enc F e v = Ok b -> i_needed X v = Ok (nlen b);
  im_back : forall e v b rest, fm_ok F v -> fm_enc F e v = Ok b -> (fm_open F = true -> rest = []) ->
    fm_dec F e (Some (b ++ rest)) = DOk v (Some rest)
}.

(** A type without size takes no bytes: there is nothing to read it from inside `Vec`. *)
Definition silent_if_empty (X : impl) (F : format) : Prop :=
  i_size X = 0 -> forall e o, fm_dec F e o = DOk (i_only X) o.

(** It can stand anywhere in the input. *)
Definition element (h : host) (X : impl) (F : format) : Prop := implements h X F /\ fm_open F = false.

Record inner_follows (h : host) (i : inner) (j : finner) : Prop := {
  if_read : forall St (R : reader St) rep io prev a, reader_ok h R true rep io ->
    sim rep io (read_inner h R prev a i) (dinner h (rd_endian R) (resolve (f_eof a) prev (f_len a)) j);
  if_zero : forall e l, atleast 0 (dinner h e l j);
  if_min : forall e prev a, match f_len a with LDefault | LType _ => True | _ => False end ->
    atleast (inner_min a i) (dinner h e (resolve false prev (f_len a)) j);
  if_write : forall St (W : writer St) wrep werr room prev a v, writer_ok h W wrep werr room -> inner_ok h j v ->
    wsim wrep werr room (write_inner h W prev a i v) (einner h (wr_endian W) (resolve false prev (f_len a)) j v);
  if_same : forall e e' l v, inner_ok h j v -> samelen (einner h e l j v) (einner h e' l j v);
  if_back : forall e l v b rest, inner_ok h j v -> einner h e l j v = Ok b ->
    (leof l = true -> inner_ends e j) -> (inner_open (leof l) j = true -> rest = []) ->
    dinner h e l j (Some (b ++ rest)) = DOk v (Some rest)
}.

Lemma map_id {A} (l : list A) : map (fun x => x) l = l.
Proof. induction l; cbn; congruence. Qed.

Section Impl.
  Context (h : host) (VH : valid_host h).
  Notation lim := (h_lim h).
  Notation implements := (implements h).
  Notation element := (element h).
  Notation inner_follows := (inner_follows h).

  Lemma im_zero X F e : implements X F -> atleast 0 (fm_dec F e).
  Proof. intros H. eapply atleast_le; [apply (im_min _ _ _ H)|lia]. Qed.

  Lemma element_rt X F e vs : element X F -> Forall (fm_ok F) vs ->
    Forall (fun v => forall b rest, fm_enc F e v = Ok b -> fm_dec F e (Some (b ++ rest)) = DOk v (Some rest)) vs.
  Proof.
    intros (H & Ho) Hv. eapply Forall_impl; [|exact Hv]. intros v Hok b rest Hb.
    apply (im_back _ _ _ H); auto. congruence.
  Qed.

  Lemma pair_rt X F Y G e vs : element X F -> element Y G -> Forall (valid_pair (fm_ok F) (fm_ok G)) vs ->
    Forall (fun v => forall b rest, pair_enc F G e v = Ok b -> pair_dec F G e (Some (b ++ rest)) = DOk v (Some rest)) vs.
  Proof.
    intros (HX & HoX) (HY & HoY) Hv. eapply Forall_impl; [|exact Hv]. intros v Hok b rest Hb.
    destruct v as [| | | |[|k [|x [|]]]| | | | |]; try contradiction Hok. cbn in Hok, Hb.
    apply rapp_ok in Hb as (b1 & b2 & E1 & E2 & ->). rewrite <- app_assoc. unfold pair_dec, dpair, dbind.
    rewrite (im_back _ _ _ HX e k b1 (b2 ++ rest)); [|tauto|exact E1|congruence].
    rewrite (im_back _ _ _ HY e x b2 rest); [|tauto|exact E2|congruence]. reflexivity.
  Qed.

  Lemma many_rt (d : dec val) en vs b rest :
    Forall (fun v => forall b rest, en v = Ok b -> d (Some (b ++ rest)) = DOk v (Some rest)) vs ->
    enc_all en vs = Ok b -> drepeat d (length vs) (Some (b ++ rest)) = DOk vs (Some rest).
  Proof.
    intros H Hb. rewrite <- (map_id vs) at 2. apply (drepeat_rt d en (fun x => x)); assumption.
  Qed.

  Lemma until_rt (d : dec val) en vs b : ends d ->
    Forall (fun v => forall b rest, en v = Ok b -> d (Some (b ++ rest)) = DOk v (Some rest)) vs ->
    enc_all en vs = Ok b -> duntil d (Some b) = DOk vs (Some []).
  Proof.
    intros He H Hb. rewrite <- (map_id vs). apply (duntil_rt d en (fun x => x)); assumption.
  Qed.

  Lemma iter_perm k vs : Permutation (iter_order (h_iter h) k vs) vs.
  Proof. apply (perm_iter h VH). Qed.

  Lemma iter_Forall k (P : val -> Prop) vs : Forall P vs -> Forall P (iter_order (h_iter h) k vs).
  Proof. intros H. eapply Permutation_Forall; [symmetry; apply iter_perm|exact H]. Qed.

  (** A set or map comes back, whatever the order it was written in. *)
  Lemma col_rt e l k key (d : dec val) en vs b rest : small lim (nlen vs) -> keys_ok k key vs ->
    Forall (fun v => forall b rest, en v = Ok b -> d (Some (b ++ rest)) = DOk v (Some rest)) (iter_order (h_iter h) k vs) ->
    rapp (enc_len e l (nlen vs)) (enc_all en (iter_order (h_iter h) k vs)) = Ok b ->
    (leof l = true -> ends d) -> (leof l = true -> rest = []) ->
    (xs <-- dlen lim e l (fun n => drepeat d (N.to_nat n)) (duntil d) ;; dret (VSeq (collect k key xs)))
      (Some (b ++ rest)) = DOk (VSeq vs) (Some rest).
  Proof.
    intros Hs Hk Hall Hb He Ho. apply rapp_ok in Hb as (p & b' & Hp & Hb & ->). unfold dbind at 1.
    rewrite (seq_rt lim e l _ _ (nlen vs) p b' rest (iter_order (h_iter h) k vs)); auto.
    - unfold dret. rewrite collect_roundtrip by (assumption || apply (vh_iter h VH)). reflexivity.
    - intros _. unfold nlen. rewrite Nat2N.id, <- (Permutation_length (iter_perm k vs)). apply (many_rt d en); assumption.
    - intros Hl. apply (until_rt d en); auto.
  Qed.

  Lemma same_all F e e' X vs : implements X F -> Forall (fm_ok F) vs ->
    samelen (enc_all (fm_enc F e) vs) (enc_all (fm_enc F e') vs).
  Proof. intros H Hv. apply samelen_all. eapply Forall_impl; [|exact Hv]. intros v. apply (im_same _ _ _ H). Qed.

  Lemma same_pairs F G e e' X Y vs : implements X F -> implements Y G -> Forall (valid_pair (fm_ok F) (fm_ok G)) vs ->
    samelen (enc_all (pair_enc F G e) vs) (enc_all (pair_enc F G e') vs).
  Proof.
    intros HX HY Hv. apply samelen_all. eapply Forall_impl; [|exact Hv].
    intros [| | | |[|k [|x [|]]]| | | | |] Hok; try contradiction. destruct Hok as (Hk & Hx).
    apply samelen_app; [apply (im_same _ _ _ HX), Hk|apply (im_same _ _ _ HY), Hx].
  Qed.

  (* ---------------------------------------------------------------- *)
  (** ** Elements of a vector *)

  Lemma weak_many X F e n o : implements X F ->
    match o with Some bs => nlen bs < i_min X * n | None => 0 < i_min X * n end -> weak (dmany h F e n o).
  Proof.
    intros H Hlt. unfold dmany. destruct (_ <=? _); [|reflexivity].
    pose proof (atleast_repeat _ _ (N.to_nat n) (im_min _ _ _ H e)) as Ha.
    rewrite N2Nat.id in Ha. specialize (Ha o). unfold dunsure.
    destruct (drepeat (fm_dec F e) (N.to_nat n) o) as [a o'| | | |] eqn:E; cbn; auto.
    specialize (Ha a o' eq_refl). destruct o, o'; lia.
  Qed.

  Lemma drepeat_silent_dec e F v n o : (forall o, fm_dec F e o = DOk v o) ->
    drepeat (fm_dec F e) n o = DOk (repeat v n) o.
  Proof.
    intros H. revert o. induction n as [|n IH]; intros o; [reflexivity|]. cbn [drepeat repeat].
    unfold dbind at 1. rewrite H. unfold dbind. rewrite IH. reflexivity.
  Qed.

  Lemma elements_sim {St} (R : reader St) rep io X F n : reader_ok h R true rep io -> implements X F -> silent_if_empty X F ->
    sim rep io (read_elements h R X n) (dmany h F (rd_endian R) n).
  Proof.
    intros OK H Hz.
    assert (Hgo : sim rep io
      (alloc h R n (i_size X) (i_min X) ;;;
       if i_size X =? 0 then ret (repeat (i_only X) (N.to_nat n)) else repeatM (i_read X R) (N.to_nat n))
      (dmany h F (rd_endian R) n)).
    { unfold dmany. rewrite <- (im_size _ _ _ H).
      destruct (N.leb_spec (n * i_size X) (h_alloc_max h)) as [Hle|Hgt].
      - apply (sim_alloc h R true true rep io OK); [assumption|]. apply sim_unsure.
        destruct (N.eqb_spec (i_size X) 0) as [E|E].
        + eapply sim_ext; [reflexivity| |apply sim_ret].
          intros o. symmetry. apply drepeat_silent_dec. intros o'. apply Hz, E.
        + apply sim_repeat, (im_read _ _ _ H), OK.
      - unfold alloc. destruct (N.ltb_spec (h_alloc_max h) (n * i_size X)); [|lia].
        intros s o Hr. right. left. reflexivity. }
    unfold read_elements. destruct (N.ltb_spec (usize_max h) (i_min X * n)) as [Hbig|Hsmall].
    - intros s o Hr. right. cbn [bind fail fst snd]. apply weak_ended; [assumption|reflexivity|].
      apply (weak_many X); [assumption|]. unfold usize_max in Hbig. destruct o as [bs|]; [|lia].
      cbn in Hr. pose proof (ok_small _ _ _ _ _ OK _ _ Hr). lia.
    - apply (sim_require h R true rep io OK); auto.
      + intros bs Hlt _. apply (weak_many X); assumption.
      + intros Hlt. apply (weak_many X); assumption.
  Qed.

  Lemma many_zero X F e n : implements X F -> atleast 0 (dmany h F e n).
  Proof.
    intros H. unfold dmany. destruct (_ <=? _); [|intros o a o' E; discriminate].
    apply atleast_unsure. eapply atleast_le; [apply atleast_repeat, (im_zero X F e H)|lia].
  Qed.

  (* ---------------------------------------------------------------- *)
  (** ** Containers with the length given anyhow *)

  Lemma with_length_map {St} (R : reader St) prev a (k : N -> M St (list val)) (c : N -> dec (list val)) ue te rep io (f : list val -> val) :
    reader_ok h R true rep io ->
    (forall n, sim rep io (k n) (c n)) -> sim rep io ue te ->
    sim rep io (with_length h R prev a (fun n => mmap f (k n)) (mmap f ue))
      (xs <-- dlen lim (rd_endian R) (resolve (f_eof a) prev (f_len a)) c te ;; dret (f xs)).
  Proof.
    intros OK Hk Hu.
    apply (sim_ext rep io (with_length h R prev a (fun n => mmap f (k n)) (mmap f ue)) _
             (dlen lim (rd_endian R) (resolve (f_eof a) prev (f_len a)) (fun n => dmap f (c n)) (dmap f te))).
    - reflexivity.
    - intros o. destruct (resolve _ _ _) as [b []|[m|]|]; cbn [dlen]; try reflexivity.
      + rewrite dbind_assoc. reflexivity.
      + rewrite dbind_assoc. reflexivity.
    - apply (with_length_sim h VH R true true rep io OK).
      + intros n _. apply sim_map, Hk.
      + intros _. apply sim_map, Hu.
  Qed.

  Lemma len_min e (a : fattrs) prev (c : N -> dec (list val)) te (f : list val -> dec val) :
    match f_len a with LDefault | LType _ => True | _ => False end ->
    (forall n, atleast 0 (c n)) -> atleast 0 te -> (forall xs, atleast 0 (f xs)) ->
    atleast (basic_size (length_type (f_len a))) (xs <-- dlen lim e (resolve false prev (f_len a)) c te ;; f xs).
  Proof.
    intros Ha Hc Ht Hf. apply atleast_then; [|exact Hf].
    destruct (f_len a) as [|b| |] eqn:E; try contradiction; cbn [resolve length_type].
    - apply (atleast_len lim e (LenPrefix BU32 false)); assumption.
    - apply (atleast_len lim e (LenPrefix b false)); assumption.
  Qed.

  Lemma len_zero e l (c : N -> dec (list val)) te (f : list val -> dec val) :
    (forall n, atleast 0 (c n)) -> atleast 0 te -> (forall xs, atleast 0 (f xs)) ->
    atleast 0 (xs <-- dlen lim e l c te ;; f xs).
  Proof.
    intros Hc Ht Hf. apply atleast_then; [|exact Hf]. eapply atleast_le; [apply atleast_len; assumption|lia].
  Qed.

  Lemma rep_zero (d : dec val) n : atleast 0 d -> atleast 0 (drepeat d n).
  Proof. intros H. eapply atleast_le; [apply atleast_repeat, H|lia]. Qed.

  Lemma pair_zero X F Y G e : implements X F -> implements Y G -> atleast 0 (pair_dec F G e).
  Proof.
    intros HX HY. unfold pair_dec, dpair. apply atleast_then; [apply (im_zero X), HX|]. intros a.
    apply atleast_then; [apply (im_zero Y), HY|]. intros b. apply atleast_ret.
  Qed.

  Lemma own_follows X F : implements X F -> inner_follows (NOwn X) (FOwn F).
  Proof.
    intros H. split; cbn [read_inner dinner inner_min write_inner einner inner_ok inner_open].
    - intros. apply (im_read _ _ _ H); assumption.
    - intros e l. apply (im_zero X), H.
    - intros e prev a _. apply (im_min _ _ _ H).
    - intros. apply (im_write _ _ _ H); assumption.
    - intros. apply (im_same _ _ _ H); assumption.
    - intros e l v b rest Hv Hb _ Ho. apply (im_back _ _ _ H); assumption.
  Qed.

  Lemma vec_follows X F : element X F -> silent_if_empty X F -> inner_follows (NVec X) (FVec F).
  Proof.
    intros (H & Ho) Hz. split; cbn [read_inner dinner inner_min write_inner einner inner_ok inner_open].
    - intros St R rep io prev a OK. apply with_length_map; [exact OK| |].
      + intros n. apply elements_sim; assumption.
      + apply (read_until_eof_sim h R true rep io OK), (im_read _ _ _ H), OK.
    - intros e l. apply len_zero; [intros n; apply (many_zero X), H|eapply atleast_until, (im_zero X), H|intros; apply atleast_ret].
    - intros e prev a Ha. apply len_min; [exact Ha|intros n; apply (many_zero X), H|eapply atleast_until, (im_zero X), H|intros; apply atleast_ret].
    - intros St W wrep werr room prev a v OK Hv. destruct v as [| | | |vs| | | | |]; try contradiction.
      destruct Hv as (Hv & Hs & _). apply (wsim_bind h W wrep werr room OK).
      + apply (wsim_length_body h VH W wrep werr room OK), Hs.
      + apply (wsim_each h W wrep werr room OK). eapply Forall_impl; [|exact Hv]. intros v. apply (im_write _ _ _ H), OK.
    - intros e e' l v Hv. destruct v as [| | | |vs| | | | |]; try contradiction. destruct Hv as (Hv & _).
      apply samelen_app; [apply samelen_len|eapply same_all; eassumption].
    - intros e l v b rest Hv Hb He Hop. destruct v as [| | | |vs| | | | |]; try contradiction.
      destruct Hv as (Hv & Hs & Hr). apply rapp_ok in Hb as (p & b' & Hp & Hb & ->). unfold dmap, dbind.
      pose proof (element_rt X F e vs (conj H Ho) Hv) as Hall.
      rewrite (seq_rt lim e l (dmany h F e) (duntil (fm_dec F e)) (nlen vs) p b' rest vs); auto.
      + intros _. unfold dmany. destruct (N.leb_spec (nlen vs * fm_size F) (h_alloc_max h)); [|lia].
        unfold dunsure, nlen. rewrite Nat2N.id, (many_rt _ _ _ _ _ Hall Hb). reflexivity.
      + intros Hl. apply (until_rt _ (fm_enc F e)); [exact (He Hl)|assumption..].
  Qed.

  Lemma items_read {St} (R : reader St) rep io prev a k key rd d : reader_ok h R true rep io -> sim rep io rd d ->
    sim rep io (with_length h R prev a (read_items k key rd) (vs <- read_until_eof R rd ;; ret (VSeq (collect k key vs))))
      (xs <-- dlen lim (rd_endian R) (resolve (f_eof a) prev (f_len a)) (fun n => drepeat d (N.to_nat n)) (duntil d) ;;
       dret (VSeq (collect k key xs))).
  Proof.
    intros OK Hd. apply (with_length_map R prev a _ _ _ _ rep io (fun xs => VSeq (collect k key xs)) OK).
    - intros n. apply sim_repeat, Hd.
    - apply (read_until_eof_sim h R true rep io OK), Hd.
  Qed.

  Lemma set_follows hash X F : element X F -> inner_follows (NSet hash X) (FSet (table hash) F).
  Proof.
    intros (H & Ho). split; cbn [read_inner dinner inner_min write_inner einner inner_ok inner_open].
    - intros St R rep io prev a OK. apply items_read; [exact OK|]. apply (im_read _ _ _ H), OK.
    - intros e l. apply len_zero; [intros n; apply rep_zero, (im_zero X), H|eapply atleast_until, (im_zero X), H|intros; apply atleast_ret].
    - intros e prev a Ha. apply len_min; [exact Ha|intros n; apply rep_zero, (im_zero X), H|eapply atleast_until, (im_zero X), H|intros; apply atleast_ret].
    - intros St W wrep werr room prev a v OK Hv. destruct v as [| | | |vs| | | | |]; try contradiction.
      destruct Hv as (Hv & Hs & _). apply (wsim_bind h W wrep werr room OK).
      + apply (wsim_length_body h VH W wrep werr room OK), Hs.
      + apply (wsim_each h W wrep werr room OK). eapply Forall_impl; [|apply iter_Forall, Hv]. intros v. apply (im_write _ _ _ H), OK.
    - intros e e' l v Hv. destruct v as [| | | |vs| | | | |]; try contradiction. destruct Hv as (Hv & _).
      apply samelen_app; [apply samelen_len|eapply same_all; [eassumption|apply iter_Forall, Hv]].
    - intros e l v b rest Hv Hb He Hop. destruct v as [| | | |vs| | | | |]; try contradiction.
      destruct Hv as (Hv & Hs & Hk). eapply col_rt; [exact Hs|exact Hk| |exact Hb|exact He|exact Hop]. apply (element_rt X); [split; assumption|]. apply iter_Forall, Hv.
  Qed.

  Lemma pair_write {St} (W : writer St) wrep werr room X F Y G vs : writer_ok h W wrep werr room ->
    implements X F -> implements Y G -> Forall (valid_pair (fm_ok F) (fm_ok G)) vs ->
    wsim wrep werr room (write_each (write_pair (i_write X W) (i_write Y W)) vs) (enc_all (pair_enc F G (wr_endian W)) vs).
  Proof.
    intros OK HX HY Hv. apply (wsim_each h W wrep werr room OK). eapply Forall_impl; [|exact Hv].
    intros [| | | |[|k [|x [|]]]| | | | |] Hok; try contradiction. destruct Hok as (Hk & Hx).
    apply (wsim_bind h W wrep werr room OK); [apply (im_write _ _ _ HX); assumption|apply (im_write _ _ _ HY); assumption].
  Qed.

  Lemma map_follows hash X F Y G : element X F -> element Y G -> inner_follows (NMap hash X Y) (FMap (table hash) F G).
  Proof.
    intros EX EY. pose proof EX as (HX & HoX). pose proof EY as (HY & HoY).
    split; cbn [read_inner dinner inner_min write_inner einner inner_ok inner_open].
    - intros St R rep io prev a OK. apply items_read; [exact OK|].
      apply read_pair_sim; [apply (im_read _ _ _ HX), OK|apply (im_read _ _ _ HY), OK].
    - intros e l. apply len_zero; [intros n; apply rep_zero, (pair_zero X _ Y); assumption|eapply atleast_until, (pair_zero X _ Y); assumption|intros; apply atleast_ret].
    - intros e prev a Ha. apply len_min; [exact Ha|intros n; apply rep_zero, (pair_zero X _ Y); assumption|eapply atleast_until, (pair_zero X _ Y); assumption|intros; apply atleast_ret].
    - intros St W wrep werr room prev a v OK Hv. destruct v as [| | | |vs| | | | |]; try contradiction.
      destruct Hv as (Hv & Hs & _). apply (wsim_bind h W wrep werr room OK).
      + apply (wsim_length_body h VH W wrep werr room OK), Hs.
      + apply pair_write; try assumption. apply iter_Forall, Hv.
    - intros e e' l v Hv. destruct v as [| | | |vs| | | | |]; try contradiction. destruct Hv as (Hv & _).
      apply samelen_app; [apply samelen_len|eapply same_pairs; [eassumption..|apply iter_Forall, Hv]].
    - intros e l v b rest Hv Hb He Hop. destruct v as [| | | |vs| | | | |]; try contradiction.
      destruct Hv as (Hv & Hs & Hk). eapply col_rt; [exact Hs|exact Hk| |exact Hb|exact He|exact Hop]. eapply pair_rt; [exact EX|exact EY|]. apply iter_Forall, Hv.
  Qed.

  Lemma arr_follows X F n : element X F -> inner_follows (NArr X n) (FArr F n).
  Proof.
    intros (H & Ho). split; cbn [read_inner dinner inner_min write_inner einner inner_ok inner_open].
    - intros St R rep io prev a OK. apply sim_map, sim_repeat, (im_read _ _ _ H), OK.
    - intros e l. apply atleast_map, rep_zero, (im_zero X), H.
    - intros e prev a _. apply atleast_map, atleast_repeat, (im_min _ _ _ H).
    - intros St W wrep werr room prev a v OK Hv. destruct v as [| | | |vs| | | | |]; try contradiction. destruct Hv as (Hv & _).
      apply (wsim_each h W wrep werr room OK). eapply Forall_impl; [|exact Hv]. intros v. apply (im_write _ _ _ H), OK.
    - intros e e' l v Hv. destruct v as [| | | |vs| | | | |]; try contradiction. destruct Hv as (Hv & _). eapply same_all; eassumption.
    - intros e l v b rest Hv Hb _ _. destruct v as [| | | |vs| | | | |]; try contradiction. destruct Hv as (Hv & <-).
      unfold dmap, dbind. rewrite (many_rt _ _ _ _ _ (element_rt X F e vs (conj H Ho) Hv) Hb). reflexivity.
  Qed.

  (* ---------------------------------------------------------------- *)
  (** ** Fields *)

  Notation e6 e := (ipv6_order h e).

  (** A field that is not skipped. *)
  Inductive member_follows (a : fattrs) : member -> fmember -> Prop :=
  | mf_ty t : (forall e, sup_field h (supported h e false true) a t) -> wsup_field (wsup h) a t ->
      field_minok (minok h) a t -> (f_varint a = true -> t = TP U64) ->
      (forall e, rtok lim e (e6 e) (field_eof a t) t) -> member_follows a (MTy t) (GTy t)
  | mf_plain i j : nlen (f_prefix a) <= h_alloc_max h -> inner_follows i j ->
      (to_eof a = true -> forall e, inner_ends e j) -> member_follows a (MPlain i) (GPlain j)
  | mf_option i j : nlen (f_prefix a) <= h_alloc_max h -> inner_follows i j ->
      (to_eof a = true -> forall e, inner_ends e j) -> member_follows a (MOption i) (GOption j).

  (** Only the last field that is not skipped may have to be the last thing in the input. *)
  Inductive members_follow : members -> fmembers -> Prop :=
  | ms_nil : members_follow [] []
  | ms_skip a m g ms gs : f_skip a = true -> members_follow ms gs -> members_follow ((a, m) :: ms) ((a, g) :: gs)
  | ms_cons a m g ms gs : f_skip a = false -> member_follows a m g ->
      (member_open a g = true -> Forall (fun m => f_skip (fst m) = true) gs) ->
      members_follow ms gs -> members_follow ((a, m) :: ms) ((a, g) :: gs).

  Lemma leof_resolve lenient prev a : leof (resolve lenient prev (f_len a)) = to_eof a.
  Proof. unfold to_eof. destruct (f_len a); reflexivity. Qed.

  Lemma einner_lenient e prev a j v lenient :
    einner h e (resolve lenient prev (f_len a)) j v = einner h e (resolve false prev (f_len a)) j v.
  Proof. destruct j, v; cbn [einner]; try reflexivity; destruct (f_len a); reflexivity. Qed.

  Lemma prefix_sim {St} (R : reader St) rep io p : reader_ok h R true rep io -> nlen p <= h_alloc_max h ->
    sim rep io (match p with [] => ret tt | x :: q => read_constant h R (x :: q) end) (dconst p).
  Proof.
    intros OK Hp. destruct p as [|x p].
    - apply (sim_ext rep io (ret tt) (ret tt) (dret tt)); [reflexivity|reflexivity|apply sim_ret].
    - apply (read_constant_sim h VH R false true rep io OK); [discriminate|exact Hp].
  Qed.

  Lemma member_sim {St} (R : reader St) rep io prev a m g : reader_ok h R true rep io ->
    f_skip a = false -> member_follows a m g ->
    sim rep io (read_member h R prev a m) (dmember h (rd_endian R) prev a g).
  Proof.
    intros OK Hs Hm. destruct Hm as [t Hsup _ _ _ _|i j Hp Hi _|i j Hp Hi _]; cbn [read_member dmember].
    - apply (read_field_sim h VH R false true rep io OK); [discriminate| |exact Hs|apply Hsup].
      apply (read_sim_all h VH R false true rep io OK). discriminate.
    - assert (Hb : sim rep io
        ((match f_prefix a with [] => ret tt | p => read_constant h R p end) ;;; read_inner h R prev a i)
        (_ <-- dconst (f_prefix a) ;; dinner h (rd_endian R) (resolve (f_eof a) prev (f_len a)) j)).
      { apply sim_bind; [exact (prefix_sim R rep io (f_prefix a) OK Hp)|]. intros _. apply (if_read _ _ _ Hi), OK. }
      destruct (f_eof a); [apply sim_catch; [exact Hb|apply OK]|exact Hb].
    - assert (Hb : sim rep io
        ((match f_prefix a with [] => ret tt | p => read_constant h R p end) ;;;
         (flag <- read_u8 R ;; if flag =? 0 then ret VNone else mmap VSome (read_inner h R prev a i)))
        (_ <-- dconst (f_prefix a) ;; n <-- dword (rd_endian R) 1 ;;
         if n =? 0 then dret VNone else dmap VSome (dinner h (rd_endian R) (resolve (f_eof a) prev (f_len a)) j))).
      { apply sim_bind; [exact (prefix_sim R rep io (f_prefix a) OK Hp)|]. intros _. apply sim_bind; [apply (read_u8_sim h R true rep io OK)|].
        intros n. destruct (n =? 0); [apply sim_ret|]. apply sim_map, (if_read _ _ _ Hi), OK. }
      destruct (f_eof a); [apply sim_catch; [exact Hb|apply OK]|exact Hb].
  Qed.

  Lemma members_sim {St} (R : reader St) rep io ms gs : reader_ok h R true rep io -> members_follow ms gs ->
    forall prev, sim rep io (read_members h R prev ms) (dmembers h (rd_endian R) prev gs).
  Proof.
    intros OK. induction 1 as [|a m g ms gs Hs _ IH|a m g ms gs Hs Hm _ _ IH]; intros prev; cbn [read_members dmembers].
    - apply sim_ret.
    - rewrite Hs. apply sim_map, IH.
    - rewrite Hs. apply sim_bind; [exact (member_sim R rep io prev a m g OK Hs Hm)|]. intros v.
      apply sim_bind; [apply IH|]. intros. apply sim_ret.
  Qed.

  Lemma member_write {St} (W : writer St) wrep werr room prev a m g v : writer_ok h W wrep werr room ->
    f_skip a = false -> member_follows a m g -> member_ok h a g v ->
    wsim wrep werr room (write_member h W prev a m v) (emember h (wr_endian W) prev a g v).
  Proof.
    intros OK Hs Hm Hv. unfold member_ok in Hv. rewrite Hs in Hv.
    assert (Hpre : wsim wrep werr room (match f_prefix a with [] => ret tt | p => write_bytes_slice h W p end) (Ok (f_prefix a))).
    { destruct (f_prefix a) as [|x p]; [apply (wsim_ret wrep werr room)|]. apply (wsim_bytes_slice h VH W wrep werr room OK). }
    destruct Hm as [t _ Hw _ _ _|i j _ Hi _|i j _ Hi _]; cbn [write_member emember].
    - destruct Hv as (Hv & _).
      assert (H : wsim wrep werr room (write_fields h W (write h W) prev [(a, t)] [v])
                    (enc_fields (wr_endian W) (e6 (wr_endian W)) (enc (h_iter h) (wr_endian W) (e6 (wr_endian W))) prev [(a, t)] [v])).
      { apply (wsim_fields h VH W wrep werr room OK).
        - constructor; [|constructor]. cbn [fst snd]. intros [Hk|(_ & Hw')] _; [congruence|].
          apply (wok_all h VH W wrep werr room OK), Hw'.
        - cbn. auto.
        - cbn. auto. }
      cbn [write_fields enc_fields fst snd] in H. rewrite Hs, rapp_nil_r in H.
      intros s out Hr. specialize (H s out Hr). unfold bind in H.
      destruct (write_field h W (write h W) prev a t v s) as [[[]|er|f] s']; exact H.
    - apply (wsim_bind h W wrep werr room OK); [exact Hpre|]. apply (if_write _ _ _ Hi); assumption.
    - apply (wsim_bind h W wrep werr room OK); [exact Hpre|].
      destruct v; try contradiction.
      + apply (wk_u8 _ _ _ _ _ OK).
      + apply (wsim_bind h W wrep werr room OK); [apply (wk_u8 _ _ _ _ _ OK)|]. apply (if_write _ _ _ Hi); assumption.
  Qed.

  Lemma members_write {St} (W : writer St) wrep werr room ms gs : writer_ok h W wrep werr room -> members_follow ms gs ->
    forall prev vs, members_ok h gs vs ->
    wsim wrep werr room (write_members h W prev ms vs) (emembers h (wr_endian W) prev gs vs).
  Proof.
    intros OK. induction 1 as [|a m g ms gs Hs _ IH|a m g ms gs Hs Hm _ _ IH]; intros prev [|v vs] Hv;
      try contradiction; cbn [write_members emembers].
    - apply wsim_ret.
    - rewrite Hs. apply IH, Hv.
    - rewrite Hs. destruct Hv as (Hv & Hvs). apply (wsim_bind h W wrep werr room OK); [apply member_write; assumption|apply IH, Hvs].
  Qed.

  Lemma member_same e e' prev a m g v : f_skip a = false -> member_follows a m g -> member_ok h a g v ->
    samelen (emember h e prev a g v) (emember h e' prev a g v).
  Proof.
    intros Hs Hm Hv. unfold member_ok in Hv. rewrite Hs in Hv.
    destruct Hm as [t _ _ _ _ _|i j _ Hi _|i j _ Hi _]; cbn [emember].
    - unfold enc_field. rewrite !rmap_app. apply samelen_app; [reflexivity|].
      destruct (f_varint a); [apply samelen_scalar|apply enc_samelen].
    - apply samelen_app; [reflexivity|]. apply (if_same _ _ _ Hi), Hv.
    - apply samelen_app; [reflexivity|]. destruct v; try contradiction; [reflexivity|].
      apply samelen_app; [reflexivity|]. apply (if_same _ _ _ Hi), Hv.
  Qed.

  Lemma members_same e e' ms gs : members_follow ms gs -> forall prev vs, members_ok h gs vs ->
    samelen (emembers h e prev gs vs) (emembers h e' prev gs vs).
  Proof.
    induction 1 as [|a m g ms gs Hs _ IH|a m g ms gs Hs Hm _ _ IH]; intros prev [|v vs] Hv; try contradiction; cbn [emembers].
    - reflexivity.
    - rewrite Hs. apply IH, Hv.
    - rewrite Hs. destruct Hv as (Hv & Hvs). apply samelen_app; [eapply member_same; eassumption|apply IH, Hvs].
  Qed.

  Lemma member_zero e prev a m g : f_skip a = false -> member_follows a m g -> atleast 0 (dmember h e prev a g).
  Proof.
    intros Hs Hm. destruct Hm as [t _ _ _ _ _|i j _ Hi _|i j _ Hi _]; cbn [dmember].
    - apply atleast_field. intros l. apply (atleast_zero h VH).
    - assert (Hb : atleast 0 (_ <-- dconst (f_prefix a) ;; dinner h e (resolve (f_eof a) prev (f_len a)) j)).
      { apply (atleast_bind 0 0); [eapply atleast_le; [apply atleast_const|lia]|]. intros _. apply (if_zero _ _ _ Hi). }
      destruct (f_eof a); [eapply atleast_catch, Hb|exact Hb].
    - assert (Hb : atleast 0 (_ <-- dconst (f_prefix a) ;; n <-- dword e 1 ;;
         if n =? 0 then dret VNone else dmap VSome (dinner h e (resolve (f_eof a) prev (f_len a)) j))).
      { apply (atleast_bind 0 0); [eapply atleast_le; [apply atleast_const|lia]|]. intros _.
        apply (atleast_bind 0 0); [eapply atleast_le; [apply atleast_word1|lia]|]. intros n.
        destruct (n =? 0); [apply atleast_ret|]. apply atleast_map, (if_zero _ _ _ Hi). }
      destruct (f_eof a); [eapply atleast_catch, Hb|exact Hb].
  Qed.

  Lemma member_least e prev a m g : f_skip a = false -> member_follows a m g ->
    atleast (member_min h (a, m)) (dmember h e prev a g).
  Proof.
    intros Hs Hm. pose proof (member_zero e prev a m g Hs Hm) as Hz.
    destruct Hm as [t _ _ Hmin _ _|i j _ Hi _|i j _ Hi _]; cbn [dmember] in *; unfold member_min; cbn [fst snd].
    - pose proof (atleast_decl h VH lim e (e6 e) t) as (A & B & C & D & E). apply dfield_full; assumption.
    - rewrite Hs, orb_false_r. destruct (f_eof a) eqn:Ee; [exact Hz|]. cbn [orb].
      destruct (f_len a) eqn:El; cbn [negb]; try exact Hz; rewrite N.add_comm; rewrite <- El;
        (apply atleast_bind; [apply atleast_const|]; intros _; apply (if_min _ _ _ Hi); rewrite El; exact I).
    - rewrite Hs, orb_false_r. destruct (f_eof a) eqn:Ee; [exact Hz|]. cbn [orb].
      destruct (f_len a) eqn:El; cbn [negb]; try exact Hz; rewrite N.add_comm;
        (apply atleast_bind; [apply atleast_const|]; intros _; apply atleast_then; [apply atleast_word1|]; intros n;
         destruct (n =? 0); [apply atleast_ret|apply atleast_map, (if_zero _ _ _ Hi)]).
  Qed.

  Lemma members_least e ms gs : members_follow ms gs -> forall prev, atleast (members_min h ms) (dmembers h e prev gs).
  Proof.
    unfold members_min. induction 1 as [|a m g ms gs Hs _ IH|a m g ms gs Hs Hm _ _ IH]; intros prev; cbn [dmembers].
    - apply atleast_ret.
    - rewrite Hs. apply atleast_map. eapply atleast_le; [apply IH|]. cbn [map nsum fold_right].
      replace (member_min h (a, m)) with 0; [unfold nsum; lia|]. unfold member_min, field_min. cbn [fst snd].
      rewrite Hs, !orb_true_r. destruct m; reflexivity.
    - rewrite Hs. cbn [map nsum fold_right]. apply atleast_bind; [apply member_least; assumption|]. intros v.
      apply atleast_then; [apply IH|]. intros. apply atleast_ret.
  Qed.

  Lemma member_back e prev a m g v b rest : f_skip a = false -> member_follows a m g -> member_ok h a g v ->
    emember h e prev a g v = Ok b -> (member_open a g = true -> rest = []) ->
    dmember h e prev a g (Some (b ++ rest)) = DOk v (Some rest).
  Proof.
    intros Hs Hm Hv Hb Ho. unfold member_ok in Hv. unfold member_open in Ho. rewrite Hs in Hv, Ho. cbn [negb andb] in Ho.
    destruct Hm as [t _ _ _ Hvar Hr|i j _ Hi He|i j _ Hi He]; cbn [dmember emember] in *.
    - destruct Hv as (Hv & Ht & Hn). rewrite <- Hn at 1.
      apply (field_rt lim (h_iter h) e (e6 e) (vh_usize_hi h VH) (vh_systime h VH)); auto.
      + apply round_trip; [apply (vh_usize_hi h VH)|apply (vh_systime h VH)|apply (vh_iter h VH)].
      + destruct (f_varint a); [|exact Ho]. rewrite (Hvar eq_refl). discriminate.
    - apply rapp_ok in Hb as (p & b' & Hp & Hb & ->). injection Hp as <-. rewrite <- app_assoc.
      assert (G : (_ <-- dconst (f_prefix a) ;; dinner h e (resolve (f_eof a) prev (f_len a)) j)
                    (Some (f_prefix a ++ b' ++ rest)) = DOk v (Some rest)).
      { unfold dbind. rewrite dconst_rt. apply (if_back _ _ _ Hi); [exact Hv| | |].
        - rewrite einner_lenient. exact Hb.
        - rewrite leof_resolve. intros Hl. apply He, Hl.
        - rewrite leof_resolve. exact Ho. }
      destruct (f_eof a); [|exact G]. unfold dcatch. rewrite G. reflexivity.
    - apply rapp_ok in Hb as (p & b' & Hp & Hb & ->). injection Hp as <-. rewrite <- app_assoc.
      assert (G : (_ <-- dconst (f_prefix a) ;; n <-- dword e 1 ;;
                   if n =? 0 then dret VNone else dmap VSome (dinner h e (resolve (f_eof a) prev (f_len a)) j))
                    (Some (f_prefix a ++ b' ++ rest)) = DOk v (Some rest)).
      { unfold dbind at 1. rewrite dconst_rt. destruct v as [| | | | | |u| | |]; try contradiction.
        - injection Hb as <-. unfold dbind. replace [x00] with (enc_basic e BU8 0) by (destruct e; reflexivity).
          pose proof (dbasic_rt e BU8 0 rest ltac:(discriminate)) as E. cbn [dbasic] in E. rewrite E. reflexivity.
        - apply rapp_ok in Hb as (p & b2 & Hp & Hb & ->). injection Hp as <-. rewrite <- app_assoc.
          unfold dbind at 1.
          pose proof (dbasic_rt e BU8 1 (b2 ++ rest) ltac:(discriminate)) as E. cbn [dbasic] in E.
          replace [x01] with (enc_basic e BU8 1) by (destruct e; reflexivity). rewrite E. cbn [N.eqb].
          change (1 =? 0) with false. cbn iota. unfold dmap, dbind.
          rewrite (if_back _ _ _ Hi e _ u b2 rest); [reflexivity|exact Hv| | |].
          + rewrite einner_lenient. exact Hb.
          + rewrite leof_resolve. intros Hl. apply He, Hl.
          + rewrite leof_resolve. exact Ho. }
      destruct (f_eof a); [|exact G]. unfold dcatch. rewrite G. reflexivity.
  Qed.

  Lemma skipped_back e gs : Forall (fun m => f_skip (fst m) = true) gs ->
    forall prev vs b, emembers h e prev gs vs = Ok b -> b = [].
  Proof.
    induction 1 as [|[a g] gs Hs _ IH]; intros prev [|v vs] b Hb; cbn in Hb; try discriminate.
    - injection Hb as <-. reflexivity.
    - cbn in Hs; rewrite Hs in Hb. eapply IH, Hb.
  Qed.

  Lemma members_back e ms gs : members_follow ms gs -> forall prev vs b rest, members_ok h gs vs ->
    emembers h e prev gs vs = Ok b -> (members_open gs = true -> rest = []) ->
    dmembers h e prev gs (Some (b ++ rest)) = DOk vs (Some rest).
  Proof.
    induction 1 as [|a m g ms gs Hs _ IH|a m g ms gs Hs Hm Hlast _ IH]; intros prev [|v vs] b rest Hv Hb Ho;
      try contradiction; cbn [emembers dmembers] in *.
    - injection Hb as <-. reflexivity.
    - rewrite Hs in *. destruct Hv as (Hv & Hvs). unfold member_ok in Hv. rewrite Hs in Hv. subst v.
      unfold dmap, dbind. rewrite (IH prev vs b rest Hvs Hb); [reflexivity|].
      intros Hop. apply Ho. unfold members_open. cbn [existsb fst snd]. unfold members_open in Hop. rewrite Hop. apply orb_true_r.
    - rewrite Hs in *. destruct Hv as (Hv & Hvs). apply rapp_ok in Hb as (b1 & b2 & E1 & E2 & ->).
      rewrite <- app_assoc. unfold dbind at 1. rewrite (member_back e prev a m g v b1 (b2 ++ rest) Hs Hm Hv E1).
      + unfold dbind. rewrite (IH _ vs b2 rest Hvs E2); [reflexivity|].
        intros Hop. apply Ho. unfold members_open. cbn [existsb fst snd]. unfold members_open in Hop. rewrite Hop. apply orb_true_r.
      + intros Hop. rewrite (skipped_back e gs (Hlast Hop) _ _ _ E2). apply Ho.
        unfold members_open. cbn [existsb fst snd]. rewrite Hop. reflexivity.
  Qed.
End Impl.
