(* Property C118: hand-written types inside containers and derived types. *)
From Verif Require Import BaseFacts Samples Checker Errors Entry PropWrite PropReaders PropPrograms PropReadPrograms.
From Verif Require Import Impls Formats ImplFacts.

Section Build.
  Context (h : host) (VH : valid_host h).
  Notation lim := (h_lim h).
  Notation implements := (implements h).
  Notation element := (element h).

  (* ---------------------------------------------------------------- *)
  (** ** The types to start from *)

  Theorem C118_type t : (forall e, supported h e false true LDefault t) -> wsup h t -> minok h t ->
    (forall e, rtok lim e (ipv6_order h e) false t) -> implements (of_ty h t) (fty h t).
  Proof.
    intros Hs Hw Hm Hr. split; cbn [of_ty fty i_size i_read i_min i_write i_needed fm_size fm_dec fm_enc fm_ok fm_open].
    - reflexivity.
    - intros St R rep io OK. apply (read_sim h VH R false true rep io OK); [discriminate|apply Hs].
    - intros e. apply (atleast_min h VH), Hm.
    - intros St W wrep werr room v OK (Hv & _). apply (write_sim h VH W wrep werr room OK); assumption.
    - intros e e' v _. apply enc_samelen.
    - intros e v b (Hv & _) Hb. eapply (bytes_needed_exact h VH); eassumption.
    - intros e v b rest (Hv & Ht & Hn) Hb Ho. rewrite <- Hn at 1.
      apply (round_trip lim (h_iter h) e (ipv6_order h e) (vh_usize_hi h VH) (vh_systime h VH) (vh_iter h VH)); auto.
  Qed.

  (** What a pair of bodies has on the wire. *)
  Definition fhand (size : N) (p : rprog unit) (q : val -> wprog unit) (ok : val -> Prop) (open : bool) : format :=
    {| fm_size := size; fm_dec := fun e => heard (fun _ => e) h tt p;
       fm_enc := fun e v => said h (fun _ => e) None (q v); fm_ok := ok; fm_open := open |}.

  (** The user's part: the bodies are each other's inverse, `minimum_bytes_needed` is true, and
      the length of what is written does not depend on the byte order. *)
  Theorem C118_hand size only min p q (ok : val -> Prop) open :
    readable h p -> (forall e, atleast min (heard (fun _ => e) h tt p)) ->
    (forall v, ok v -> fit h (q v)) ->
    (forall e e' v, ok v -> samelen (said h (fun _ => e) None (q v)) (said h (fun _ => e') None (q v))) ->
    (forall e v b rest, ok v -> said h (fun _ => e) None (q v) = Ok b -> (open = true -> rest = []) ->
       heard (fun _ => e) h tt p (Some (b ++ rest)) = DOk v (Some rest)) ->
    implements (by_hand h size only min p q) (fhand size p q ok open).
  Proof.
    intros Hp Hmin Hq Hs Hb. split; cbn [by_hand fhand i_size i_read i_min i_write i_needed fm_size fm_dec fm_enc fm_ok fm_open]; auto.
    - intros St R rep io OK. apply (follow_sim h (fun _ => rd_endian R) VH (fun _ => R)); auto.
    - intros St W wrep werr room v OK Hv. apply (run_sim h VH (fun _ => W)); auto.
    - intros e v b Hv E. rewrite (C115_needed h VH) by auto.
      destruct (samelen_ok _ _ _ (Hs e (h_native h) v Hv) E) as (b' & E' & Hl). unfold measured. rewrite E'. cbn [rmap]. congruence.
  Qed.

  (** The type that is never reached. *)
  Theorem C118_none size : implements (no_impl size) (fnone size).
  Proof.
    split; cbn [no_impl fnone i_size i_read i_min i_write i_needed fm_size fm_dec fm_enc fm_ok fm_open]; try contradiction; auto.
    - intros. apply sim_crash.
    - intros e o a o' E. discriminate.
  Qed.

  (* ---------------------------------------------------------------- *)
  (** ** Containers *)

  Lemma each_needed k (bn : val -> res N) (en : val -> res bytes) e vs b :
    (forall v x, In v vs -> en v = Ok x -> bn v = Ok (nlen x)) ->
    rapp (enc_len e len0 (nlen vs)) (enc_all en (iter_order (h_iter h) k vs)) = Ok b ->
    needed_each bn vs = Ok (nlen b).
  Proof.
    intros Hbn Hb. apply rapp_ok in Hb as (p & b' & Hp & Hb & ->). unfold needed_each.
    destruct (is_length_ok e _ _ Hp) as (-> & Hl). cbn [rbind].
    rewrite (needed_all en bn vs (iter_order (h_iter h) k vs) b' (iter_perm h VH k vs) Hbn Hb).
    cbn [rmap]. rewrite nlen_app, Hl. reflexivity.
  Qed.

  Lemma element_needed X F e vs v x : implements X F -> Forall (fm_ok F) vs -> In v vs -> fm_enc F e v = Ok x ->
    i_needed X v = Ok (nlen x).
  Proof. intros H Hv Hin Hx. eapply (im_needed _ _ _ H); [|exact Hx]. rewrite Forall_forall in Hv. apply Hv, Hin. Qed.

  Theorem C118_vec size X F : element X F -> silent_if_empty X F -> implements (vec_of h size X) (fvec h size F).
  Proof.
    intros HE Hz. pose proof HE as (H & Ho). pose proof (vec_follows h VH X F HE Hz) as V. split.
    - reflexivity.
    - intros St R rep io OK. exact (if_read _ _ _ V St R rep io [] plain OK).
    - intros e. exact (if_min _ _ _ V e [] plain Logic.I).
    - intros St W wrep werr room v OK Hv. pose proof (if_write _ _ _ V St W wrep werr room [] plain v OK Hv) as Hw.
      destruct v; exact Hw.
    - intros e e' v. apply (if_same _ _ _ V).
    - intros e v b Hv Hb. destruct v as [| | | |vs| | | | |]; try contradiction. destruct Hv as (Hv & _).
      apply (each_needed CBTree (i_needed X) (fm_enc F e) e vs b); [|exact Hb]. intros v x. apply (element_needed X F); assumption.
    - intros e v b rest Hv Hb _. apply (if_back _ _ _ V); auto; discriminate.
  Qed.

  Theorem C118_set size k X F : element X F -> implements (set_of h size k X) (fset h size k F).
  Proof.
    intros HE. pose proof HE as (H & Ho). split; cbn [fset finner_type fm_size fm_dec fm_enc fm_ok fm_open dinner einner inner_ok].
    - reflexivity.
    - intros St R rep io OK. exact (items_read h VH R rep io [] plain k id _ _ OK (im_read _ _ _ H _ _ _ _ OK)).
    - intros e. apply (len_min h e plain []); [exact Logic.I|intros n; apply rep_zero, (im_zero h X), H|eapply atleast_until, (im_zero h X), H|intros; apply atleast_ret].
    - intros St W wrep werr room v OK Hv. destruct v as [| | | |vs| | | | |]; try contradiction.
      destruct Hv as (Hv & Hs & _). apply (wsim_bind h W wrep werr room OK).
      + exact (wsim_length_body h VH W wrep werr room OK [] LDefault (nlen vs) Hs).
      + apply (wsim_each h W wrep werr room OK). eapply Forall_impl; [|apply (iter_Forall h VH), Hv]. intros v. apply (im_write _ _ _ H), OK.
    - intros e e' v Hv. destruct v as [| | | |vs| | | | |]; try contradiction. destruct Hv as (Hv & _).
      apply samelen_app; [apply samelen_len|eapply same_all; [eassumption|apply (iter_Forall h VH), Hv]].
    - intros e v b Hv Hb. destruct v as [| | | |vs| | | | |]; try contradiction. destruct Hv as (Hv & _).
      apply (each_needed k (i_needed X) (fm_enc F e) e vs b); [|exact Hb]. intros v x. apply (element_needed X F); assumption.
    - intros e v b rest Hv Hb _. destruct v as [| | | |vs| | | | |]; try contradiction. destruct Hv as (Hv & Hs & Hk).
      eapply (col_rt h VH); [exact Hs|exact Hk| |exact Hb|discriminate|discriminate].
      apply (element_rt h X); [exact HE|]. apply (iter_Forall h VH), Hv.
  Qed.

  Theorem C118_map size k X F Y G : element X F -> element Y G -> implements (map_of h size k X Y) (fmap h size k F G).
  Proof.
    intros EX EY. pose proof EX as (HX & _). pose proof EY as (HY & _).
    split; cbn [fmap finner_type fm_size fm_dec fm_enc fm_ok fm_open dinner einner inner_ok].
    - reflexivity.
    - intros St R rep io OK. apply (items_read h VH R rep io [] plain k pair_key _ _ OK).
      apply read_pair_sim; [apply (im_read _ _ _ HX), OK|apply (im_read _ _ _ HY), OK].
    - intros e. apply (len_min h e plain []); [exact Logic.I|intros n; apply rep_zero, (pair_zero h X _ Y); assumption|eapply atleast_until, (pair_zero h X _ Y); assumption|intros; apply atleast_ret].
    - intros St W wrep werr room v OK Hv. destruct v as [| | | |vs| | | | |]; try contradiction.
      destruct Hv as (Hv & Hs & _). apply (wsim_bind h W wrep werr room OK).
      + exact (wsim_length_body h VH W wrep werr room OK [] LDefault (nlen vs) Hs).
      + apply (pair_write h); try assumption. apply (iter_Forall h VH), Hv.
    - intros e e' v Hv. destruct v as [| | | |vs| | | | |]; try contradiction. destruct Hv as (Hv & _).
      apply samelen_app; [apply samelen_len|eapply same_pairs; [eassumption..|apply (iter_Forall h VH), Hv]].
    - intros e v b Hv Hb. destruct v as [| | | |vs| | | | |]; try contradiction. destruct Hv as (Hv & _).
      apply (each_needed k _ (pair_enc F G e) e vs b); [|exact Hb]. intros v x Hin Hx. rewrite Forall_forall in Hv. apply Hv in Hin.
      destruct v as [| | | |[|a [|c [|]]]| | | | |]; try contradiction Hin. destruct Hin as (Ha & Hc).
      apply rapp_ok in Hx as (b1 & b2 & E1 & E2 & ->). cbn [needed_pair].
      rewrite (im_needed _ _ _ HX e a b1 Ha E1), (im_needed _ _ _ HY e c b2 Hc E2). cbn [rbind rmap]. rewrite nlen_app. reflexivity.
    - intros e v b rest Hv Hb _. destruct v as [| | | |vs| | | | |]; try contradiction. destruct Hv as (Hv & Hs & Hk).
      eapply (col_rt h VH); [exact Hs|exact Hk| |exact Hb|discriminate|discriminate].
      eapply (pair_rt h); [exact EX|exact EY|]. apply (iter_Forall h VH), Hv.
  Qed.

  Theorem C118_array X F n : element X F -> implements (arr_of X n) (farr h F n).
  Proof.
    intros HE. pose proof HE as (H & Ho). pose proof (arr_follows h X F n HE) as V. split.
    - cbn. rewrite (im_size _ _ _ H). reflexivity.
    - intros St R rep io OK. exact (if_read _ _ _ V St R rep io [] plain OK).
    - intros e. exact (if_min _ _ _ V e [] plain Logic.I).
    - intros St W wrep werr room v OK Hv. pose proof (if_write _ _ _ V St W wrep werr room [] plain v OK Hv) as Hw.
      destruct v; exact Hw.
    - intros e e' v. apply (if_same _ _ _ V).
    - intros e v b Hv Hb. destruct v as [| | | |vs| | | | |]; try contradiction. destruct Hv as (Hv & _).
      apply (needed_all (fm_enc F e) (i_needed X) vs vs b); [reflexivity| |exact Hb]. intros v x. apply (element_needed X F); assumption.
    - intros e v b rest Hv Hb _. apply (if_back _ _ _ V); auto; discriminate.
  Qed.

  (** One byte in front. *)
  Lemma flag_back e n (d : N -> dec val) b rest : n <= 1 ->
    (x <-- dword e 1 ;; d x) (Some ((if n =? 0 then [x00] else [x01]) ++ b ++ rest)) = d n (Some (b ++ rest)).
  Proof.
    intros Hn. pose proof (dbasic_rt e BU8 n (b ++ rest) ltac:(cbn [basic_max]; num_pow; lia)) as E. cbn [dbasic] in E.
    unfold dbind. replace (if n =? 0 then [x00] else [x01]) with (enc_basic e BU8 n); [rewrite E; reflexivity|].
    assert (n = 0 \/ n = 1) as [-> | ->] by lia; destruct e; reflexivity.
  Qed.

  Theorem C118_option size X F : implements X F -> implements (option_of size X) (foption size F).
  Proof.
    intros H. split; cbn [option_of foption i_size i_read i_min i_write i_needed fm_size fm_dec fm_enc fm_ok fm_open].
    - reflexivity.
    - intros St R rep io OK. apply sim_bind; [apply (read_u8_sim h R true rep io OK)|]. intros n.
      destruct (n =? 0); [apply sim_ret|apply sim_map, (im_read _ _ _ H), OK].
    - intros e. apply atleast_then; [apply atleast_word1|]. intros n.
      destruct (n =? 0); [apply atleast_ret|apply atleast_map, (im_zero h X), H].
    - intros St W wrep werr room v OK Hv. destruct v; try contradiction; [apply (wk_u8 _ _ _ _ _ OK)|].
      apply (wsim_bind h W wrep werr room OK); [apply (wk_u8 _ _ _ _ _ OK)|apply (im_write _ _ _ H); assumption].
    - intros e e' v Hv. destruct v; try contradiction; [reflexivity|]. apply samelen_app; [reflexivity|apply (im_same _ _ _ H), Hv].
    - intros e v b Hv Hb. destruct v; try contradiction; [injection Hb as <-; reflexivity|].
      apply rapp_ok in Hb as (p & b' & Hp & Hb & ->). injection Hp as <-.
      rewrite (im_needed _ _ _ H e v b' Hv Hb). cbn [rmap]. rewrite nlen_app. reflexivity.
    - intros e v b rest Hv Hb Hop. destruct v; try contradiction.
      + injection Hb as <-. exact (flag_back e 0 _ [] rest ltac:(lia)).
      + apply rapp_ok in Hb as (p & b' & Hp & Hb & ->). injection Hp as <-. rewrite <- app_assoc.
        rewrite (flag_back e 1 _ b' rest ltac:(lia)). cbn beta. change (1 =? 0) with false. cbn iota.
        unfold dmap, dbind. rewrite (im_back _ _ _ H e v b' rest Hv Hb Hop). reflexivity.
  Qed.

  Theorem C118_result size X F Y G : implements X F -> implements Y G -> implements (result_of size X Y) (fresult size F G).
  Proof.
    intros HX HY. split; cbn [result_of fresult i_size i_read i_min i_write i_needed fm_size fm_dec fm_enc fm_ok fm_open].
    - reflexivity.
    - intros St R rep io OK. apply sim_bind; [apply (read_u8_sim h R true rep io OK)|]. intros n.
      destruct (n =? 0); [apply sim_map, (im_read _ _ _ HY), OK|apply sim_map, (im_read _ _ _ HX), OK].
    - intros e. apply atleast_then; [apply atleast_word1|]. intros n.
      destruct (n =? 0); [apply atleast_map, (im_zero h Y), HY|apply atleast_map, (im_zero h X), HX].
    - intros St W wrep werr room v OK Hv. destruct v; try contradiction;
        (apply (wsim_bind h W wrep werr room OK); [apply (wk_u8 _ _ _ _ _ OK)|]);
        [apply (im_write _ _ _ HX)|apply (im_write _ _ _ HY)]; assumption.
    - intros e e' v Hv. destruct v; try contradiction; (apply samelen_app; [reflexivity|]);
        [apply (im_same _ _ _ HX), Hv|apply (im_same _ _ _ HY), Hv].
    - intros e v b Hv Hb. destruct v; try contradiction; apply rapp_ok in Hb as (p & b' & Hp & Hb & ->); injection Hp as <-.
      + rewrite (im_needed _ _ _ HX e v b' Hv Hb). cbn [rmap]. rewrite nlen_app. reflexivity.
      + rewrite (im_needed _ _ _ HY e v b' Hv Hb). cbn [rmap]. rewrite nlen_app. reflexivity.
    - intros e v b rest Hv Hb Hop. destruct v; try contradiction; apply rapp_ok in Hb as (p & b' & Hp & Hb & ->); injection Hp as <-;
        rewrite <- app_assoc.
      + rewrite (flag_back e 1 _ b' rest ltac:(lia)). cbn beta. change (1 =? 0) with false. cbn iota.
        unfold dmap, dbind. rewrite (im_back _ _ _ HX e v b' rest Hv Hb); [reflexivity|]. intros E. apply Hop. rewrite E. reflexivity.
      + rewrite (flag_back e 0 _ b' rest ltac:(lia)). cbn beta. change (0 =? 0) with true. cbn iota.
        unfold dmap, dbind. rewrite (im_back _ _ _ HY e v b' rest Hv Hb); [reflexivity|]. intros E. apply Hop. rewrite E. apply orb_true_r.
  Qed.

  (** Only the last component may have to be the last thing in the input. *)
  Inductive each_implements : list impl -> list format -> Prop :=
  | ei_nil : each_implements [] []
  | ei_cons X F Xs Fs : implements X F -> (fm_open F = true -> Fs = []) -> each_implements Xs Fs ->
      each_implements (X :: Xs) (F :: Fs).

  Theorem C118_tuple size Xs Fs : each_implements Xs Fs -> implements (tuple_of size Xs) (ftuple size Fs).
  Proof.
    intros H. split; cbn [tuple_of ftuple i_size i_read i_min i_write i_needed fm_size fm_dec fm_enc fm_ok fm_open].
    - reflexivity.
    - intros St R rep io OK. apply sim_map. induction H as [|X F Xs Fs HX _ _ IH]; [apply sim_ret|]. cbn [read_each deach].
      apply sim_bind; [apply (im_read _ _ _ HX), OK|]. intros v. apply sim_bind; [exact IH|]. intros. apply sim_ret.
    - intros e. apply atleast_map. induction H as [|X F Xs Fs HX _ _ IH]; [apply atleast_ret|]. cbn [map nsum fold_right deach].
      apply atleast_bind; [apply (im_min _ _ _ HX)|]. intros v. apply atleast_then; [exact IH|]. intros. apply atleast_ret.
    - intros St W wrep werr room v OK Hv. destruct v as [| | | |vs| | | | |]; try contradiction. revert vs Hv.
      induction H as [|X F Xs Fs HX _ _ IH]; intros [|v vs] Hv; try contradiction; cbn [write_tuple_of eeach]; [apply wsim_ret|].
      destruct Hv as (Hv & Hvs). apply (wsim_bind h W wrep werr room OK); [apply (im_write _ _ _ HX); assumption|apply IH, Hvs].
    - intros e e' v Hv. destruct v as [| | | |vs| | | | |]; try contradiction. revert vs Hv.
      induction H as [|X F Xs Fs HX _ _ IH]; intros [|v vs] Hv; try contradiction; cbn [eeach]; [reflexivity|].
      destruct Hv as (Hv & Hvs). apply samelen_app; [apply (im_same _ _ _ HX), Hv|apply IH, Hvs].
    - intros e v b Hv. destruct v as [| | | |vs| | | | |]; try contradiction. revert vs b Hv.
      induction H as [|X F Xs Fs HX _ _ IH]; intros [|v vs] b Hv Hb; try contradiction; cbn [eeach needed_tuple_of] in *.
      + injection Hb as <-. reflexivity.
      + destruct Hv as (Hv & Hvs). apply rapp_ok in Hb as (b1 & b2 & E1 & E2 & ->).
        rewrite (im_needed _ _ _ HX e v b1 Hv E1), (IH vs b2 Hvs E2). cbn [rbind rmap]. rewrite nlen_app. reflexivity.
    - intros e v b rest Hv Hb Hop. destruct v as [| | | |vs| | | | |]; try contradiction.
      assert (G : deach e Fs (Some (b ++ rest)) = DOk vs (Some rest)); [|unfold dmap, dbind; rewrite G; reflexivity].
      revert vs b Hv Hb Hop. induction H as [|X F Xs Fs HX Hlast _ IH]; intros [|v vs] b Hv Hb Hop; try contradiction; cbn [eeach deach] in *.
      + injection Hb as <-. reflexivity.
      + destruct Hv as (Hv & Hvs). apply rapp_ok in Hb as (b1 & b2 & E1 & E2 & ->). rewrite <- app_assoc. unfold dbind at 1.
        rewrite (im_back _ _ _ HX e v b1 (b2 ++ rest) Hv E1).
        * unfold dbind. rewrite (IH vs b2 Hvs E2); [reflexivity|]. intros E. apply Hop. cbn [existsb]. rewrite E. apply orb_true_r.
        * intros E. rewrite (Hlast E) in E2. rewrite (Hop ltac:(cbn [existsb]; rewrite E; reflexivity)).
          destruct vs; [injection E2 as <-; reflexivity|discriminate].
  Qed.

  Theorem C118_box size X F : implements X F -> implements (box_of size X) (fbox size F).
  Proof. intros [H1 H2 H3 H4 H5 H6 H7]. split; auto. Qed.

  (* ---------------------------------------------------------------- *)
  (** ** Derived types *)

  Lemma written_size (w : forall St, writer St -> val -> M St unit) (en : endian -> val -> res bytes) e v b :
    (forall St (W : writer St) wrep werr room, writer_ok h W wrep werr room -> wsim wrep werr room (w St W v) (en (wr_endian W) v)) ->
    (forall e e', samelen (en e v) (en e' v)) -> en e v = Ok b -> size_by_writing h w v = Ok (nlen b).
  Proof.
    intros Hw Hs Hb. unfold size_by_writing.
    pose proof (Hw _ (SizeCalculator h) _ _ _ (size_calculator_ok h) 0 [] eq_refl) as H.
    change (wr_endian (SizeCalculator h)) with (h_native h) in H.
    destruct (samelen_ok _ _ _ (Hs e (h_native h)) Hb) as (b' & E' & Hl). rewrite E' in H.
    destruct (w N (SizeCalculator h) v 0) as [r n]. cbn [fst snd wpost app] in H.
    destruct H as [(-> & ->)|(er & b1 & b2 & _ & _ & [] & _)]. cbn [rmap]. rewrite Hl. reflexivity.
  Qed.

  (** What a field's attributes apply to. *)
  Theorem C118_fields X F Y G hash n :
    (implements X F -> inner_follows h (NOwn X) (FOwn F)) /\
    (element X F -> silent_if_empty X F -> inner_follows h (NVec X) (FVec F)) /\
    (element X F -> inner_follows h (NSet hash X) (FSet (table hash) F)) /\
    (element X F -> element Y G -> inner_follows h (NMap hash X Y) (FMap (table hash) F G)) /\
    (element X F -> inner_follows h (NArr X n) (FArr F n)).
  Proof.
    split; [|split; [|split; [|split]]].
    - exact (own_follows h X F).
    - exact (vec_follows h VH X F).
    - exact (set_follows h VH hash X F).
    - exact (map_follows h VH hash X F Y G).
    - exact (arr_follows h X F n).
  Qed.

  Theorem C118_struct size only ms gs : members_follow h ms gs -> implements (struct_of h size only ms) (fstruct h size gs).
  Proof.
    intros H.
    assert (Hw : forall v, fm_ok (fstruct h size gs) v -> forall St (W : writer St) wrep werr room, writer_ok h W wrep werr room ->
               wsim wrep werr room (i_write (struct_of h size only ms) W v) (fm_enc (fstruct h size gs) (wr_endian W) v)).
    { intros v Hv St W wrep werr room OK. destruct v as [| | | |vs| | | | |]; try contradiction. apply (members_write h VH); assumption. }
    assert (Hsame : forall v, fm_ok (fstruct h size gs) v -> forall e e', samelen (fm_enc (fstruct h size gs) e v) (fm_enc (fstruct h size gs) e' v)).
    { intros v Hv e e'. destruct v as [| | | |vs| | | | |]; try contradiction. eapply members_same; eassumption. }
    split.
    - reflexivity.
    - intros St R rep io OK. apply sim_map, (members_sim h VH); assumption.
    - intros e. apply atleast_map, (members_least h VH), H.
    - intros. apply Hw; assumption.
    - intros. apply Hsame; assumption.
    - intros e v b Hv Hb. eapply (written_size _ (fm_enc (fstruct h size gs))); [exact (Hw v Hv)|exact (Hsame v Hv)|exact Hb].
    - intros e v b rest Hv Hb Hop. destruct v as [| | | |vs| | | | |]; try contradiction. cbn [fstruct fm_dec]. unfold dmap, dbind.
      rewrite (members_back h VH e ms gs H [] vs b rest Hv Hb Hop). reflexivity.
  Qed.

  Definition variant_follows (v : N * members) (g : N * fmembers) : Prop := fst v = fst g /\ members_follow h (snd v) (snd g).

  Theorem C118_enum size only d vs gs : Forall2 variant_follows vs gs -> NoDup (map fst gs) ->
    Forall (fun g => fst g <= basic_max (e_tag d)) gs ->
    (e_peek d = true -> e_tag d <> BVarint /\ Forall (fun v => basic_size (e_tag d) <= members_min h (snd v)) vs) ->
    implements (enum_of h size only d vs) (fenum h size d gs).
  Proof.
    intros H Hnd Hmax Hpk.
    assert (Hw : forall v, fm_ok (fenum h size d gs) v -> forall St (W : writer St) wrep werr room, writer_ok h W wrep werr room ->
               wsim wrep werr room (i_write (enum_of h size only d vs) W v) (fm_enc (fenum h size d gs) (wr_endian W) v)).
    { intros v Hv St W wrep werr room OK. destruct v as [| | | | | | | | |i us]; try contradiction.
      cbn [fenum fm_ok fm_enc enum_of i_write] in *. clear Hnd. revert i Hv.
      induction H as [|[g ms] [g' ms'] vs gs (Hg & Hms) _ IH]; intros [|i] Hv; try contradiction; cbn [fst snd] in *; inversion Hmax; subst.
      - unfold variant_ok, evariant_of in *. cbn [nth_error write_variant_of] in *. destruct Hv as (Hv & _).
        apply (wsim_bind h W wrep werr room OK); [|apply (members_write h VH); assumption].
        destruct (e_peek d); [apply wsim_ret|apply (wsim_tag h W wrep werr room OK); assumption].
      - unfold variant_ok, evariant_of in *. cbn [nth_error write_variant_of] in *. apply IH; auto.
        intros E. destruct (Hpk E) as (Hne & HF). inversion HF; auto. }
    assert (Hnth : forall i us, variant_ok h d gs i us -> exists g ms ms', nth_error gs i = Some (g, ms') /\ members_follow h ms ms'
                   /\ members_ok h ms' us /\ g <= basic_max (e_tag d)
                   /\ (e_peek d = true -> forall e b, emembers h e [] ms' us = Ok b -> begins b (enc_basic e (e_tag d) g))).
    { intros i us Hv. unfold variant_ok in Hv. destruct (nth_error gs i) as [[g ms']|] eqn:E; [|contradiction].
      assert (exists ms, members_follow h ms ms') as (ms & Hms).
      { clear - E H. revert i E. induction H as [|v g' vs gs (_ & Hms) _ IH]; intros [|i] E; try discriminate; cbn in E.
        - injection E as ->. eauto.
        - eapply IH, E. }
      exists g, ms, ms'. destruct Hv as (Hv & Hb). repeat split; auto.
      rewrite Forall_forall in Hmax. apply (Hmax (g, ms')). eapply nth_error_In, E. }
    assert (Hsame : forall v, fm_ok (fenum h size d gs) v -> forall e e', samelen (fm_enc (fenum h size d gs) e v) (fm_enc (fenum h size d gs) e' v)).
    { intros v Hv e e'. destruct v as [| | | | | | | | |i us]; try contradiction. cbn [fenum fm_enc fm_ok] in *.
      destruct (Hnth i us Hv) as (g & ms & ms' & E & Hms & Hok & _). unfold evariant_of. rewrite E.
      apply samelen_app; [|eapply members_same; eassumption].
      unfold samelen. destruct (e_peek d); [reflexivity|]. cbn [rmap]. f_equal. apply nlen_enc_basic. }
    split.
    - reflexivity.
    - intros St R rep io OK. cbn [enum_of i_read fenum fm_dec].
      apply sim_bind; [apply (read_tag_sim h R true rep io OK); intros E; split; [reflexivity|apply Hpk, E]|].
      intros tag. generalize 0%nat as i. clear - H OK VH.
      induction H as [|[g ms] [g' ms'] vs gs (Hg & Hms) _ IH]; intros i; cbn [read_variant_of dvariant_of]; [apply sim_fail; reflexivity|].
      cbn [fst snd] in *. subst g'. destruct (g =? tag); [|apply IH]. apply sim_map, (members_sim h VH); assumption.
    - intros e. cbn [enum_of i_min fenum fm_dec]. rewrite fold_min_0.
      assert (Hz : forall m, Forall (fun v => m <= members_min h (snd v)) vs -> forall tag i, atleast m (dvariant_of h e tag i gs)).
      { intros m Hm tag. clear - H Hm VH.
        induction H as [|[g ms] [g' ms'] vs gs (Hg & Hms) _ IH]; intros i; cbn [dvariant_of]; [intros o a o' E; discriminate|].
        inversion Hm; subst. destruct (g' =? tag); [|apply IH; assumption].
        apply atleast_map. eapply atleast_le; [apply (members_least h VH), Hms|assumption]. }
      destruct (e_peek d).
      + rewrite N.max_0_l. apply (atleast_bind 0); [eapply atleast_peek, atleast_basic|]. intros tag. apply Hz, Hpk. reflexivity.
      + rewrite N.add_0_l. apply atleast_then; [apply atleast_basic|]. intros tag. apply Hz. apply Forall_forall. intros; lia.
    - intros. apply Hw; assumption.
    - intros. apply Hsame; assumption.
    - intros e v b Hv Hb. eapply (written_size _ (fm_enc (fenum h size d gs))); [exact (Hw v Hv)|exact (Hsame v Hv)|exact Hb].
    - intros e v b rest Hv Hb Hop. destruct v as [| | | | | | | | |i us]; try contradiction. cbn [fenum fm_dec fm_enc fm_ok fm_open] in *.
      destruct (Hnth i us Hv) as (g & ms & ms' & E & Hms & Hok & Hg & Hbeg). unfold evariant_of in Hb. rewrite E in Hb.
      apply rapp_ok in Hb as (p & b' & Hp & Hb & ->). injection Hp as <-.
      assert (Hd : forall o, dvariant_of h e g 0 gs o = dmap (VVar i) (dmembers h e [] ms') o).
      { intros o. change i with (0 + i)%nat at 1. generalize 0%nat as k. clear - Hnd E. revert i E.
        induction gs as [|[g0 m0] gs IH]; intros [|i] E k; try discriminate; cbn in E; cbn [dvariant_of].
        - injection E as -> ->. rewrite N.eqb_refl, Nat.add_0_r. reflexivity.
        - cbn in Hnd. inversion Hnd as [|? ? Hn Hnd']; subst. destruct (N.eqb_spec g0 g) as [->|Hne].
          + destruct Hn. apply in_map_iff. exists (g, ms'). split; [reflexivity|]. eapply nth_error_In, E.
          + rewrite (IH Hnd' i E (S k)). rewrite <- plus_n_Sm. reflexivity. }
      assert (Hbody : dvariant_of h e g 0 gs (Some (b' ++ rest)) = DOk (VVar i us) (Some rest)).
      { rewrite Hd. unfold dmap, dbind. rewrite (members_back h VH e ms ms' Hms [] us b' rest Hok Hb); [reflexivity|].
        intros Hop'. apply Hop. apply existsb_exists. exists (g, ms'). split; [eapply nth_error_In, E|exact Hop']. }
      unfold dbind at 1. destruct (e_peek d).
      + cbn [app]. destruct (Hbeg eq_refl e b' Hb) as (r & ->). rewrite <- app_assoc in *. unfold dpeek.
        rewrite (dbasic_rt e (e_tag d) g (r ++ rest) Hg). exact Hbody.
      + rewrite <- app_assoc, (dbasic_rt e (e_tag d) g (b' ++ rest) Hg). exact Hbody.
  Qed.
End Build.
Print Assumptions C118_type.
Print Assumptions C118_hand.
Print Assumptions C118_none.
Print Assumptions C118_vec.
Print Assumptions C118_set.
Print Assumptions C118_map.
Print Assumptions C118_array.
Print Assumptions C118_option.
Print Assumptions C118_result.
Print Assumptions C118_tuple.
Print Assumptions C118_box.
Print Assumptions C118_fields.
Print Assumptions C118_struct.
Print Assumptions C118_enum.

(* ------------------------------------------------------------------ *)
(** * Through every entry point *)

Section Use.
  Context (h : host) (VH : valid_host h) (X : impl) (F : format) (HX : implements h X F).

  Lemma impl_collected e v buf : fm_ok F v ->
    let (r, s) := i_write X (BufferCollector h e) v {| bc_buffer := buf; bc_position := 0 |} in
    wpost (bcrep buf) bcerr (bcroom buf) [] (fm_enc F e v) r s.
  Proof.
    intros Hv. pose proof (im_write _ _ _ HX _ _ _ _ _ v (buffer_collector_ok h e buf) Hv _ [] (bc_start_rep buf)) as H.
    destruct (i_write X (BufferCollector h e) v _) as [r s]. exact H.
  Qed.

  (** Exactly the encoding is written, to a vector, into a buffer that is large enough, and to
      a stream as far as it takes it. *)
  Theorem C118_write e mem v b : (forall n, n <= nlen (mem n)) -> fm_ok F v -> fm_enc F e v = Ok b ->
    impl_to_vec h e X v mem = Ok b
    /\ (forall buffer, impl_to_buffer h e X v buffer =
          if nlen b <=? nlen buffer then (Ok tt, b ++ ndrop (nlen b) buffer)
          else (Err (OutputBufferIsTooSmall (nlen buffer) (nlen b)), buffer))
    /\ forall o r o', impl_to_stream h e X v o = (r, o') ->
         exists b1 b2, b = b1 ++ b2 /\ os_out o' = os_out o ++ b1
           /\ ((r = Ok tt /\ b2 = []) \/ exists ev er, In ev (os_sched o) /\ event_error ev = Some er /\ r = Err er).
  Proof.
    intros Hm Hv Hb. split; [|split].
    - unfold impl_to_vec. rewrite (im_needed _ _ _ HX e v b Hv Hb). cbn [rbind].
      pose proof (impl_collected e v (ntake (nlen b) (mem (nlen b))) Hv) as H. rewrite Hb in H.
      destruct (i_write X _ v _) as [r s]. cbn [wpost app] in H.
      assert (El : nlen (ntake (nlen b) (mem (nlen b))) = nlen b) by (rewrite nlen_take; specialize (Hm (nlen b)); lia).
      destruct H as [(-> & (H1 & H2 & H3))|(er & b1 & b2 & _ & _ & _ & _ & Hr)].
      + cbn [rbind]. rewrite H1, H3, N.eqb_refl, andb_false_r, take_app_exact by reflexivity. reflexivity.
      + exfalso. apply Hr. unfold bcroom. lia.
    - intros buffer. unfold impl_to_buffer. rewrite (im_needed _ _ _ HX e v b Hv Hb).
      destruct (N.leb_spec (nlen b) (nlen buffer)) as [E|E]; [|reflexivity].
      pose proof (impl_collected e v (ntake (nlen b) buffer) Hv) as H. rewrite Hb in H.
      destruct (i_write X _ v _) as [r s]. cbn [wpost app] in H.
      assert (El : nlen (ntake (nlen b) buffer) = nlen b) by (rewrite nlen_take; lia).
      destruct H as [(-> & (H1 & H2 & H3))|(er & b1 & b2 & _ & _ & _ & _ & Hr)].
      + rewrite H3. f_equal. rewrite drop_all by lia. rewrite app_nil_r. reflexivity.
      + exfalso. apply Hr. unfold bcroom. lia.
    - intros o r o' E. unfold impl_to_stream in E.
      pose proof (im_write _ _ _ HX _ _ _ _ _ v (writing_collector_ok h e o) Hv _ [] (os_start_rep o)) as H.
      change (wr_endian (WritingCollector h e)) with e in H. rewrite E, Hb in H. cbn [fst snd wpost app] in H.
      destruct H as [(-> & (Ho & _))|(er & b1 & b2 & -> & -> & (ev & Hin & Hev) & (Ho & _) & _)].
      + exists b, []. rewrite app_nil_r. auto.
      + exists b1, b2. split; [reflexivity|]. split; [exact Ho|]. right. eauto.
  Qed.

  (** A value that cannot be encoded is not reported as written. *)
  Theorem C118_unwritable e mem v : fm_ok F v -> (forall b, fm_enc F e v <> Ok b) ->
    (forall b, impl_to_vec h e X v mem <> Ok b) /\ (forall buffer, fst (impl_to_buffer h e X v buffer) <> Ok tt)
    /\ forall o, fst (impl_to_stream h e X v o) <> Ok tt.
  Proof.
    intros Hv Hb.
    assert (Hno : forall S0 wrep werr room out (r : res unit) (s : S0), wpost wrep werr room out (fm_enc F e v) r s -> r <> Ok tt).
    { intros S0 wrep werr room out r s Hp. destruct (fm_enc F e v) as [b|er|f]; [destruct (Hb b); reflexivity| |]; cbn [wpost] in Hp.
      - destruct Hp as (er' & y & -> & _). discriminate.
      - destruct Hp as [->|(er' & -> & _)]; discriminate. }
    split; [|split].
    - intros b E. unfold impl_to_vec in E. apply rbind_ok in E as (n & _ & E).
      pose proof (impl_collected e v (ntake n (mem n)) Hv) as H. destruct (i_write X _ v _) as [[[]|er|f] s]; try discriminate.
      exact (Hno _ _ _ _ _ _ _ H eq_refl).
    - intros buffer. unfold impl_to_buffer. destruct (i_needed X v) as [n|er|f]; try discriminate.
      destruct (n <=? nlen buffer); [|discriminate].
      pose proof (impl_collected e v (ntake n buffer) Hv) as H. destruct (i_write X _ v _) as [r s]. exact (Hno _ _ _ _ _ _ _ H).
    - intros o. unfold impl_to_stream.
      pose proof (im_write _ _ _ HX _ _ _ _ _ v (writing_collector_ok h e o) Hv _ [] (os_start_rep o)) as H.
      change (wr_endian (WritingCollector h e)) with e in H. exact (Hno _ _ _ _ _ _ _ H).
  Qed.

  Lemma impl_from_agrees R addr bs : reader_ok h R true (brep h) no_io -> nlen bs <= h_alloc_max h -> i_min X <= nlen bs ->
    agrees (fm_dec F (rd_endian R) (Some bs)) (fst (impl_from X R addr bs))
    /\ forall v rest, fm_dec F (rd_endian R) (Some bs) = DOk v (Some rest) ->
         impl_from X R addr bs = (Ok v, nlen bs - nlen rest).
  Proof.
    intros OK Hl Hn. unfold impl_from. destruct (N.ltb_spec (nlen bs) (i_min X)); [lia|].
    assert (Hr : repo (brep h) (br_start addr bs) (Some bs)) by (split; [reflexivity|exact Hl]).
    pose proof (im_read _ _ _ HX _ R (brep h) no_io OK _ _ Hr) as H'.
    destruct (i_read X R (br_start addr bs)) as [r s]. cbn [fst snd] in *.
    destruct H' as [(er & _ & [])|Hpost]. split; [eapply post_agrees, Hpost|].
    intros v rest E. rewrite E in Hpost. destruct Hpost as (-> & (Hb & _) & _). rewrite Hb. reflexivity.
  Qed.

  (** Buffers give what the decoder gives, and say how many bytes were used; too short ones are
      refused, and no value was in them. *)
  Theorem C118_buffers e addr bs : nlen bs <= h_alloc_max h ->
    if i_min X <=? nlen bs then
      (agrees (fm_dec F e (Some bs)) (fst (impl_from_buffer e X addr bs))
       /\ agrees (fm_dec F e (Some bs)) (fst (impl_from_copied e X bs)))
      /\ forall v rest, fm_dec F e (Some bs) = DOk v (Some rest) ->
           impl_from_buffer e X addr bs = (Ok v, nlen bs - nlen rest) /\ impl_from_copied e X bs = (Ok v, nlen bs - nlen rest)
    else impl_from_buffer e X addr bs = (Err (InputBufferIsTooSmall (nlen bs) (i_min X)), 0)
         /\ impl_from_copied e X bs = (Err (InputBufferIsTooSmall (nlen bs) (i_min X)), 0)
         /\ forall v o, fm_dec F e (Some bs) <> DOk v o.
  Proof.
    intros Hl. destruct (N.leb_spec (i_min X) (nlen bs)) as [Hn|Hn].
    - destruct (impl_from_agrees (BufferReader e) addr bs (buffer_ok h VH e true) Hl Hn) as (A1 & B1).
      destruct (impl_from_agrees (CopyingBufferReader e) 0 bs (copying_ok h VH e true) Hl Hn) as (A2 & B2).
      split; [split; assumption|]. intros v rest E. split; [apply B1, E|apply B2, E].
    - unfold impl_from_buffer, impl_from_copied, impl_from. destruct (N.ltb_spec (nlen bs) (i_min X)); [|lia].
      repeat split; auto. intros v o E. pose proof (im_min _ _ _ HX e _ _ _ E) as Hm. destruct o; lia.
  Qed.

  (** So do streams, however they hand out their bytes, unless the stream itself fails. *)
  Theorem C118_streams e mem buffering i : (forall n, n <= nlen (mem n)) ->
    ~ In (RErr IoUnexpectedEof) (is_sched i) -> nlen (is_rest i) <= l_usize_max (h_lim h) ->
    let (r, s) := impl_from_stream e X mem buffering i in
    (exists k, r = Err (IoError k) /\ In (RErr k) (is_sched i))
    \/ (agrees (fm_dec F e (Some (is_rest i))) r
        /\ forall v rest, fm_dec F e (Some (is_rest i)) = DOk v (Some rest) ->
             content (sr_buffer s) ++ is_rest (sr_stream s) = rest).
  Proof.
    intros Hmem Hclean Hlen. unfold impl_from_stream.
    pose proof (sr_start_rep h mem Hmem buffering true (is_sched i) i eq_refl Hlen) as Hr.
    pose proof (im_read _ _ _ HX _ (StreamReader mem e) _ _ (stream_ok h e mem Hmem buffering true (is_sched i) Hclean) _
                  (Some (is_rest i)) Hr) as H.
    destruct (i_read X _ (sr_start mem buffering i)) as [r s]. cbn [fst snd] in H.
    destruct H as [(er & -> & k & -> & Hk & _)|Hpost]; [left; eauto|right].
    split; [eapply post_agrees, Hpost|]. intros v rest E. change (rd_endian (StreamReader mem e)) with e in Hpost.
    rewrite E in Hpost. destruct Hpost as (_ & Hrep & _). exact (sp_bytes _ _ _ _ _ _ Hrep).
  Qed.

  Theorem C118_same e bs addr mem buffering sched v : nlen bs <= h_alloc_max h -> (forall n, n <= nlen (mem n)) ->
    no_errors sched -> fm_dec F e (Some bs) <> DUnspec ->
    (fst (impl_from_buffer e X addr bs) = Ok v
     <-> fst (impl_from_stream e X mem buffering {| is_rest := bs; is_sched := sched |}) = Ok v).
  Proof.
    intros Hl Hmem Hsc Hu. pose proof (vh_alloc h VH) as Ha.
    pose proof (C118_streams e mem buffering {| is_rest := bs; is_sched := sched |} Hmem (Hsc _) ltac:(cbn [is_rest]; lia)) as H.
    destruct (impl_from_stream e X mem buffering _) as [r s]. cbn [fst is_rest is_sched] in *.
    destruct H as [(k & _ & Hk)|(Hag & _)]; [destruct (Hsc k Hk)|].
    pose proof (C118_buffers e addr bs Hl) as Hb. destruct (i_min X <=? nlen bs).
    - destruct Hb as ((Hb & _) & _). exact (agrees_same _ _ _ Hu Hb Hag v).
    - destruct Hb as (-> & _ & Hno). cbn [fst]. split; [discriminate|]. intros ->.
      destruct (fm_dec F e (Some bs)) as [w o| |er sure|f sure|] eqn:E; cbn in Hag.
      + destruct (Hno w o eq_refl).
      + destruct Hag as (er & Hx & _). discriminate.
      + destruct Hag as [(Hx & _)|(_ & er' & Hx & _)]; discriminate.
      + destruct Hag as [Hx|(_ & er' & Hx & _)]; discriminate.
      + congruence.
  Qed.

  (** What is written is read back: from memory, with anything behind it unless the type reads
      to the end, and from streams. *)
  Theorem C118_round_trip e mem v b rest : (forall n, n <= nlen (mem n)) -> fm_ok F v -> fm_enc F e v = Ok b ->
    (fm_open F = true -> rest = []) -> nlen (b ++ rest) <= h_alloc_max h ->
    impl_to_vec h e X v mem = Ok b
    /\ (forall addr, impl_from_buffer e X addr (b ++ rest) = (Ok v, nlen b))
    /\ impl_from_copied e X (b ++ rest) = (Ok v, nlen b)
    /\ forall mem' buffering sched, (forall n, n <= nlen (mem' n)) -> no_errors sched ->
         fst (impl_from_stream e X mem' buffering {| is_rest := b ++ rest; is_sched := sched |}) = Ok v.
  Proof.
    intros Hm Hv Hb Ho Hl. split; [apply (C118_write e mem v b Hm Hv Hb)|].
    pose proof (im_back _ _ _ HX e v b rest Hv Hb Ho) as Hback.
    assert (HB : forall addr, impl_from_buffer e X addr (b ++ rest) = (Ok v, nlen b) /\ impl_from_copied e X (b ++ rest) = (Ok v, nlen b)).
    { intros addr. pose proof (C118_buffers e addr (b ++ rest) Hl) as H. destruct (i_min X <=? nlen (b ++ rest)).
      - destruct H as (_ & H). replace (nlen b) with (nlen (b ++ rest) - nlen rest) by (rewrite nlen_app; lia). apply H, Hback.
      - destruct H as (_ & _ & Hno). destruct (Hno _ _ Hback). }
    split; [intros addr; apply HB|]. split; [apply (HB 0)|]. intros mem' buffering sched Hm' Hsc.
    apply (C118_same e (b ++ rest) 0 mem' buffering sched v Hl Hm' Hsc); [rewrite Hback; discriminate|].
    destruct (HB 0) as (-> & _). reflexivity.
  Qed.
End Use.
Print Assumptions C118_write.
Print Assumptions C118_unwritable.
Print Assumptions C118_buffers.
Print Assumptions C118_streams.
Print Assumptions C118_same.
Print Assumptions C118_round_trip.

(* ------------------------------------------------------------------ *)
(** * The model of types is a special case *)

(** Nothing can tell the two implementations apart. *)
Record same_code (X Y : impl) : Prop := {
  sc_size : i_size X = i_size Y;
  sc_min : i_min X = i_min Y;
  sc_read : forall St (R : reader St) s, i_read X R s = i_read Y R s;
  sc_write : forall St (W : writer St) v s, i_write X W v s = i_write Y W v s;
  sc_needed : forall v, i_needed X v = i_needed Y v
}.

Section Agree.
  Context (h : host).

  Lemma bind_same {St A B} (m m' : M St A) (k k' : A -> M St B) s :
    (forall s, m s = m' s) -> (forall a s, k a s = k' a s) -> bind m k s = bind m' k' s.
  Proof. intros Hm Hk. unfold bind. rewrite Hm. destruct (m' s) as [[a|er|f] s']; auto. Qed.

  (** On types that are not primitive the containers do what the model of the type does. *)
  Theorem C118_containers_agree t : is_prim h t = false ->
    same_code (vec_of h (h_size h (TSeq KVec t)) (of_ty h t)) (of_ty h (TSeq KVec t))
    /\ same_code (vec_of h (h_size h (TSeq KBoxSlice t)) (of_ty h t)) (of_ty h (TSeq KBoxSlice t))
    /\ same_code (vec_of h (h_size h (TSeq KSmallVec t)) (of_ty h t)) (of_ty h (TSeq KSmallVec t))
    /\ same_code (vec_of h (h_size h (TSeq KCow t)) (of_ty h t)) (of_ty h (TSeq KCow t))
    /\ (forall k, same_code (set_of h (h_size h (TSet k t)) k (of_ty h t)) (of_ty h (TSet k t)))
    /\ (forall k t', same_code (map_of h (h_size h (TMap k t t')) k (of_ty h t) (of_ty h t')) (of_ty h (TMap k t t')))
    /\ (forall k t', same_code (map_of h (h_size h (TMap k t' t)) k (of_ty h t') (of_ty h t)) (of_ty h (TMap k t' t)))
    /\ forall n, h_size h (TArr t n) = h_size h t * N.of_nat n -> same_code (arr_of (of_ty h t) n) (of_ty h (TArr t n)).
  Proof.
    intros Hp.
    assert (Hvec : forall k, In k [KVec; KBoxSlice; KSmallVec; KCow] ->
              same_code (vec_of h (h_size h (TSeq k t)) (of_ty h t)) (of_ty h (TSeq k t))).
    { intros k Hk. split; try reflexivity.
      - intros St R s. cbn [vec_of of_ty i_read read]. 
        destruct k; cbn [read_seq]; try (exfalso; cbn in Hk; intuition discriminate);
          unfold read_cow; apply bind_same; auto; intros n s'; unfold read_vec, read_elements; cbn [of_ty i_size i_min i_only i_read]; rewrite Hp; reflexivity.
      - intros St W v s. cbn [vec_of of_ty i_write write]. destruct v; try reflexivity.
        unfold write_seq, write_slice. rewrite Hp. reflexivity.
      - intros v. cbn [vec_of of_ty i_needed bytes_needed]. destruct v; try reflexivity. rewrite Hp. reflexivity. }
    split; [apply Hvec; cbn; tauto|]. split; [apply Hvec; cbn; tauto|]. split; [apply Hvec; cbn; tauto|]. split; [apply Hvec; cbn; tauto|].
    split; [|split; [|split]].
    - intros k. split; try reflexivity. intros St R s. cbn [set_of of_ty i_read read]. apply bind_same; auto.
      intros n s'. unfold read_collection. rewrite Hp. reflexivity.
    - intros k t'. split; try reflexivity. intros St R s. cbn [map_of of_ty i_read read]. apply bind_same; auto.
      intros n s'. unfold read_map, read_kv. rewrite Hp. destruct k; reflexivity.
    - intros k t'. split; try reflexivity. intros St R s. cbn [map_of of_ty i_read read]. apply bind_same; auto.
      intros n s'. unfold read_map, read_kv. rewrite Hp, andb_false_r. destruct k; reflexivity.
    - intros n Hn. split; try reflexivity.
      + cbn [arr_of of_ty i_size]. symmetry. exact Hn.
      + intros St R s. cbn [arr_of of_ty i_read read]. unfold read_array. rewrite Hp. reflexivity.
  Qed.

  Theorem C118_others_agree t t' ts :
    same_code (option_of (h_size h (TOption t)) (of_ty h t)) (of_ty h (TOption t))
    /\ same_code (result_of (h_size h (TResult t t')) (of_ty h t) (of_ty h t')) (of_ty h (TResult t t'))
    /\ same_code (box_of (h_size h (TBox t)) (of_ty h t)) (of_ty h (TBox t))
    /\ same_code (tuple_of (h_size h (TTuple ts)) (map (of_ty h) ts)) (of_ty h (TTuple ts)).
  Proof.
    split; [split; reflexivity|]. split; [split; reflexivity|]. split; [split; reflexivity|].
    split; try reflexivity; cbn [tuple_of of_ty i_min i_read i_write i_needed].
    - cbn [min_bytes]. rewrite map_map. reflexivity.
    - intros St R s. cbn [read]. unfold mmap. apply bind_same; [|reflexivity]. intros s0. revert s0.
      induction ts as [|u ts IH]; [reflexivity|]. intros s0. cbn [map read_each]. apply bind_same; [reflexivity|].
      intros v s1. apply bind_same; [exact IH|reflexivity].
    - intros St W v s. destruct v as [| | | |vs| | | | |]; try reflexivity. cbn [write]. revert vs s.
      induction ts as [|u ts IH]; intros [|v vs] s; try reflexivity. cbn [map write_tuple_of]. apply bind_same; [reflexivity|].
      intros _ s1. apply IH.
    - intros v. destruct v as [| | | |vs| | | | |]; try reflexivity. cbn [bytes_needed]. revert vs.
      induction ts as [|u ts IH]; intros [|v vs]; try reflexivity. cbn [map needed_tuple_of]. rewrite IH. reflexivity.
  Qed.

  Definition all_ty (fs : fields) : members := map (fun f => (fst f, MTy (snd f))) fs.

  Lemma all_ty_min fs : members_min h (all_ty fs) = nsum (map (field_min (min_bytes h)) fs).
  Proof.
    unfold members_min, all_ty. rewrite map_map. reflexivity.
  Qed.
  Lemma all_ty_read {St} (R : reader St) fs : forall prev s, read_members h R prev (all_ty fs) s = read_fields h R (read h R) prev fs s.
  Proof.
    induction fs as [|[a t] fs IH]; intros prev s; [reflexivity|]. cbn [all_ty map read_members read_fields fst snd].
    destruct (f_skip a); [unfold mmap; apply bind_same; [apply IH|reflexivity]|]. apply bind_same; [reflexivity|].
    intros v s1. apply bind_same; [apply IH|reflexivity].
  Qed.
  Lemma all_ty_write {St} (W : writer St) fs : forall prev vs s,
    write_members h W prev (all_ty fs) vs s = write_fields h W (write h W) prev fs vs s.
  Proof.
    induction fs as [|[a t] fs IH]; intros prev [|v vs] s; try reflexivity. cbn [all_ty map write_members write_fields fst snd].
    destruct (f_skip a); [apply IH|]. apply bind_same; [reflexivity|]. intros _ s1. apply IH.
  Qed.

  Lemma written_agree (w w' : forall St, writer St -> val -> M St unit) v :
    (forall s, w N (SizeCalculator h) v s = w' N (SizeCalculator h) v s) ->
    size_by_writing h w v = match w' N (SizeCalculator h) v 0 with (Ok _, n) => Ok n | (Err e, _) => Err e | (Fault f, _) => Fault f end.
  Proof. intros H. unfold size_by_writing. rewrite H. destruct (w' N (SizeCalculator h) v 0) as [[] n]; reflexivity. Qed.

  (** So do derived structs and enums. *)
  Theorem C118_derived_agree sd fs d vs only :
    same_code (struct_of h (h_size h (TStruct sd fs)) only (all_ty fs)) (of_ty h (TStruct sd fs))
    /\ same_code (enum_of h (h_size h (TEnum d vs)) only d (map (fun v => (fst v, all_ty (snd v))) vs)) (of_ty h (TEnum d vs)).
  Proof.
    split; split; try reflexivity.
    - apply all_ty_min.
    - intros St R s. cbn [struct_of i_read of_ty read]. unfold mmap. apply bind_same; [apply all_ty_read|reflexivity].
    - intros St W v s. cbn [struct_of i_write of_ty write]. destruct v; try reflexivity. apply all_ty_write.
    - intros v. cbn [struct_of i_needed of_ty bytes_needed].
      apply (written_agree _ (fun St W v => write h W (TStruct sd fs) v)). intros s. cbn [write]. destruct v; try reflexivity. apply all_ty_write.
    - cbn [enum_of i_min of_ty min_bytes]. rewrite map_map.
      replace (map (fun x => members_min h (snd (fst x, all_ty (snd x)))) vs)
        with (map (fun v => nsum (map (field_min (min_bytes h)) (snd v))) vs); [reflexivity|].
      apply map_ext. intros v. cbn [snd]. rewrite all_ty_min. reflexivity.
    - intros St R s. cbn [enum_of i_read of_ty read]. apply bind_same; [reflexivity|]. intros tag. generalize 0%nat.
      induction vs as [|[g fs0] vs IH]; intros i s0; [reflexivity|]. cbn [map read_variant_of read_variant fst snd].
      destruct (g =? tag); [unfold mmap; apply bind_same; [apply all_ty_read|reflexivity]|apply IH].
    - intros St W v s. cbn [enum_of i_write of_ty write]. destruct v as [| | | | | | | | |i us]; try reflexivity. revert i s.
      induction vs as [|[g fs0] vs IH]; intros [|i] s; try reflexivity; cbn [map write_variant_of write_variant fst snd]; [|apply IH].
      apply bind_same; [reflexivity|]. intros _ s1. apply all_ty_write.
    - intros v. cbn [enum_of i_needed of_ty bytes_needed].
      apply (written_agree _ (fun St W v => write h W (TEnum d vs) v)). intros s. cbn [write].
      destruct v as [| | | | | | | | |i us]; try reflexivity. revert i s.
      induction vs as [|[g fs0] vs IH]; intros [|i] s; try reflexivity; cbn [map write_variant_of write_variant fst snd]; [|apply IH].
      apply bind_same; [reflexivity|]. intros _ s1. apply all_ty_write.
  Qed.

  (** A field of a special type, as the derived code sees it. *)
  Definition seen_as (t : ty) : option inner :=
    match t with
    | TSeq KVec u => if is_prim h u then None else Some (NVec (of_ty h u))
    | TSet CHash u => if is_prim h u then None else Some (NSet true (of_ty h u))
    | TSet CBTree u => if is_prim h u then None else Some (NSet false (of_ty h u))
    | TMap CHash k u => if is_prim h k && is_prim h u then None else Some (NMap true (of_ty h k) (of_ty h u))
    | TMap CBTree k u => if is_prim h k && is_prim h u then None else Some (NMap false (of_ty h k) (of_ty h u))
    | TArr u n => if is_prim h u then None else Some (NArr (of_ty h u) n)
    | _ => None
    end.

  (** Giving the derived code the type or the implementations of its parameters is the same. *)
  Theorem C118_members_agree a t i prev : seen_as t = Some i -> f_opaque a = false -> f_varint a = false ->
    (forall St (R : reader St) s, read_member h R prev a (MPlain i) s = read_member h R prev a (MTy t) s
       /\ read_member h R prev a (MOption i) s = read_member h R prev a (MTy (TOption t)) s)
    /\ (forall St (W : writer St) v s, write_member h W prev a (MPlain i) v s = write_member h W prev a (MTy t) v s
       /\ write_member h W prev a (MOption i) v s = write_member h W prev a (MTy (TOption t)) v s)
    /\ member_min h (a, MPlain i) = member_min h (a, MTy t)
    /\ member_min h (a, MOption i) = member_min h (a, MTy (TOption t)).
  Proof.
    intros Hi Hop Hvi.
    assert (Hin : (forall St (R : reader St) s, read_inner h R prev a i s = read_field_inner h R (read h R) prev a false t s)
                  /\ (forall St (W : writer St) v s, write_inner h W prev a i v s = write_field_inner h W (write h W) prev (f_len a) false t v s)
                  /\ (forall u, t <> TOption u)).
    { assert (HWL : forall St (R : reader St) k k' ue s, (forall n s, k n s = k' n s) -> with_length h R prev a k ue s = with_length h R prev a k' ue s).
      { intros St R k k' ue s Hk. unfold with_length. destruct (f_len a) as [| |f|]; auto; try (apply bind_same; auto).
        destruct (f prev); auto. }
      destruct t as [s|k|[] t|t n|t n|t|t1 t2|ts|i' t|[] t|[] tk tv|t|d fs|d vs|]; try discriminate Hi; cbn [seen_as] in Hi;
        try (destruct (is_prim h t) eqn:Hp; [discriminate Hi|]; injection Hi as <-);
        try (destruct (is_prim h tk && is_prim h tv) eqn:Hp; [discriminate Hi|]; injection Hi as <-);
        (split; [|split; [|discriminate]]); intros; cbn [read_inner read_field_inner write_inner write_field_inner table].
      all: try (destruct v; try reflexivity; unfold write_slice; rewrite ?Hp; reflexivity).
      all: try reflexivity.
      all: apply HWL; intros n s0.
      - unfold read_vec, read_elements. cbn [of_ty i_size i_min i_only i_read]. rewrite Hp. reflexivity.
      - unfold read_collection. rewrite Hp. reflexivity.
      - unfold read_collection. rewrite Hp. reflexivity.
      - unfold read_kv. rewrite Hp. reflexivity.
      - unfold read_kv. rewrite Hp. reflexivity. }
    destruct Hin as (Hrd & Hwr & Hno).
    assert (Hcatch : forall St A (d : A) (m m' : M St A) s, (forall s, m s = m' s) ->
              (if f_eof a then catch_eof d m else m) s = (if f_eof a then catch_eof d m' else m') s).
    { intros St A d m m' s Hm. destruct (f_eof a); [unfold catch_eof; rewrite Hm; reflexivity|apply Hm]. }
    assert (Hplain : forall (B : Type) (x : ty -> B) (y : B), match t with TOption u => x u | _ => y end = y).
    { intros B x y. destruct t; try reflexivity. destruct (Hno t); reflexivity. }
    split; [|split].
    - intros St R s. split; cbn [read_member]; unfold read_field; rewrite Hop, ?Hvi; apply Hcatch; intros s0; apply bind_same; auto; intros [] s1.
      + rewrite Hplain. apply Hrd.
      + apply bind_same; auto. intros n s2. destruct (n =? 0); [reflexivity|]. unfold mmap. apply bind_same; auto.
    - intros St W v s. split; cbn [write_member]; unfold write_field; rewrite Hop, ?Hvi; apply bind_same; auto; intros [] s1.
      + rewrite Hplain. apply Hwr.
      + destruct v; try reflexivity. apply bind_same; auto.
    - unfold member_min, field_min. cbn [fst snd]. rewrite Hop, Hvi. split; [|reflexivity].
      destruct (_ || _); [reflexivity|]. f_equal.
      destruct t as [s|k|[] t|t n|t n|t|t1 t2|ts|i' t|[] t|[] tk tv|t|d fs|d vs|]; try discriminate Hi; cbn [seen_as] in Hi;
        try (destruct (is_prim h t); [discriminate Hi|]; injection Hi as <-);
        try (destruct (is_prim h tk && is_prim h tv); [discriminate Hi|]; injection Hi as <-); reflexivity.
  Qed.
End Agree.
Print Assumptions C118_containers_agree.
Print Assumptions C118_others_agree.
Print Assumptions C118_derived_agree.
Print Assumptions C118_members_agree.

(* ------------------------------------------------------------------ *)
(** * Cases *)

(** A hand-written type: a marker that is checked, a sixteen-bit number and a varint. *)
Definition stamp_read : rprog unit :=
  RU8 (fun m => if m =? 64 then RUint 2 (fun a => RVarint (fun b => RReturn (VSeq [VInt (Z.of_N a); VInt (Z.of_N b)]))) else RFail custom).
Definition stamp_write (v : val) : wprog unit :=
  match v with
  | VSeq [VInt a; VInt b] => WU8 64 (WUint 2 (Z.to_N a) (WVarint (Z.to_N b) WReturn))
  | _ => WPanic IllTyped
  end.
Definition stamp (a b : N) : val := VSeq [VInt (Z.of_N a); VInt (Z.of_N b)].
Definition is_stamp (v : val) : Prop := exists a b, v = stamp a b /\ a < 2 ^ 16 /\ b < 2 ^ 64.

Definition Stamp (h : host) : impl := by_hand h 16 VUnit 4 stamp_read stamp_write.
Definition fstamp (h : host) : format := fhand h 16 stamp_read stamp_write is_stamp false.

Lemma stamp_implements h : valid_host h -> implements h (Stamp h) (fstamp h).
Proof.
  intros VH. apply (C118_hand h VH).
  - cbn. intros n _. destruct (n =? 64); [exact (fun _ _ _ _ => Logic.I)|reflexivity].
  - intros e. cbn [heard stamp_read]. change 4 with (1 + 3). apply atleast_bind; [apply atleast_word1|]. intros n.
    destruct (n =? 64); [|intros o a o' E; discriminate]. cbn [heard]. change 3 with (2 + 1).
    apply atleast_bind; [apply (atleast_basic e BU16)|]. intros a.
    apply atleast_then; [apply (atleast_basic e BVarint)|]. intros; apply atleast_ret.
  - intros v (a & b & -> & Ha & Hb). cbn [fit stamp_write stamp]. rewrite !N2Z.id. split; [exact Hb|exact Logic.I].
  - intros e e' v (a & b & -> & _). apply modest_same. exact Logic.I.
  - intros e v bs rest (a & b & -> & Ha & Hb) E _. cbn [said stamp_write stamp] in E. rewrite !N2Z.id in E.
    apply rapp_ok in E as (b1 & r1 & E1 & E & ->). apply rapp_ok in E as (b2 & r2 & E2 & E & ->).
    apply rapp_ok in E as (b3 & r3 & E3 & E & ->). injection E1 as <-. injection E2 as <-. assert (b3 = vi_enc b) as -> by congruence; clear E3. injection E as <-. rewrite app_nil_r, <- !app_assoc.
    pose proof (dbasic_rt e BU8 64 (word e 2 a ++ vi_enc b ++ rest) ltac:(cbn [basic_max]; num_pow; lia)) as D1. cbn [dbasic enc_basic] in D1.
    pose proof (dbasic_rt e BU16 a (vi_enc b ++ rest) ltac:(cbn [basic_max]; revert Ha; num_pow; lia)) as D2. cbn [dbasic enc_basic] in D2.
    pose proof (dbasic_rt e BVarint b rest ltac:(cbn [basic_max]; revert Hb; num_pow; lia)) as D3. cbn [dbasic enc_basic] in D3.
    cbn [heard stamp_read]. unfold dbind at 1. replace [n2b 64] with (word e 1 64) by (destruct e; reflexivity). rewrite D1.
    change (64 =? 64) with true. cbn [heard]. unfold dbind. rewrite D2, D3. reflexivity.
Qed.

(** struct Log { #[speedy(length_type = u8)] stamps: Vec<Stamp>, by_name: HashMap<String, Stamp>,
    last: Option<Stamp>, #[speedy(constant_prefix = "!")] note: String } *)
Definition log_members (h : host) : members :=
  [(with_len (LType BU8), MPlain (NVec (Stamp h)));
   (plain, MPlain (NMap true (of_ty h (TStr KString)) (Stamp h)));
   (plain, MOption (NOwn (Stamp h)));
   (with_prefix [x21], MTy (TStr KString))].
Definition log_fmembers (h : host) : fmembers :=
  [(with_len (LType BU8), GPlain (FVec (fstamp h)));
   (plain, GPlain (FMap CHash (fty h (TStr KString)) (fstamp h)));
   (plain, GOption (FOwn (fstamp h)));
   (with_prefix [x21], GTy (TStr KString))].
Definition Log (h : host) : impl := struct_of h 96 VUnit (log_members h).
Definition flog (h : host) : format := fstruct h 96 (log_fmembers h).

Lemma string_implements : implements host64 (of_ty host64 (TStr KString)) (fty host64 (TStr KString)).
Proof.
  apply (C118_type host64 host64_valid); try exact Logic.I; intros []; try (apply supportedb_sound; vm_compute; reflexivity); exact Logic.I.
Qed.

Lemma log_implements : implements host64 (Log host64) (flog host64).
Proof.
  pose proof (stamp_implements host64 host64_valid) as HS.
  assert (ES : element host64 (Stamp host64) (fstamp host64)) by (split; [exact HS|reflexivity]).
  assert (EN : element host64 (of_ty host64 (TStr KString)) (fty host64 (TStr KString))) by (split; [exact string_implements|reflexivity]).
  apply (C118_struct host64 host64_valid).
  apply ms_cons; [reflexivity| |discriminate|].
  { apply mf_plain; [vm_compute; discriminate| |discriminate]. apply (vec_follows host64 host64_valid); [exact ES|discriminate]. }
  apply ms_cons; [reflexivity| |discriminate|].
  { apply mf_plain; [vm_compute; discriminate| |discriminate]. apply (map_follows host64 host64_valid true); assumption. }
  apply ms_cons; [reflexivity| |discriminate|].
  { apply mf_option; [vm_compute; discriminate| |discriminate]. apply (own_follows host64); exact HS. }
  apply ms_cons; [reflexivity| |discriminate|apply ms_nil].
  apply mf_ty; try discriminate.
  - intros []; right; repeat split; try discriminate; try (vm_compute; discriminate); apply supportedb_sound; vm_compute; reflexivity.
  - right. split; [discriminate|exact Logic.I].
  - exact Logic.I.
  - intros []; exact Logic.I.
Qed.

Definition log_value : val :=
  VSeq [VSeq [stamp 1 2; stamp 3 300]; VSeq [VSeq [VBytes [x61]; stamp 5 6]]; VSome (stamp 7 8); VBytes [x68; x69]].
Definition log_bytes : bytes :=
  [x02; x40; x01; x00; x02; x40; x03; x00; x81; x2c; x01; x00; x00; x00; x01; x00; x00; x00; x61; x40; x05; x00; x06;
   x01; x40; x07; x00; x08; x21; x02; x00; x00; x00; x68; x69].

(** A whole document: a list of such structs in a vector, behind an enum. *)
Definition document_impl (h : host) : impl :=
  enum_of h 24 VUnit {| e_tag := BU8; e_peek := false |}
    [(0, []); (9, [(plain, MPlain (NVec (Log h))); (with_len LEof, MPlain (NVec (Stamp h)))])].
Definition document_format (h : host) : format :=
  fenum h 24 {| e_tag := BU8; e_peek := false |}
    [(0, []); (9, [(plain, GPlain (FVec (flog h))); (with_len LEof, GPlain (FVec (fstamp h)))])].

Lemma document_implements : implements host64 (document_impl host64) (document_format host64).
Proof.
  assert (ES : element host64 (Stamp host64) (fstamp host64)) by (split; [exact (stamp_implements host64 host64_valid)|reflexivity]).
  assert (EL : element host64 (Log host64) (flog host64)) by (split; [exact log_implements|reflexivity]).
  apply (C118_enum host64 host64_valid).
  - constructor; [split; [reflexivity|apply ms_nil]|]. constructor; [|constructor]. split; [reflexivity|].
    apply ms_cons; [reflexivity| |discriminate|].
    + apply mf_plain; [vm_compute; discriminate| |discriminate]. apply (vec_follows host64 host64_valid); [exact EL|discriminate].
    + apply ms_cons; [reflexivity| |intros; constructor|apply ms_nil].
      apply mf_plain; [vm_compute; discriminate| |intros _ []; reflexivity]. apply (vec_follows host64 host64_valid); [exact ES|discriminate].
  - repeat constructor; cbn; intuition discriminate.
  - repeat constructor; vm_compute; discriminate.
  - discriminate.
Qed.

(** The other containers around the hand-written type. *)
Example C118_build_case : let h := host64 in
  let X := tuple_of 400 [arr_of (Stamp h) 3; set_of h 24 CBTree (Stamp h); set_of h 24 CIndex (option_of 24 (Stamp h));
                         result_of 16 (box_of 8 (Stamp h)) (vec_of h 24 (vec_of h 24 (Stamp h)))] in
  let F := ftuple 400 [farr h (fstamp h) 3; fset h 24 CBTree (fstamp h); fset h 24 CIndex (foption 24 (fstamp h));
                       fresult 16 (fbox 8 (fstamp h)) (fvec h 24 (fvec h 24 (fstamp h)))] in
  implements h X F /\ fm_ok F (VSeq [VSeq [stamp 1 2; stamp 3 4; stamp 5 6]; VSeq [stamp 1 1; stamp 1 2]; VSeq [VNone; VSome (stamp 0 0)];
                                     VErr (VSeq [VSeq []; VSeq [stamp 8 9]])]).
Proof.
  intros h X F. pose proof host64_valid as VH. change host64 with h in VH. pose proof (stamp_implements h VH) as HS.
  assert (ES : element h (Stamp h) (fstamp h)) by (split; [exact HS|reflexivity]).
  assert (EV : element h (vec_of h 24 (Stamp h)) (fvec h 24 (fstamp h))).
  { split; [|reflexivity]. apply (C118_vec h VH); [exact ES|discriminate]. }
  split.
  - apply (C118_tuple h). constructor; [apply (C118_array h), ES|discriminate|]. constructor; [apply (C118_set h VH), ES|discriminate|].
    constructor; [apply (C118_set h VH); split; [apply (C118_option h), HS|reflexivity]|discriminate|].
    constructor; [|discriminate|constructor]. apply (C118_result h); [apply (C118_box h), HS|].
    apply (C118_vec h VH); [exact EV|discriminate].
  - assert (HS' : forall a b, (a <? 2 ^ 16) && (b <? 2 ^ 64) = true -> is_stamp (stamp a b)).
    { intros a b H. apply andb_prop in H as (H1 & H2). exists a, b. split; [reflexivity|]. split; [apply N.ltb_lt, H1|apply N.ltb_lt, H2]. }
    assert (HV : forall vs, (nlen vs <=? 100) = true -> Forall is_stamp vs -> fm_ok (fvec h 24 (fstamp h)) (VSeq vs)).
    { intros vs Hl Hvs. apply N.leb_le in Hl. split; [exact Hvs|]. split.
      - unfold small. transitivity 100; [exact Hl|vm_compute; discriminate].
      - transitivity (100 * fm_size (fstamp h)); [apply N.mul_le_mono_r, Hl|vm_compute; discriminate]. }
    split; [split; [|reflexivity]|].
    { constructor; [apply HS'; reflexivity|]. constructor; [apply HS'; reflexivity|]. constructor; [apply HS'; reflexivity|constructor]. }
    split; [split; [|split; [vm_compute; discriminate|]]|].
    { constructor; [apply HS'; reflexivity|]. constructor; [apply HS'; reflexivity|constructor]. }
    { cbn. repeat constructor. }
    split; [split; [|split; [vm_compute; discriminate|]]|].
    { constructor; [exact Logic.I|]. constructor; [apply HS'; reflexivity|constructor]. }
    { cbn. repeat constructor; cbn; intuition discriminate. }
    split; [|exact Logic.I]. split; [|split; vm_compute; discriminate].
    constructor; [apply HV; [reflexivity|constructor]|]. constructor; [|constructor].
    apply HV; [reflexivity|]. constructor; [apply HS'; reflexivity|constructor].
Qed.

Definition document_value : val := VVar 1 [VSeq [log_value; log_value]; VSeq [stamp 9 10]].
Definition document_bytes : bytes :=
  [x09; x02; x00; x00; x00] ++ log_bytes ++ log_bytes ++ [x40; x09; x00; x0a].

Lemma stamp_is a b : a < 2 ^ 16 -> b < 2 ^ 64 -> is_stamp (stamp a b).
Proof. intros Ha Hb. exists a, b. auto. Qed.

Lemma document_ok : fm_ok (document_format host64) document_value.
Proof.
  assert (HS : forall a b, (a <? 2 ^ 16) && (b <? 2 ^ 64) = true -> is_stamp (stamp a b)).
  { intros a b H. apply andb_prop in H as (Ha & Hb). apply stamp_is; [apply N.ltb_lt, Ha|apply N.ltb_lt, Hb]. }
  assert (HL : fm_ok (flog host64) log_value).
  { cbn [flog fstruct fm_ok log_value members_ok log_fmembers]. unfold member_ok. cbn [f_skip with_len plain with_prefix inner_ok].
    split; [split; [repeat constructor; apply HS; reflexivity|split; vm_compute; discriminate]|].
    split; [split; [|split; [vm_compute; discriminate|repeat constructor; cbn; tauto]]|].
    - constructor; [|constructor]. split; [|apply HS; reflexivity].
      split; [apply validb_sound; vm_compute; reflexivity|]. split; [intros []; exact Logic.I|reflexivity].
    - split; [apply HS; reflexivity|]. split; [|exact Logic.I].
      split; [apply validb_sound; vm_compute; reflexivity|]. split; [intros []; exact Logic.I|reflexivity]. }
  split; [|discriminate]. cbn [members_ok]. unfold member_ok. cbn [f_skip with_len plain inner_ok].
  split; [split; [constructor; [exact HL|constructor; [exact HL|constructor]]|split; vm_compute; discriminate]|].
  split; [|exact Logic.I]. split; [repeat constructor; apply HS; reflexivity|split; vm_compute; discriminate].
Qed.

(** The hypotheses of [C118_round_trip] hold of it, and these are its bytes. *)
Example C118_round_trip_case :
  implements host64 (document_impl host64) (document_format host64)
  /\ (forall n, n <= nlen (dirty n)) /\ fm_ok (document_format host64) document_value
  /\ fm_enc (document_format host64) LE document_value = Ok document_bytes
  /\ (fm_open (document_format host64) = true -> @nil byte = [])
  /\ nlen (document_bytes ++ []) <= h_alloc_max host64.
Proof.
  split; [exact document_implements|]. split; [exact dirty_enough|]. split; [exact document_ok|].
  split; [vm_compute; reflexivity|]. split; [reflexivity|vm_compute; discriminate].
Qed.

(** Read back from a stream that hands out one byte at a time. *)
Example C118_streams_case :
  fst (impl_from_stream LE (document_impl host64) dirty true
         {| is_rest := document_bytes; is_sched := repeat (RChunk 1) 50 |}) = Ok document_value
  /\ fst (impl_from_buffer LE (document_impl host64) 0 (firstn 10 document_bytes)) = Err UnexpectedEndOfInput
  /\ fst (impl_from_buffer LE (Stamp host64) 0 [x41; x00; x00; x00]) = Err custom.
Proof. split; [|split]; vm_compute; reflexivity. Qed.

(** ** What the user has to see to *)

(** A hand-written type without size that is not without bytes: `read_vec` does not call
    `read_from` for it at all, so the bytes `write_to` has written for the elements are left
    where they are, and taken for what follows. *)
Definition Marker (h : host) : impl :=
  by_hand h 0 VUnit 1 (RU8 (fun m => if m =? 33 then RReturn VUnit else RFail custom)) (fun _ => WU8 33 WReturn).
Definition fmarker (h : host) : format :=
  fhand h 0 (RU8 (fun m => if m =? 33 then RReturn VUnit else RFail custom)) (fun _ => WU8 33 WReturn) (fun v => v = VUnit) false.

Lemma marker_implements h : valid_host h -> implements h (Marker h) (fmarker h).
Proof.
  intros VH. apply (C118_hand h VH).
  - cbn. intros n _. destruct (n =? 33); [exact Logic.I|reflexivity].
  - intros e. cbn [heard]. apply atleast_then; [apply atleast_word1|]. intros n.
    destruct (n =? 33); [apply atleast_ret|intros o a o' E; discriminate].
  - intros v _. exact Logic.I.
  - intros e e' v _. apply modest_same. exact Logic.I.
  - intros e v b rest -> E _. injection E as <-. cbn [heard]. unfold dbind.
    pose proof (dbasic_rt e BU8 33 rest ltac:(cbn [basic_max]; num_pow; lia)) as D. cbn [dbasic enc_basic] in D.
    replace [n2b 33] with (word e 1 33) by (destruct e; reflexivity). rewrite D. reflexivity.
Qed.

Theorem C118_unsized_refuted :
  implements host64 (Marker host64) (fmarker host64)
  /\ exists X v w b, X = tuple_of 32 [vec_of host64 24 (Marker host64); of_ty host64 (TP U8)]
     /\ v = VSeq [VSeq [VUnit; VUnit]; VInt 7] /\ impl_to_vec host64 LE X v dirty = Ok b
     /\ impl_from_buffer LE X 0 b = (Ok w, 5) /\ w = VSeq [VSeq [VUnit; VUnit]; VInt 33] /\ nlen b = 7.
Proof.
  split; [exact (marker_implements host64 host64_valid)|].
  exists (tuple_of 32 [vec_of host64 24 (Marker host64); of_ty host64 (TP U8)]). eexists. eexists.
  exists [x02; x00; x00; x00; x21; x21; x07]. repeat split; try (vm_compute; reflexivity).
Qed.
Print Assumptions C118_unsized_refuted.

(** A `minimum_bytes_needed` that is too large, on any type inside, makes buffers refuse what
    streams deliver. *)
Theorem C118_minimum_refuted :
  exists X bs v, X = vec_of host64 24 (by_hand host64 2 VUnit 3 (RUint 2 (fun n => RReturn (VInt (Z.of_N n)))) (fun _ => WReturn))
    /\ impl_from_buffer LE X 0 bs = (Err UnexpectedEndOfInput, 4)
    /\ fst (impl_from_stream LE X dirty true {| is_rest := bs; is_sched := [] |}) = Ok v.
Proof.
  eexists. exists [x01; x00; x00; x00; x05; x00]. exists (VSeq [VInt 5]). split; [reflexivity|]. split; vm_compute; reflexivity.
Qed.
Print Assumptions C118_minimum_refuted.
