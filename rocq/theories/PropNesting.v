(* Property C119: recursive types with hand-written parts, also mutually recursive ones. *)
From Verif Require Import BaseFacts Samples Checker Errors Entry PropWrite PropReaders PropPrograms PropReadPrograms.
From Verif Require Import Impls Formats ImplFacts PropImpls.

(* ------------------------------------------------------------------ *)
(** * What is read near the end of the input *)

Definition left (o : option bytes) : N := match o with Some bs => nlen bs | None => 0 end.

(** Both formats have the same size, and from less than [k] bytes they read the same. *)
Record near (k : N) (F G : format) : Prop := {
  nr_size : fm_size F = fm_size G;
  nr_left : forall e, atleast 0 (fm_dec F e);
  nr_right : forall e, atleast 0 (fm_dec G e);
  nr_dec : forall e o, left o < k -> fm_dec F e o = fm_dec G e o
}.

Definition close {A} (k : N) (d d' : dec A) : Prop := forall o, left o < k -> d o = d' o.

Lemma close_refl {A} k (d : dec A) : close k d d.
Proof. intros o _. reflexivity. Qed.
Lemma close_le {A} k k' (d d' : dec A) : close k d d' -> k' <= k -> close k' d d'.
Proof. intros H Hk o Ho. apply H. lia. Qed.

Lemma left_le {A} m (d : dec A) o a o' : atleast m d -> d o = DOk a o' -> left o' + m <= left o \/ (left o' = 0 /\ m <= left o).
Proof. intros H E. specialize (H o a o' E). destruct o, o'; cbn [left]; lia. Qed.

(** After [m] bytes there are fewer left. *)
Lemma close_after {A B} m k k' (d d' : dec A) (c c' : A -> dec B) : atleast m d -> close k d d' -> 0 < k' -> k <= k' + m ->
  (forall a, close k' (c a) (c' a)) -> close k (dbind d c) (dbind d' c').
Proof.
  intros Hm Hd H0 Hk Hc o Ho. unfold dbind. rewrite <- (Hd o Ho). destruct (d o) as [a o'| | | |] eqn:E; try reflexivity.
  apply Hc. destruct (left_le m d o a o' Hm E); lia.
Qed.
Lemma close_bind {A B} k (d d' : dec A) (c c' : A -> dec B) : atleast 0 d -> close k d d' ->
  (forall a, close k (c a) (c' a)) -> close k (dbind d c) (dbind d' c').
Proof.
  intros Hm Hd Hc o Ho. unfold dbind. rewrite <- (Hd o Ho). destruct (d o) as [a o'| | | |] eqn:E; try reflexivity.
  apply Hc. destruct (left_le 0 d o a o' Hm E); lia.
Qed.
Lemma close_then {A B} k (d d' : dec A) (c : A -> dec B) : close k d d' -> close k (dbind d c) (dbind d' c).
Proof. intros H o Ho. unfold dbind. rewrite (H o Ho). reflexivity. Qed.
Lemma close_map {A B} k (f : A -> B) (d d' : dec A) : close k d d' -> close k (dmap f d) (dmap f d').
Proof. intros H o Ho. unfold dmap, dbind. rewrite (H o Ho). reflexivity. Qed.
Lemma close_unsure {A} k (d d' : dec A) : close k d d' -> close k (dunsure d) (dunsure d').
Proof. intros H o Ho. unfold dunsure. rewrite (H o Ho). reflexivity. Qed.
Lemma close_catch {A} k (x : A) (d d' : dec A) : close k d d' -> close k (dcatch x d) (dcatch x d').
Proof. intros H o Ho. unfold dcatch. rewrite (H o Ho). reflexivity. Qed.
Lemma close_repeat {A} k (d d' : dec A) n : atleast 0 d -> close k d d' -> close k (drepeat d n) (drepeat d' n).
Proof.
  intros Hm Hd. induction n as [|n IH]; cbn [drepeat]; [apply close_refl|]. apply close_bind; auto. intros a.
  intros o Ho. unfold dbind. rewrite (IH o Ho). reflexivity.
Qed.
Lemma close_until {A} k (d d' : dec A) : atleast 0 d -> close k d d' -> close k (duntil d) (duntil d').
Proof.
  intros Hm Hd.
  assert (Hl : forall j, close k (duntil_loop d j) (duntil_loop d' j)).
  { induction j as [|j IH]; intros o Ho; [reflexivity|]. cbn [duntil_loop]. rewrite <- (Hd o Ho).
    destruct (d o) as [a o'| | | |] eqn:E; try reflexivity. apply (close_map k (cons a) _ _ IH).
    destruct (left_le 0 d o a o' Hm E); lia. }
  intros o Ho. unfold duntil. destruct o as [bs|]; [|reflexivity]. apply Hl, Ho.
Qed.
Lemma close_pair k (d d' c c' : dec val) : atleast 0 d -> atleast 0 c -> close k d d' -> close k c c' -> close k (dpair d c) (dpair d' c').
Proof. intros Hd Hc Cd Cc. apply close_bind; auto. intros a. apply close_bind; auto. intros b. apply close_refl. Qed.

Section Near.
  Context (h : host).
  Notation lim := (h_lim h).

  Lemma near_refl k F : (forall e, atleast 0 (fm_dec F e)) -> near k F F.
  Proof. intros H. split; auto. Qed.
  Lemma near_le k k' F G : near k F G -> k' <= k -> near k' F G.
  Proof. intros [H1 H2 H3 H4] Hk. split; auto. intros e o Ho. apply H4. lia. Qed.

  (** Whether a container begins with its length. *)
  Definition has_prefix (l : lenspec) : bool := match l with LenPrefix _ _ => true | _ => false end.

  Lemma close_len {A} e l k (c c' : N -> dec A) t t' :
    (forall n, close (if has_prefix l then k - 1 else k) (c n) (c' n)) -> (l = LenEof -> close k t t') ->
    (forall o, c 0 o = c' 0 o) -> close k (dlen lim e l c t) (dlen lim e l c' t').
  Proof.
    intros Hc Ht H0. destruct l as [b lenient|[n|]|]; cbn [dlen has_prefix] in *; auto; [|apply close_refl].
    intros o Ho. unfold dbind.
    assert (Hp : forall a o', dprefix lim e b o = DOk a o' -> c a o' = c' a o').
    { intros a o' E. pose proof (atleast_prefix lim e b) as Hm.
      assert (Hb : 1 <= basic_size b) by (destruct b; cbn; lia).
      pose proof (Hm o a o' E) as Hx. destruct (N.eq_dec a 0) as [->|_]; [apply H0|]. apply Hc.
      destruct o as [bs|], o' as [r|]; cbn [left] in *; try lia. }
    destruct lenient.
    - unfold dcatch. destruct (dprefix lim e b o) as [a o'| |er []|f []|] eqn:E; try reflexivity; auto.
    - destruct (dprefix lim e b o) as [a o'| |er []|f []|] eqn:E; try reflexivity; auto.
  Qed.

  Inductive near_inner (k : N) (l : lenspec) : finner -> finner -> Prop :=
  | ni_own F G : near k F G -> near_inner k l (FOwn F) (FOwn G)
  | ni_vec F G : near (if has_prefix l then k - 1 else k) F G -> near_inner k l (FVec F) (FVec G)
  | ni_set c F G : near (if has_prefix l then k - 1 else k) F G -> near_inner k l (FSet c F) (FSet c G)
  | ni_map c F G F' G' : near (if has_prefix l then k - 1 else k) F G -> near (if has_prefix l then k - 1 else k) F' G' ->
      near_inner k l (FMap c F F') (FMap c G G')
  | ni_arr F G n : near k F G -> near_inner k l (FArr F n) (FArr G n).

  Lemma zero_rep {A} (d : dec A) n : atleast 0 d -> atleast 0 (drepeat d n).
  Proof. intros H. eapply atleast_le; [apply (atleast_repeat 0), H|lia]. Qed.
  Lemma zero_pair (d c : dec val) : atleast 0 d -> atleast 0 c -> atleast 0 (dpair d c).
  Proof. intros Hd Hc. apply atleast_then; [exact Hd|]. intros a. apply atleast_then; [exact Hc|]. intros; apply atleast_ret. Qed.
  Lemma zero_many F e n : atleast 0 (fm_dec F e) -> atleast 0 (dmany h F e n).
  Proof.
    intros H. unfold dmany. destruct (_ <=? _); [apply atleast_unsure, zero_rep, H|]. intros o a o' E. discriminate.
  Qed.
  Lemma zero_len {A} e l (c : N -> dec A) t : (forall n, atleast 0 (c n)) -> atleast 0 t -> atleast 0 (dlen lim e l c t).
  Proof. intros Hc Ht. eapply atleast_le; [apply (atleast_len lim e l c t Hc Ht)|lia]. Qed.

  Lemma inner_zero k l l' j j' : near_inner k l j j' -> forall e, atleast 0 (dinner h e l' j) /\ atleast 0 (dinner h e l' j').
  Proof.
    intros H e. destruct H as [F G H|F G H|c F G H|c F G F' G' H H'|F G n H]; pose proof (nr_left _ _ _ H e) as HL; pose proof (nr_right _ _ _ H e) as HR;
      cbn [dinner].
    - auto.
    - split; apply atleast_map, zero_len; intros; try apply zero_many; try (eapply atleast_until); eassumption.
    - split; (apply atleast_then; [apply zero_len; intros; try apply zero_rep; try (eapply atleast_until); eassumption|intros; apply atleast_ret]).
    - pose proof (nr_left _ _ _ H' e) as HL'. pose proof (nr_right _ _ _ H' e) as HR'.
      split; (apply atleast_then; [apply zero_len; intros; try apply zero_rep; try (eapply atleast_until); apply zero_pair; eassumption|intros; apply atleast_ret]).
    - split; apply atleast_map, zero_rep; assumption.
  Qed.

  Lemma inner_close k l j j' e : near_inner k l j j' -> close k (dinner h e l j) (dinner h e l j').
  Proof.
    intros H. destruct H as [F G H|F G H|c F G H|c F G F' G' H H'|F G n H]; pose proof (nr_left _ _ _ H e) as HL; pose proof (nr_dec _ _ _ H e) as HD;
      cbn [dinner].
    - exact HD.
    - apply close_map, close_len.
      + intros n. unfold dmany. rewrite (nr_size _ _ _ H). destruct (_ <=? _); [|apply close_refl].
        apply close_unsure, close_repeat; assumption.
      + intros ->. apply close_until; assumption.
      + intros o. unfold dmany. rewrite !N.mul_0_l. destruct (_ <=? _); reflexivity.
    - apply close_then, close_len.
      + intros n. apply close_repeat; assumption.
      + intros ->. apply close_until; assumption.
      + reflexivity.
    - pose proof (nr_left _ _ _ H' e) as HL'. pose proof (nr_dec _ _ _ H' e) as HD'. apply close_then, close_len.
      + intros n. apply close_repeat; [apply zero_pair|apply close_pair]; assumption.
      + intros ->. apply close_until; [apply zero_pair|apply close_pair]; assumption.
      + reflexivity.
    - apply close_map, close_repeat; assumption.
  Qed.

  (* ---------------------------------------------------------------- *)
  (** ** Containers *)

  Lemma near_inner_type k size j j' : near_inner k len0 j j' -> near k (finner_type h size j) (finner_type h size j').
  Proof.
    intros H. split; [reflexivity|intros e; apply (inner_zero k len0 len0 j j' H)|intros e; apply (inner_zero k len0 len0 j j' H)|].
    intros e. apply inner_close, H.
  Qed.

  Lemma near_pred k F G : near k F G -> near (k + 1 - 1) F G.
  Proof. intros H. rewrite N.add_sub. exact H. Qed.

  (** A length, a flag or a tag in front is at least one byte. *)
  Lemma near_vec k size F G : near k F G -> near (k + 1) (fvec h size F) (fvec h size G).
  Proof. intros H. apply near_inner_type, ni_vec, near_pred, H. Qed.
  Lemma near_set k size c F G : near k F G -> near (k + 1) (fset h size c F) (fset h size c G).
  Proof. intros H. apply near_inner_type, ni_set, near_pred, H. Qed.
  Lemma near_map k size c F G F' G' : near k F G -> near k F' G' -> near (k + 1) (fmap h size c F F') (fmap h size c G G').
  Proof. intros H H'. apply near_inner_type, ni_map; apply near_pred; assumption. Qed.
  Lemma near_arr k F G n : near k F G -> near k (farr h F n) (farr h G n).
  Proof. intros H. unfold farr. rewrite (nr_size _ _ _ H). apply near_inner_type, ni_arr, H. Qed.

  Lemma close_flag {A} k e (c c' : N -> dec A) : (forall n, close k (c n) (c' n)) -> close (k + 1) (n <-- dword e 1 ;; c n) (n <-- dword e 1 ;; c' n).
  Proof.
    intros H o Ho. unfold dbind. destruct (dword e 1 o) as [n o'| | | |] eqn:E; try reflexivity. apply H.
    pose proof (atleast_word1 e o n o' E) as Hm. destruct o, o'; cbn [left] in *; lia.
  Qed.

  Lemma near_option k size F G : near k F G -> near (k + 1) (foption size F) (foption size G).
  Proof.
    intros H. split; [reflexivity| | |].
    1, 2: intros e; cbn [foption fm_dec]; eapply atleast_le; [apply atleast_then; [apply atleast_word1|]|lia]; intros n;
      destruct (n =? 0); [apply atleast_ret|apply atleast_map; apply H].
    intros e. apply close_flag. intros n. destruct (n =? 0); [apply close_refl|apply close_map; exact (nr_dec _ _ _ H e)].
  Qed.

  Lemma near_result k size F G F' G' : near k F G -> near k F' G' -> near (k + 1) (fresult size F F') (fresult size G G').
  Proof.
    intros H H'. split; [reflexivity| | |].
    1, 2: intros e; cbn [fresult fm_dec]; eapply atleast_le; [apply atleast_then; [apply atleast_word1|]|lia]; intros n;
      destruct (n =? 0); [apply atleast_map; apply H'|apply atleast_map; apply H].
    intros e. apply close_flag. intros n. destruct (n =? 0); apply close_map; [exact (nr_dec _ _ _ H' e)|exact (nr_dec _ _ _ H e)].
  Qed.

  Lemma near_box k size F G : near k F G -> near k (fbox size F) (fbox size G).
  Proof. intros [H1 H2 H3 H4]. split; auto. Qed.

  Lemma near_tuple k size Fs Gs : Forall2 (near k) Fs Gs -> near k (ftuple size Fs) (ftuple size Gs).
  Proof.
    intros H. split; [reflexivity| | |].
    - intros e. apply atleast_map. induction H as [|F G Fs Gs H _ IH]; cbn [deach]; [apply atleast_ret|].
      apply atleast_then; [apply H|]. intros v. apply atleast_then; [exact IH|]. intros; apply atleast_ret.
    - intros e. apply atleast_map. induction H as [|F G Fs Gs H _ IH]; cbn [deach]; [apply atleast_ret|].
      apply atleast_then; [apply H|]. intros v. apply atleast_then; [exact IH|]. intros; apply atleast_ret.
    - intros e. apply close_map. induction H as [|F G Fs Gs H _ IH]; cbn [deach]; [apply close_refl|].
      apply close_bind; [apply H|exact (nr_dec _ _ _ H e)|]. intros v. apply close_then. exact IH.
  Qed.

  (* ---------------------------------------------------------------- *)
  (** ** Structs and enums *)

  Inductive near_member (k : N) (a : fattrs) : fmember -> fmember -> Prop :=
  | nm_same g : (forall e prev, atleast 0 (dmember h e prev a g)) -> near_member k a g g
  | nm_plain j j' : (forall prev, near_inner k (resolve (f_eof a) prev (f_len a)) j j') -> near_member k a (GPlain j) (GPlain j')
  | nm_option j j' : (forall prev, near_inner (k - 1) (resolve (f_eof a) prev (f_len a)) j j') -> near_member k a (GOption j) (GOption j').

  Lemma zero_if (b : bool) (d : val) (m : dec val) : atleast 0 m -> atleast 0 (if b then dcatch d m else m).
  Proof. intros H. destruct b; [eapply atleast_catch, H|exact H]. Qed.
  Lemma close_if k (b : bool) (d : val) (m m' : dec val) : close k m m' -> close k (if b then dcatch d m else m) (if b then dcatch d m' else m').
  Proof. intros H. destruct b; [apply close_catch, H|exact H]. Qed.

  Lemma member_zero k a g g' : near_member k a g g' -> forall e prev, atleast 0 (dmember h e prev a g) /\ atleast 0 (dmember h e prev a g').
  Proof.
    assert (HP : forall (d : dec val), atleast 0 d -> atleast 0 (_ <-- dconst (f_prefix a) ;; d)).
    { intros d Hd. eapply atleast_le; [apply atleast_then; [apply atleast_const|]|lia]. intros; exact Hd. }
    assert (HF : forall e (d : dec val), atleast 0 d -> atleast 0 (n <-- dword e 1 ;; if n =? 0 then dret VNone else dmap VSome d)).
    { intros e d Hd. eapply atleast_le; [apply atleast_then; [apply atleast_word1|]|lia]. intros n.
      destruct (n =? 0); [apply atleast_ret|apply atleast_map, Hd]. }
    intros H e prev. destruct H as [g H|j j' H|j j' H]; [auto| |];
      destruct (inner_zero _ _ (resolve (f_eof a) prev (f_len a)) j j' (H prev) e) as (H1 & H2); cbn [dmember]; split; apply zero_if, HP;
      try apply HF; assumption.
  Qed.

  Lemma member_close k a g g' e prev : near_member k a g g' -> close k (dmember h e prev a g) (dmember h e prev a g').
  Proof.
    assert (HP : forall (d d' : dec val), close k d d' -> close k (_ <-- dconst (f_prefix a) ;; d) (_ <-- dconst (f_prefix a) ;; d')).
    { intros d d' Hd. apply close_bind; [eapply atleast_le; [apply atleast_const|lia]|apply close_refl|]. intros; exact Hd. }
    intros H. destruct H as [g H|j j' H|j j' H]; cbn [dmember]; [apply close_refl| |].
    - apply close_if, HP, inner_close, H.
    - apply close_if, HP. apply close_le with (k - 1 + 1); [|lia]. apply close_flag. intros n.
      destruct (n =? 0); [apply close_refl|]. apply close_map, inner_close, H.
  Qed.

  (** [free]: something has been read before. *)
  Definition level (k : N) (free : bool) : N := if free then k else k + 1.

  Inductive near_members (k : N) : bool -> fmembers -> fmembers -> Prop :=
  | nms_nil free : near_members k free [] []
  | nms_skip free a g g' gs gs' : f_skip a = true -> near_members k free gs gs' -> near_members k free ((a, g) :: gs) ((a, g') :: gs')
  | nms_cons free reads a g g' gs gs' : f_skip a = false -> near_member (level k free) a g g' ->
      (reads = true -> forall e prev, atleast 1 (dmember h e prev a g)) ->
      near_members k (free || reads) gs gs' -> near_members k free ((a, g) :: gs) ((a, g') :: gs').

  Lemma members_zero k free gs gs' : near_members k free gs gs' ->
    forall e prev, atleast 0 (dmembers h e prev gs) /\ atleast 0 (dmembers h e prev gs').
  Proof.
    intros H. induction H as [free|free a g g' gs gs' Hs _ IH|free reads a g g' gs gs' Hs H _ _ IH]; intros e prev; cbn [dmembers].
    - split; apply atleast_ret.
    - rewrite Hs. split; apply atleast_map, IH.
    - rewrite Hs. destruct (member_zero _ _ _ _ H e prev) as (H1 & H2).
      split; (apply atleast_then; [assumption|]; intros v; apply atleast_then; [apply IH|intros; apply atleast_ret]).
  Qed.

  Lemma members_close k free gs gs' e : near_members k free gs gs' ->
    forall prev, close (level k free) (dmembers h e prev gs) (dmembers h e prev gs').
  Proof.
    intros H. induction H as [free|free a g g' gs gs' Hs _ IH|free reads a g g' gs gs' Hs H Hr _ IH]; intros prev; cbn [dmembers].
    - apply close_refl.
    - rewrite Hs. apply close_map, IH.
    - rewrite Hs. pose proof (member_close _ _ _ _ e prev H) as HC. destruct (member_zero _ _ _ _ H e prev) as (HZ & _).
      destruct reads.
      + rewrite orb_true_r in IH. intros o Ho. unfold dbind at 1 3. rewrite <- (HC o Ho).
        destruct (dmember h e prev a g o) as [v o'| | | |] eqn:E; try reflexivity.
        refine (close_then (level k true) _ _ _ (IH _) o' _). pose proof (Hr eq_refl e prev o v o' E) as Hm. unfold level in *. destruct free, o, o'; cbn [left] in *; lia.
      + rewrite orb_false_r in IH. apply close_bind; auto. intros v. apply close_then, IH.
  Qed.

  Lemma near_struct k size gs gs' : near_members k false gs gs' -> near (k + 1) (fstruct h size gs) (fstruct h size gs').
  Proof.
    intros H. split; [reflexivity| | |].
    - intros e. apply atleast_map, (members_zero k false gs gs' H).
    - intros e. apply atleast_map, (members_zero k false gs gs' H).
    - intros e. apply close_map, (members_close k false gs gs' e H).
  Qed.

  (** Behind a tag that is read, the fields of a variant may begin with anything. *)
  Lemma near_enum k size d vs vs' :
    Forall2 (fun v v' => fst v = fst v' /\ near_members k (negb (e_peek d)) (snd v) (snd v')) vs vs' ->
    near (k + 1) (fenum h size d vs) (fenum h size d vs').
  Proof.
    intros H.
    assert (HZ : forall e tag i, atleast 0 (dvariant_of h e tag i vs) /\ atleast 0 (dvariant_of h e tag i vs')).
    { intros e tag. induction H as [|[g ms] [g' ms'] vs vs' (Hg & Hm) _ IH]; intros i; cbn [dvariant_of].
      - split; intros o a o' E; discriminate.
      - cbn [fst snd] in *. subst g'. destruct (g =? tag); [|apply IH]. split; apply atleast_map, (members_zero _ _ _ _ Hm). }
    assert (HT : forall e, atleast 0 (if e_peek d then dpeek (dbasic e (e_tag d)) else dbasic e (e_tag d))).
    { intros e. destruct (e_peek d); [eapply atleast_peek|eapply atleast_le; [|apply N.le_0_l]]; apply atleast_basic. }
    split; [reflexivity| | |].
    - intros e. apply atleast_then; [apply HT|]. intros tag. apply HZ.
    - intros e. apply atleast_then; [apply HT|]. intros tag. apply HZ.
    - intros e o Ho. cbn [fenum fm_dec]. unfold dbind.
      destruct ((if e_peek d then dpeek (dbasic e (e_tag d)) else dbasic e (e_tag d)) o) as [tag o'| | | |] eqn:E; try reflexivity.
      assert (Hl : left o' < level k (negb (e_peek d))).
      { destruct (e_peek d); cbn [negb level].
        - unfold dpeek in E. destruct (dbasic e (e_tag d) o); try discriminate. injection E as _ <-. exact Ho.
        - pose proof (atleast_basic e (e_tag d) o tag o' E) as Hm.
          assert (1 <= basic_size (e_tag d)) by (destruct (e_tag d); cbn; lia).
          destruct o, o'; cbn [left] in *; lia. }
      clear E HZ HT. generalize 0%nat. induction H as [|[g ms] [g' ms'] vs vs' (Hg & Hm) _ IH]; intros i; cbn [dvariant_of]; [reflexivity|].
      cbn [fst snd] in *. subst g'. destruct (g =? tag); [|apply IH]. exact (close_map _ (VVar i) _ _ (members_close _ _ _ _ e Hm []) o' Hl).
  Qed.
End Near.

(* ------------------------------------------------------------------ *)
(** * What is written at greater depth *)

(** [G] writes all values of [F], and in the same way. *)
Record grows (F G : format) : Prop := {
  gr_size : fm_size F = fm_size G;
  gr_ok : forall v, fm_ok F v -> fm_ok G v;
  gr_enc : forall e v, fm_ok F v -> fm_enc F e v = fm_enc G e v
}.

Section Grows.
  Context (h : host) (VH : valid_host h).

  Lemma grows_refl F : grows F F.
  Proof. split; auto. Qed.
  Lemma grows_none size G : fm_size G = size -> grows (fnone size) G.
  Proof. intros H. split; [symmetry; exact H|contradiction|contradiction]. Qed.

  Lemma all_enc (f g : val -> res bytes) vs : (forall v, In v vs -> f v = g v) -> enc_all f vs = enc_all g vs.
  Proof.
    intros H. unfold enc_all. f_equal. induction vs as [|v vs IH]; [reflexivity|]. cbn [rmapM].
    rewrite (H v) by (left; reflexivity). rewrite IH by (intros; apply H; right; assumption). reflexivity.
  Qed.

  Inductive grown_inner : finner -> finner -> Prop :=
  | gi_own F G : grows F G -> grown_inner (FOwn F) (FOwn G)
  | gi_vec F G : grows F G -> grown_inner (FVec F) (FVec G)
  | gi_set c F G : grows F G -> grown_inner (FSet c F) (FSet c G)
  | gi_map c F G F' G' : grows F G -> grows F' G' -> grown_inner (FMap c F F') (FMap c G G')
  | gi_arr F G n : grows F G -> grown_inner (FArr F n) (FArr G n).

  Lemma Forall_iter c (P : val -> Prop) vs v : Forall P vs -> In v (iter_order (h_iter h) c vs) -> P v.
  Proof. intros H Hi. apply (iter_Forall h VH c) in H. rewrite Forall_forall in H. apply H, Hi. Qed.

  Lemma inner_grown j j' v : grown_inner j j' -> inner_ok h j v -> inner_ok h j' v /\ forall e l, einner h e l j v = einner h e l j' v.
  Proof.
    intros H Hv. destruct H as [F G H|F G H|c F G H|c F G F' G' H H'|F G n H]; [split; [apply H, Hv|intros; apply H, Hv]| | | |];
      destruct v as [| | | |vs| | | | |]; try contradiction; cbn [inner_ok einner] in *.
    - destruct Hv as (Hv & Hs & Ha). rewrite (gr_size _ _ H) in Ha. split; [split; [eapply Forall_impl; [apply H|exact Hv]|auto]|].
      intros e l. f_equal. apply all_enc. intros v Hin. apply H. rewrite Forall_forall in Hv. apply Hv, Hin.
    - destruct Hv as (Hv & Hs & Hk). split; [split; [eapply Forall_impl; [apply H|exact Hv]|auto]|].
      intros e l. f_equal. apply all_enc. intros v Hin. apply H. exact (Forall_iter c _ _ v Hv Hin).
    - destruct Hv as (Hv & Hs & Hk). split; [split; [|auto]|].
      + eapply Forall_impl; [|exact Hv]. intros [| | | |[|a [|b [|]]]| | | | |] Hp; try contradiction.
        destruct Hp as (Ha & Hb). split; [apply H, Ha|apply H', Hb].
      + intros e l. f_equal. apply all_enc. intros v Hin. pose proof (Forall_iter c _ _ v Hv Hin) as Hp.
        destruct v as [| | | |[|a [|b [|]]]| | | | |]; try contradiction. destruct Hp as (Ha & Hb).
        unfold pair_enc, enc_pair. rewrite (gr_enc _ _ H e a Ha), (gr_enc _ _ H' e b Hb). reflexivity.
    - destruct Hv as (Hv & Hn). split; [split; [eapply Forall_impl; [apply H|exact Hv]|auto]|].
      intros e l. apply all_enc. intros v Hin. apply H. rewrite Forall_forall in Hv. apply Hv, Hin.
  Qed.

  Lemma grows_inner size j j' : grown_inner j j' -> grows (finner_type h size j) (finner_type h size j').
  Proof.
    intros H. split; [reflexivity|intros v Hv; apply (inner_grown j j' v H Hv)|]. intros e v Hv. apply (inner_grown j j' v H Hv).
  Qed.
  Lemma grows_vec size F G : grows F G -> grows (fvec h size F) (fvec h size G).
  Proof. intros H. apply grows_inner, gi_vec, H. Qed.
  Lemma grows_set size c F G : grows F G -> grows (fset h size c F) (fset h size c G).
  Proof. intros H. apply grows_inner, gi_set, H. Qed.
  Lemma grows_map size c F G F' G' : grows F G -> grows F' G' -> grows (fmap h size c F F') (fmap h size c G G').
  Proof. intros H H'. apply grows_inner, gi_map; assumption. Qed.
  Lemma grows_arr F G n : grows F G -> grows (farr h F n) (farr h G n).
  Proof. intros H. unfold farr. rewrite (gr_size _ _ H). apply grows_inner, gi_arr, H. Qed.

  Lemma grows_option size F G : grows F G -> grows (foption size F) (foption size G).
  Proof.
    intros H. split; [reflexivity|intros [] Hv; try contradiction; auto; apply H, Hv|].
    intros e [] Hv; try contradiction; cbn [foption fm_enc fm_ok] in *; [reflexivity|]. rewrite (gr_enc _ _ H e _ Hv). reflexivity.
  Qed.
  Lemma grows_result size F G F' G' : grows F G -> grows F' G' -> grows (fresult size F F') (fresult size G G').
  Proof.
    intros H H'. split; [reflexivity|intros [] Hv; try contradiction; [apply H, Hv|apply H', Hv]|].
    intros e [] Hv; try contradiction; cbn [fresult fm_enc fm_ok] in *; [rewrite (gr_enc _ _ H e _ Hv)|rewrite (gr_enc _ _ H' e _ Hv)]; reflexivity.
  Qed.
  Lemma grows_box size F G : grows F G -> grows (fbox size F) (fbox size G).
  Proof. intros [H1 H2 H3]. split; auto. Qed.
  Lemma grows_tuple size Fs Gs : Forall2 grows Fs Gs -> grows (ftuple size Fs) (ftuple size Gs).
  Proof.
    intros H.
    assert (HT : forall vs, each_ok Fs vs -> each_ok Gs vs /\ forall e, eeach e Fs vs = eeach e Gs vs).
    { induction H as [|F G Fs Gs H _ IH]; intros [|v vs] Hv; try contradiction; [split; auto|]. destruct Hv as (Hv & Hvs).
      destruct (IH vs Hvs) as (H1 & H2). split; [split; [apply H, Hv|exact H1]|]. intros e. cbn [eeach]. rewrite (gr_enc _ _ H e v Hv), H2. reflexivity. }
    split; [reflexivity|intros [| | | |vs| | | | |] Hv; try contradiction; apply HT, Hv|].
    intros e [| | | |vs| | | | |] Hv; try contradiction. apply HT, Hv.
  Qed.

  Inductive grown_member : fmember -> fmember -> Prop :=
  | gm_same g : grown_member g g
  | gm_plain j j' : grown_inner j j' -> grown_member (GPlain j) (GPlain j')
  | gm_option j j' : grown_inner j j' -> grown_member (GOption j) (GOption j').

  Lemma member_grown a g g' v : grown_member g g' -> member_ok h a g v ->
    member_ok h a g' v /\ (f_skip a = false -> forall e prev, emember h e prev a g v = emember h e prev a g' v).
  Proof.
    intros H Hv. unfold member_ok in *. destruct (f_skip a); [split; [exact Hv|discriminate]|].
    destruct H as [g|j j' H|j j' H]; [auto| |].
    - destruct (inner_grown j j' v H Hv) as (H1 & H2). split; [exact H1|]. intros _ e prev. cbn [emember]. rewrite H2. reflexivity.
    - destruct v; try contradiction; [auto|]. destruct (inner_grown j j' v H Hv) as (H1 & H2). split; [exact H1|].
      intros _ e prev. cbn [emember]. rewrite H2. reflexivity.
  Qed.

  Definition grown_members : fmembers -> fmembers -> Prop := Forall2 (fun m m' => fst m = fst m' /\ grown_member (snd m) (snd m')).

  Lemma members_grown gs gs' : grown_members gs gs' -> forall vs, members_ok h gs vs ->
    members_ok h gs' vs /\ forall e prev, emembers h e prev gs vs = emembers h e prev gs' vs.
  Proof.
    intros H. induction H as [|[a g] [a' g'] gs gs' (Ha & Hg) _ IH]; intros [|v vs] Hv; try contradiction; [split; auto|].
    cbn [fst snd] in *. subst a'. destruct Hv as (Hv & Hvs). destruct (IH vs Hvs) as (H1 & H2). destruct (member_grown a g g' v Hg Hv) as (H3 & H4).
    split; [split; assumption|]. intros e prev. cbn [emembers]. destruct (f_skip a); [apply H2|]. rewrite (H4 eq_refl), H2. reflexivity.
  Qed.

  Lemma grows_struct size gs gs' : grown_members gs gs' -> grows (fstruct h size gs) (fstruct h size gs').
  Proof.
    intros H. split; [reflexivity|intros [| | | |vs| | | | |] Hv; try contradiction; apply (members_grown gs gs' H vs Hv)|].
    intros e [| | | |vs| | | | |] Hv; try contradiction. apply (members_grown gs gs' H vs Hv).
  Qed.

  Lemma grows_enum size d vs vs' : Forall2 (fun v v' => fst v = fst v' /\ grown_members (snd v) (snd v')) vs vs' ->
    grows (fenum h size d vs) (fenum h size d vs').
  Proof.
    intros H.
    assert (HV : forall i us, variant_ok h d vs i us -> variant_ok h d vs' i us /\ forall e, evariant_of h e d vs i us = evariant_of h e d vs' i us).
    { intros i us. unfold variant_ok, evariant_of. revert i.
      induction H as [|[g ms] [g' ms'] vs vs' (Hg & Hm) _ IH]; intros [|i]; cbn [nth_error]; try contradiction; [|apply IH].
      cbn [fst snd] in *. subst g'. intros (Hv & Hb). destruct (members_grown ms ms' Hm us Hv) as (H1 & H2).
      split; [split; [exact H1|]|].
      - intros Hp e b E. apply (Hb Hp e b). rewrite H2. exact E.
      - intros e. rewrite H2. reflexivity. }
    split; [reflexivity|intros [| | | | | | | | |i us] Hv; try contradiction; apply HV, Hv|].
    intros e [| | | | | | | | |i us] Hv; try contradiction. apply HV, Hv.
  Qed.
End Grows.

(* ------------------------------------------------------------------ *)
(** * Declarations that mention each other *)

Section Nest.
  Context (h : host) (VH : valid_host h).
  (** The declared types are named by [K].  Given implementations of all of them, [body] is
      the code generated for their declarations; [fbody] what they look like on the wire. *)
  Context {K : Type} (size : K -> N) (body : (K -> impl) -> K -> impl) (fbody : (K -> format) -> K -> format).

  (** The code with [n] levels of calls. *)
  Definition nested (n : nat) : K -> impl := Nat.iter n body (fun i => no_impl (size i)).
  Definition fnested (n : nat) : K -> format := Nat.iter n fbody (fun i => fnone (size i)).

  (** The declarations are put together from parts as in C118. *)
  Definition well_made : Prop := forall X F, (forall i, element h (X i) (F i) /\ fm_size (F i) = size i) ->
    forall i, element h (body X i) (fbody F i) /\ fm_size (fbody F i) = size i.

  (** Every way around takes a byte. *)
  Definition takes_bytes : Prop := forall k F G, (forall i, near k (F i) (G i)) -> forall i, near (k + 1) (fbody F i) (fbody G i).

  (** Greater depth takes no values away. *)
  Definition keeps_values : Prop := forall F G, (forall i, grows (F i) (G i)) -> forall i, grows (fbody F i) (fbody G i).

  Context (WM : well_made).

  Lemma nested_follows n i : element h (nested n i) (fnested n i) /\ fm_size (fnested n i) = size i.
  Proof.
    revert i. induction n as [|n IH]; intros i.
    - split; [split; [apply C118_none|reflexivity]|reflexivity].
    - apply (WM (nested n) (fnested n) IH i).
  Qed.

  Lemma nested_near (TB : takes_bytes) F G : (forall i, fm_size (F i) = fm_size (G i)) ->
    (forall i e, atleast 0 (fm_dec (F i) e)) -> (forall i e, atleast 0 (fm_dec (G i) e)) ->
    forall n i, near (N.of_nat n) (Nat.iter n fbody F i) (Nat.iter n fbody G i).
  Proof.
    intros Hs HF HG n. induction n as [|n IH]; intros i.
    - split; auto. intros e o Ho. cbn in Ho. lia.
    - replace (N.of_nat (S n)) with (N.of_nat n + 1) by lia. apply (TB _ (Nat.iter n fbody F) (Nat.iter n fbody G) IH i).
  Qed.

  (** The type itself: from an input of fewer than [n] bytes, nesting beyond [n] is not reached,
      whatever there is. *)
  Theorem C119_bottom (TB : takes_bytes) F G n i e bs : (forall i, fm_size (F i) = fm_size (G i)) ->
    (forall i e, atleast 0 (fm_dec (F i) e)) -> (forall i e, atleast 0 (fm_dec (G i) e)) -> nlen bs < N.of_nat n ->
    fm_dec (Nat.iter n fbody F i) e (Some bs) = fm_dec (Nat.iter n fbody G i) e (Some bs).
  Proof. intros Hs HF HG Hn. apply (nr_dec _ _ _ (nested_near TB F G Hs HF HG n i)). exact Hn. Qed.

  Lemma iter_add n m F : Nat.iter (n + m) fbody F = Nat.iter n fbody (Nat.iter m fbody F).
  Proof. induction n as [|n IH]; [reflexivity|]. exact (f_equal fbody IH). Qed.

  Theorem C119_depth (TB : takes_bytes) n m i e bs : nlen bs < N.of_nat n -> (n <= m)%nat ->
    fm_dec (fnested n i) e (Some bs) = fm_dec (fnested m i) e (Some bs).
  Proof.
    intros Hn Hm. replace m with (n + (m - n))%nat by lia. unfold fnested at 2. rewrite iter_add. apply C119_bottom; auto.
    - intros j. symmetry. apply (nested_follows (m - n) j).
    - intros j e'. apply atleast_panic.
    - intros j e'. exact (im_zero h _ _ e' (proj1 (proj1 (nested_follows (m - n) j)))).
  Qed.

  (** Values have a finite depth; whatever is deeper writes them alike. *)
  Theorem C119_values (KV : keeps_values) n m i v : (n <= m)%nat -> fm_ok (fnested n i) v ->
    fm_ok (fnested m i) v /\ forall e, fm_enc (fnested n i) e v = fm_enc (fnested m i) e v.
  Proof.
    intros Hm Hv.
    assert (H : grows (fnested n i) (fnested m i)); [|split; [apply H, Hv|intros e; apply H, Hv]].
    clear v Hv. revert m Hm i. induction n as [|n IH]; intros m Hm i.
    - apply grows_none, (nested_follows m i).
    - destruct m as [|m]; [lia|]. apply (KV (fnested n) (fnested m)). intros j. apply IH. lia.
  Qed.

  (** Written and read at any depth that reaches the value's: these are its bytes, and it comes
      back. *)
  Theorem C119_round_trip (KV : keeps_values) n m m' i e mem v b rest : (forall n, n <= nlen (mem n)) ->
    fm_ok (fnested n i) v -> fm_enc (fnested n i) e v = Ok b -> (n <= m)%nat -> (n <= m')%nat -> nlen (b ++ rest) <= h_alloc_max h ->
    impl_to_vec h e (nested m i) v mem = Ok b
    /\ (forall addr, impl_from_buffer e (nested m' i) addr (b ++ rest) = (Ok v, nlen b))
    /\ impl_from_copied e (nested m' i) (b ++ rest) = (Ok v, nlen b)
    /\ forall mem' buffering sched, (forall n, n <= nlen (mem' n)) -> no_errors sched ->
         fst (impl_from_stream e (nested m' i) mem' buffering {| is_rest := b ++ rest; is_sched := sched |}) = Ok v.
  Proof.
    intros Hmem Hv Hb Hm Hm' Hl.
    assert (HR : forall k, (n <= k)%nat -> _) by
      (intros k Hk; destruct (C119_values KV n k i v Hk Hv) as (Hv' & Hb'); destruct (nested_follows k i) as ((HI & Ho) & _);
       exact (C118_round_trip h VH (nested k i) (fnested k i) HI e mem v b rest Hmem Hv' (eq_trans (eq_sym (Hb' e)) Hb)
                (fun E => False_ind _ (Bool.diff_true_false (eq_trans (eq_sym E) Ho))) Hl)).
    split; [apply (HR m Hm)|apply (HR m' Hm')].
  Qed.

  (** What a value that cannot be written does at one depth it does at all. *)
  Theorem C119_unwritable (KV : keeps_values) n m i e mem v : fm_ok (fnested n i) v -> (forall b, fm_enc (fnested n i) e v <> Ok b) ->
    (n <= m)%nat -> (forall b, impl_to_vec h e (nested m i) v mem <> Ok b) /\ forall o, fst (impl_to_stream h e (nested m i) v o) <> Ok tt.
  Proof.
    intros Hv Hb Hm. destruct (C119_values KV n m i v Hm Hv) as (Hv' & Hb').
    destruct (C118_unwritable h (nested m i) (fnested m i) (proj1 (proj1 (nested_follows m i))) e mem v Hv') as (H1 & _ & H3);
      [|split; assumption]. intros b. rewrite <- Hb'. apply Hb.
  Qed.

  (** Hostile or not, there is one answer to every input: that of any depth greater than its
      length.  Streams and buffers give it. *)
  Theorem C119_reading (TB : takes_bytes) n m i e bs : nlen bs < N.of_nat n -> (n <= m)%nat -> nlen bs <= h_alloc_max h ->
    let answer := fm_dec (fnested n i) e (Some bs) in
    (forall addr, if i_min (nested m i) <=? nlen bs
       then agrees answer (fst (impl_from_buffer e (nested m i) addr bs)) /\ agrees answer (fst (impl_from_copied e (nested m i) bs))
       else forall v o, answer <> DOk v o)
    /\ forall mem buffering sched, (forall n, n <= nlen (mem n)) -> no_errors sched ->
         agrees answer (fst (impl_from_stream e (nested m i) mem buffering {| is_rest := bs; is_sched := sched |})).
  Proof.
    intros Hn Hm Hl answer. pose proof (vh_alloc h VH) as Ha.
    assert (EA : answer = fm_dec (fnested m i) e (Some bs)) by (apply C119_depth; assumption). clearbody answer. subst answer.
    pose proof (proj1 (proj1 (nested_follows m i))) as HI. split.
    - intros addr. pose proof (C118_buffers h VH (nested m i) (fnested m i) HI e addr bs Hl) as H.
      destruct (_ <=? _); [apply H|]. apply H.
    - intros mem buffering sched Hmem Hsc.
      pose proof (C118_streams h (nested m i) (fnested m i) HI e mem buffering {| is_rest := bs; is_sched := sched |} Hmem (Hsc _) ltac:(cbn [is_rest]; lia)) as H.
      destruct (impl_from_stream e (nested m i) mem buffering _) as [r s]. cbn [fst is_sched is_rest] in *.
      destruct H as [(k & _ & Hk)|(H & _)]; [destruct (Hsc k Hk)|exact H].
  Qed.
End Nest.
Print Assumptions C119_bottom.
Print Assumptions C119_depth.
Print Assumptions C119_values.
Print Assumptions C119_round_trip.
Print Assumptions C119_unwritable.
Print Assumptions C119_reading.

(* ------------------------------------------------------------------ *)
(** * Cases *)

(** Two types that mention each other, with hand-written parts:
    struct Dir { made: Stamp, entries: Vec<Entry> }
    enum Entry { File(Stamp), Dir(Box<Dir>), Links(BTreeMap<String, Entry>), Alias(Option<Box<Entry>>) } *)
Inductive decls := Dir | Entry.

Definition tree_size (d : decls) : N := match d with Dir => 40 | Entry => 32 end.
Definition tree_tag : edecl := {| e_tag := BU8; e_peek := false |}.
Definition tree (h : host) (X : decls -> impl) (d : decls) : impl :=
  match d with
  | Dir => struct_of h 40 VUnit [(plain, MPlain (NOwn (Stamp h))); (plain, MPlain (NVec (X Entry)))]
  | Entry => enum_of h 32 VUnit tree_tag
      [(0, [(plain, MPlain (NOwn (Stamp h)))]);
       (1, [(plain, MPlain (NOwn (box_of 8 (X Dir))))]);
       (2, [(plain, MPlain (NMap false (of_ty h (TStr KString)) (X Entry)))]);
       (3, [(plain, MOption (NOwn (box_of 8 (X Entry))))])]
  end.
Definition ftree (h : host) (F : decls -> format) (d : decls) : format :=
  match d with
  | Dir => fstruct h 40 [(plain, GPlain (FOwn (fstamp h))); (plain, GPlain (FVec (F Entry)))]
  | Entry => fenum h 32 tree_tag
      [(0, [(plain, GPlain (FOwn (fstamp h)))]);
       (1, [(plain, GPlain (FOwn (fbox 8 (F Dir))))]);
       (2, [(plain, GPlain (FMap CBTree (fty h (TStr KString)) (F Entry)))]);
       (3, [(plain, GOption (FOwn (fbox 8 (F Entry))))])]
  end.

Lemma tree_made : well_made host64 tree_size (tree host64) (ftree host64).
Proof.
  intros X F HX d. pose proof (stamp_implements host64 host64_valid) as HS.
  assert (EN : element host64 (of_ty host64 (TStr KString)) (fty host64 (TStr KString))) by (split; [exact string_implements|reflexivity]).
  destruct (HX Dir) as ((HD & OD) & _). destruct (HX Entry) as ((HE & OE) & SE).
  assert (Hne : i_size (X Entry) = 0 -> False) by (rewrite (im_size _ _ _ HE), SE; discriminate).
  destruct d; (split; [split|reflexivity]).
  - apply (C118_struct host64 host64_valid).
    apply ms_cons; [reflexivity| |discriminate|].
    { apply mf_plain; [vm_compute; discriminate|apply (own_follows host64), HS|discriminate]. }
    apply ms_cons; [reflexivity| |discriminate|apply ms_nil].
    apply mf_plain; [vm_compute; discriminate| |discriminate]. apply (vec_follows host64 host64_valid); [split; assumption|].
    intros E. destruct (Hne E).
  - reflexivity.
  - apply (C118_enum host64 host64_valid).
    + constructor; [|constructor; [|constructor; [|constructor; [|constructor]]]]; (split; [reflexivity|]);
        (apply ms_cons; [reflexivity| |cbn [member_open snd fst f_skip plain negb andb inner_open to_eof f_len fbox fm_open fstamp fhand]; congruence|apply ms_nil]).
      * apply mf_plain; [vm_compute; discriminate|apply (own_follows host64), HS|discriminate].
      * apply mf_plain; [vm_compute; discriminate|apply (own_follows host64), C118_box, HD|discriminate].
      * apply mf_plain; [vm_compute; discriminate|apply (map_follows host64 host64_valid false); [exact EN|split; assumption]|discriminate].
      * apply mf_option; [vm_compute; discriminate|apply (own_follows host64), C118_box, HE|discriminate].
    + repeat constructor; cbn; intuition discriminate.
    + repeat constructor; vm_compute; discriminate.
    + discriminate.
  - cbn [ftree fenum fm_open existsb snd members_open fst member_open f_skip plain negb andb inner_open to_eof f_len fbox fstamp fhand].
    rewrite OD, OE. reflexivity.
Qed.

Lemma tree_takes : takes_bytes (ftree host64).
Proof.
  intros k F G H d. pose proof (stamp_implements host64 host64_valid) as HS.
  assert (NS : forall k, near k (fstamp host64) (fstamp host64)) by (intros j; apply near_refl; intros e; exact (im_zero _ _ _ e HS)).
  assert (NN : forall k, near k (fty host64 (TStr KString)) (fty host64 (TStr KString)))
    by (intros j; apply near_refl; intros e; exact (im_zero _ _ _ e string_implements)).
  destruct d.
  - apply near_struct.
    apply (nms_cons host64 k false true); [reflexivity|apply nm_plain; intros prev; apply ni_own, NS| |].
    { intros _ e prev. cbn [dmember f_eof plain]. eapply atleast_le; [apply (atleast_bind 0 4)|lia].
      - eapply atleast_le; [apply atleast_const|lia].
      - intros _. apply HS. }
    apply (nms_cons host64 k true false); [reflexivity|apply nm_plain; intros prev; apply ni_vec|discriminate|apply nms_nil].
    eapply near_le; [apply H|cbn; lia].
  - apply near_enum. constructor; [|constructor; [|constructor; [|constructor; [|constructor]]]]; (split; [reflexivity|]);
      (apply (nms_cons host64 k true false); [reflexivity| |discriminate|apply nms_nil]).
    + apply nm_plain. intros prev. apply ni_own, NS.
    + apply nm_plain. intros prev. apply ni_own, near_box, H.
    + apply nm_plain. intros prev. apply ni_map; [apply NN|eapply near_le; [apply H|cbn; lia]].
    + apply nm_option. intros prev. apply ni_own, near_box. eapply near_le; [apply H|cbn; lia].
Qed.

Lemma tree_keeps : keeps_values (ftree host64).
Proof.
  intros F G H d. destruct d.
  - apply (grows_struct host64 host64_valid). constructor; [split; [reflexivity|apply gm_same]|]. constructor; [|constructor].
    split; [reflexivity|]. apply gm_plain, gi_vec, H.
  - apply (grows_enum host64 host64_valid). constructor; [|constructor; [|constructor; [|constructor; [|constructor]]]];
      (split; [reflexivity|]); (constructor; [|constructor]); (split; [reflexivity|]); cbn [snd].
    + apply gm_same.
    + apply gm_plain, gi_own, grows_box, H.
    + apply gm_plain, gi_map; [apply grows_refl|apply H].
    + apply gm_option, gi_own, grows_box, H.
Qed.

Definition tree_value : val :=
  VSeq [stamp 1 2; VSeq [VVar 0 [stamp 3 4]; VVar 1 [VSeq [stamp 5 6; VSeq []]];
                         VVar 2 [VSeq [VSeq [VBytes [x61]; VVar 3 [VSome (VVar 0 [stamp 7 8])]]]]; VVar 3 [VNone]]].
Definition tree_bytes : bytes :=
  [x40; x01; x00; x02; x04; x00; x00; x00; x00; x40; x03; x00; x04; x01; x40; x05; x00; x06; x00; x00; x00; x00;
   x02; x01; x00; x00; x00; x01; x00; x00; x00; x61; x03; x01; x00; x40; x07; x00; x08; x03; x00].

Lemma tree_ok : fm_ok (fnested tree_size (ftree host64) 4 Dir) tree_value.
Proof.
  assert (HS : forall a b, (a <? 2 ^ 16) && (b <? 2 ^ 64) = true -> is_stamp (stamp a b)).
  { intros a b H. apply andb_prop in H as (Ha & Hb). apply stamp_is; [apply N.ltb_lt, Ha|apply N.ltb_lt, Hb]. }
  assert (HN : fm_ok (fty host64 (TStr KString)) (VBytes [x61])).
  { split; [apply validb_sound; vm_compute; reflexivity|]. split; [intros []; exact Logic.I|reflexivity]. }
  assert (HF : forall n a b, (a <? 2 ^ 16) && (b <? 2 ^ 64) = true -> fm_ok (fnested tree_size (ftree host64) (S n) Entry) (VVar 0 [stamp a b])).
  { intros n a b H. split; [split; [apply HS, H|exact Logic.I]|discriminate]. }
  split; [apply HS; reflexivity|]. split; [|exact Logic.I].
  split; [|split; vm_compute; discriminate].
  constructor; [apply HF; reflexivity|]. constructor; [|constructor; [|constructor; [|constructor]]].
  - split; [|discriminate]. split; [|exact Logic.I]. split; [apply HS; reflexivity|]. split; [|exact Logic.I].
    split; [constructor|split; vm_compute; discriminate].
  - split; [|discriminate]. split; [|exact Logic.I]. split; [|split; [vm_compute; discriminate|repeat constructor; cbn; tauto]].
    constructor; [|constructor]. split; [exact HN|]. split; [|discriminate]. split; [|exact Logic.I]. exact (HF 0%nat 7 8 eq_refl).
  - split; [|discriminate]. split; [exact Logic.I|exact Logic.I].
Qed.

(** The hypotheses of the theorems hold of it. *)
Example C119_case :
  well_made host64 tree_size (tree host64) (ftree host64) /\ takes_bytes (ftree host64) /\ keeps_values (ftree host64)
  /\ fm_ok (fnested tree_size (ftree host64) 4 Dir) tree_value
  /\ fm_enc (fnested tree_size (ftree host64) 4 Dir) LE tree_value = Ok tree_bytes /\ nlen (tree_bytes ++ [x63]) <= h_alloc_max host64.
Proof.
  split; [exact tree_made|]. split; [exact tree_takes|]. split; [exact tree_keeps|]. split; [exact tree_ok|].
  split; [vm_compute; reflexivity|vm_compute; discriminate].
Qed.

(** Read at greater depth than the value has, and at less. *)
Example C119_depth_case :
  impl_from_buffer LE (nested tree_size (tree host64) 7 Dir) 0 (tree_bytes ++ [x63]) = (Ok tree_value, 41)
  /\ fst (impl_from_buffer LE (nested tree_size (tree host64) 3 Dir) 0 tree_bytes) = Fault IllTyped.
Proof. split; vm_compute; reflexivity. Qed.

(** Without a byte on the way around there is no answer at any depth:
    struct Loop { next: Box<Loop> } *)
Theorem C119_loop_refuted :
  exists (body : (unit -> impl) -> unit -> impl), (forall X F, implements host64 (X tt) (F tt) ->
      implements host64 (body X tt) (fstruct host64 8 [(plain, GPlain (FOwn (fbox 8 (F tt))))]))
    /\ forall n bs, fst (impl_from_stream LE (nested (fun _ => 8) body n tt) dirty true {| is_rest := bs; is_sched := [] |}) = Fault IllTyped.
Proof.
  exists (fun X _ => struct_of host64 8 VUnit [(plain, MPlain (NOwn (box_of 8 (X tt))))]). split.
  - intros X F H. apply (C118_struct host64 host64_valid).
    apply ms_cons; [reflexivity| |intros; constructor|apply ms_nil].
    apply mf_plain; [vm_compute; discriminate|apply (own_follows host64), C118_box, H|discriminate].
  - intros n bs. unfold impl_from_stream.
    generalize (sr_start dirty true {| is_rest := bs; is_sched := [] |}) as s.
    induction n as [|n IH]; intros s; [reflexivity|]. specialize (IH s).
    change (fst (mmap VSeq (read_members host64 (StreamReader dirty LE) [] [(plain, MPlain (NOwn (box_of 8 (nested (fun _ => 8)
      (fun (X : unit -> impl) _ => struct_of host64 8 VUnit [(plain, MPlain (NOwn (box_of 8 (X tt))))]) n tt))))]) s) = Fault IllTyped).
    cbn [read_members read_member f_skip f_eof f_prefix plain read_inner box_of i_read]. unfold mmap, bind, ret.
    destruct (i_read (nested _ _ n tt) (StreamReader dirty LE) s) as [[v|er|f] s']; cbn [fst] in *; try discriminate. injection IH as ->. reflexivity.
Qed.
Print Assumptions C119_loop_refuted.
