(* C135: atomics may change while a value is measured and written. *)
From Verif Require Import Moving Samples Hosts Checker Conditions Entry WriteApi RoundTrip TyInd.

(* ------------------------------------------------------------------ *)
(** * Specification: values that differ in atomics only *)

Definition moved_list (mv : ty -> val -> val -> Prop) : list ty -> list val -> list val -> Prop :=
  fix go (ts : list ty) (vs ws : list val) : Prop :=
    match ts, vs, ws with
    | [], [], [] => True
    | t :: tr, v :: vr, w :: wr => mv t v w /\ go tr vr wr
    | _, _, _ => False
    end.

(** Length expressions give the same; they cannot look into atomics. *)
Definition moved_fields (mv : ty -> val -> val -> Prop)
  : list (option Z) -> list (option Z) -> fields -> list val -> list val -> Prop :=
  fix go (prev prev' : list (option Z)) (fs : fields) (vs ws : list val) : Prop :=
    match fs, vs, ws with
    | [], [], [] => True
    | f :: fr, v :: vr, w :: wr =>
      if f_skip (fst f) then go prev prev' fr vr wr
      else mv (snd f) v w
           /\ (f_varint (fst f) = true -> v = w)
           /\ field_len false prev (fst f) (snd f) = field_len false prev' (fst f) (snd f)
           /\ go (prev ++ [proj v]) (prev' ++ [proj w]) fr vr wr
    | _, _, _ => False
    end.

Definition moved_variant (mv : ty -> val -> val -> Prop) : list (N * fields) -> nat -> list val -> list val -> Prop :=
  fix go (vs : list (N * fields)) (i : nat) (us ws : list val) : Prop :=
    match vs, i with
    | [], _ => False
    | v :: _, O => moved_fields mv [] [] (snd v) us ws
    | _ :: r, S i' => go r i' us ws
    end.

Definition moved_pair (mk mv : val -> val -> Prop) (p q : val) : Prop :=
  match p, q with VSeq [a; b], VSeq [c; d] => mk a c /\ mv b d | _, _ => False end.

Fixpoint moved (t : ty) (v w : val) {struct t} : Prop :=
  match t with
  | TScalar (SAtomic _) => (exists y z, v = VInt y /\ w = VInt z)
  | TScalar _ | TStr _ | TBot => v = w
  | TSeq _ t' | TArr t' _ | TRefArr t' _ | TSet _ t' =>
    match v, w with VSeq vs, VSeq ws => Forall2 (moved t') vs ws | _, _ => False end
  | TMap _ tk tv =>
    match v, w with VSeq vs, VSeq ws => Forall2 (moved_pair (moved tk) (moved tv)) vs ws | _, _ => False end
  | TOption t' => match v, w with VNone, VNone => True | VSome a, VSome b => moved t' a b | _, _ => False end
  | TResult t1 t2 =>
    match v, w with VOk a, VOk b => moved t1 a b | VErr a, VErr b => moved t2 a b | _, _ => False end
  | TTuple ts => match v, w with VSeq vs, VSeq ws => moved_list moved ts vs ws | _, _ => False end
  | TRange _ t' =>
    match v, w with VSeq (a :: b :: _), VSeq (c :: d :: _) => moved t' a c /\ moved t' b d | _, _ => False end
  | TBox t' => moved t' v w
  | TStruct _ fs => match v, w with VSeq vs, VSeq ws => moved_fields moved [] [] fs vs ws | _, _ => False end
  | TEnum _ vs => match v, w with VVar i us, VVar j ws => i = j /\ moved_variant moved vs i us ws | _, _ => False end
  end.

(* ------------------------------------------------------------------ *)
(** * Proofs *)

(** The first is as long as the second, if that is anything. *)
Definition as_long (r r' : res bytes) : Prop := forall b, r' = Ok b -> exists a, r = Ok a /\ nlen a = nlen b.

Lemma as_long_refl r : as_long r r.
Proof. intros b ->. eauto. Qed.

Lemma as_long_app r1 r1' r2 r2' : as_long r1 r1' -> as_long r2 r2' -> as_long (rapp r1 r2) (rapp r1' r2').
Proof.
  intros H1 H2 b Hb. apply rapp_ok in Hb as (b1 & b2 & E1 & E2 & ->).
  destruct (H1 _ E1) as (a1 & -> & N1), (H2 _ E2) as (a2 & -> & N2). exists (a1 ++ a2). split; [reflexivity|].
  rewrite !nlen_app. congruence.
Qed.

Lemma as_long_const p r r' : as_long r r' -> as_long (rmap (app p) r) (rmap (app p) r').
Proof.
  intros H b Hb. apply rmap_ok in Hb as (b1 & E & ->). destruct (H _ E) as (a & -> & N). exists (p ++ a).
  split; [reflexivity|]. rewrite !nlen_app. congruence.
Qed.

Lemma all_parts_ok en vs : forall b, enc_all en vs = Ok b ->
  exists bs, Forall2 (fun v x => en v = Ok x) vs bs /\ nlen b = nsum (map nlen bs).
Proof.
  induction vs as [|v vs IH]; intros b Hb.
  - injection Hb as <-. exists []. split; [constructor|reflexivity].
  - rewrite enc_all_cons in Hb. apply rapp_ok in Hb as (b1 & b2 & E1 & E2 & ->).
    destruct (IH _ E2) as (bs & HF & E). exists (b1 :: bs). split; [constructor; assumption|].
    rewrite nlen_app, E. reflexivity.
Qed.

Lemma parts_all en vs bs : Forall2 (fun v x => en v = Ok x) vs bs ->
  exists b, enc_all en vs = Ok b /\ nlen b = nsum (map nlen bs).
Proof.
  induction 1 as [|v x vs bs Hv _ (b & E & N)]; [exists []; split; reflexivity|].
  exists (x ++ b). rewrite enc_all_cons, Hv, E. split; [reflexivity|]. rewrite nlen_app, N. reflexivity.
Qed.

Lemma Forall2_perm {A B} (P : A -> B -> Prop) l l' : Permutation l l' -> forall m, Forall2 P l m ->
  exists m', Permutation m m' /\ Forall2 P l' m'.
Proof.
  induction 1 as [|x l l' HP IH|x y l|l1 l2 l3 _ IH1 _ IH2]; intros m H.
  - inversion H. exists []. split; constructor.
  - inversion H as [|? b ? m0 Hx Hr]; subst. destruct (IH _ Hr) as (m' & Hp & HF). exists (b :: m').
    split; [constructor; exact Hp|constructor; assumption].
  - inversion H as [|? b ? m0 Hx Hr]; subst. inversion Hr as [|? c ? m1 Hy Hr1]; subst. exists (c :: b :: m1).
    split; [constructor|repeat constructor; assumption].
  - destruct (IH1 _ H) as (m1 & Hp1 & H1). destruct (IH2 _ H1) as (m2 & Hp2 & H2). exists m2.
    split; [eapply Permutation_trans; eassumption|exact H2].
Qed.

Lemma Forall2_weaken {A B} (P Q : A -> B -> Prop) l m : (forall x y, P x y -> Q x y) -> Forall2 P l m -> Forall2 Q l m.
Proof. intros H. induction 1; constructor; auto. Qed.

Section Moved.
  Context (h : host) (VH : valid_host h) (e e6 : endian).
  Notation enc := (enc (h_iter h) e e6).

  (** In whatever order the elements are visited. *)
  Lemma as_long_all en vs ws vs' ws' : Permutation vs vs' -> Permutation ws ws' ->
    Forall2 (fun v w => as_long (en v) (en w)) vs ws -> as_long (enc_all en vs') (enc_all en ws').
  Proof.
    intros Hp Hq H b Hb. destruct (all_parts_ok en ws' b Hb) as (bs & HF & Eb).
    destruct (Forall2_perm _ _ _ (Permutation_sym Hq) _ HF) as (bs1 & Hp1 & HF1).
    assert (G : exists as_, Forall2 (fun v x => en v = Ok x) vs as_ /\ nsum (map nlen as_) = nsum (map nlen bs1)).
    { clear - H HF1. revert bs1 HF1. induction H as [|v w vs ws Hv _ IH]; intros bs1 HF1; inversion HF1 as [|? x ? bs Hx Hr]; subst.
      - exists []. split; [constructor|reflexivity].
      - destruct (Hv _ Hx) as (a & Ea & Na), (IH _ Hr) as (as_ & HF & E). exists (a :: as_). split; [constructor; assumption|].
        cbn [map nsum fold_right]. unfold nsum in E. rewrite E, Na. reflexivity. }
    destruct G as (as_ & HFa & Ea). destruct (Forall2_perm _ _ _ Hp _ HFa) as (as1 & Hpa & HFa1).
    destruct (parts_all en vs' as1 HFa1) as (a & E & Na). exists a. split; [exact E|].
    rewrite Na, Eb, <- (nsum_perm _ _ (Permutation_map nlen Hpa)), Ea, <- (nsum_perm _ _ (Permutation_map nlen Hp1)). reflexivity.
  Qed.

  Lemma as_long_same en vs ws : Forall2 (fun v w => as_long (en v) (en w)) vs ws -> as_long (enc_all en vs) (enc_all en ws).
  Proof. apply as_long_all; apply Permutation_refl. Qed.

  Definition ml (t : ty) : Prop := forall l v w, moved t v w -> as_long (enc l t v) (enc l t w).

  Lemma moved_nlen (P : val -> val -> Prop) vs ws : Forall2 P vs ws -> nlen vs = nlen ws.
  Proof. induction 1 as [|v w vs ws _ _ IH]; [reflexivity|]. rewrite !nlen_cons, IH. reflexivity. Qed.

  Lemma ml_fields fs : Forall (fun f => ml (snd f)) fs -> forall prev prev' vs ws,
    moved_fields moved prev prev' fs vs ws ->
    as_long (enc_fields e e6 enc prev fs vs) (enc_fields e e6 enc prev' fs ws).
  Proof.
    induction 1 as [|[a t] fs Hf _ IH]; intros prev prev' [|v vs] [|w ws]; cbn [moved_fields]; try contradiction.
    - intros _. apply as_long_refl.
    - cbn [enc_fields fst snd]. destruct (f_skip a); [apply IH|]. intros (Hm & Hv & El & Hr).
      apply as_long_app; [|apply IH, Hr]. unfold enc_field. apply as_long_const.
      destruct (f_varint a); [rewrite Hv by reflexivity; apply as_long_refl|]. rewrite El. apply Hf, Hm.
  Qed.

  Lemma moved_long t : ml t.
  Proof.
    induction t as [s|k|k t IH|t n IH|t n IH|t IH|t1 t2 IH1 IH2|ts IH|i t IH|k t IH|k tk tv IHk IHv|t IH|d fs IH|d vs IH|]
      using ty_ind'; intros l v w; cbn [moved].
    - destruct s; try (intros ->; apply as_long_refl).
      intros (y & z & -> & ->) b Hb. cbn [Spec.enc enc_scalar] in *. injection Hb as <-. eexists. split; [reflexivity|].
      rewrite !nlen_enc_prim. reflexivity.
    - intros ->. apply as_long_refl.
    - destruct v, w; try contradiction. intros H. cbn [Spec.enc]. rewrite (moved_nlen _ _ _ H).
      apply as_long_app; [apply as_long_refl|]. apply as_long_same. eapply Forall2_weaken; [|exact H]. intros; apply IH; assumption.
    - destruct v, w; try contradiction. intros H. cbn [Spec.enc]. apply as_long_same. eapply Forall2_weaken; [|exact H]. intros; apply IH; assumption.
    - destruct v, w; try contradiction. intros H. cbn [Spec.enc]. apply as_long_same. eapply Forall2_weaken; [|exact H]. intros; apply IH; assumption.
    - destruct v, w; try contradiction; intros H; cbn [Spec.enc]; [apply as_long_refl|].
      apply as_long_app; [apply as_long_refl|apply IH, H].
    - destruct v, w; try contradiction; intros H; cbn [Spec.enc]; (apply as_long_app; [apply as_long_refl|]); [apply IH1, H|apply IH2, H].
    - destruct v as [| | | |vs| | | | |], w as [| | | |ws| | | | |]; try contradiction. cbn [Spec.enc]. revert vs ws.
      induction IH as [|t ts Ht _ IHts]; intros [|v vs] [|w ws]; cbn [moved_list]; try contradiction.
      + intros _. apply as_long_refl.
      + intros [Hm Hr]. cbn [enc_tuple]. apply as_long_app; [apply Ht, Hm|apply IHts, Hr].
    - destruct v as [| | | |[|a [|b vs]]| | | | |], w as [| | | |[|c [|d ws]]| | | | |]; try contradiction.
      intros [H1 H2]. cbn [Spec.enc]. apply as_long_app; apply IH; assumption.
    - destruct v, w; try contradiction. intros H. cbn [Spec.enc]. rewrite (moved_nlen _ _ _ H).
      apply as_long_app; [apply as_long_refl|].
      eapply as_long_all; [apply Permutation_sym, (perm_iter h VH)|apply Permutation_sym, (perm_iter h VH)|].
      eapply Forall2_weaken; [|exact H]. intros; apply IH; assumption.
    - destruct v, w; try contradiction. intros H. cbn [Spec.enc]. rewrite (moved_nlen _ _ _ H).
      apply as_long_app; [apply as_long_refl|].
      eapply as_long_all; [apply Permutation_sym, (perm_iter h VH)|apply Permutation_sym, (perm_iter h VH)|].
      eapply Forall2_weaken; [|exact H]. intros p q Hpq.
      destruct p as [| | | |[|a [|b [|]]]| | | | |], q as [| | | |[|c [|d [|]]]| | | | |]; try contradiction.
      destruct Hpq as [H1 H2]. cbn [enc_pair]. apply as_long_app; [apply IHk, H1|apply IHv, H2].
    - apply IH.
    - destruct v, w; try contradiction. cbn [Spec.enc]. apply ml_fields, IH.
    - destruct v, w; try contradiction. intros [<- H]. cbn [Spec.enc]. revert i H.
      induction IH as [|[g fs] vs Hf _ IHvs]; intros [|i]; cbn [moved_variant enc_variant fst snd]; try contradiction.
      + intros H. apply as_long_const. apply ml_fields; assumption.
      + apply IHvs.
    - intros ->. apply as_long_refl.
  Qed.
End Moved.

(* ------------------------------------------------------------------ *)
(** * The property *)

Section C135.
  Context (h : host) (VH : valid_host h) (e : endian).
  Notation e6 := (ipv6_order h e).
  Notation encode := (encode (h_iter h) e e6).

  (** However atomics change in between, a value measures the same. *)
  Theorem C135_measured t v w b : wsup h t -> valid (h_lim h) t v -> valid (h_lim h) t w ->
    moved t v w -> encode t w = Ok b ->
    bytes_needed h t v = Ok (nlen b) /\ exists a, encode t v = Ok a /\ nlen a = nlen b.
  Proof.
    intros Hs Hv Hw Hm Hb. destruct (moved_long h VH e e6 t len0 v w Hm b Hb) as (a & Ha & En).
    split; [|eauto]. rewrite (bytes_needed_exact h VH e t v a Hs Hv Ha), En. reflexivity.
  Qed.

  (** What becomes of a value that measured [n] and is [w], for whatever reason, when it
      is written. *)
  Theorem C135_to_vec mem t v w n b : (forall n, n <= nlen (mem n)) -> wsup h t -> valid (h_lim h) t w ->
    bytes_needed h t v = Ok n -> encode t w = Ok b ->
    moving_to_vec h mem e t v w =
    match nlen b ?= n with
    | Eq => Ok b
    | Lt => if h_overflow_checks h then Fault PanicAssert else Ok b
    | Gt => Err UnexpectedEndOfOutputBuffer
    end.
  Proof.
    intros Hm Hs Hw Hn Hb. unfold moving_to_vec. rewrite Hn. cbn [rbind].
    pose proof (write_buffer_sim h VH e t w Hs Hw (ntake n (mem n))) as H.
    destruct (write h (BufferCollector h e) t w _) as [r s]. unfold Spec.encode in Hb. rewrite Hb in H. cbn [wpost app] in H.
    assert (El : nlen (ntake n (mem n)) = n) by (rewrite nlen_take; specialize (Hm n); lia).
    destruct H as [[-> (H1 & H2 & H3)]|(er & b1 & b2 & _ & -> & Her & _ & Hr)].
    - cbn [rbind]. rewrite H1, H3. rewrite take_app_exact by reflexivity.
      destruct (N.compare_spec (nlen b) n) as [E|E|E].
      + rewrite E, N.eqb_refl, andb_false_r. reflexivity.
      + destruct (N.eqb_spec (nlen b) n); [lia|]. cbn [negb]. rewrite andb_true_r. reflexivity.
      + lia.
    - cbn [rbind]. unfold bcroom in Hr. rewrite El in Hr. destruct (N.compare_spec (nlen b) n); [lia|lia|].
      rewrite Her. reflexivity.
  Qed.

  Theorem C135_to_buffer t v w n b buffer : wsup h t -> valid (h_lim h) t w ->
    bytes_needed h t v = Ok n -> encode t w = Ok b -> nlen b <= n ->
    moving_to_buffer h e t v w buffer =
    if n <=? nlen buffer then (Ok tt, b ++ ndrop (nlen b) buffer)
    else (Err (OutputBufferIsTooSmall (nlen buffer) n), buffer).
  Proof.
    intros Hs Hw Hn Hb Hle. unfold moving_to_buffer. rewrite Hn. destruct (N.leb_spec n (nlen buffer)) as [Ho|Ho]; [|reflexivity].
    pose proof (write_buffer_sim h VH e t w Hs Hw (ntake n buffer)) as H.
    destruct (write h (BufferCollector h e) t w _) as [r s]. unfold Spec.encode in Hb. rewrite Hb in H. cbn [wpost app] in H.
    assert (El : nlen (ntake n buffer) = n) by (rewrite nlen_take; lia).
    destruct H as [[-> (H1 & H2 & H3)]|(er & b1 & b2 & _ & _ & _ & _ & Hr)].
    - rewrite H3. f_equal. rewrite <- app_assoc. f_equal.
      transitivity (ndrop (nlen b) (ntake n buffer ++ ndrop n buffer)); [symmetry; apply drop_app_le; lia|].
      rewrite take_drop. reflexivity.
    - exfalso. apply Hr. unfold bcroom. lia.
  Qed.

  (** Success means that the value as it was written is there, and nothing else. *)
  Theorem C135_sound mem t v w b : (forall n, n <= nlen (mem n)) -> wsup h t -> valid (h_lim h) t w ->
    moving_to_vec h mem e t v w = Ok b -> encode t w = Ok b.
  Proof.
    intros Hm Hs Hw H. destruct (encode t w) as [b'|er|f] eqn:E.
    - pose proof H as H'. unfold moving_to_vec in H'. apply rbind_ok in H' as (n & Hn & _).
      rewrite (C135_to_vec mem t v w n b' Hm Hs Hw Hn E) in H. destruct (nlen b' ?= n); [exact H|destruct (h_overflow_checks h); [discriminate|exact H]|discriminate].
    - exfalso. unfold moving_to_vec in H. apply rbind_ok in H as (n & _ & H).
      pose proof (write_buffer_sim h VH e t w Hs Hw (ntake n (mem n))) as G.
      destruct (write h (BufferCollector h e) t w _) as [r s]. unfold Spec.encode in E. rewrite E in G. cbn [wpost] in G.
      destruct G as (er' & y & -> & _). discriminate.
    - exfalso. unfold moving_to_vec in H. apply rbind_ok in H as (n & _ & H).
      pose proof (write_buffer_sim h VH e t w Hs Hw (ntake n (mem n))) as G.
      destruct (write h (BufferCollector h e) t w _) as [r s]. unfold Spec.encode in E. rewrite E in G. cbn [wpost] in G.
      destruct G as [->|(er' & -> & _)]; discriminate.
  Qed.

  (** So a value whose atomics change meanwhile is written as it is found. *)
  Theorem C135_atomics mem t v w b : (forall n, n <= nlen (mem n)) -> wsup h t ->
    valid (h_lim h) t v -> valid (h_lim h) t w -> moved t v w ->
    (moving_to_vec h mem e t v w = Ok b <-> encode t w = Ok b).
  Proof.
    intros Hm Hs Hv Hw Hmv. split; [apply C135_sound; assumption|]. intros Hb.
    destruct (C135_measured t v w b Hs Hv Hw Hmv Hb) as [Hn _].
    rewrite (C135_to_vec mem t v w _ b Hm Hs Hw Hn Hb), N.compare_refl. reflexivity.
  Qed.

  Theorem C135_atomics_buffer t v w b buffer : wsup h t ->
    valid (h_lim h) t v -> valid (h_lim h) t w -> moved t v w -> encode t w = Ok b ->
    moving_to_buffer h e t v w buffer =
    if nlen b <=? nlen buffer then (Ok tt, b ++ ndrop (nlen b) buffer)
    else (Err (OutputBufferIsTooSmall (nlen buffer) (nlen b)), buffer).
  Proof.
    intros Hs Hv Hw Hmv Hb. destruct (C135_measured t v w b Hs Hv Hw Hmv Hb) as [Hn _].
    apply C135_to_buffer with (n := nlen b); auto. lia.
  Qed.
End C135.

(** Nothing changed is a special case, on any host. *)
Theorem C135_still h mem e t v : moving_to_vec h mem e t v v = write_to_vec h mem e t v
  /\ forall buffer, moving_to_buffer h e t v v buffer = write_to_buffer h e t v buffer.
Proof. split; reflexivity. Qed.

Print Assumptions C135_measured.
Print Assumptions C135_to_vec.
Print Assumptions C135_to_buffer.
Print Assumptions C135_sound.
Print Assumptions C135_atomics.
Print Assumptions C135_atomics_buffer.
Print Assumptions C135_still.

(* ------------------------------------------------------------------ *)
(** * Examples *)

(* struct Stats {
     hits: AtomicU64,
     per_user: HashMap<u8, AtomicU16>,
     state: Option<Result<AtomicI32, bool>>,
     count: u8,
     #[speedy(length = count)] flags: Vec<AtomicU8>,
   } *)
Definition count_itself (prev : list (option Z)) : option N :=
  match rev prev with Some z :: _ => Some (Z.to_N z) | _ => None end.

Definition stats : ty :=
  TStruct (sd 106 RRust)
    [ (plain, TScalar (SAtomic U64)); (plain, TMap CHash (TP U8) (TScalar (SAtomic U16)));
      (plain, TOption (TResult (TScalar (SAtomic I32)) (TScalar SBool)));
      (plain, TP U8); (with_len (LExpr count_itself), TSeq KVec (TScalar (SAtomic U8))) ].

Definition stats_value (hits a b s f : Z) : val :=
  VSeq [ VInt hits; VSeq [VSeq [VInt 1; VInt a]; VSeq [VInt 2; VInt b]]; VSome (VOk (VInt s)); VInt 2; VSeq [VInt f; VInt 9] ].

Definition before := stats_value 5 6 7 8 10.
Definition after := stats_value 1000000 65535 0 (-1) 255.

Example stats_moved : moved stats before after.
Proof.
  cbn. repeat match goal with |- _ /\ _ => split | |- True => exact Logic.I | |- _ -> _ => discriminate end;
    try reflexivity; try discriminate; eauto; repeat constructor; cbn; eauto.
Qed.

Example stats_covered : wsup host64 stats /\ valid (h_lim host64) stats before /\ valid (h_lim host64) stats after.
Proof.
  split; [apply wsupb_sound; vm_compute; reflexivity|].
  split; apply validb_sound; vm_compute; reflexivity.
Qed.

Example stats_written :
  moving_to_vec host64 dirty LE stats before after = encode (h_iter host64) LE LE stats after
  /\ (exists b, encode (h_iter host64) LE LE stats after = Ok b /\ nlen b = 27).
Proof. split; [vm_compute; reflexivity|]. eexists. split; vm_compute; reflexivity. Qed.

(** A change of anything else is not covered: a string behind a lock that grows in
    between does not fit, and one that shrinks fails an assertion in builds that check. *)
Theorem C135_other_changes_refuted :
  let grown := VBytes [x61; x62] in let small := VBytes [x61] in
  valid (h_lim host64) (TStr KString) grown /\ valid (h_lim host64) (TStr KString) small
  /\ moving_to_vec host64 dirty LE (TStr KString) small grown = Err UnexpectedEndOfOutputBuffer
  /\ moving_to_vec host32 dirty BE (TStr KString) grown small = Fault PanicAssert
  /\ moving_to_vec host64 dirty LE (TStr KString) grown small = write_to_vec host64 dirty LE (TStr KString) small.
Proof.
  intros grown small. split; [apply validb_sound; vm_compute; reflexivity|]. split; [apply validb_sound; vm_compute; reflexivity|].
  repeat split; vm_compute; reflexivity.
Qed.
Print Assumptions C135_other_changes_refuted.
