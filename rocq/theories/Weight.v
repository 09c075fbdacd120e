(* How large a value can be that is decoded from so many bytes. *)
From Verif Require Import BaseFacts SpecFacts TyInd.
From Verif Require Export MinFacts.

(** The size of a value: its nodes and its bytes. *)
Fixpoint weight (v : val) : N :=
  match v with
  | VUnit | VBool _ | VInt _ | VNone => 1
  | VBytes b => 1 + nlen b
  | VSome u | VOk u | VErr u => 1 + weight u
  | VSeq vs | VVar _ vs => 1 + nsum (map weight vs)
  end.

Lemma nsum_cons x l : nsum (x :: l) = x + nsum l.
Proof. reflexivity. Qed.

Definition weights (vs : list val) : N := nsum (map weight vs).

(** How much a byte of input can weigh, in a value of type [t]. *)
Definition scalar_factor (s : scalar) : N :=
  match s with SGlam _ n | SBVec n => 1 + N.of_nat n | _ => 18 end.

Definition field_factor (f : ty -> N) (a : fattrs) (t : ty) : N :=
  weight (f_default a) + (if f_varint a then 18 else f t).

Definition fields_factor (f : ty -> N) : fields -> N :=
  fix go (fs : fields) : N :=
    match fs with [] => 0 | x :: r => field_factor f (fst x) (snd x) + go r end.

Fixpoint factor (t : ty) : N :=
  match t with
  | TScalar s => scalar_factor s
  | TStr _ => 1
  | TSeq _ t' | TSet _ t' => 1 + 2 * factor t'
  | TMap _ tk tv => 1 + 2 * (1 + (factor tk + factor tv))
  | TArr t' n | TRefArr t' n => 1 + N.of_nat n * factor t'
  | TOption t' => 1 + factor t'
  | TResult t1 t2 => 1 + (factor t1 + factor t2)
  | TTuple ts => 1 + (fix go (ts : list ty) : N := match ts with [] => 0 | t' :: r => factor t' + go r end) ts
  | TRange _ t' => 2 + (factor t' + factor t')
  | TBox t' => factor t'
  | TStruct _ fs => 1 + fields_factor factor fs
  | TEnum _ vs =>
    1 + (fix go (vs : list (N * fields)) : N :=
           match vs with [] => 0 | v :: r => fields_factor factor (snd v) + go r end) vs
  | TBot => 0
  end.

(** The elements of containers take at least one byte each. *)
Section Dense.
  Context (h : host).

  Definition takes_a_byte (t : ty) : Prop := minok h t /\ 1 <= min_bytes h t.

  Fixpoint dense (t : ty) : Prop :=
    match t with
    | TScalar _ | TStr _ | TBot => True
    | TSeq _ t' | TSet _ t' => takes_a_byte t' /\ dense t'
    | TMap _ tk tv => (takes_a_byte tk \/ takes_a_byte tv) /\ dense tk /\ dense tv
    | TArr t' _ | TRefArr t' _ | TOption t' | TRange _ t' | TBox t' => dense t'
    | TResult t1 t2 => dense t1 /\ dense t2
    | TTuple ts => all_tys dense ts
    | TStruct _ fs => all_fields (fun _ => dense) fs
    | TEnum _ vs => all_variants (all_fields (fun _ => dense)) vs
    end.
End Dense.

(* ------------------------------------------------------------------ *)
(** * Bounds on decoders *)

Definition available (o : option bytes) : N := match o with Some bs => nlen bs | None => 0 end.

Definition light {A} (w : A -> N) (K : N) (d : dec A) : Prop := forall o a o', d o = DOk a o' ->
  available o' <= available o /\ w a <= K * (available o - available o' + 1).

Lemma atleast_available {A} m (d : dec A) o a o' : atleast m d -> d o = DOk a o' -> m + available o' <= available o.
Proof. intros H E. specialize (H o a o' E). destruct o, o'; cbn; lia. Qed.

Lemma light_le {A} (w w' : A -> N) K K' d : light w K d -> (forall a, w' a <= w a) -> K <= K' -> light w' K' d.
Proof.
  intros H Hw HK o a o' E. destruct (H o a o' E) as [H1 H2]. split; [exact H1|]. specialize (Hw a).
  pose proof (N.mul_le_mono_r K K' (available o - available o' + 1) HK). lia.
Qed.

Lemma light_ret {A} (w : A -> N) K a : w a <= K -> light w K (dret a).
Proof. intros H o b o' E. injection E as <- <-. rewrite N.sub_diag. split; lia. Qed.

Lemma light_few {A} (w : A -> N) K m (d : dec A) : atleast m d -> (forall o a o', d o = DOk a o' -> w a <= K) -> light w K d.
Proof.
  intros H Hw o a o' E. pose proof (atleast_available m d o a o' H E). split; [lia|]. specialize (Hw o a o' E).
  pose proof (N.mul_le_mono_l 1 (available o - available o' + 1) K ltac:(lia)). lia.
Qed.

Lemma light_bind {A B} (w1 : A -> N) (w2 : A -> B -> N) (w : B -> N) K1 K2 (d : dec A) (k : A -> dec B) :
  light w1 K1 d -> (forall a, light (w2 a) K2 (k a)) -> (forall a b, w b <= w1 a + w2 a b) ->
  light w (K1 + K2) (dbind d k).
Proof.
  intros H1 H2 Hw o b o' E. unfold dbind in E. destruct (d o) as [a o1| | | |] eqn:Ed; try discriminate.
  destruct (H1 o a o1 Ed) as [A1 B1]. destruct (H2 a o1 b o' E) as [A2 B2]. split; [lia|]. specialize (Hw a b).
  set (c1 := available o - available o1) in *. set (c2 := available o1 - available o') in *.
  replace (available o - available o') with (c1 + c2) by lia.
  assert (K1 * (c1 + 1) <= K1 * (c1 + c2 + 1)) by (apply N.mul_le_mono_l; lia).
  assert (K2 * (c2 + 1) <= K2 * (c1 + c2 + 1)) by (apply N.mul_le_mono_l; lia).
  rewrite N.mul_add_distr_r. lia.
Qed.

(** What comes first weighs nothing. *)
Lemma light_after {A B} (w : B -> N) K m (d : dec A) (k : A -> dec B) : atleast m d ->
  (forall a, light w K (k a)) -> light w K (dbind d k).
Proof.
  intros Hd Hk. eapply light_le; [apply (light_bind (fun _ => 0) (fun _ => w) w 0 K d k)| |]; auto; try lia.
  eapply light_few; [exact Hd|]. intros; lia.
Qed.

Lemma light_map {A B} (w : A -> N) (w' : B -> N) c K (f : A -> B) d : light w K d ->
  (forall a, w' (f a) <= c + w a) -> light w' (c + K) (dmap f d).
Proof.
  intros H Hw o b o' E. unfold dmap, dbind, dret in E. destruct (d o) as [a o1| | | |] eqn:Ed; try discriminate.
  injection E as <- <-. destruct (H o a o1 Ed) as [H1 H2]. split; [exact H1|]. specialize (Hw a).
  rewrite N.mul_add_distr_r. pose proof (N.mul_le_mono_l 1 (available o - available o1 + 1) c ltac:(lia)). lia.
Qed.

Lemma light_bad {A} (w : A -> N) K er : light w K (dbad er).
Proof. intros o a o' E. discriminate. Qed.
Lemma light_panic {A} (w : A -> N) K f : light w K (dpanic f).
Proof. intros o a o' E. discriminate. Qed.
Lemma light_if {A} (w : A -> N) K (b : bool) d d' : light w K d -> light w K d' -> light w K (if b then d else d').
Proof. destruct b; auto. Qed.

Lemma light_unsure {A} (w : A -> N) K d : light w K d -> light w K (dunsure d).
Proof. intros H o a o' E. unfold dunsure in E. destruct (d o) eqn:Ed; try discriminate. apply H. congruence. Qed.

Lemma light_sized {A} (w : A -> N) K lim t n d : light w K d -> light w K (dsized lim t n d).
Proof.
  intros H. unfold dsized. destruct (l_fits lim t n); [apply light_unsure, H|]. intros o a o' E. discriminate.
Qed.

Lemma light_catch {A} (w : A -> N) K x d : light w K d -> light w (w x + K) (dcatch x d).
Proof.
  intros H o a o' E. unfold dcatch in E. destruct (d o) as [b o1| |er []|f []|] eqn:Ed; try discriminate.
  - injection E as <- <-. eapply light_le; [exact H|intros; apply N.le_refl| |exact Ed]. lia.
  - injection E as <- <-. destruct o as [[|y bs]|]; cbn [available]; (split; [lia|]);
      rewrite N.mul_add_distr_r; match goal with |- _ <= w x * ?c + _ => pose proof (N.mul_le_mono_l 1 c (w x) ltac:(lia)) end; lia.
Qed.

(* ------------------------------------------------------------------ *)
(** * Repetition *)

Section Repeat.
  Context (w : val -> N) (K : N) (d : dec val) (H : light w K d).
  Notation ws := (fun l => nsum (map w l)).

  Lemma light_repeat n : light ws (N.of_nat n * K) (drepeat d n).
  Proof.
    induction n as [|n IH]; cbn [drepeat]; [apply light_ret; cbn; lia|].
    replace (N.of_nat (S n) * K) with (K + (N.of_nat n * K + 0)) by lia.
    apply (light_bind w (fun a b => ws b - w a)); [exact H| |intros; lia].
    intros a. apply (light_bind ws (fun l b => ws b - w a - ws l)); [exact IH| |intros; lia].
    intros l. apply light_ret. cbn [map]; rewrite ?nsum_cons. lia.
  Qed.

  Context (H1 : atleast 1 d).

  (** Elements that take a byte each weigh at most twice as much. *)
  Definition spare (o : option bytes) (l : list val) (o' : option bytes) : Prop :=
    available o' <= available o /\ ws l <= 2 * K * (available o - available o').

  Lemma spare_cons o a o1 l o' : d o = DOk a o1 -> spare o1 l o' -> spare o (a :: l) o'.
  Proof.
    intros Ed [A2 B2]. destruct (H o a o1 Ed) as [A1 B1]. pose proof (atleast_available 1 d o a o1 H1 Ed) as C1.
    split; [lia|]. cbn [map]; rewrite ?nsum_cons.
    set (c1 := available o - available o1) in *. set (c2 := available o1 - available o') in *.
    replace (available o - available o') with (c1 + c2) by lia.
    assert (1 <= c1) by lia.
    assert (K * (c1 + 1) <= K * (2 * c1)) by (apply N.mul_le_mono_l; lia). lia.
  Qed.

  Lemma spare_light o l o' : spare o l o' -> available o' <= available o /\ ws l <= 2 * K * (available o - available o' + 1).
  Proof. intros [A B]. split; [exact A|]. lia. Qed.

  Lemma dense_repeat n : light ws (2 * K) (drepeat d n).
  Proof.
    assert (Hx : forall o l o', drepeat d n o = DOk l o' -> spare o l o').
    { induction n as [|n IH]; intros o l o' E; cbn [drepeat] in E.
      - injection E as <- <-. split; cbn; lia.
      - unfold dbind in E. destruct (d o) as [a o1| | | |] eqn:Ed; try discriminate.
        destruct (drepeat d n o1) as [r o2| | | |] eqn:Er; try discriminate. injection E as <- <-.
        eapply spare_cons; [exact Ed|]. apply IH, Er. }
    intros o l o' E. apply spare_light, Hx, E.
  Qed.

  Lemma dense_until : light ws (2 * K) (duntil d).
  Proof.
    assert (Hx : forall k o l o', duntil_loop d k o = DOk l o' -> spare o l o').
    { induction k as [|k IH]; intros o l o' E; cbn [duntil_loop] in E; [discriminate|].
      destruct (d o) as [a o1| |er []|f []|] eqn:Ed; try discriminate.
      - unfold dmap, dbind, dret in E. destruct (duntil_loop d k o1) as [r o2| | | |] eqn:Er; try discriminate.
        injection E as <- <-. eapply spare_cons; [exact Ed|]. apply IH, Er.
      - injection E as <- <-. split; destruct o as [[|y bs]|]; cbn; lia. }
    intros o l o' E. unfold duntil in E. destruct o as [bs|]; [|discriminate]. eapply spare_light, Hx, E.
  Qed.
End Repeat.

(** Collecting only drops. *)
Lemma weights_insert k key l x : weights (container_insert k key l x) <= weights l + weight x.
Proof.
  unfold weights. destruct k; cbn [container_insert];
    (induction l as [|y r IH]; [cbn; lia|]); cbn [sorted_insert index_insert]; destruct (val_cmp _ _); cbn [map] in *; rewrite ?nsum_cons in *; lia.
Qed.

Lemma weights_collect k key xs : weights (collect k key xs) <= weights xs.
Proof.
  unfold collect. assert (H : forall l, weights (fold_left (container_insert k key) xs l) <= weights l + weights xs).
  { induction xs as [|x xs IH]; intros l; cbn [fold_left]; [lia|].
    specialize (IH (container_insert k key l x)). pose proof (weights_insert k key l x). unfold weights in *. cbn [map]; rewrite ?nsum_cons. lia. }
  specialize (H []). cbn in H. exact H.
Qed.

(* ------------------------------------------------------------------ *)
(** * Types *)

Section Types.
  Context (h : host) (VH : valid_host h) (lim : limits) (e e6 : endian).
  Notation decl := (decl lim e e6).

  Lemma read_weight o b o' n : dread n o = DOk b o' -> nlen b + available o' = available o.
  Proof.
    unfold dread. destruct (N.eqb_spec n 0); [intros [= <- <-]; reflexivity|]. destruct o as [bs|]; [|discriminate].
    destruct (N.leb_spec n (nlen bs)); [|discriminate]. intros [= <- <-]. cbn [available]. rewrite nlen_take, nlen_drop. lia.
  Qed.

  Lemma light_read n : light (fun b => 1 + nlen b) 1 (dread n).
  Proof. intros o b o' E. apply read_weight in E. lia. Qed.

  Lemma light_rest : light (fun b => 1 + nlen b) 1 drest.
  Proof. intros o b o' E. destruct o as [bs|]; [|discriminate]. injection E as <- <-. cbn [available]. change (nlen (@nil byte)) with 0. lia. Qed.

  Lemma read_len n o b o' : dread n o = DOk b o' -> nlen b = n.
  Proof.
    unfold dread. destruct (N.eqb_spec n 0); [intros [= <- <-]; symmetry; assumption|]. destruct o as [bs|]; [|discriminate].
    destruct (N.leb_spec n (nlen bs)); [|discriminate]. intros [= <- <-]. rewrite nlen_take. lia.
  Qed.

  Lemma octets_nlen e' b : nlen (octets e' b) = nlen b.
  Proof. destruct e'; cbn [octets]; [apply nlen_rev|reflexivity]. Qed.

  Lemma bind_ok {A B} (d : dec A) (k : A -> dec B) o b o' : dbind d k o = DOk b o' ->
    exists a o1, d o = DOk a o1 /\ k a o1 = DOk b o'.
  Proof. unfold dbind. destruct (d o) as [a o1| | | |] eqn:E; try discriminate. eauto. Qed.

  Ltac go := repeat match goal with
    | H : dbind _ _ _ = DOk _ _ |- _ => apply bind_ok in H as (? & ? & ? & H)
    | H : dmap _ _ _ = DOk _ _ |- _ => apply bind_ok in H as (? & ? & ? & H)
    | H : (if ?b then _ else _) _ = DOk _ _ |- _ => destruct b
    | H : dbad _ _ = DOk _ _ |- _ => discriminate H
    | H : dpanic _ _ = DOk _ _ |- _ => discriminate H
    | H : dret _ _ = DOk _ _ |- _ => injection H as <- <-
    end.

  Lemma repeat_length {A} (d : dec A) n o l o' : drepeat d n o = DOk l o' -> length l = n.
  Proof.
    revert o l o'. induction n as [|n IH]; intros o l o' E; cbn [drepeat] in E; go; [reflexivity|].
    cbn [length]. f_equal. eauto.
  Qed.

  Lemma ints_weight (vs : list val) : Forall (fun v => weight v = 1) vs -> weights vs = nlen vs.
  Proof. induction 1 as [|v r Hv _ IH]; [reflexivity|]. unfold weights in *. cbn [map]. rewrite nsum_cons, nlen_cons, IH, Hv. lia. Qed.

  Lemma repeat_ints p n o l o' : drepeat (dmap VInt (dprim e p)) n o = DOk l o' -> Forall (fun v => weight v = 1) l.
  Proof.
    revert o l o'. induction n as [|n IH]; intros o l o' E; cbn [drepeat] in E; go; constructor; [reflexivity|eauto].
  Qed.

  Lemma scalar_weight s o v o' : dec_scalar lim e e6 s o = DOk v o' -> weight v <= scalar_factor s.
  Proof.
    destruct s; cbn [dec_scalar scalar_factor]; unfold dint, dduration; intros E;
      try (go; try (repeat match goal with H : dread _ _ = DOk _ _ |- _ => apply read_len in H end);
           cbn [weight map]; rewrite ?nsum_cons; cbn [weight nsum fold_right]; rewrite ?octets_nlen; lia).
    - go. rename x into l. match goal with H : drepeat _ _ _ = _ |- _ =>
        pose proof (repeat_ints _ _ _ _ _ H) as Hi; apply repeat_length in H as Hl end.
      apply ints_weight in Hi. cbn [weight]. fold (weights l). unfold nlen in Hi. lia.
    - go. cbn [weight]. fold (weights (map (fun i => VBool (N.odd (x / 2 ^ N.of_nat i))) (seq 0 n))).
      rewrite ints_weight; [rewrite nlen_map; unfold nlen; rewrite seq_length; lia|].
      apply Forall_map, Forall_forall. reflexivity.
  Qed.

  Lemma light_scalar s : light weight (scalar_factor s) (dec_scalar lim e e6 s).
  Proof. eapply light_few; [apply (atleast_scalar lim e e6 s)|]. intros o v o'. apply scalar_weight. Qed.

  Lemma light_len {A} (w : A -> N) K l (c : N -> dec A) t : (forall n, light w K (c n)) -> light w K t ->
    light w K (dlen lim e l c t).
  Proof.
    intros Hc Ht. destruct l as [b []|[n|]|]; cbn [dlen]; auto using light_panic.
    - eapply light_after; [eapply atleast_catch, atleast_prefix|exact Hc].
    - eapply light_after; [apply atleast_prefix|exact Hc].
  Qed.

  Lemma light_str k d : light (fun b => 1 + nlen b) 1 d -> light weight 1 (b <-- d ;; dstr lim k b).
  Proof.
    intros H. replace 1 with (1 + 0) by reflexivity.
    apply (light_bind (fun b => 1 + nlen b) (fun b v => weight v - (1 + nlen b))); [exact H| |intros; lia].
    intros b. unfold dstr. apply light_if; [|apply light_bad]. destruct k; try (apply light_ret; cbn [weight]; lia).
    apply light_if; [apply light_ret; cbn [weight]; lia|apply light_bad].
  Qed.

  Definition bounded (t : ty) : Prop := dense h t -> forall l, light weight (factor t) (decl l t).

  Lemma dense_takes t : takes_a_byte h t -> atleast 1 (decl len0 t).
  Proof. intros [Hm H1]. eapply atleast_le; [apply (atleast_min h VH), Hm|exact H1]. Qed.

  Lemma light_collect k key K d : light weights K d ->
    light weight (1 + K) (xs <-- d ;; dret (VSeq (collect k key xs))).
  Proof.
    intros H. apply (light_map weights weight 1 K (fun xs => VSeq (collect k key xs)) d H).
    intros xs. cbn [weight]. fold (weights (collect k key xs)). pose proof (weights_collect k key xs). lia.
  Qed.

  Lemma light_seq K d : light weights K d -> light weight (1 + K) (dmap VSeq d).
  Proof. intros H. apply (light_map weights); [exact H|]. intros xs. apply N.le_refl. Qed.

  Lemma light_pair K1 K2 d1 d2 : light weight K1 d1 -> light weight K2 d2 -> light weight (1 + (K1 + K2)) (dpair d1 d2).
  Proof.
    intros H1 H2. unfold dpair. replace (1 + (K1 + K2)) with (K1 + (K2 + 1)) by lia.
    apply (light_bind weight (fun a v => weight v - weight a)); [exact H1| |intros; lia]. intros a.
    apply (light_bind weight (fun b v => weight v - weight a - weight b)); [exact H2| |intros; lia]. intros b.
    apply light_ret. cbn [weight map]. rewrite !nsum_cons. cbn [nsum fold_right]. lia.
  Qed.

  Lemma light_cons {A} (w : A -> N) K1 K2 d1 d2 (c : A -> list val -> list val) :
    light w K1 d1 -> (forall a, light weights K2 (d2 a)) -> (forall a l, weights (c a l) <= w a + weights l) ->
    light weights (K1 + K2) (a <-- d1 ;; l <-- d2 a ;; dret (c a l)).
  Proof.
    intros H1 H2 Hc. replace (K1 + K2) with (K1 + (K2 + 0)) by lia.
    apply (light_bind w (fun a l => weights l - w a)); [exact H1| |intros; lia]. intros a.
    apply (light_bind weights (fun l r => weights r - w a - weights l)); [apply H2| |intros; lia]. intros l.
    apply light_ret. specialize (Hc a l). lia.
  Qed.

  Lemma weights_cons a l : weights (a :: l) = weight a + weights l.
  Proof. reflexivity. Qed.

  Lemma light_field prev a t : bounded t -> dense h t ->
    light weight (field_factor factor a t) (dfield lim e e6 decl prev a t).
  Proof.
    intros Hb Hd. unfold dfield, field_factor.
    assert (H : light weight (if f_varint a then 18 else factor t)
      (_ <-- dconst (f_prefix a) ;; if f_varint a then dec_scalar lim e e6 SVarint else decl (field_len (f_eof a) prev a t) t)).
    { eapply light_after; [apply atleast_const|]. intros _. destruct (f_varint a); [apply (light_scalar SVarint)|apply Hb, Hd]. }
    destruct (f_eof a); [apply light_catch, H|]. eapply light_le; [exact H|intros; apply N.le_refl|lia].
  Qed.

  Lemma light_fields fs : Forall (fun f => bounded (snd f)) fs -> all_fields (fun _ => dense h) fs ->
    forall prev, light weights (fields_factor factor fs) (dfields lim e e6 decl prev fs).
  Proof.
    induction 1 as [|f r Hf Hr IH]; intros Hd prev; cbn [dfields fields_factor]; [apply light_ret; cbn; lia|].
    destruct Hd as [Hd Hdr]. destruct (f_skip (fst f)).
    - eapply light_le; [apply (light_map weights weights (weight (f_default (fst f)))); [apply IH, Hdr|]|intros; apply N.le_refl|].
      + intros l. rewrite weights_cons. apply N.le_refl.
      + unfold field_factor. fold (fields_factor factor r). lia.
    - apply light_cons with (w := weight).
      + apply light_field; assumption.
      + intros v. apply IH, Hdr.
      + intros v l. rewrite weights_cons. apply N.le_refl.
  Qed.

  Definition variants_factor : list (N * fields) -> N :=
    fix go (vs : list (N * fields)) : N :=
      match vs with [] => 0 | v :: r => fields_factor factor (snd v) + go r end.

  Lemma light_variant tag vs : Forall (fun v => Forall (fun f => bounded (snd f)) (snd v)) vs ->
    all_variants (all_fields (fun _ => dense h)) vs ->
    forall i, light weight (1 + variants_factor vs) (dvariant lim e e6 decl tag i vs).
  Proof.
    induction 1 as [|v r Hv Hr IH]; intros Hd i; cbn [dvariant variants_factor]; [apply light_bad|].
    destruct Hd as [Hd Hdr]. fold (variants_factor r). apply light_if.
    - eapply light_le; [apply (light_map weights weight 1)|intros; apply N.le_refl|].
      + apply light_fields; [exact Hv|exact Hd].
      + intros l. apply N.le_refl.
      + lia.
    - eapply light_le; [apply IH, Hdr|intros; apply N.le_refl|lia].
  Qed.

  Lemma light_tuple ts : Forall bounded ts -> all_tys (dense h) ts ->
    light weights ((fix go (ts : list ty) : N := match ts with [] => 0 | t' :: r => factor t' + go r end) ts)
      (dtuple (decl len0) ts).
  Proof.
    induction 1 as [|t r Ht Hr IH]; intros Hd; cbn [dtuple]; [apply light_ret; cbn; lia|]. destruct Hd as [Hd Hdr].
    apply light_cons with (w := weight).
    - apply Ht, Hd.
    - intros _. apply IH, Hdr.
    - intros v l. rewrite weights_cons. apply N.le_refl.
  Qed.

  Theorem light_decl t : bounded t.
  Proof.
    induction t as [s|k|k t IH|t n IH|t n IH|t IH|t1 t2 IH1 IH2|ts IH|i t IH|k t IH|k tk tv IHk IHv|t IH|d fs IH|d vs IH|]
      using ty_ind'; intros Hd l; cbn [Spec.decl factor dense] in *.
    - apply light_scalar.
    - apply light_len; [intros n|]; apply light_str; [apply light_sized, light_read|apply light_rest].
    - destruct Hd as [Hb Hd]. apply light_seq, light_len; [intros n; apply light_sized|].
      + apply (dense_repeat weight); [apply IH, Hd|apply dense_takes, Hb].
      + apply (dense_until weight); [apply IH, Hd|apply dense_takes, Hb].
    - apply light_seq, (light_repeat weight). apply IH, Hd.
    - apply light_seq, (light_repeat weight). apply IH, Hd.
    - eapply light_after; [apply atleast_word1|]. intros x. apply light_if; [apply light_ret; cbn [weight]; lia|].
      apply (light_map weight); [apply IH, Hd|]. intros v. apply N.le_refl.
    - destruct Hd as [Hd1 Hd2]. eapply light_after; [apply atleast_word1|]. intros x.
      apply light_if; (eapply light_le; [apply (light_map weight weight 1); [first [apply IH2, Hd2|apply IH1, Hd1]|]|intros; apply N.le_refl|lia]);
        intros v; apply N.le_refl.
    - apply light_seq, light_tuple; assumption.
    - replace (2 + (factor t + factor t)) with (factor t + (factor t + 2)) by lia.
      apply (light_bind weight (fun a v => weight v - weight a)); [apply IH, Hd| |intros; lia]. intros a.
      apply (light_bind weight (fun b v => weight v - weight a - weight b)); [apply IH, Hd| |intros; lia]. intros b.
      apply light_ret. destruct i; cbn [weight map]; rewrite !nsum_cons; cbn [weight nsum fold_right]; lia.
    - destruct Hd as [Hb Hd]. apply light_collect, light_len; [intros n|].
      + apply (dense_repeat weight); [apply IH, Hd|apply dense_takes, Hb].
      + apply (dense_until weight); [apply IH, Hd|apply dense_takes, Hb].
    - destruct Hd as (Hb & Hdk & Hdv).
      assert (H1 : atleast 1 (dpair (decl len0 tk) (decl len0 tv))).
      { unfold dpair. destruct Hb as [Hb|Hb].
        - apply (atleast_bind 1 0); [apply dense_takes, Hb|]. intros a.
          apply atleast_then; [apply (atleast_zero h VH)|]. intros. apply atleast_ret.
        - apply (atleast_bind 0 1); [apply (atleast_zero h VH)|]. intros a.
          apply atleast_then; [apply dense_takes, Hb|]. intros. apply atleast_ret. }
      apply light_collect, light_len; [intros n|];
        [apply (dense_repeat weight)|apply (dense_until weight)]; try exact H1; apply light_pair; auto.
    - apply IH, Hd.
    - apply light_seq, light_fields; assumption.
    - eapply light_after with (m := 0); [|intros tag; apply light_variant; assumption].
      destruct (e_peek d); [eapply atleast_peek, atleast_basic|eapply atleast_le; [apply atleast_basic|lia]].
    - apply light_panic.
  Qed.

  (** What decodes from [bs] weighs at most so much for every byte. *)
  Theorem decoded_weight t bs v o : dense h t -> decode lim e e6 t bs = DOk v o ->
    weight v <= factor t * (nlen bs + 1).
  Proof.
    intros Hd E. destruct (light_decl t Hd len0 (Some bs) v o E) as [H1 H2]. cbn [available] in *.
    assert (factor t * (nlen bs - available o + 1) <= factor t * (nlen bs + 1)) by (apply N.mul_le_mono_l; lia). lia.
  Qed.
End Types.
