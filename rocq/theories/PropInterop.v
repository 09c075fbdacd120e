(* C62: what one host writes another host reads. *)
From Verif Require Import Samples EncFacts Extend PropRoundTrip.

(** No IPv6 address inside (their bytes depend on the host, see C03). *)
Fixpoint no_ipv6 (t : ty) : Prop :=
  match t with
  | TScalar s => match s with SIpv6 | SIpAddr => False | _ => True end
  | TStr _ | TBot => True
  | TSeq _ t' | TArr t' _ | TRefArr t' _ | TOption t' | TBox t' | TRange _ t' | TSet _ t' => no_ipv6 t'
  | TResult t1 t2 => no_ipv6 t1 /\ no_ipv6 t2
  | TMap _ t1 t2 => no_ipv6 t1 /\ no_ipv6 t2
  | TTuple ts => all_tys no_ipv6 ts
  | TStruct _ fs => all_fields (fun a t' => f_skip a = true \/ no_ipv6 t') fs
  | TEnum _ vs => all_variants (all_fields (fun a t' => f_skip a = true \/ no_ipv6 t')) vs
  end.

(** Two hosts agree on the bytes of [t]. *)
Definition same_bytes (h1 h2 : host) (t : ty) : Prop := h_native h1 = h_native h2 \/ no_ipv6 t.

(* ------------------------------------------------------------------ *)
(** * The byte order of IPv6 addresses *)

Section Order.
  Context (it : list val -> list val) (e s1 s2 : endian).

  Definition so (t : ty) : Prop := forall l v, no_ipv6 t -> enc it e s1 l t v = enc it e s2 l t v.

  Lemma all_ext (f g : val -> res bytes) vs : (forall v, f v = g v) -> enc_all f vs = enc_all g vs.
  Proof. intros H. induction vs as [|v vs IH]; [reflexivity|]. rewrite !enc_all_cons, H, IH. reflexivity. Qed.

  Lemma order_fields fs : Forall (fun f => so (snd f)) fs ->
    all_fields (fun a t' => f_skip a = true \/ no_ipv6 t') fs -> forall prev vs,
    enc_fields e s1 (enc it e s1) prev fs vs = enc_fields e s2 (enc it e s2) prev fs vs.
  Proof.
    induction 1 as [|[a t] fs Hf _ IH]; intros Hp prev [|v vs]; cbn [enc_fields]; try reflexivity.
    destruct Hp as [Hp Hps]. cbn [fst snd] in *. destruct (f_skip a) eqn:Es; [apply IH, Hps|].
    destruct Hp as [?|Hp]; [congruence|]. rewrite (IH Hps). f_equal. unfold enc_field.
    destruct (f_varint a); [reflexivity|]. rewrite Hf by assumption. reflexivity.
  Qed.

  Lemma order_enc t : so t.
  Proof.
    induction t as [s|k|k t IH|t n IH|t n IH|t IH|t1 t2 IH1 IH2|ts IH|i t IH|k t IH|k tk tv IHk IHv|t IH|d fs IH|d vs IH|]
      using ty_ind'; intros l v Hp.
    - destruct s; cbn in Hp; try contradiction; destruct v; reflexivity.
    - destruct v; reflexivity.
    - destruct v; try reflexivity. cbn [enc]. f_equal. apply all_ext. intros; apply IH, Hp.
    - destruct v; try reflexivity. cbn [enc]. apply all_ext. intros; apply IH, Hp.
    - destruct v; try reflexivity. cbn [enc]. apply all_ext. intros; apply IH, Hp.
    - destruct v; try reflexivity. cbn [enc]. f_equal. apply IH, Hp.
    - destruct Hp as [Hp1 Hp2]. destruct v; try reflexivity; cbn [enc]; f_equal; auto.
    - destruct v; try reflexivity. cbn [enc]. cbn in Hp. revert vs Hp.
      induction IH as [|t ts IHt _ IHts]; intros [|v vs] Hp; cbn [enc_tuple]; try reflexivity.
      destruct Hp. f_equal; auto.
    - destruct v as [| | | |[|a [|b vs]]| | | | |]; try reflexivity. cbn [enc]. f_equal; apply IH, Hp.
    - destruct v; try reflexivity. cbn [enc]. f_equal. apply all_ext; intros; apply IH, Hp.
    - destruct v; try reflexivity. cbn [enc]. destruct Hp as (Hp1 & Hp2). f_equal.
      apply all_ext; intros [| | | |[|x [|y [|]]]| | | | |]; try reflexivity;
        cbn [enc_pair]; rewrite IHk, IHv by assumption; reflexivity.
    - destruct v; apply IH; exact Hp.
    - destruct v; try reflexivity. cbn [enc]. apply order_fields; assumption.
    - destruct v as [| | | | | | | | |i us]; try reflexivity. cbn [enc]. cbn in Hp. revert i Hp.
      induction IH as [|[tag fs] vs IHf _ IHvs]; intros [|i] Hp; cbn [enc_variant]; try reflexivity.
      + f_equal. apply order_fields; [exact IHf|apply Hp].
      + apply IHvs, Hp.
    - destruct v; reflexivity.
  Qed.

  Definition sot (t : ty) : Prop := forall v, no_ipv6 t -> tagged it e s1 t v -> tagged it e s2 t v.

  Lemma order_tagged_fields fs : Forall (fun f => sot (snd f)) fs ->
    all_fields (fun a t' => f_skip a = true \/ no_ipv6 t') fs -> forall vs,
    tagged_fields (tagged it e s1) fs vs -> tagged_fields (tagged it e s2) fs vs.
  Proof.
    induction 1 as [|[a t] fs Hf _ IH]; intros Hp [|v vs]; cbn [tagged_fields]; auto.
    destruct Hp as [Hp Hps]. cbn [fst snd] in *. intros [Ha Hr]. split; [|apply IH; assumption].
    destruct Ha as [Ha|Ha]; [auto|]. destruct Hp as [Hp|Hp]; [auto|]. right. apply Hf; assumption.
  Qed.

  Lemma order_tagged t : sot t.
  Proof.
    induction t as [s|k|k t IH|t n IH|t n IH|t IH|t1 t2 IH1 IH2|ts IH|i t IH|k t IH|k tk tv IHk IHv|t IH|d fs IH|d vs IH|]
      using ty_ind'; intros v Hp; cbn [no_ipv6] in Hp.
    - destruct v; auto.
    - destruct v; auto.
    - destruct v; auto. cbn [tagged]. apply Forall_impl. intros v. apply IH, Hp.
    - destruct v; auto. cbn [tagged]. apply Forall_impl. intros v. apply IH, Hp.
    - destruct v; auto. cbn [tagged]. apply Forall_impl. intros v. apply IH, Hp.
    - destruct v; auto. cbn [tagged]. apply IH, Hp.
    - destruct v; auto; cbn [tagged]; [apply IH1|apply IH2]; apply Hp.
    - destruct v; auto. cbn [tagged]. revert vs Hp.
      induction IH as [|t ts IHt _ IHts]; intros [|v vs] Hp; cbn [valid_list]; auto.
      destruct Hp as [Hp1 Hp2]. intros [H1 H2]. split; [apply IHt|apply IHts]; assumption.
    - destruct v as [| | | |[|a [|b vs]]| | | | |]; auto. cbn [tagged]. intros [H1 H2]. split; apply IH; assumption.
    - destruct v; auto. cbn [tagged]. apply Forall_impl. intros v. apply IH, Hp.
    - destruct v; auto. cbn [tagged]. apply Forall_impl. destruct Hp as [Hp1 Hp2].
      intros [| | | |[|a [|b [|]]]| | | | |]; cbn [valid_pair]; auto. intros [H1 H2]. split; [apply IHk|apply IHv]; assumption.
    - cbn [tagged]. destruct v; apply IH, Hp.
    - destruct v; auto. cbn [tagged]. apply order_tagged_fields; assumption.
    - destruct v as [| | | | | | | | |i us]; auto. cbn [tagged]. revert i Hp.
      induction IH as [|[tag fs] vs IHf _ IHvs]; intros [|i] Hp; cbn [tagged_variant]; auto.
      + destruct Hp as [Hp _]. cbn [fst snd] in *. intros [H1 H2]. split; [|apply order_tagged_fields with (1 := IHf); assumption].
        intros Hk b Hb. apply (H1 Hk). rewrite (order_fields fs); [exact Hb| |exact Hp].
        apply Forall_forall. intros f _. apply order_enc.
      + apply IHvs, Hp.
    - destruct v; auto.
  Qed.
End Order.

(* ------------------------------------------------------------------ *)
(** * Decoding on two hosts *)

Definition hard {A} (x : dres A) : Prop :=
  match x with DBad _ _ | DPanic _ _ | DUnspec => True | _ => False end.

(** Two outcomes that are both values are the same. *)
Definition compat {A} (x y : dres A) : Prop := x = y \/ hard x \/ hard y.
Definition dcompat {A} (c d : dec A) : Prop := forall o, compat (c o) (d o).

Lemma dcompat_refl {A} (d : dec A) : dcompat d d.
Proof. intros o. left. reflexivity. Qed.

Lemma dcompat_bind {A B} (m n : dec A) (k j : A -> dec B) :
  dcompat m n -> (forall a, dcompat (k a) (j a)) -> dcompat (dbind m k) (dbind n j).
Proof.
  intros H Hk o. unfold dbind. destruct (H o) as [E|[E|E]].
  - rewrite E. destruct (n o) as [a o'| | | |]; try (left; reflexivity). apply Hk.
  - right; left. destruct (m o); try contradiction; exact I.
  - right; right. destruct (n o); try contradiction; exact I.
Qed.

Lemma dcompat_map {A B} (f : A -> B) m n : dcompat m n -> dcompat (dmap f m) (dmap f n).
Proof. intros H. apply dcompat_bind; [exact H|]. intros; apply dcompat_refl. Qed.

Lemma dcompat_repeat {A} (m n : dec A) k : dcompat m n -> dcompat (drepeat m k) (drepeat n k).
Proof.
  intros H. induction k as [|k IH]; [apply dcompat_refl|]. cbn [drepeat].
  apply dcompat_bind; [exact H|]. intros a. apply dcompat_bind; [exact IH|]. intros; apply dcompat_refl.
Qed.

Lemma dcompat_catch {A} (x : A) m n : dcompat m n -> dcompat (dcatch x m) (dcatch x n).
Proof.
  intros H o. unfold dcatch. destruct (H o) as [E|[E|E]]; [rewrite E; left; reflexivity| |].
  - right; left. destruct (m o) as [| |er []|f []|]; try contradiction; exact I.
  - right; right. destruct (n o) as [| |er []|f []|]; try contradiction; exact I.
Qed.

Lemma dcompat_hard {A} (m n : dec A) : (forall o, hard (m o)) -> dcompat m n.
Proof. intros H o. right; left. apply H. Qed.
Lemma dcompat_hard' {A} (m n : dec A) : (forall o, hard (n o)) -> dcompat m n.
Proof. intros H o. right; right. apply H. Qed.

Lemma dcompat_if {A} (b c : bool) (d d' x y : dec A) : dcompat d d' -> (forall o, hard (x o)) -> (forall o, hard (y o)) ->
  dcompat (if b then d else x) (if c then d' else y).
Proof. destruct b, c; intros H Hx Hy; auto using dcompat_hard, dcompat_hard'. Qed.

Lemma dcompat_unsure {A} (m n : dec A) : dcompat m n -> dcompat (dunsure m) (dunsure n).
Proof.
  intros H o. unfold dunsure. destruct (H o) as [E|[E|E]]; [rewrite E; left; reflexivity| |].
  - right; left. destruct (m o); try contradiction; exact I.
  - right; right. destruct (n o); try contradiction; exact I.
Qed.

Lemma dcompat_peek {A} (m n : dec A) : dcompat m n -> dcompat (dpeek m) (dpeek n).
Proof.
  intros H o. unfold dpeek. destruct (H o) as [E|[E|E]]; [rewrite E; left; reflexivity| |].
  - right; left. destruct (m o); try contradiction; exact I.
  - right; right. destruct (n o); try contradiction; exact I.
Qed.

Lemma dcompat_until {A} (m n : dec A) : dcompat m n -> dcompat (duntil m) (duntil n).
Proof.
  intros H [bs|]; [|left; reflexivity]. unfold duntil.
  generalize (S (length bs)) as k. intros k. generalize (Some bs) as o. clear bs.
  induction k as [|k IH]; intros o; [left; reflexivity|]. cbn [duntil_loop].
  destruct (H o) as [E|[E|E]].
  - rewrite E. destruct (n o) as [a o'| |er []|f []|]; try (left; reflexivity).
    apply (dcompat_map (cons a) (duntil_loop m k) (duntil_loop n k)). exact IH.
  - right; left. destruct (m o) as [| |er []|f []|]; try contradiction; exact I.
  - right; right. destruct (n o) as [| |er []|f []|]; try contradiction; exact I.
Qed.

Section Compat.
  Context (lim1 lim2 : limits) (e s1 s2 : endian).

  Definition agree_on (t : ty) : Prop := s1 = s2 \/ no_ipv6 t.

  Ltac step := first
    [ apply dcompat_refl | assumption
    | apply dcompat_bind; [|intros ?] | apply dcompat_map | apply dcompat_catch
    | apply dcompat_repeat | apply dcompat_until | apply dcompat_unsure | apply dcompat_peek
    | apply dcompat_if; [|intros; exact I|intros; exact I] ].

  Lemma dcompat_scalar s : agree_on (TScalar s) -> dcompat (dec_scalar lim1 e s1 s) (dec_scalar lim2 e s2 s).
  Proof.
    intros H. destruct s; cbn [dec_scalar]; try (repeat step; fail).
    - destruct H as [->|[]]. repeat step.
    - destruct H as [->|[]]. repeat step.
    - apply dcompat_bind; [apply dcompat_refl|]. intros [| | | |[|[] l]| | | | |]; repeat step.
  Qed.

  Lemma dcompat_prefix b : dcompat (dprefix lim1 e b) (dprefix lim2 e b).
  Proof. unfold dprefix. repeat step. Qed.

  Lemma dcompat_len {A} l (c1 c2 : N -> dec A) t1 t2 : (forall n, dcompat (c1 n) (c2 n)) -> dcompat t1 t2 ->
    dcompat (dlen lim1 e l c1 t1) (dlen lim2 e l c2 t2).
  Proof.
    intros Hc Ht. unfold dlen. destruct l as [b []|[n|]|]; auto; [| |apply dcompat_refl].
    - apply dcompat_bind; [apply dcompat_catch, dcompat_prefix|auto].
    - apply dcompat_bind; [apply dcompat_prefix|auto].
  Qed.

  Lemma dcompat_sized {A} t n (c d : dec A) : dcompat c d -> dcompat (dsized lim1 t n c) (dsized lim2 t n d).
  Proof. intros H. unfold dsized. repeat step. Qed.

  Lemma dcompat_str k b : dcompat (dstr lim1 k b) (dstr lim2 k b).
  Proof. unfold dstr. destruct (utf8_valid b); [|apply dcompat_refl]. destruct k; repeat step. Qed.

  Definition dc (t : ty) : Prop := forall l, agree_on t -> dcompat (decl lim1 e s1 l t) (decl lim2 e s2 l t).

  Lemma dcompat_fields fs : Forall (fun f => dc (snd f)) fs ->
    s1 = s2 \/ all_fields (fun a t' => f_skip a = true \/ no_ipv6 t') fs -> forall prev,
    dcompat (dfields lim1 e s1 (decl lim1 e s1) prev fs) (dfields lim2 e s2 (decl lim2 e s2) prev fs).
  Proof.
    induction 1 as [|[a t] fs Hf _ IH]; intros Hp prev; cbn [dfields]; [apply dcompat_refl|]. cbn [fst snd] in *.
    assert (Hps : s1 = s2 \/ all_fields (fun a t' => f_skip a = true \/ no_ipv6 t') fs)
      by (destruct Hp as [Hp|[_ Hp]]; auto).
    destruct (f_skip a) eqn:Es; [apply dcompat_map, IH, Hps|].
    assert (Ht : agree_on t) by (destruct Hp as [Hp|[[Hp|Hp] _]]; [left; exact Hp|cbn in Hp; congruence|right; exact Hp]).
    apply dcompat_bind.
    - unfold dfield.
      assert (Hb : dcompat (_ <-- dconst (f_prefix a);; (if f_varint a then dec_scalar lim1 e s1 SVarint else decl lim1 e s1 (field_len (f_eof a) prev a t) t))
                           (_ <-- dconst (f_prefix a);; (if f_varint a then dec_scalar lim2 e s2 SVarint else decl lim2 e s2 (field_len (f_eof a) prev a t) t))).
      { apply dcompat_bind; [apply dcompat_refl|]. intros _. destruct (f_varint a); [|apply Hf, Ht].
        apply dcompat_scalar. right. exact I. }
      destruct (f_eof a); [apply dcompat_catch|]; exact Hb.
    - intros v. apply dcompat_bind; [apply IH, Hps|]. intros; apply dcompat_refl.
  Qed.

  Lemma decl_compat t : dc t.
  Proof.
    induction t as [s|k|k t IH|t n IH|t n IH|t IH|t1 t2 IH1 IH2|ts IH|i t IH|k t IH|k tk tv IHk IHv|t IH|d fs IH|d vs IH|]
      using ty_ind'; intros l Hp; cbn [decl].
    - apply dcompat_scalar, Hp.
    - apply dcompat_len.
      + intros n. apply dcompat_bind; [apply dcompat_sized, dcompat_refl|]. intros; apply dcompat_str.
      + apply dcompat_bind; [apply dcompat_refl|]. intros; apply dcompat_str.
    - apply dcompat_map, dcompat_len; [|apply dcompat_until, IH, Hp].
      intros n. apply dcompat_sized, dcompat_repeat, IH, Hp.
    - apply dcompat_map, dcompat_repeat, IH, Hp.
    - apply dcompat_map, dcompat_repeat, IH, Hp.
    - apply dcompat_bind; [apply dcompat_refl|]. intros n. destruct (n =? 0); [apply dcompat_refl|]. apply dcompat_map, IH, Hp.
    - apply dcompat_bind; [apply dcompat_refl|]. intros n.
      destruct (n =? 0); apply dcompat_map; [apply IH2|apply IH1]; (destruct Hp as [Hp|Hp]; [left; exact Hp|right; apply Hp]).
    - apply dcompat_map. revert Hp. induction IH as [|t ts IHt _ IHts]; intros Hp; [apply dcompat_refl|]. cbn [dtuple].
      apply dcompat_bind; [apply IHt; destruct Hp as [Hp|Hp]; [left; exact Hp|right; apply Hp]|].
      intros v. apply dcompat_bind; [|intros; apply dcompat_refl].
      apply IHts; destruct Hp as [Hp|Hp]; [left; exact Hp|right; apply Hp].
    - apply dcompat_bind; [apply IH, Hp|]. intros a. apply dcompat_bind; [apply IH, Hp|]. intros b. apply dcompat_refl.
    - apply dcompat_bind; [|intros; apply dcompat_refl]. apply dcompat_len; [intros n; apply dcompat_repeat|apply dcompat_until]; apply IH, Hp.
    - assert (Hd : dcompat (dpair (decl lim1 e s1 len0 tk) (decl lim1 e s1 len0 tv)) (dpair (decl lim2 e s2 len0 tk) (decl lim2 e s2 len0 tv))).
      { unfold dpair. apply dcompat_bind; [apply IHk; destruct Hp as [Hp|Hp]; [left; exact Hp|right; apply Hp]|].
        intros a. apply dcompat_bind; [apply IHv; destruct Hp as [Hp|Hp]; [left; exact Hp|right; apply Hp]|].
        intros; apply dcompat_refl. }
      cbn zeta. apply dcompat_bind; [|intros; apply dcompat_refl].
      apply dcompat_len; [intros n; apply dcompat_repeat|apply dcompat_until]; exact Hd.
    - apply IH, Hp.
    - apply dcompat_map, dcompat_fields; [exact IH|exact Hp].
    - apply dcompat_bind; [apply dcompat_refl|]. intros tag. generalize 0%nat as j. unfold agree_on in Hp. cbn [no_ipv6] in Hp.
      induction IH as [|[g fs] vs IHf _ IHvs]; intros j; cbn [dvariant]; [apply dcompat_refl|]. cbn [fst snd] in *.
      destruct (g =? tag).
      + apply dcompat_map, dcompat_fields; [exact IHf|]. destruct Hp as [Hp|[Hp _]]; auto.
      + apply IHvs. destruct Hp as [Hp|[_ Hp]]; auto.
    - apply dcompat_refl.
  Qed.
End Compat.

(* ------------------------------------------------------------------ *)
(** * C62 *)

Section Interop.
  Context (h1 h2 : host) (VH1 : valid_host h1) (VH2 : valid_host h2) (e : endian).
  Context (mem : N -> bytes) (Hmem : forall n, n <= nlen (mem n)).
  Notation s1 := (ipv6_order h1 e).
  Notation s2 := (ipv6_order h2 e).

  Lemma same_order t : same_bytes h1 h2 t -> s1 = s2 \/ no_ipv6 t.
  Proof. intros [E|H]; [left; unfold ipv6_order; rewrite E; reflexivity|right; exact H]. Qed.

  Lemma same_enc t v : same_bytes h1 h2 t -> encode (h_iter h1) e s1 t v = encode (h_iter h1) e s2 t v.
  Proof. intros H. destruct (same_order t H) as [->|Hn]; [reflexivity|]. apply order_enc, Hn. Qed.

  Lemma same_tagged t v : same_bytes h1 h2 t -> tagged (h_iter h1) e s1 t v -> tagged (h_iter h1) e s2 t v.
  Proof. intros H. destruct (same_order t H) as [->|Hn]; [auto|]. apply order_tagged, Hn. Qed.

  (** A value of both hosts, written on one and read on the other, which may
      differ in byte order, pointer size, memory layout and hash function. *)
  Theorem C62_interop t v b addr :
    wsup h1 t -> supported h2 e true true LDefault t -> rtok (h_lim h2) e s2 false t -> same_bytes h1 h2 t ->
    value_of h1 e t v -> valid (h_lim h2) t v ->
    write_to_vec h1 mem e t v = Ok b -> nlen b <= h_alloc_max h2 ->
    read_from_buffer h2 e t addr b = Ok (norm t v).
  Proof.
    intros Hw Hs Hr Hsame Hv Hv2 Hb Hl. pose proof (written h1 VH1 e mem Hmem t v b Hw Hv Hb) as He.
    destruct Hv as [Hv1 Ht]. rewrite (same_enc t v Hsame) in He. apply (same_tagged t v Hsame) in Ht.
    pose proof (round_trip (h_lim h2) (h_iter h1) e s2 (vh_usize_hi h2 VH2) (vh_systime h2 VH2) (vh_iter h1 VH1)
                  t len0 v b [] Hv2 Ht Hr He (fun _ => eq_refl)) as Hd. rewrite app_nil_r in Hd.
    destruct (buffer_agrees h2 VH2 e t addr b Hs Hl) as [H _].
    { eapply (enc_min h2 VH2 (h_iter h1)); eassumption. }
    unfold decode in H. rewrite Hd in H. exact H.
  Qed.

  (** The same through a stream that does not fail. *)
  Theorem C62_interop_stream t v b mem2 buffering pk sched : (forall n, n <= nlen (mem2 n)) ->
    wsup h1 t -> supported h2 e false pk LDefault t -> rtok (h_lim h2) e s2 false t -> same_bytes h1 h2 t ->
    value_of h1 e t v -> valid (h_lim h2) t v ->
    write_to_vec h1 mem e t v = Ok b -> nlen b <= l_usize_max (h_lim h2) ->
    ~ In (RErr IoUnexpectedEof) sched ->
    let i := {| is_rest := b; is_sched := sched |} in
    let r := fst (deserialize h2 mem2 buffering e t i) in
    r = Ok (norm t v) \/ stream_failed buffering pk i r.
  Proof.
    intros Hmem2 Hw Hs Hr Hsame Hv Hv2 Hb Hl Hsc i r. pose proof (written h1 VH1 e mem Hmem t v b Hw Hv Hb) as He.
    destruct Hv as [Hv1 Ht]. rewrite (same_enc t v Hsame) in He. apply (same_tagged t v Hsame) in Ht.
    pose proof (round_trip (h_lim h2) (h_iter h1) e s2 (vh_usize_hi h2 VH2) (vh_systime h2 VH2) (vh_iter h1 VH1)
                  t len0 v b [] Hv2 Ht Hr He (fun _ => eq_refl)) as Hd. rewrite app_nil_r in Hd.
    pose proof (stream_agrees h2 VH2 e mem2 Hmem2 buffering pk i Hsc Hl t Hs) as H.
    subst r. destruct (deserialize h2 mem2 buffering e t i) as [r s]. cbn [fst].
    destruct H as [H|[H _]]; [right; exact H|left]. subst i. cbn [is_rest] in H. unfold decode in H. rewrite Hd in H. exact H.
  Qed.

  (** A value the reading host cannot represent is refused; it never becomes
      another value. *)
  Theorem C62_never_wrong t v b addr w :
    covered h1 e true true t -> supported h2 e true true LDefault t -> no_eof false t -> same_bytes h1 h2 t ->
    value_of h1 e t v -> write_to_vec h1 mem e t v = Ok b -> nlen b <= h_alloc_max h2 ->
    read_from_buffer h2 e t addr b = Ok w -> w = norm t v.
  Proof.
    intros [Hw _ Hr] Hs Hn Hsame Hv Hb Hl Hrd. pose proof (written h1 VH1 e mem Hmem t v b Hw Hv Hb) as He.
    pose proof (host_round_trip h1 VH1 e t v b [] Hr Hv He (fun _ => eq_refl)) as Hd. rewrite app_nil_r in Hd.
    pose proof (decl_compat (h_lim h1) (h_lim h2) e s1 s2 t len0 (same_order t Hsame) (Some b)) as Hc.
    unfold decode in Hd. rewrite Hd in Hc. clear Hd.
    pose proof (decode_spec (h_lim h2) e s2 t b Hn) as Hu.
    destruct (N.leb_spec (min_bytes h2 t) (nlen b)) as [Hm|Hm].
    - destruct (buffer_agrees h2 VH2 e t addr b Hs Hl Hm) as [H _]. unfold decode in *.
      destruct Hc as [Hc|[[]|Hc]].
      + rewrite <- Hc in H. cbn [agrees] in H. congruence.
      + rewrite Hrd in H. destruct (decl (h_lim h2) e s2 len0 t (Some b)) as [| |er sure|f sure|]; try contradiction; cbn [agrees] in H.
        * destruct H as [[C _]|[_ (er' & C & _)]]; discriminate.
        * destruct H as [C|[_ (er' & C & _)]]; discriminate.
    - unfold read_from_buffer in Hrd. rewrite buffer_small in Hrd by assumption. discriminate.
  Qed.
End Interop.

(** The sample type from a little-endian 64-bit host to a big-endian 32-bit host
    that lays out structs differently. *)
Example sample_travels :
  wsup host64 sample /\ supported host32be LE true true LDefault sample
  /\ rtok (h_lim host32be) LE (ipv6_order host32be LE) false sample /\ same_bytes host64 host32be sample
  /\ value_of host64 LE sample sample_value /\ valid (h_lim host32be) sample sample_value
  /\ exists b, write_to_vec host64 dirty LE sample sample_value = Ok b /\ nlen b <= h_alloc_max host32be
               /\ read_from_buffer host32be LE sample 3 b = Ok sample_back.
Proof.
  split; [apply wsupb_sound; vm_compute; reflexivity|].
  split; [apply supportedb_sound; vm_compute; reflexivity|].
  split; [apply rtokb_sound; vm_compute; reflexivity|].
  split; [right; cbn; tauto|]. split; [apply sample_value64|]. split; [apply sample_value32be|].
  eexists. split; [vm_compute; reflexivity|]. split; [vm_compute; discriminate|]. vm_compute. reflexivity.
Qed.

(** A `usize` beyond 32 bits is refused by a 32-bit host, a vector of such too. *)
Example usize_refused :
  covered host64 LE true true (TSeq KVec (TScalar SUsize)) /\ supported host32 LE true true LDefault (TSeq KVec (TScalar SUsize))
  /\ no_eof false (TSeq KVec (TScalar SUsize)) /\ same_bytes host64 host32 (TSeq KVec (TScalar SUsize))
  /\ value_of host64 LE (TSeq KVec (TScalar SUsize)) (VSeq [VInt 7; VInt 5000000000])
  /\ exists b, write_to_vec host64 dirty LE (TSeq KVec (TScalar SUsize)) (VSeq [VInt 7; VInt 5000000000]) = Ok b
               /\ read_from_buffer host32 LE (TSeq KVec (TScalar SUsize)) 0 b = Err OutOfRangeUsize.
Proof.
  split; [apply coveredb_sound; vm_compute; reflexivity|].
  split; [apply supportedb_sound; vm_compute; reflexivity|]. split; [apply no_eofb_sound; reflexivity|]. split; [left; reflexivity|].
  split; [apply value_ofb_sound; vm_compute; reflexivity|].
  eexists. split; vm_compute; reflexivity.
Qed.

(** Hosts of different byte orders do not agree on IPv6 addresses: the reader gets
    another address. *)
Theorem C62_ipv6_refuted : exists h1 h2 e v b w,
  valid_host h1 /\ valid_host h2 /\ covered h1 e true true (TScalar SIpv6) /\ covered h2 e true true (TScalar SIpv6)
  /\ no_eof false (TScalar SIpv6) /\ value_of h1 e (TScalar SIpv6) v /\ value_of h2 e (TScalar SIpv6) v
  /\ write_to_vec h1 dirty e (TScalar SIpv6) v = Ok b
  /\ read_from_buffer h2 e (TScalar SIpv6) 0 b = Ok w /\ w <> norm (TScalar SIpv6) v.
Proof.
  exists host64, host32be, LE,
    (VBytes [x20; x01; x0d; xb8; x00; x00; x00; x00; x00; x00; x00; x00; x00; x00; x00; x01]). do 2 eexists.
  split; [apply host64_valid|]. split; [apply host32be_valid|].
  split; [apply coveredb_sound; vm_compute; reflexivity|]. split; [apply coveredb_sound; vm_compute; reflexivity|].
  split; [exact I|].
  split; [apply value_ofb_sound; vm_compute; reflexivity|]. split; [apply value_ofb_sound; vm_compute; reflexivity|].
  split; [vm_compute; reflexivity|]. split; [vm_compute; reflexivity|]. discriminate.
Qed.

Print Assumptions C62_interop.
Print Assumptions C62_interop_stream.
Print Assumptions C62_never_wrong.
Print Assumptions C62_ipv6_refuted.
