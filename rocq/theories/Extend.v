(* Decoding looks only at the bytes it consumes: more input behind them changes
   nothing, and with less input decoding runs into its end. *)
From Verif Require Import BaseFacts SpecFacts TyInd.
From Verif Require Export Wellformed RoundTrip.

(** The same outcome with [q] left over. *)
Definition ext {A} (d : dres A) (q : bytes) : dres A :=
  match d with
  | DOk a (Some r) => DOk a (Some (r ++ q))
  | d => d
  end.

Definition mono {A} (d : dec A) : Prop := forall p,
  d (Some p) = DEof
  \/ ((forall q, d (Some (p ++ q)) = ext (d (Some p)) q)
      /\ d (Some p) <> DUnspec
      /\ forall a o, d (Some p) = DOk a o -> exists c r, o = Some r /\ p = c ++ r).

Section Mono.
  Context {A B : Type}.

  Lemma mono_ext (d d' : dec A) : (forall o, d o = d' o) -> mono d -> mono d'.
  Proof. intros H Hm p. destruct (Hm p) as [E|(E1 & E2 & E3)]; rewrite <- ?H; [left; auto|right]. 
    split; [|split; auto]. intros q. rewrite <- !H. auto. Qed.

  Lemma mono_ret (a : A) : mono (dret a).
  Proof.
    intros p. right. unfold dret. cbn. repeat split; try discriminate.
    intros a' o E. injection E as <- <-. exists [], p. auto.
  Qed.

  Lemma mono_bad er : mono (A := A) (dbad er).
  Proof. intros p. right. unfold dbad. cbn. repeat split; discriminate. Qed.

  Lemma mono_panic f : mono (A := A) (dpanic f).
  Proof. intros p. right. unfold dpanic. cbn. repeat split; discriminate. Qed.

  Lemma mono_read n : mono (dread n).
  Proof.
    intros p. unfold dread. destruct (N.eqb_spec n 0) as [->|Hn].
    - right. cbn. repeat split; try discriminate. intros a o E. injection E as <- <-. exists [], p. auto.
    - destruct (N.leb_spec n (nlen p)) as [H|H]; [right|left; reflexivity].
      split; [|split; [discriminate|]].
      + intros q. destruct (N.leb_spec n (nlen (p ++ q))) as [_|C]; [|rewrite nlen_app in C; lia].
        cbn. rewrite take_app_le, drop_app_le by lia. reflexivity.
      + intros a o E. injection E as <- <-. exists (ntake n p), (ndrop n p). rewrite take_drop. auto.
  Qed.

  Lemma mono_peek (d : dec A) : mono d -> mono (dpeek d).
  Proof.
    intros H p. unfold dpeek. destruct (H p) as [E|(E1 & E2 & E3)]; [rewrite E; left; reflexivity|].
    right. split; [|split].
    - intros q. rewrite E1. destruct (d (Some p)) as [a o| | | |]; cbn; try reflexivity.
      destruct (E3 a o eq_refl) as (c & r & -> & _). reflexivity.
    - destruct (d (Some p)); congruence.
    - intros a o Hd. exists [], p. destruct (d (Some p)); try discriminate. injection Hd as <- <-. auto.
  Qed.

  Lemma mono_unsure (d : dec A) : mono d -> mono (dunsure d).
  Proof.
    intros H p. unfold dunsure. destruct (H p) as [E|(E1 & E2 & E3)]; [rewrite E; left; reflexivity|].
    right. split; [|split].
    - intros q. rewrite E1. destruct (d (Some p)) as [a o| | | |]; cbn; try reflexivity.
      destruct (E3 a o eq_refl) as (c & r & -> & _). reflexivity.
    - destruct (d (Some p)); congruence.
    - intros a o Hd. destruct (d (Some p)); try discriminate. injection Hd as <- <-. apply (E3 _ _ eq_refl).
  Qed.

  Lemma mono_sized lim t n (d : dec A) : mono d -> mono (dsized lim t n d).
  Proof.
    intros H. unfold dsized. destruct (l_fits lim t n); [apply mono_unsure, H|].
    intros p. right. split; [reflexivity|]. split; [discriminate|]. intros a o E. discriminate.
  Qed.
End Mono.

Lemma mono_bind {A B} (d : dec A) (k : A -> dec B) : mono d -> (forall a, mono (k a)) -> mono (dbind d k).
Proof.
  intros H Hk p. unfold dbind. destruct (H p) as [E|(E1 & E2 & E3)]; [rewrite E; left; reflexivity|].
  destruct (d (Some p)) as [a o| |er s|f s|] eqn:Ed; try congruence.
  - destruct (E3 a o eq_refl) as (c & r & -> & ->). cbn [ext] in E1.
    destruct (Hk a r) as [E|(F1 & F2 & F3)]; [left; exact E|right]. split; [|split].
    + intros q. rewrite E1. auto.
    + auto.
    + intros b o Hb. destruct (F3 b o Hb) as (c' & r' & -> & ->). exists (c ++ c'), r'. rewrite app_assoc. auto.
  - left; reflexivity.
  - right. repeat split; try discriminate. intros q. rewrite E1. reflexivity.
  - right. repeat split; try discriminate. intros q. rewrite E1. reflexivity.
Qed.

Lemma mono_map {A B} (f : A -> B) (d : dec A) : mono d -> mono (dmap f d).
Proof. intros. apply mono_bind; auto. intros. apply mono_ret. Qed.

Lemma mono_repeat {A} (d : dec A) n : mono d -> mono (drepeat d n).
Proof.
  intros H. induction n; cbn [drepeat]; [apply mono_ret|]. apply mono_bind; auto. intros.
  apply mono_bind; auto. intros. apply mono_ret.
Qed.

Section MonoDec.
  Context (lim : limits) (e e6 : endian).

  Lemma mono_word w : mono (dword e w).
  Proof. apply mono_map, mono_read. Qed.

  Lemma mono_prim p : mono (dprim e p).
  Proof. apply mono_map, mono_word. Qed.

  Lemma mono_varint : mono (dvarint e).
  Proof.
    apply mono_bind; [apply mono_word|]. intros. apply mono_bind; [apply mono_read|]. intros. apply mono_ret.
  Qed.

  Lemma mono_basic b : mono (dbasic e b).
  Proof. destruct b; cbn [dbasic]; first [apply mono_word | apply mono_varint]. Qed.

  Lemma mono_if {A} (b : bool) (d d' : dec A) : mono d -> mono d' -> mono (if b then d else d').
  Proof. destruct b; auto. Qed.

  Lemma mono_duration : mono (dduration e).
  Proof.
    apply mono_bind; [apply mono_word|]. intros. apply mono_bind; [apply mono_word|]. intros.
    apply mono_if; [apply mono_ret|apply mono_panic].
  Qed.

  Lemma mono_scalar s : mono (dec_scalar lim e e6 s).
  Proof.
    destruct s; cbn [dec_scalar];
      repeat first [ apply mono_ret | apply mono_bad | apply mono_panic | apply mono_read | apply mono_word
                   | apply mono_prim | apply mono_varint | apply mono_duration | apply mono_if | apply mono_map
                   | apply mono_repeat | (apply mono_bind; [|intros]) ].
    destruct a as [| | | |[|[] ?]| | | | |]; try apply mono_bad. apply mono_if; [apply mono_ret|apply mono_bad].
  Qed.

  Lemma mono_prefix b : mono (dprefix lim e b).
  Proof. apply mono_bind; [apply mono_basic|]. intros. apply mono_if; [apply mono_ret|apply mono_bad]. Qed.

  Definition strict_len (l : lenspec) : Prop :=
    match l with LenPrefix _ lenient => lenient = false | LenFixed _ => True | LenEof => False end.

  Lemma mono_len {A} l (c : N -> dec A) te : strict_len l -> (forall n, mono (c n)) -> mono (dlen lim e l c te).
  Proof.
    intros Hl Hc. destruct l as [b []|[m|]|]; cbn in Hl; try contradiction; try discriminate; cbn [dlen].
    - apply mono_bind; [apply mono_prefix|]. auto.
    - auto.
    - apply mono_panic.
  Qed.

  Lemma mono_str k b : mono (dstr lim k b).
  Proof.
    unfold dstr. apply mono_if; [|apply mono_bad].
    destruct k; try apply mono_ret. apply mono_if; [apply mono_ret|apply mono_bad].
  Qed.

  Lemma mono_const c : mono (dconst c).
  Proof.
    apply mono_bind; [apply mono_read|]. intros. destruct list_eq_dec; [apply mono_ret|apply mono_bad].
  Qed.

  Notation decl := (decl lim e e6).

  Definition mono_ty (t : ty) : Prop := forall l, no_eof (leof l) t -> (strict_len l \/ leof l = true) -> mono (decl l t).

  Lemma mono_fields fs : Forall (fun f => mono_ty (snd f)) fs ->
    all_fields (fun a t' => f_skip a = true \/ (f_eof a = false /\ no_eof (field_eof a t') t')) fs ->
    forall prev, mono (dfields lim e e6 decl prev fs).
  Proof.
    induction 1 as [|[a t] fs Hf _ IH]; intros Ha prev; cbn [dfields fst snd]; [apply mono_ret|].
    cbn in Ha. destruct Ha as [Ha Hr]. destruct (f_skip a) eqn:Es; [apply mono_map; auto|].
    destruct Ha as [?|[He Hn]]; [discriminate|].
    apply mono_bind.
    - unfold dfield. rewrite He. apply mono_bind; [apply mono_const|]. intros _.
      destruct (f_varint a); [apply mono_scalar|]. apply Hf; cbn [snd]; rewrite leof_field; auto.
      unfold field_len, field_eof. destruct (sized_field a t); cbn; auto.
      destruct (f_len a); cbn; auto.
    - intros v. apply mono_bind; [apply IH; auto|]. intros. apply mono_ret.
  Qed.

  (** The theorem: for types that do not ask for the end of the input. *)
  Theorem decode_mono t : mono_ty t.
  Proof.
    induction t as [s|k|k t IH|t n IH|t n IH|t IH|t1 t2 IH1 IH2|ts IH|i t IH|k t IH|k tk tv IHk IHv|t IH|d fs IH|d vs IH|] using ty_ind';
      intros l Hn Hl; cbn [Spec.decl]; cbn in Hn.
    - apply mono_scalar.
    - apply mono_len; [destruct Hl; congruence|]. intros. apply mono_bind; [apply mono_sized, mono_read|]. intros. apply mono_str.
    - destruct Hn as [Hn1 Hn]. apply mono_map, mono_len; [destruct Hl; congruence|].
      intros. apply mono_sized, mono_repeat, IH; cbn; auto.
    - apply mono_map, mono_repeat, IH; cbn; auto.
    - apply mono_map, mono_repeat, IH; cbn; auto.
    - apply mono_bind; [apply mono_word|]. intros. apply mono_if; [apply mono_ret|]. apply mono_map, IH; auto.
    - apply mono_bind; [apply mono_word|]. intros. apply mono_if; apply mono_map; [apply IH2|apply IH1]; cbn; tauto.
    - apply mono_map. induction IH as [|t ts Ht _ IHts]; cbn [dtuple]; [apply mono_ret|].
      cbn in Hn. destruct Hn as [Hn1 Hn2]. apply mono_bind; [apply Ht; cbn; auto|]. intros.
      apply mono_bind; [auto|]. intros. apply mono_ret.
    - apply mono_bind; [apply IH; cbn; auto|]. intros. apply mono_bind; [apply IH; cbn; auto|]. intros. apply mono_ret.
    - destruct Hn as [Hn1 Hn]. apply mono_bind; [|intros; apply mono_ret].
      apply mono_len; [destruct Hl; congruence|]. intros. apply mono_repeat, IH; cbn; auto.
    - destruct Hn as (Hn1 & Hn2 & Hn3). apply mono_bind; [|intros; apply mono_ret].
      apply mono_len; [destruct Hl; congruence|]. intros. apply mono_repeat.
      apply mono_bind; [apply IHk; cbn; auto|]. intros. apply mono_bind; [apply IHv; cbn; auto|]. intros. apply mono_ret.
    - apply IH; cbn; auto.
    - apply mono_map, mono_fields; auto.
    - apply mono_bind.
      + apply mono_if; [apply mono_peek|]; apply mono_basic.
      + intros g. generalize 0%nat. induction IH as [|[g' fs] vs Hf _ IHvs]; intros i; cbn [dvariant fst snd]; [apply mono_bad|].
        cbn in Hn. destruct Hn as [Hn1 Hn2].
        apply mono_if; [apply mono_map, mono_fields; auto|auto].
    - apply mono_panic.
  Qed.

  Corollary decode_strict t : no_eof false t -> mono (decl len0 t).
  Proof. intros H. apply decode_mono; cbn; auto. Qed.

  (** Decoding succeeds or fails in a way all readers agree about. *)
  Corollary decode_spec t bs : no_eof false t -> decode lim e e6 t bs <> DUnspec.
  Proof. intros H. unfold decode. destruct (decode_strict t H bs) as [->|(_ & ? & _)]; [discriminate|assumption]. Qed.

  Corollary decode_ok_rest t bs v o : no_eof false t -> decode lim e e6 t bs = DOk v o ->
    exists c r, o = Some r /\ bs = c ++ r.
  Proof.
    intros H E. unfold decode in *. destruct (decode_strict t H bs) as [E'|(_ & _ & G)]; [congruence|]. eauto.
  Qed.
End MonoDec.

(** Strict prefixes of encodings. *)
Theorem decode_truncated lim it e e6 t v b p q :
  l_usize_max lim <= 2 ^ 64 - 1 -> l_systime_max lim < 2 ^ 64 -> (forall l, Permutation (it l) l) ->
  valid lim t v -> tagged it e e6 t v -> rtok lim e e6 false t -> no_eof false t ->
  encode it e e6 t v = Ok b -> b = p ++ q -> q <> [] ->
  decode lim e e6 t p = DEof.
Proof.
  intros H1 H2 H3 Hv Ht Hr Hn He -> Hq.
  pose proof (round_trip lim it e e6 H1 H2 H3 t len0 v (p ++ q) [] Hv Ht Hr He (fun _ => eq_refl)) as E.
  rewrite app_nil_r in E. unfold decode.
  destruct (decode_strict lim e e6 t Hn p) as [D|(D1 & D2 & D3)]; [assumption|exfalso].
  rewrite D1 in E. destruct (decl lim e e6 len0 t (Some p)) as [a o| | | |]; try discriminate.
  destruct (D3 a o eq_refl) as (c & r & -> & _). cbn in E. injection E as _ E.
  apply app_eq_nil in E as [_ E]. contradiction.
Qed.
