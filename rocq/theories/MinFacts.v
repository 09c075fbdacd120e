(* [min_bytes] bounds the consumption of the decoder from below. *)
From Verif Require Export DecodeFacts.

(** On success at least [m] bytes of the input are gone. *)
Definition atleast {A} (m : N) (d : dec A) : Prop :=
  forall o a o', d o = DOk a o' ->
  match o, o' with
  | Some bs, Some r => m + nlen r <= nlen bs
  | Some bs, None => m <= nlen bs
  | None, None => m = 0
  | None, Some _ => False
  end.

Lemma atleast_le {A} m m' (d : dec A) : atleast m d -> m' <= m -> atleast m' d.
Proof. intros H Hle o a o' E. specialize (H o a o' E). destruct o, o'; lia. Qed.

Lemma atleast_ext {A} m (d d' : dec A) : (forall o, d o = d' o) -> atleast m d -> atleast m d'.
Proof. intros H Hd o a o' E. rewrite <- H in E. exact (Hd o a o' E). Qed.

Lemma atleast_ret {A} (a : A) : atleast 0 (dret a).
Proof. intros o b o' E. injection E as _ <-. destruct o; lia. Qed.

Lemma atleast_bad {A} er m : @atleast A m (dbad er).
Proof. intros o b o' E. discriminate. Qed.

Lemma atleast_panic {A} f m : @atleast A m (dpanic f).
Proof. intros o b o' E. discriminate. Qed.

Lemma atleast_bind {A B} m1 m2 (d : dec A) (k : A -> dec B) :
  atleast m1 d -> (forall a, atleast m2 (k a)) -> atleast (m1 + m2) (dbind d k).
Proof.
  intros H1 H2 o b o' E. unfold dbind in E. destruct (d o) as [a o1| | | |] eqn:Ed; try discriminate.
  specialize (H1 o a o1 Ed). specialize (H2 a o1 b o' E). destruct o, o1, o'; lia.
Qed.

Lemma atleast_then {A B} m (d : dec A) (k : A -> dec B) :
  atleast m d -> (forall a, atleast 0 (k a)) -> atleast m (dbind d k).
Proof. intros H1 H2. eapply atleast_le; [apply (atleast_bind m 0); assumption|lia]. Qed.

Lemma atleast_map {A B} m (f : A -> B) (d : dec A) : atleast m d -> atleast m (dmap f d).
Proof. intros H. apply atleast_then; [assumption|]. intros. apply atleast_ret. Qed.

Lemma atleast_read n : atleast n (dread n).
Proof.
  intros o a o'. unfold dread. destruct (N.eqb_spec n 0) as [->|Hn].
  - intros E. injection E as _ <-. destruct o; lia.
  - destruct o as [bs|]; [|discriminate]. destruct (N.leb_spec n (nlen bs)); [|discriminate].
    intros E. injection E as _ <-. rewrite nlen_drop. lia.
Qed.

Lemma atleast_rest : atleast 0 drest.
Proof.
  intros o a o' E. destruct o; [|discriminate]. injection E as _ <-. rewrite N.add_0_l.
  unfold nlen. cbn. lia.
Qed.

Lemma atleast_peek {A} m (d : dec A) : atleast m d -> atleast 0 (dpeek d).
Proof.
  intros H o a o' E. unfold dpeek in E. destruct (d o); try discriminate. injection E as _ <-.
  destruct o; lia.
Qed.

Lemma atleast_repeat {A} m (d : dec A) n : atleast m d -> atleast (m * N.of_nat n) (drepeat d n).
Proof.
  intros H. induction n as [|n IH]; cbn [drepeat].
  - eapply atleast_le; [apply atleast_ret|]. lia.
  - eapply atleast_le; [apply (atleast_bind m (m * N.of_nat n)); [assumption|]|lia].
    intros a. apply atleast_then; [assumption|]. intros. apply atleast_ret.
Qed.

Lemma atleast_unsure {A} m (d : dec A) : atleast m d -> atleast m (dunsure d).
Proof.
  intros H o a o' E. apply (H o a o'). unfold dunsure in E. destruct (d o); congruence.
Qed.

Lemma atleast_sized {A} lim t n m (d : dec A) : atleast m d -> atleast m (dsized lim t n d).
Proof.
  intros H. unfold dsized. destruct (l_fits lim t n); [apply atleast_unsure, H|].
  intros o a o' E. discriminate.
Qed.

Lemma atleast_catch {A} (x : A) m (d : dec A) : atleast m d -> atleast 0 (dcatch x d).
Proof.
  intros H o a o' E. unfold dcatch in E. destruct (d o) as [b o1| |er []|f []|] eqn:Ed; try discriminate.
  - injection E as <- <-. specialize (H o b o1 Ed). destruct o, o1; lia.
  - injection E as _ <-. destruct o as [[|]|]; cbn; try lia.
Qed.

Lemma atleast_until {A} m (d : dec A) : atleast m d -> atleast 0 (duntil d).
Proof.
  intros H o a o' E. unfold duntil in E. destruct o as [bs|]; [|discriminate].
  assert (Hx : forall k, atleast 0 (duntil_loop d k)).
  { clear -H. induction k as [|k IH]; intros o a o' E; [discriminate|].
    cbn [duntil_loop] in E. destruct (d o) as [b o1| |er []|f []|] eqn:Ed; try discriminate.
    - specialize (H o b o1 Ed). pose proof (atleast_map 0 (cons b) _ IH o1 a o' E).
      destruct o, o1, o'; lia.
    - injection E as _ <-. destruct o as [[|]|]; cbn; try lia. }
  exact (Hx _ (Some bs) a o' E).
Qed.

Section Min.
  Context (h : host) (VH : valid_host h) (lim : limits) (e e6 : endian).
  Notation decl := (decl lim e e6).

  Lemma atleast_word w : atleast (N.of_nat w) (dword e w).
  Proof. apply atleast_map, atleast_read. Qed.
  Lemma atleast_word1 : atleast 1 (dword e 1).
  Proof. apply (atleast_word 1). Qed.

  Lemma atleast_prim p : atleast (N.of_nat (psize p)) (dprim e p).
  Proof. apply atleast_map, atleast_word. Qed.

  Lemma atleast_varint : atleast 1 (dvarint e).
  Proof.
    unfold dvarint. apply atleast_then; [apply atleast_word1|]. intros b.
    eapply atleast_le; [apply atleast_then; [apply atleast_read|]|lia]. intros. apply atleast_ret.
  Qed.

  Lemma atleast_basic b : atleast (basic_size b) (dbasic e b).
  Proof.
    destruct b; cbn [dbasic basic_size];
      [apply (atleast_word 1)|apply (atleast_word 1)|apply (atleast_word 2)|apply (atleast_word 4)
      |apply (atleast_word 8)|apply atleast_varint].
  Qed.

  Lemma atleast_prefix b : atleast (basic_size b) (dprefix lim e b).
  Proof.
    unfold dprefix. apply atleast_then; [apply atleast_basic|]. intros n.
    destruct (n <=? _); [apply atleast_ret|apply atleast_bad].
  Qed.

  Lemma atleast_if {A} m (b : bool) (d d' : dec A) : atleast m d -> atleast m d' ->
    atleast m (if b then d else d').
  Proof. destruct b; auto. Qed.

  Ltac al := repeat (intros; first
    [ apply atleast_ret | apply atleast_bad | apply atleast_panic | apply atleast_if ]).

  Lemma atleast_duration : atleast 12 (dduration e).
  Proof.
    unfold dduration. apply (atleast_bind 8 4); [apply (atleast_word 8)|]. intros s.
    apply atleast_then; [apply (atleast_word 4)|]. al.
  Qed.

  Lemma atleast_scalar s : atleast (scalar_min s) (dec_scalar lim e e6 s).
  Proof.
    destruct s; cbn [scalar_min dec_scalar]; unfold dint.
    - apply atleast_map, atleast_prim.
    - apply atleast_then; [apply (atleast_word 8)|]. al.
    - apply atleast_then; [apply atleast_word1|]. al.
    - apply atleast_then; [apply (atleast_word 4)|]. al.
    - apply atleast_then; [apply atleast_word1|]. al.
    - al.
    - apply atleast_then; [apply atleast_prim|]. al.
    - apply atleast_map, atleast_prim.
    - apply atleast_then; [apply atleast_varint|]. al.
    - apply atleast_then; [apply atleast_read|]. al.
    - apply atleast_then; [apply atleast_read|]. al.
    - apply (atleast_bind 1 4); [apply atleast_word1|]. intros n. al.
      + apply atleast_then; [apply atleast_read|]. al.
      + eapply atleast_le; [apply atleast_then; [apply atleast_read|]|]; [al|lia].
    - apply atleast_duration.
    - apply atleast_then; [apply atleast_duration|]. intros v.
      destruct v as [| | | |[|[] ?]| | | | |]; al.
    - apply atleast_map, atleast_read.
    - apply (atleast_bind 8 4); [apply (atleast_prim I64)|]. intros s.
      apply atleast_then; [apply (atleast_word 4)|]. al.
    - apply atleast_map, atleast_repeat, atleast_map, atleast_prim.
    - apply atleast_then; [apply atleast_word1|]. al.
  Qed.

  Lemma atleast_len {A} l (c : N -> dec A) t : (forall n, atleast 0 (c n)) -> atleast 0 t ->
    atleast (match l with LenPrefix b false => basic_size b | _ => 0 end) (dlen lim e l c t).
  Proof.
    intros Hc Ht. destruct l as [b [] | [n|] |]; cbn [dlen]; auto.
    - apply atleast_then; [|auto]. eapply atleast_catch, atleast_prefix.
    - apply atleast_then; [|auto]. apply atleast_prefix.
    - al.
  Qed.

  Lemma atleast_const c : atleast (nlen c) (dconst c).
  Proof.
    unfold dconst. apply atleast_then; [apply atleast_read|]. intros b.
    destruct (list_eq_dec _ b c); al.
  Qed.

  Lemma atleast_str k b : atleast 0 (dstr lim k b).
  Proof. unfold dstr. destruct k; al. Qed.

  (** What is known of a type: [zero] for every way to give a length; [full] for
      [min_bytes]; [pre] for the prefix of a container. *)
  Definition zero (t : ty) : Prop := forall l, atleast 0 (decl l t).
  Definition pre (t : ty) : Prop := forall l, is_container t = true ->
    atleast (match l with LenPrefix b false => basic_size b | _ => 0 end) (decl l t).
  Definition full (t : ty) : Prop := minok h t -> atleast (min_bytes h t) (decl len0 t).

  Lemma atleast_field prev a t : zero t -> atleast 0 (dfield lim e e6 decl prev a t).
  Proof.
    intros Hz. unfold dfield.
    assert (Hb : atleast 0 (x <-- dconst (f_prefix a);;
       (if f_varint a then dec_scalar lim e e6 SVarint else decl (field_len (f_eof a) prev a t) t))).
    { apply (atleast_bind 0 0); [eapply atleast_le; [apply atleast_const|lia]|]. intros _.
      destruct (f_varint a); [|apply Hz].
      eapply atleast_le; [apply atleast_scalar|lia]. }
    destruct (f_eof a); [eapply atleast_catch|]; exact Hb.
  Qed.

  Lemma atleast_fields prev fs : Forall (fun f => zero (snd f)) fs ->
    atleast 0 (dfields lim e e6 decl prev fs).
  Proof.
    intros H. revert prev. induction H as [|f r Hf Hr IH]; intros prev; cbn [dfields]; [al|].
    destruct (f_skip (fst f)); [apply atleast_map, IH|].
    apply atleast_then; [apply atleast_field; assumption|]. intros v.
    apply atleast_then; [apply IH|]. al.
  Qed.

  Lemma dfield_full prev a t : f_skip a = false -> zero t -> pre t -> full t ->
    (forall t' n, t = TArr t' n -> full t') -> (forall t', t = TOption t' -> zero t') -> field_minok (minok h) a t ->
    atleast (field_min (min_bytes h) (a, t)) (dfield lim e e6 decl prev a t).
  Proof.
    intros Hs Hz Hp Hf Harr Hopt Hm. unfold field_min. cbn [fst snd]. rewrite Hs, orb_false_r.
    unfold field_minok in Hm. rewrite Hs, orb_false_r in Hm.
    destruct (f_eof a) eqn:Ee; cbn [orb] in *; [apply atleast_field; assumption|].
    destruct (match f_len a with LDefault | LType _ => true | _ => false end) eqn:El; cbn [orb negb] in *;
      [|apply atleast_field; assumption].
    unfold dfield. rewrite Ee. rewrite N.add_comm.
    apply atleast_bind; [apply atleast_const|]. intros _.
    destruct (f_varint a) eqn:Ev.
    { destruct Hm as [-> Ht]. destruct t as [[]| | | | | | | | | | | | | |]; try contradiction.
      exact (atleast_scalar SVarint). }
    unfold field_len, sized_field. destruct (f_opaque a) eqn:Eo; cbn [negb andb]; [auto|].
    assert (Hcon : is_container t = true ->
      atleast (basic_size (length_type (f_len a))) (decl (resolve false prev (f_len a)) t)).
    { intros Hc. specialize (Hp (resolve false prev (f_len a)) Hc). destruct (f_len a); try discriminate; exact Hp. }
    destruct t; cbn [is_container] in *; auto.
    - destruct k; auto.
    - destruct k; auto.
    - cbn [Spec.decl]. apply atleast_then; [apply atleast_word1|]. intros x.
      apply atleast_if; [al|]. apply atleast_map. apply (Hopt _ eq_refl).
    - destruct k; auto.
    - destruct k; auto.
  Qed.

  Lemma dfields_full prev fs :
    Forall (fun f => zero (snd f) /\ pre (snd f) /\ full (snd f)
                     /\ (forall t' n, snd f = TArr t' n -> full t')
                     /\ (forall t', snd f = TOption t' -> zero t')) fs ->
    all_fields (field_minok (minok h)) fs ->
    atleast (nsum (map (field_min (min_bytes h)) fs)) (dfields lim e e6 decl prev fs).
  Proof.
    intros H. revert prev. induction H as [|f r Hf Hr IH]; intros prev Hm; cbn [dfields map nsum fold_right]; [al|].
    fold (nsum (map (field_min (min_bytes h)) r)). destruct Hm as [Hm Hmr].
    destruct (f_skip (fst f)) eqn:Es.
    - unfold field_min at 1. rewrite Es, orb_true_r. apply atleast_map, IH, Hmr.
    - destruct Hf as (? & ? & ? & ? & ?). apply atleast_bind.
      + destruct f as [a t]. apply dfield_full; assumption.
      + intros v. apply atleast_then; [apply IH; assumption|]. al.
  Qed.

  Lemma atleast_variant tag vs : Forall (fun v => Forall (fun f => zero (snd f)) (snd v)) vs ->
    forall i, atleast 0 (dvariant lim e e6 decl tag i vs).
  Proof.
    induction 1 as [|v r Hv Hr IH]; intros i; cbn [dvariant]; [al|].
    apply atleast_if; [|apply IH]. apply atleast_map, atleast_fields, Hv.
  Qed.

  Lemma fold_min_0 l : fold_left N.min l 0 = 0.
  Proof. induction l; cbn [fold_left]; [reflexivity|]. rewrite N.min_0_l. assumption. Qed.

  Lemma atleast_decl t : zero t /\ pre t /\ full t
    /\ (forall t' n, t = TArr t' n -> full t') /\ (forall t', t = TOption t' -> zero t').
  Proof.
    induction t as [s|k|k t IH|t n IH|t n IH|t IH|t1 t2 IH1 IH2|ts IH|i t IH|k t IH|k tk tv IHk IHv|t IH|d fs IH|d vs IH|]
      using ty_ind';
      (* a container: only the prefix matters *)
      try (assert (Hl : forall l, atleast (match l with LenPrefix b false => basic_size b | _ => 0 end) 
                                         (decl l (TStr k))) by
           (intros l; cbn [Spec.decl]; apply atleast_len;
            [intros n; apply (atleast_bind 0 0);
              [apply atleast_sized; eapply atleast_le; [apply atleast_read|lia]|intros; apply atleast_str]
            |apply atleast_then; [apply atleast_rest|intros; apply atleast_str]]));
      try (assert (Hl : forall l, atleast (match l with LenPrefix b false => basic_size b | _ => 0 end) 
                                         (decl l (TSeq k t))) by
           (intros l; cbn [Spec.decl]; apply atleast_map, atleast_len;
            [intros n; apply atleast_sized; eapply atleast_le; [apply atleast_repeat, (proj1 IH)|lia]
            |eapply atleast_until, (proj1 IH)]));
      try (assert (Hl : forall l, atleast (match l with LenPrefix b false => basic_size b | _ => 0 end) 
                                         (decl l (TSet k t))) by
           (intros l; cbn [Spec.decl]; apply atleast_map, atleast_len;
            [intros n; eapply atleast_le; [apply atleast_repeat, (proj1 IH)|lia]
            |eapply atleast_until, (proj1 IH)]));
      try (assert (Hl : forall l, atleast (match l with LenPrefix b false => basic_size b | _ => 0 end) 
                                         (decl l (TMap k tk tv))) by
           (assert (Hpair : atleast 0 (dpair (decl len0 tk) (decl len0 tv))) by
              (unfold dpair; apply (atleast_bind 0 0); [apply (proj1 IHk)|]; intros; apply atleast_then; [apply (proj1 IHv)|al]);
            intros l; cbn [Spec.decl]; apply atleast_map, atleast_len;
            [intros n; eapply atleast_le; [apply atleast_repeat, Hpair|lia]
            |eapply atleast_until, Hpair]));
      try (split; [intros l; eapply atleast_le; [apply Hl|lia]|]; split; [intros l _; apply Hl|];
           split; [intros _; apply Hl|]; split; intros; discriminate).
    - assert (Hs := atleast_scalar s).
      repeat split; try (intros; discriminate); [|intros _; exact Hs].
      intros l. eapply atleast_le; [exact Hs|lia].
    - (* array *)
      destruct IH as (Hz & _ & Hf & _).
      repeat split; try (intros; discriminate).
      + intros l. cbn [Spec.decl]. apply atleast_map. eapply atleast_le; [apply atleast_repeat, Hz|lia].
      + intros Hm. cbn [Spec.decl min_bytes]. apply atleast_map, atleast_repeat, Hf, Hm.
      + intros t' n' E. injection E as <- <-. assumption.
    - (* borrowed array *)
      destruct IH as (Hz & _).
      repeat split; try (intros; discriminate).
      + intros l. cbn [Spec.decl]. apply atleast_map. eapply atleast_le; [apply atleast_repeat, Hz|lia].
      + intros [Hp Hh]. cbn [Spec.decl min_bytes]. apply atleast_map.
        apply atleast_ext with (d := dmap (fun bs => map (pval h e t) (chunks (N.to_nat (h_size h t)) n bs))
           (dread (N.of_nat n * h_size h t))).
        * intros o. symmetry. apply drepeat_plain; [assumption|]. apply prim_plain; assumption.
        * apply atleast_map. rewrite N.mul_comm. apply atleast_read.
    - destruct IH as (Hz & _).
      assert (Ho : forall l, atleast 1 (decl l (TOption t))).
      { intros l. cbn [Spec.decl]. apply atleast_then; [apply atleast_word1|]. intros x.
        apply atleast_if; [al|]. apply atleast_map, Hz. }
      repeat split; try (intros; discriminate).
      + intros l. eapply atleast_le; [apply Ho|lia].
      + intros _. apply Ho.
      + intros t' E. injection E as <-. assumption.
    - assert (Ho : forall l, atleast 1 (decl l (TResult t1 t2))).
      { intros l. cbn [Spec.decl]. apply atleast_then; [apply atleast_word1|]. intros x.
        apply atleast_if; apply atleast_map; [apply (proj1 IH2)|apply (proj1 IH1)]. }
      repeat split; try (intros; discriminate).
      + intros l. eapply atleast_le; [apply Ho|lia].
      + intros _. apply Ho.
    - repeat split; try (intros; discriminate).
      + intros l. cbn [Spec.decl]. apply atleast_map.
        induction IH as [|t r IHt IHr IHl]; cbn [dtuple]; [al|].
        apply atleast_then; [apply (proj1 IHt)|]. intros v. apply atleast_then; [apply IHl|]. al.
      + intros Hm. cbn [Spec.decl min_bytes]. apply atleast_map. cbn [minok] in Hm.
        induction IH as [|t r IHt IHr IHl]; cbn [dtuple map nsum fold_right]; [al|].
        destruct Hm as [Hm Hmr]. apply atleast_bind; [apply (proj1 (proj2 (proj2 IHt))), Hm|]. intros v.
        apply atleast_then; [apply IHl, Hmr|]. al.
    - destruct IH as (Hz & _ & Hf & _). repeat split; try (intros; discriminate).
      + intros l. cbn [Spec.decl]. apply atleast_then; [apply Hz|]. intros x.
        apply atleast_then; [apply Hz|]. al.
      + intros Hm. cbn [Spec.decl min_bytes]. eapply atleast_le; [apply atleast_bind; [apply Hf, Hm|]|].
        * intros x. apply atleast_then; [apply Hf, Hm|]. al.
        * lia.
    - destruct IH as (Hz & _ & Hf & _). repeat split; try (intros; discriminate).
      + intros l. apply Hz.
      + intros Hm. apply Hf, Hm.
    - repeat split; try (intros; discriminate).
      + intros l. cbn [Spec.decl]. apply atleast_map, atleast_fields.
        eapply Forall_impl; [|exact IH]. cbn. tauto.
      + intros Hm. cbn [Spec.decl min_bytes]. apply atleast_map. apply dfields_full; assumption.
    - assert (Htag : forall l, atleast 0 (decl l (TEnum d vs))).
      { intros l. cbn [Spec.decl]. apply (atleast_bind 0 0).
        - apply atleast_if; [eapply atleast_peek|eapply atleast_le]; try apply atleast_basic. lia.
        - intros tag. apply atleast_variant. eapply Forall_impl; [|exact IH]. cbn.
          intros v Hv. eapply Forall_impl; [|exact Hv]. cbn. tauto. }
      repeat split; try (intros; discriminate); [exact Htag|].
      intros Hm. cbn [Spec.decl min_bytes]. rewrite fold_min_0. cbn [minok] in Hm.
      destruct (e_peek d).
      + rewrite N.max_0_l. eapply atleast_le; [apply atleast_bind|].
        * eapply atleast_peek, atleast_basic.
        * intros tag. assert (Hv : forall i, atleast (basic_size (e_tag d)) (dvariant lim e e6 decl tag i vs)).
          { clear Htag. induction IH as [|v r Hv Hr IHl]; intros i; cbn [dvariant]; [al|].
            destruct Hm as [[Hm Hle] Hmr]. apply atleast_if; [|apply IHl, Hmr].
            apply atleast_map. eapply atleast_le; [apply dfields_full; assumption|assumption]. }
          apply Hv.
        * lia.
      + rewrite N.add_0_l. apply atleast_then; [apply atleast_basic|]. intros tag.
        apply atleast_variant. eapply Forall_impl; [|exact IH]. cbn.
        intros v Hv. eapply Forall_impl; [|exact Hv]. cbn. tauto.
    - repeat split; try (intros; discriminate); intros; cbn [Spec.decl]; al.
  Qed.

  (** A successful decoding consumed at least [min_bytes]. *)
  Lemma atleast_min t : minok h t -> atleast (min_bytes h t) (decl len0 t).
  Proof. apply atleast_decl. Qed.

  Lemma atleast_zero l t : atleast 0 (decl l t).
  Proof. apply atleast_decl. Qed.
End Min.
