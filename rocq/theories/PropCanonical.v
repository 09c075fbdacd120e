(* Property C46: which inputs are encodings. *)
From Verif Require Import Sane Samples Entry Extend MinFacts LayoutFacts EncFacts PropSafe.

(** Scalars every accepted input of which is the encoding of its value. *)
Definition canonical_scalar (s : scalar) : Prop :=
  match s with
  | SBool | SVarint | SDuration | SSystemTime | SBVec _ => False
  | _ => True
  end.

(** Types of which the same is true: no booleans, optional values or results
    (whose flag may be any non-zero byte), nothing of variable length, no durations
    (whose nanoseconds may exceed a second), no sets or maps (whose elements may
    come in any order and more than once), no `default_on_eof`. *)
Fixpoint canonical (lm : lenmode) (t : ty) : Prop :=
  match t with
  | TScalar s => canonical_scalar s
  | TStr _ => lm <> LType BVarint
  | TSeq _ t' => lm <> LType BVarint /\ canonical LDefault t'
  | TArr t' _ | TRefArr t' _ | TRange _ t' | TBox t' => canonical LDefault t'
  | TTuple ts => all_tys (canonical LDefault) ts
  | TStruct _ fs =>
    all_fields (fun a t' => f_skip a = true
      \/ (f_varint a = false /\ f_eof a = false /\ canonical (if sized_field a t' then f_len a else LDefault) t')) fs
  | TEnum d vs =>
    (e_peek d = true \/ e_tag d <> BVarint)
    /\ all_variants (all_fields (fun a t' => f_skip a = true
      \/ (f_varint a = false /\ f_eof a = false /\ canonical (if sized_field a t' then f_len a else LDefault) t'))) vs
  | TOption _ | TResult _ _ | TSet _ _ | TMap _ _ _ | TBot => False
  end.

(* ------------------------------------------------------------------ *)
(** * Decoding what is encoded, and nothing else *)

(** [d] accepts only what [en] gives for the value. *)
Definition exactly {A} (d : dec A) (en : A -> res bytes) : Prop :=
  forall bs v rest, d (Some bs) = DOk v (Some rest) -> exists b, en v = Ok b /\ bs = b ++ rest.

Lemma bind_some {A B} (d : dec A) (k : A -> dec B) bs b rest : (forall a, atleast 0 (k a)) ->
  dbind d k (Some bs) = DOk b (Some rest) ->
  exists a mid, d (Some bs) = DOk a (Some mid) /\ k a (Some mid) = DOk b (Some rest).
Proof.
  intros Hk E. unfold dbind in E. destruct (d (Some bs)) as [a [mid|]| | | |]; try discriminate; [eauto|].
  destruct (Hk a _ _ _ E).
Qed.

Lemma map_some {A B} (f : A -> B) (d : dec A) bs b rest : dmap f d (Some bs) = DOk b (Some rest) ->
  exists a, d (Some bs) = DOk a (Some rest) /\ b = f a.
Proof.
  unfold dmap, dbind, dret. destruct (d (Some bs)) as [a o| | | |]; try discriminate. intros E. injection E as <- ->. eauto.
Qed.

Lemma dread_exact n bs b rest : dread n (Some bs) = DOk b (Some rest) -> bs = b ++ rest /\ nlen b = n.
Proof.
  unfold dread. destruct (N.eqb_spec n 0) as [->|].
  - intros E. injection E as <- <-. split; reflexivity.
  - destruct (N.leb_spec n (nlen bs)); [|discriminate]. intros E. injection E as <- <-.
    split; [symmetry; apply firstn_skipn|rewrite nlen_take; lia].
Qed.

Lemma drest_exact bs b rest : drest (Some bs) = DOk b (Some rest) -> bs = b ++ rest.
Proof. intros E. injection E as <- <-. rewrite app_nil_r. reflexivity. Qed.

Lemma unsure_some {A} (d : dec A) o a o' : dunsure d o = DOk a o' -> d o = DOk a o'.
Proof. unfold dunsure. destruct (d o); congruence. Qed.

Lemma sized_some {A} lim t n (d : dec A) o a o' : dsized lim t n d o = DOk a o' -> d o = DOk a o'.
Proof. unfold dsized. destruct (l_fits lim t n); [apply unsure_some|discriminate]. Qed.

Section Canonical.
  Context (lim : limits) (it : list val -> list val) (e e6 : endian).
  Notation decl := (decl lim e e6).
  Notation enc := (enc it e e6).

  Lemma dword_exact w bs n rest : dword e w (Some bs) = DOk n (Some rest) ->
    bs = word e w n ++ rest /\ n < 256 ^ N.of_nat w.
  Proof.
    intros E. apply map_some in E as (b & E & ->).
    apply dread_exact in E as [-> Hl]. rewrite word_unword by (unfold nlen in Hl; lia).
    split; [reflexivity|]. rewrite <- Hl. apply unword_lt.
  Qed.

  Lemma dword1_exact bs n rest : dword e 1 (Some bs) = DOk n (Some rest) -> bs = [n2b n] ++ rest /\ n < 256.
  Proof.
    intros E. apply dword_exact in E as [-> Hn]. split; [|exact Hn]. destruct e; reflexivity.
  Qed.

  Lemma dprim_exact p bs z rest : dprim e p (Some bs) = DOk z (Some rest) -> bs = enc_prim e p z ++ rest.
  Proof.
    intros E. apply map_some in E as (n & E & ->). apply dword_exact in E as [-> Hn]. unfold enc_prim.
    rewrite LayoutFacts.to_bits_of_bits; [reflexivity|]. rewrite LayoutFacts.pmod_pow. exact Hn.
  Qed.

  Lemma octets_twice e' b : octets e' (octets e' b) = b.
  Proof. destruct e'; cbn; [apply rev_involutive|reflexivity]. Qed.

  Ltac al := repeat (intros; first
    [ apply atleast_ret | apply atleast_bad | apply atleast_panic | apply atleast_if
    | apply atleast_map | (eapply atleast_le; [apply atleast_read|lia]) | apply atleast_then with (m := 0); [eapply atleast_le; [apply atleast_read|lia]|]
    | (eapply atleast_le; [apply atleast_word|lia]) ]).

  Lemma scalar_exact s : canonical_scalar s -> exactly (dec_scalar lim e e6 s) (enc_scalar e e6 s).
  Proof.
    intros Hc bs v rest E. destruct s; try contradiction; cbn [dec_scalar] in E; cbn [enc_scalar].
    - apply map_some in E as (z & E & ->). apply dprim_exact in E as ->. eauto.
    - apply bind_some in E as (n & mid & E & E2); [|unfold dint; al]. apply dword_exact in E as [-> _].
      destruct (n <=? l_usize_max lim); [|discriminate]. injection E2 as <- <-. rewrite N2Z.id. eauto.
    - apply bind_some in E as (n & mid & E & E2); [|unfold dint; al]. apply dword_exact in E as [-> _].
      destruct (is_scalar n); [|discriminate]. injection E2 as <- <-. rewrite N2Z.id. eauto.
    - apply bind_some in E as (n & mid & E & E2); [|al]. apply dword1_exact in E as [-> _].
      destruct (n <=? 1); [|discriminate]. injection E2 as <- <-. rewrite N2Nat.id. eauto.
    - injection E as <- <-. exists []. auto.
    - apply bind_some in E as (z & mid & E & E2); [|al]. apply dprim_exact in E as ->.
      destruct (z =? 0)%Z; [discriminate|]. injection E2 as <- <-. eauto.
    - apply map_some in E as (z & E & ->). apply dprim_exact in E as ->. eauto.
    - apply bind_some in E as (b & mid & E & E2); [|al]. apply dread_exact in E as [-> _].
      injection E2 as <- <-. rewrite octets_twice. eauto.
    - apply bind_some in E as (b & mid & E & E2); [|al]. apply dread_exact in E as [-> _].
      injection E2 as <- <-. rewrite octets_twice. eauto.
    - apply bind_some in E as (n & mid & E & E2); [|al]. apply dword1_exact in E as [-> _].
      destruct (N.eqb_spec n 0) as [->|]; [|destruct (N.eqb_spec n 1) as [->|]; [|discriminate]];
        apply bind_some in E2 as (b & mid' & E & E2); try (intros; apply atleast_ret);
        apply dread_exact in E as [-> _]; injection E2 as <- <-; rewrite octets_twice; eexists; split; reflexivity.
    - apply map_some in E as (b & E & ->). apply dread_exact in E as [-> _]. eauto.
    - apply bind_some in E as (z & mid & E & E2);
        [|intros; apply atleast_then with (m := 0); [eapply atleast_le; [apply atleast_word|lia]|al]].
      apply dprim_exact in E as ->. apply bind_some in E2 as (n & mid' & E & E2); [|al]. apply dword_exact in E as [-> Hn].
      destruct (l_chrono_ok lim z n); [|discriminate]. injection E2 as <- <-.
      unfold enc_prim at 2. unfold to_bits. change (pmod U32) with (2 ^ 32).
      assert (Hn' : n < 2 ^ 32) by exact Hn. rewrite Z.mod_small, N2Z.id by lia.
      eexists. split; [reflexivity|]. rewrite <- app_assoc. reflexivity.
    - apply map_some in E as (vs & E & ->). revert bs vs E. induction n as [|n IH]; intros bs vs E; cbn [drepeat] in E.
      + injection E as <- <-. exists []. auto.
      + apply bind_some in E as (v & mid & E & E2).
        2: { intros. apply atleast_then with (m := 0); [|al]. eapply atleast_le; [apply atleast_repeat, atleast_map, atleast_prim|lia]. }
        apply bind_some in E2 as (us & mid' & E2 & E3); [|al]. injection E3 as <- <-.
        apply map_some in E as (z & E & ->). apply dprim_exact in E as ->.
        destruct (IH I mid us E2) as (b & Eb & ->). unfold rmap in Eb |- *.
        cbn [rmapM rbind]. destruct (rmapM _ us) as [bb| |]; try discriminate. injection Eb as <-.
        eexists. split; [reflexivity|]. cbn [concat]. rewrite <- app_assoc. reflexivity.
  Qed.

  (** The length in front of a container. *)
  Lemma prefix_exact b bs n rest : b <> BVarint -> dprefix lim e b (Some bs) = DOk n (Some rest) ->
    enc_len e (LenPrefix b false) n = Ok (enc_basic e b n) /\ bs = enc_basic e b n ++ rest.
  Proof.
    intros Hb E. unfold dprefix in E. apply bind_some in E as (m & mid & E & E2); [|al].
    destruct (N.leb_spec m (match b with BU7 => 127 | _ => l_usize_max lim end)) as [Hm|]; [|discriminate]. injection E2 as <- <-.
    assert (H : bs = enc_basic e b m ++ mid /\ m <= basic_max b).
    { destruct b; try contradiction; cbn [dbasic] in E; apply dword_exact in E as [-> Hw];
        (split; [reflexivity|]); cbn [basic_max]; num_pow; change (256 ^ N.of_nat 1) with 256 in *;
        change (256 ^ N.of_nat 2) with 65536 in *; change (256 ^ N.of_nat 4) with 4294967296 in *;
        change (256 ^ N.of_nat 8) with 18446744073709551616 in *; lia. }
    destruct H as [-> Hle]. split; [|reflexivity]. cbn [enc_len]. apply N.leb_le in Hle. rewrite Hle. reflexivity.
  Qed.

  Lemma basic_exact b bs n rest : b <> BVarint -> dbasic e b (Some bs) = DOk n (Some rest) -> bs = enc_basic e b n ++ rest.
  Proof. intros Hb E. destruct b; try contradiction; cbn [dbasic] in E; apply dword_exact in E as [-> _]; reflexivity. Qed.

  Lemma len_exact {A} prev lm (c : N -> dec A) (d : dec A) (en : A -> res bytes) (size : A -> N) :
    lm <> LType BVarint -> (forall n, atleast 0 (c n)) ->
    (forall n bs v rest, c n (Some bs) = DOk v (Some rest) -> size v = n /\ exists b, en v = Ok b /\ bs = b ++ rest) ->
    exactly d en ->
    exactly (dlen lim e (resolve false prev lm) c d) (fun v => rapp (enc_len e (resolve false prev lm) (size v)) (en v)).
  Proof.
    intros Hlm Hat Hc Hd bs v rest E. destruct lm as [|b|f|]; cbn [resolve dlen] in *.
    - apply bind_some in E as (n & mid & E & E2); [|apply Hat]. apply prefix_exact in E as [El ->]; [|discriminate].
      destruct (Hc _ _ _ _ E2) as (-> & b & -> & ->). rewrite El. eexists. split; [reflexivity|]. rewrite <- app_assoc. reflexivity.
    - apply bind_some in E as (n & mid & E & E2); [|apply Hat]. apply prefix_exact in E as [El ->]; [|congruence].
      destruct (Hc _ _ _ _ E2) as (-> & b' & -> & ->). rewrite El. eexists. split; [reflexivity|]. rewrite <- app_assoc. reflexivity.
    - destruct (f prev) as [n|]; [|discriminate]. destruct (Hc _ _ _ _ E) as (-> & b & -> & ->).
      cbn [enc_len]. rewrite N.eqb_refl. exists b. auto.
    - destruct (Hd _ _ _ E) as (b & -> & ->). exists b. auto.
  Qed.

  Lemma repeat_exact (d : dec val) en n : atleast 0 d -> exactly d en ->
    forall bs vs rest, drepeat d n (Some bs) = DOk vs (Some rest) ->
    length vs = n /\ exists b, enc_all en vs = Ok b /\ bs = b ++ rest.
  Proof.
    intros Hat Hd. induction n as [|n IH]; intros bs vs rest E; cbn [drepeat] in E.
    - injection E as <- <-. split; [reflexivity|]. exists []. auto.
    - apply bind_some in E as (v & mid & E & E2).
      2: { intros. apply atleast_then with (m := 0); [|al]. eapply atleast_le; [apply atleast_repeat, Hat|lia]. }
      apply bind_some in E2 as (us & mid' & E2 & E3); [|al]. injection E3 as <- <-.
      destruct (Hd _ _ _ E) as (b1 & E1 & ->). destruct (IH _ _ _ E2) as (Hl & b2 & Eb & ->).
      split; [cbn; congruence|]. rewrite enc_all_cons, E1, Eb. eexists. split; [reflexivity|].
      rewrite <- app_assoc. reflexivity.
  Qed.

  Lemma until_exact (d : dec val) en : atleast 0 d -> exactly d en -> exactly (duntil d) (enc_all en).
  Proof.
    intros Hat Hd bs vs rest. unfold duntil. generalize (S (length bs)) as k. intros k. revert bs vs.
    assert (Hz : forall k, atleast 0 (duntil_loop d k)).
    { clear - Hat. induction k as [|k IH]; intros o a o' E; [discriminate|].
      cbn [duntil_loop] in E. destruct (d o) as [b o1| |er []|f []|] eqn:Ed; try discriminate.
      - pose proof (Hat o b o1 Ed) as H1. pose proof (atleast_map 0 (cons b) _ IH o1 a o' E).
        destruct o, o1, o'; lia.
      - injection E as _ <-. destruct o as [[|]|]; cbn; try lia. }
    induction k as [|k IH]; intros bs vs E; [discriminate|]. cbn [duntil_loop] in E.
    destruct (d (Some bs)) as [v [mid|]| |er []|f []|] eqn:E1; try discriminate.
    - apply map_some in E as (us & E & ->). destruct (Hd _ _ _ E1) as (b1 & Eb1 & ->). destruct (IH _ _ E) as (b2 & Eb2 & ->).
      rewrite enc_all_cons, Eb1, Eb2. eexists. split; [reflexivity|]. rewrite <- app_assoc. reflexivity.
    - destruct (atleast_map 0 (cons v) _ (Hz k) _ _ _ E).
    - destruct bs; [|discriminate]. injection E as <- <-. exists []. auto.
  Qed.

  Lemma str_some k b o v o' : dstr lim k b o = DOk v o' -> v = VBytes b /\ o' = o.
  Proof.
    unfold dstr. destruct (utf8_valid b); [|discriminate].
    destruct k; try (intros E; injection E as <- <-; auto).
    destruct (l_regex_ok lim b); [|discriminate]. intros E. injection E as <- <-. auto.
  Qed.

  Lemma decl_at l t : atleast 0 (decl l t).
  Proof. apply (atleast_zero host64 host64_valid). Qed.

  Definition cfield (a : fattrs) (t : ty) : Prop :=
    f_skip a = true
    \/ (f_varint a = false /\ f_eof a = false /\ canonical (if sized_field a t then f_len a else LDefault) t).

  Definition cty (t : ty) : Prop :=
    forall lm prev, canonical lm t -> exactly (decl (resolve false prev lm) t) (enc (resolve false prev lm) t).

  Lemma fields_at prev fs : atleast 0 (dfields lim e e6 decl prev fs).
  Proof. apply (atleast_fields lim e e6). apply Forall_forall. intros f _ l. apply decl_at. Qed.

  Lemma fields_exact fs : Forall (fun f => cty (snd f)) fs -> all_fields cfield fs -> forall prev,
    exactly (dfields lim e e6 decl prev fs) (enc_fields e e6 enc prev fs).
  Proof.
    induction 1 as [|[a t] fs Ht _ IH]; intros Hc prev bs vs rest E; cbn [dfields fst snd] in E.
    - injection E as <- <-. exists []. auto.
    - destruct Hc as [Hf Hc]. cbn [fst snd] in Hf, Ht. destruct (f_skip a) eqn:Es.
      + apply map_some in E as (us & E & ->). cbn [enc_fields fst]. rewrite Es. apply (IH Hc prev _ _ _ E).
      + destruct Hf as [Hf|(Hv & He & Hcan)]; [congruence|].
        apply bind_some in E as (v & mid & E & E2).
        2: { intros. apply atleast_then with (m := 0); [apply fields_at|al]. }
        apply bind_some in E2 as (us & mid' & E2 & E3); [|al]. injection E3 as <- <-.
        unfold dfield in E. rewrite Hv, He in E. apply bind_some in E as ([] & mid2 & Ec & E); [|intros; apply decl_at].
        unfold dconst in Ec. apply bind_some in Ec as (c & mid3 & Ec & Ec2); [|intros; destruct (list_eq_dec _ _ _); al].
        apply dread_exact in Ec as [-> _]. destruct (list_eq_dec Byte.byte_eq_dec c (f_prefix a)) as [->|]; [|discriminate].
        injection Ec2 as ->.
        assert (Hb : exists b, enc (field_len false prev a t) t v = Ok b /\ mid2 = b ++ mid).
        { unfold field_len in E |- *. destruct (sized_field a t); [apply (Ht _ prev Hcan _ _ _ E)|apply (Ht LDefault prev Hcan _ _ _ E)]. }
        destruct Hb as (b1 & Eb1 & ->). destruct (IH Hc _ _ _ _ E2) as (b2 & Eb2 & ->).
        cbn [enc_fields fst snd]. rewrite Es. unfold enc_field. rewrite Hv, Eb1. cbn [rmap]. rewrite Eb2.
        eexists. split; [reflexivity|]. rewrite <- !app_assoc. reflexivity.
  Qed.

  Lemma variant_exact d vs : Forall (fun v => Forall (fun f => cty (snd f)) (snd v)) vs -> all_variants (all_fields cfield) vs ->
    forall tag i bs v rest, dvariant lim e e6 decl tag i vs (Some bs) = DOk v (Some rest) ->
    exists j us b, v = VVar (i + j) us
      /\ enc_variant e e6 d enc vs j us = Ok ((if e_peek d then [] else enc_basic e (e_tag d) tag) ++ b) /\ bs = b ++ rest.
  Proof.
    induction 1 as [|[n fs] vs Hf _ IH]; intros Hc tag i bs v rest E; cbn [dvariant fst snd] in E; [discriminate|].
    destruct Hc as [Hc Hr]. destruct (N.eqb_spec n tag) as [->|].
    - apply map_some in E as (us & E & ->). destruct (fields_exact fs Hf Hc [] _ _ _ E) as (b & Eb & ->).
      exists 0%nat, us, b. split; [f_equal; lia|]. split; [|reflexivity]. cbn [enc_variant fst snd]. rewrite Eb. reflexivity.
    - destruct (IH Hr _ _ _ _ _ E) as (j & us & b & -> & Eb & ->). exists (S j), us, b.
      split; [f_equal; lia|]. split; [exact Eb|reflexivity].
  Qed.

  Lemma canonical_exact t : cty t.
  Proof.
    induction t as [s|k|k t IH|t n IH|t n IH|t IH|t1 t2 IH1 IH2|ts IH|i t IH|k t IH|k tk tv IHk IHv|t IH|d fs IH|d vs IH|] using ty_ind';
      intros lm prev Hc bs v rest E; cbn [canonical] in Hc; try contradiction.
    - cbn [Spec.decl Spec.enc] in *. destruct (scalar_exact s Hc _ _ _ E) as (b & Eb & ->). exists b. split; [|reflexivity].
      destruct v; exact Eb.
    - cbn [Spec.decl] in E.
      pose (en v := match v with VBytes b => Ok b | _ => Fault IllTyped end).
      pose (size v := match v with VBytes b => nlen b | _ => 0 end).
      assert (Hstr : forall d, exactly d (fun b => Ok b) -> exactly (b <-- d ;; dstr lim k b) en).
      { intros d Hd bs' v' rest' E'. apply bind_some in E' as (b & mid & E1 & E2); [|intros; apply atleast_str].
        apply str_some in E2 as [-> E2]. injection E2 as ->. apply (Hd _ _ _ E1). }
      pose proof (len_exact prev lm (fun n => b <-- dsized lim (TP U8) n (dread n) ;; dstr lim k b) (b <-- drest ;; dstr lim k b) en size Hc) as H.
      destruct H with (bs := bs) (v := v) (rest := rest) as (b & Eb & ->).
      + intros n. apply atleast_then with (m := 0); [|intros; apply atleast_str].
        apply atleast_sized. eapply atleast_le; [apply atleast_read|lia].
      + intros n bs' v' rest' E'. split.
        * apply bind_some in E' as (b & mid & E1 & E2); [|intros; apply atleast_str].
          apply str_some in E2 as [-> _]. apply sized_some, dread_exact in E1 as [_ E1]. exact E1.
        * revert bs' v' rest' E'. apply Hstr. intros bs' v' rest' E'. apply sized_some, dread_exact in E' as [-> _]. eauto.
      + apply Hstr. intros bs' v' rest' E'. apply drest_exact in E' as ->. eauto.
      + exact E.
      + exists b. split; [|reflexivity]. apply rapp_ok in Eb as (y & z & E1 & E2 & ->).
        destruct v; try discriminate. injection E2 as <-. cbn [Spec.enc]. unfold size in E1. rewrite E1. reflexivity.
    - cbn [Spec.decl] in E. apply map_some in E as (us & E & ->). destruct Hc as [Hlm Hc].
      pose proof (IH LDefault [] Hc) as Ht. cbn [Spec.enc].
      refine (len_exact prev lm _ _ (enc_all (enc len0 t)) (fun us => nlen us) Hlm _ _ _ _ _ _ E).
      + intros n. apply atleast_sized. eapply atleast_le; [apply atleast_repeat, decl_at|lia].
      + intros n bs' us' rest' E'. apply sized_some in E'. destruct (repeat_exact _ _ _ (decl_at _ _) Ht _ _ _ E') as (Hl & H).
        split; [unfold nlen; lia|exact H].
      + apply until_exact; [apply decl_at|exact Ht].
    - cbn [Spec.decl] in E. apply map_some in E as (us & E & ->). cbn [Spec.enc].
      apply (repeat_exact _ _ n (decl_at _ _) (IH LDefault [] Hc) _ _ _ E).
    - cbn [Spec.decl] in E. apply map_some in E as (us & E & ->). cbn [Spec.enc].
      apply (repeat_exact _ _ n (decl_at _ _) (IH LDefault [] Hc) _ _ _ E).
    - cbn [Spec.decl] in E. apply map_some in E as (us & E & ->). cbn [Spec.enc].
      revert bs us Hc E. induction IH as [|t ts Ht _ IHts]; intros bs us Hc E; cbn [dtuple] in E.
      + injection E as <- <-. exists []. auto.
      + destruct Hc as [Hc Hcs]. apply bind_some in E as (v & mid & E & E2).
        2: { intros. apply atleast_then with (m := 0); [|al]. clear. induction ts; cbn [dtuple]; [al|].
             apply atleast_then with (m := 0); [apply decl_at|]. intros. apply atleast_then with (m := 0); [assumption|al]. }
        apply bind_some in E2 as (vs & mid' & E2 & E3); [|al]. injection E3 as <- <-.
        destruct (Ht LDefault [] Hc _ _ _ E) as (b1 & E1 & ->). destruct (IHts _ _ Hcs E2) as (b2 & Eb & ->).
        cbn [enc_tuple]. change (resolve false [] LDefault) with len0 in E1. rewrite E1, Eb.
        eexists. split; [reflexivity|]. rewrite <- app_assoc. reflexivity.
    - cbn [Spec.decl] in E. apply bind_some in E as (a & mid & E & E2).
      2: { intros. apply atleast_then with (m := 0); [apply decl_at|al]. }
      apply bind_some in E2 as (b & mid' & E2 & E3); [|al]. injection E3 as <- <-.
      destruct (IH LDefault [] Hc _ _ _ E) as (b1 & E1 & ->). destruct (IH LDefault [] Hc _ _ _ E2) as (b2 & Eb & ->).
      change (resolve false [] LDefault) with len0 in *.
      destruct i; cbn [Spec.enc]; rewrite E1, Eb; eexists; (split; [reflexivity|]); rewrite <- app_assoc; reflexivity.
    - exact (IH LDefault [] Hc _ _ _ E).
    - cbn [Spec.decl] in E. apply map_some in E as (us & E & ->). cbn [Spec.enc].
      apply (fields_exact fs IH Hc [] _ _ _ E).
    - destruct Hc as [Ht Hc]. cbn [Spec.decl] in E. apply bind_some in E as (tag & mid & E & E2).
      2: { intros. apply atleast_variant. apply Forall_forall. intros w _. apply Forall_forall. intros f _ l. apply decl_at. }
      destruct (variant_exact d vs IH Hc _ _ _ _ _ E2) as (j & us & b & -> & Eb & ->). cbn [Spec.enc].
      eexists. split; [exact Eb|]. destruct (e_peek d) eqn:Ep.
      + unfold dpeek in E. destruct (dbasic e (e_tag d) (Some bs)); try discriminate. injection E as _ ->. reflexivity.
      + destruct Ht as [|Ht]; [discriminate|]. rewrite <- app_assoc. apply basic_exact; assumption.
  Qed.
End Canonical.

(* ------------------------------------------------------------------ *)
(** * C46 *)

(** For types that are [canonical] the format is. *)
Theorem C46_format_partial lim it e e6 t bs v rest : canonical LDefault t ->
  decode lim e e6 t bs = DOk v (Some rest) -> exists b, encode it e e6 t v = Ok b /\ bs = b ++ rest.
Proof. intros Hc E. exact (canonical_exact lim it e e6 t LDefault [] Hc _ _ _ E). Qed.

Section Entry.
  Context (h : host) (VH : valid_host h) (e : endian).
  Context (mem : N -> bytes) (Hmem : forall n, n <= nlen (mem n)).
  Notation e6 := (ipv6_order h e).

  (** What a buffer reader accepts and consumes is what would be written for the
      value it returns. *)
  Theorem C46_buffer_partial t addr bs v n :
    canonical LDefault t -> no_eof false t -> wsup h t -> supported h e true true LDefault t -> sane h (nlen bs) LDefault t ->
    nlen bs <= h_alloc_max h -> read_with_length_from_buffer h e t addr bs = (Ok v, n) ->
    write_to_vec h mem e t v = Ok (ntake n bs).
  Proof.
    intros Hc Hn Hw Hs Hsane Hl Hr.
    assert (Hv : valid (h_lim h) t v).
    { apply (C24_values_valid_partial h VH e (nlen bs) t bs true v Hsane (N.le_refl _) Hl).
      assert (E : read_from_buffer h e t addr bs = Ok v) by (unfold read_from_buffer; rewrite Hr; reflexivity).
      rewrite <- E. apply of_buffer. }
    destruct (N.lt_ge_cases (nlen bs) (min_bytes h t)) as [Hm|Hm].
    { exfalso. assert (E : fst (read_with_length_from_buffer h e t addr bs) = Ok v) by (rewrite Hr; reflexivity).
      rewrite (buffer_small h e t addr bs Hm) in E. discriminate. }
    destruct (buffer_agrees h VH e t addr bs Hs Hl Hm) as [Ha Hlen].
    unfold read_from_buffer in Ha. rewrite Hr in Ha. cbn [fst] in Ha.
    destruct (reading_decodes h VH e t bs true v Hs) as [(o & Hd)|Hd].
    { assert (E : read_from_buffer h e t addr bs = Ok v) by (unfold read_from_buffer; rewrite Hr; reflexivity).
      rewrite <- E. apply from_buffer, Hl. }
    - destruct (decode_ok_rest _ _ _ t bs v o Hn Hd) as (c & r & -> & Ebs).
      specialize (Hlen v r Hd). rewrite Hr in Hlen. injection Hlen as ->.
      destruct (C46_format_partial (h_lim h) (h_iter h) e e6 t bs v r Hc Hd) as (b & Eb & Ebs').
      rewrite Ebs', nlen_app. replace (nlen b + nlen r - nlen r) with (nlen b) by lia.
      rewrite take_app_exact by reflexivity. apply (write_to_vec_ok h VH); assumption.
    - exfalso. exact (decode_spec _ _ _ _ _ Hn Hd).
  Qed.

  (** Whoever reads it, the input begins with what would be written. *)
  Theorem C46_reading_partial t bs bw buf v :
    canonical LDefault t -> no_eof false t -> wsup h t -> supported h e bw true LDefault t -> sane h (nlen bs) LDefault t ->
    nlen bs <= max_input h buf -> reading h e t bs bw (Ok v) -> outcome h e t bs buf (Ok v) ->
    exists b rest, write_to_vec h mem e t v = Ok b /\ bs = b ++ rest.
  Proof.
    intros Hc Hn Hw Hs Hsane Hl Hr Ho.
    pose proof (C24_values_valid_partial h VH e (nlen bs) t bs buf v Hsane (N.le_refl _) Hl Ho) as Hv.
    destruct (reading_decodes h VH e t bs bw v Hs Hr) as [(o & Hd)|Hd]; [|exfalso; exact (decode_spec _ _ _ _ _ Hn Hd)].
    destruct (decode_ok_rest _ _ _ t bs v o Hn Hd) as (c & r & -> & _).
    destruct (C46_format_partial (h_lim h) (h_iter h) e e6 t bs v r Hc Hd) as (b & Eb & Ebs).
    exists b, r. split; [|exact Ebs]. apply (write_to_vec_ok h VH); assumption.
  Qed.
End Entry.

Print Assumptions C46_format_partial.
Print Assumptions C46_buffer_partial.
Print Assumptions C46_reading_partial.

(* ------------------------------------------------------------------ *)
(** * Examples *)

(* struct Log { at: (u64, Ipv4Addr), lines: Vec<String>, #[speedy(length_type = u8)] raw: Vec<u8>, points: [Point; 2] } *)
Definition log_ty : ty :=
  TStruct (sd 57 RRust)
    [(plain, TTuple [TP U64; TScalar SIpv4]); (plain, TSeq KVec (TStr KString));
     (with_len (LType BU8), TSeq KVec (TP U8)); (plain, TArr point 2)].
Definition log_bytes : bytes :=
  [x01; x00; x00; x00; x00; x00; x00; x00; x7f; x00; x00; x01;
   x01; x00; x00; x00; x02; x00; x00; x00; x68; x69; x02; x09; x08;
   x01; x00; x02; x00; x03; x00; x04; x00].
Definition log_value : val :=
  VSeq [VSeq [VInt 1; VBytes [x01; x00; x00; x7f]]; VSeq [VBytes [x68; x69]]; VSeq [VInt 9; VInt 8];
        VSeq [VSeq [VInt 1; VInt 2]; VSeq [VInt 3; VInt 4]]].

Example log_canonical : canonical LDefault log_ty.
Proof. cbn. repeat first [split | right | discriminate | exact I]. Qed.

Example log_written :
  read_with_length_from_buffer host64 LE log_ty 0 (log_bytes ++ [xff]) = (Ok log_value, 33)
  /\ write_to_vec host64 dirty LE log_ty log_value = Ok log_bytes.
Proof.
  assert (Hr : read_with_length_from_buffer host64 LE log_ty 0 (log_bytes ++ [xff]) = (Ok log_value, 33)) by (vm_compute; reflexivity).
  split; [exact Hr|].
  refine (C46_buffer_partial host64 host64_valid LE dirty dirty_enough log_ty 0 (log_bytes ++ [xff]) log_value 33 log_canonical _ _ _ _ _ Hr).
  - cbn. tauto.
  - apply wsupb_sound. vm_compute. reflexivity.
  - apply supportedb_sound. vm_compute. reflexivity.
  - apply saneb_sound. vm_compute. reflexivity.
  - vm_compute. discriminate.
Qed.

(* ------------------------------------------------------------------ *)
(** * Where it fails *)

(** [bs] is accepted as a whole, and is not what is written for its value. *)
Definition accepted_otherwise (h : host) (e : endian) (t : ty) (bs : bytes) : Prop :=
  exists v b, read_with_length_from_buffer h e t 0 bs = (Ok v, nlen bs)
    /\ write_to_vec h dirty e t v = Ok b /\ b <> bs.

Ltac otherwise := do 2 eexists; split; [vm_compute; reflexivity|]; split; [vm_compute; reflexivity|]; discriminate.

(** Any byte but zero is true. *)
Theorem C46_bool_refuted : exists h, valid_host h /\ accepted_otherwise h LE (TScalar SBool) [x02].
Proof. exists host64. split; [apply host64_valid|]. otherwise. Qed.
(** The flags of `Option` and `Result`. *)
Theorem C46_option_refuted : exists h, valid_host h /\ accepted_otherwise h LE (TOption (TP U8)) [xff; x01].
Proof. exists host64. split; [apply host64_valid|]. otherwise. Qed.
Theorem C46_result_refuted : exists h, valid_host h /\ accepted_otherwise h LE (TResult (TP U8) (TP U8)) [x02; x01].
Proof. exists host64. split; [apply host64_valid|]. otherwise. Qed.
(** A varint may be longer than necessary; so may lengths and tags. *)
Theorem C46_varint_refuted : exists h, valid_host h /\ accepted_otherwise h LE (TScalar SVarint) [x80; x01].
Proof. exists host64. split; [apply host64_valid|]. otherwise. Qed.
Theorem C46_length_refuted : exists h, valid_host h
  /\ accepted_otherwise h LE (TStruct (sd 58 RRust) [(with_len (LType BVarint), TSeq KVec (TP U8))]) [x80; x01; x07].
Proof. exists host64. split; [apply host64_valid|]. otherwise. Qed.
Theorem C46_tag_refuted : exists h, valid_host h
  /\ accepted_otherwise h LE (TEnum {| e_tag := BVarint; e_peek := false |} [(1, [])]) [x80; x01].
Proof. exists host64. split; [apply host64_valid|]. otherwise. Qed.
(** 1 s 2 000 000 000 ns is 3 s. *)
Theorem C46_duration_refuted : exists h, valid_host h
  /\ accepted_otherwise h BE (TScalar SDuration) [x00; x00; x00; x00; x00; x00; x00; x01; x77; x35; x94; x00].
Proof. exists host64. split; [apply host64_valid|]. otherwise. Qed.
Theorem C46_systemtime_refuted : exists h, valid_host h
  /\ accepted_otherwise h BE (TScalar SSystemTime) [x00; x00; x00; x00; x00; x00; x00; x01; x77; x35; x94; x00].
Proof. exists host64. split; [apply host64_valid|]. otherwise. Qed.
(** The unused bits of a vector of booleans. *)
Theorem C46_bvec_refuted : exists h, valid_host h /\ accepted_otherwise h LE (TScalar (SBVec 2)) [xff].
Proof. exists host64. split; [apply host64_valid|]. otherwise. Qed.
(** Elements in another order, or twice. *)
Theorem C46_set_order_refuted : exists h, valid_host h
  /\ accepted_otherwise h LE (TSet CBTree (TP U8)) [x02; x00; x00; x00; x02; x01].
Proof. exists host64. split; [apply host64_valid|]. otherwise. Qed.
Theorem C46_set_twice_refuted : exists h, valid_host h
  /\ accepted_otherwise h LE (TSet CIndex (TP U8)) [x02; x00; x00; x00; x01; x01].
Proof. exists host64. split; [apply host64_valid|]. otherwise. Qed.
Theorem C46_map_refuted : exists h, valid_host h
  /\ accepted_otherwise h LE (TMap CIndex (TP U8) (TP U8)) [x02; x00; x00; x00; x01; x01; x01; x02].
Proof. exists host64. split; [apply host64_valid|]. otherwise. Qed.
(** A field that is not there. *)
Theorem C46_default_refuted : exists h, valid_host h
  /\ accepted_otherwise h LE (TStruct (sd 59 RRust) [(plain, TP U8); (with_default (VInt 0), TP U8)]) [x01].
Proof. exists host64. split; [apply host64_valid|]. otherwise. Qed.
(** Part of an element at the end of a vector without length. *)
Theorem C46_until_eof_refuted : exists h, valid_host h
  /\ accepted_otherwise h LE (TStruct (sd 60 RRust) [(with_len LEof, TSeq KVec (TTuple [TP U8; TP U8]))]) [x01; x02; x03].
Proof. exists host64. split; [apply host64_valid|]. otherwise. Qed.

Print Assumptions C46_bool_refuted.
Print Assumptions C46_option_refuted.
Print Assumptions C46_result_refuted.
Print Assumptions C46_varint_refuted.
Print Assumptions C46_length_refuted.
Print Assumptions C46_tag_refuted.
Print Assumptions C46_duration_refuted.
Print Assumptions C46_systemtime_refuted.
Print Assumptions C46_bvec_refuted.
Print Assumptions C46_set_order_refuted.
Print Assumptions C46_set_twice_refuted.
Print Assumptions C46_map_refuted.
Print Assumptions C46_default_refuted.
Print Assumptions C46_until_eof_refuted.
