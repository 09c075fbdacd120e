(* Property C63: whatever is accepted can be written, the result is not longer
   than the input, and reading it gives the same value. *)
From Verif Require Import Samples Entry ValOrder EncFacts Extend PropRoundTrip PropCanonical.

(** ** Types whose accepted values can be written

    Length expressions are of type `usize`; a set or map does not take its length
    from an expression (it may come out shorter); nothing extends to the end of
    the input; defaults of skipped fields are values. *)
Section Rewritable.
  Context (lim : limits).

  Definition expr_typed (lm : lenmode) : Prop :=
    match lm with
    | LExpr f => forall prev n, f prev = Some n -> n <= l_usize_max lim
    | LEof => False
    | _ => True
    end.

  Definition own_length (lm : lenmode) : Prop :=
    match lm with LExpr _ | LEof => False | _ => True end.

  Definition rewritable_field (rw : lenmode -> ty -> Prop) (a : fattrs) (t : ty) : Prop :=
    if f_skip a then valid lim t (f_default a)
    else f_eof a = false /\ (if f_varint a then t = TP U64
                             else rw (if sized_field a t then f_len a else LDefault) t).

  Fixpoint rewritable (lm : lenmode) (t : ty) {struct t} : Prop :=
    match t with
    | TScalar _ | TBot => True
    | TStr _ => expr_typed lm
    | TSeq _ t' => expr_typed lm /\ rewritable LDefault t'
    | TSet _ t' => own_length lm /\ rewritable LDefault t'
    | TMap _ tk tv => own_length lm /\ rewritable LDefault tk /\ rewritable LDefault tv
    | TArr t' _ | TRefArr t' _ | TRange _ t' | TBox t' => rewritable LDefault t'
    | TOption t' => rewritable lm t'
    | TResult t1 t2 => rewritable LDefault t1 /\ rewritable LDefault t2
    | TTuple ts => all_tys (rewritable LDefault) ts
    | TStruct _ fs => all_fields (rewritable_field rewritable) fs
    | TEnum _ vs => all_variants (all_fields (rewritable_field rewritable)) vs
    end.
End Rewritable.

(* ------------------------------------------------------------------ *)
(** ** Sizes *)

Definition osize (o : option bytes) : N := match o with Some bs => nlen bs | None => 0 end.

Lemma bind_inv {A B} (d : dec A) (k : A -> dec B) o b o' : dbind d k o = DOk b o' ->
  exists a o1, d o = DOk a o1 /\ k a o1 = DOk b o'.
Proof. unfold dbind. destruct (d o) eqn:E; try discriminate. eauto. Qed.

Lemma map_inv {A B} (f : A -> B) (d : dec A) o b o' : dmap f d o = DOk b o' ->
  exists a, d o = DOk a o' /\ b = f a.
Proof. intros H. apply bind_inv in H as (a & o1 & H1 & H2). injection H2 as <- <-. eauto. Qed.

Lemma read_size n o b o' : dread n o = DOk b o' -> nlen b = n /\ n + osize o' = osize o.
Proof.
  intros H. split; [eapply ReadFacts.dread_len; eauto|]. revert H. unfold dread.
  destruct (N.eqb_spec n 0) as [->|Hn]; [intros E; injection E as <- <-; reflexivity|].
  destruct o as [bs|]; [|discriminate]. destruct (N.leb_spec n (nlen bs)); [|discriminate].
  intros E. injection E as <- <-. cbn [osize]. rewrite nlen_drop. lia.
Qed.

Definition weight (en : val -> res bytes) (v : val) : N := match en v with Ok b => nlen b | _ => 0 end.

Lemma all_weight en vs : Forall (fun v => exists b, en v = Ok b) vs ->
  exists b, enc_all en vs = Ok b /\ nlen b = nsum (map (weight en) vs).
Proof.
  induction 1 as [|v vs (x & Hx) _ (y & Hy & IH)]; [exists []; split; reflexivity|].
  exists (x ++ y). rewrite enc_all_cons, Hx, Hy. split; [reflexivity|].
  rewrite nlen_app, IH. cbn [map nsum fold_right]. unfold weight at 2. rewrite Hx. reflexivity.
Qed.

Lemma insert_weight f k key x l : nsum (map f (container_insert k key l x)) <= nsum (map f (x :: l)).
Proof.
  assert (H1 : forall l, nsum (map f (sorted_insert key x l)) <= nsum (map f (x :: l))).
  { clear l. induction l as [|y l IH]; [cbn; lia|]. cbn [sorted_insert]. unfold nsum in *.
    destruct (val_cmp (key x) (key y)); cbn [map fold_right] in *; lia. }
  assert (H2 : forall l, nsum (map f (index_insert key x l)) <= nsum (map f (x :: l))).
  { clear l. induction l as [|y l IH]; [cbn; lia|]. cbn [index_insert]. unfold nsum in *.
    destruct (val_cmp (key x) (key y)); cbn [map fold_right] in *; lia. }
  destruct k; cbn [container_insert]; auto.
Qed.

Lemma collect_weight f k key xs : nsum (map f (collect k key xs)) <= nsum (map f xs).
Proof.
  unfold collect. change (nsum (map f xs)) with (0 + nsum (map f xs)). change 0 with (nsum (map f [])).
  generalize (@nil val). induction xs as [|x xs IH]; intros acc; cbn [fold_left]; [cbn; unfold nsum; lia|].
  etransitivity; [apply IH|]. pose proof (insert_weight f k key x acc) as H. unfold nsum in *. cbn [map fold_right] in *. lia.
Qed.

(* ------------------------------------------------------------------ *)
(** ** What is decoded can be encoded *)

Section Stable.
  Context (lim : limits) (it : list val -> list val) (e e6 : endian).
  Context (Hus : 2 ^ 32 - 1 <= l_usize_max lim) (Hit : forall l, Permutation (it l) l).
  Notation decl := (decl lim e e6).
  Notation enc := (enc it e e6).
  Notation valid := (valid lim).
  Notation rewritable := (rewritable lim).

  (** [v], decoded between [o] and [o'], can be encoded in as many bytes. *)
  Definition again (en : res bytes) (o o' : option bytes) : Prop :=
    exists b, en = Ok b /\ nlen b + osize o' <= osize o.
  Definition good (V : val -> Prop) (nm : val -> val) (en : val -> res bytes) (d : dec val) : Prop :=
    forall o v o', d o = DOk v o' -> V v /\ nm v = v /\ again (en v) o o'.

  Lemma again_app en1 en2 o o1 o2 : again en1 o o1 -> again en2 o1 o2 -> again (rapp en1 en2) o o2.
  Proof.
    intros (b1 & -> & H1) (b2 & -> & H2). exists (b1 ++ b2). split; [reflexivity|]. rewrite nlen_app. lia.
  Qed.

  Lemma word_size w o n o' : dword e w o = DOk n o' -> n < 256 ^ N.of_nat w /\ N.of_nat w + osize o' = osize o.
  Proof.
    intros H. apply map_inv in H as (b & H & ->). apply read_size in H as [H1 H2]. split; [|exact H2].
    rewrite <- H1. apply unword_lt.
  Qed.

  Lemma prim_size p o z o' : dprim e p o = DOk z o' ->
    prim_ok p z = true /\ N.of_nat (psize p) + osize o' = osize o.
  Proof.
    intros H. apply map_inv in H as (n & H & ->). apply word_size in H as [H1 H2]. split; [|exact H2].
    apply LayoutFacts.of_bits_ok. rewrite LayoutFacts.pmod_pow. exact H1.
  Qed.

  Lemma extra_mono m n : m <= n -> (vi_extra m <= vi_extra n)%nat.
  Proof.
    intros H. unfold vi_extra. num_pow.
    repeat match goal with |- context [?x <? ?y] => destruct (N.ltb_spec x y) end; try lia.
  Qed.

  Lemma varint_size o n o' : dvarint e o = DOk n o' ->
    n < 2 ^ 64 /\ forall m, m <= n -> nlen (vi_enc m) + osize o' <= osize o.
  Proof.
    intros H. unfold dvarint in H.
    apply bind_inv in H as (x & o1 & H1 & H). apply bind_inv in H as (tl & o2 & H2 & H). injection H as <- <-.
    apply word_size in H1 as [Hx H1]. apply read_size in H2 as [Hl H2].
    assert (Hk : let n := x mod 2 ^ (7 - N.of_nat (vi_ones x)) * 2 ^ (8 * N.of_nat (vi_ones x)) + le_num tl in
      n < 2 ^ 64 /\ (vi_extra n <= vi_ones x)%nat).
    { pose proof (le_num_lt tl) as Ht. rewrite Hl in Ht.
      pose proof (vi_ones_le x) as Hk. revert Ht. generalize (vi_ones x), Hk. clear. intros k Hk Ht.
      rewrite <- pow2_256 in Ht.
      assert (Hx : x mod 2 ^ (7 - N.of_nat k) < 2 ^ (7 - N.of_nat k)) by (apply N.mod_lt, N.pow_nonzero; lia).
      revert Hx Ht. generalize (x mod 2 ^ (7 - N.of_nat k)), (le_num tl). intros y z Hy Hz. cbv zeta.
      unfold vi_extra.
      do 9 (destruct k as [|k]; [cbn [N.of_nat Pos.of_succ_nat Pos.succ] in *; num_pow; split; [lia|];
        repeat match goal with |- context [?a <? ?b] => destruct (N.ltb_spec a b) end; lia|]). lia. }
    destruct Hk as [Hn Hk]. split; [exact Hn|].
    intros m Hm. apply extra_mono in Hm. rewrite nlen_vi_enc. change (N.of_nat 1) with 1 in H1. lia.
  Qed.

  Lemma basic_bytes b o n o' : dbasic e b o = DOk n o' ->
    n <= (match b with BU7 => 255 | _ => basic_max b end)
    /\ forall m, m <= n -> nlen (enc_basic e b m) + osize o' <= osize o.
  Proof.
    intros H. destruct b; cbn [dbasic enc_basic basic_max] in *;
      try (apply word_size in H as [H1 H2]; cbn [N.of_nat Pos.of_succ_nat Pos.succ] in *; split; [num_pow; lia|];
           intros m Hm; rewrite nlen_word; cbn [N.of_nat Pos.of_succ_nat Pos.succ]; lia).
    apply varint_size in H as [H1 H2]. split; [num_pow; lia|exact H2].
  Qed.

  (** A length, then the content. *)
  Lemma len_good {A} lm prev (c : N -> dec A) te o x o' :
    expr_typed lim lm -> dlen lim e (resolve false prev lm) c te o = DOk x o' ->
    exists n o1, c n o1 = DOk x o' /\ n <= l_usize_max lim
      /\ (forall m, m = n \/ (own_length lm /\ m <= n) -> again (enc_len e (resolve false prev lm) m) o o1).
  Proof.
    assert (Hp : forall b, dlen lim e (LenPrefix b false) c te o = DOk x o' ->
      exists n o1, c n o1 = DOk x o' /\ n <= l_usize_max lim
        /\ (forall m, m <= n -> again (enc_len e (LenPrefix b false) m) o o1)).
    { intros b H. cbn [dlen] in H. apply bind_inv in H as (n & o1 & H1 & H2). exists n, o1. split; [exact H2|].
      unfold dprefix in H1. apply bind_inv in H1 as (k & o2 & H1 & H3). apply basic_bytes in H1 as [Hb H1].
      destruct (N.leb_spec k (match b with BU7 => 127 | _ => l_usize_max lim end)) as [Hk|]; [|discriminate].
      injection H3 as -> ->.
      assert (Hn : n <= basic_max b /\ n <= l_usize_max lim) by (destruct b; cbn [basic_max] in *; num_pow; lia).
      destruct Hn as [Hn Hu]. split; [exact Hu|].
      intros m Hm. unfold again, enc_len. destruct (N.leb_spec m (basic_max b)); [|lia].
      eexists. split; [reflexivity|]. auto. }
    destruct lm as [|b|f|]; cbn [resolve expr_typed own_length].
    - intros _ H. destruct (Hp _ H) as (n & o1 & H1 & H2 & H3). exists n, o1. split; [exact H1|]. split; [exact H2|].
      intros m [->|[_ Hm]]; apply H3; lia.
    - intros _ H. destruct (Hp _ H) as (n & o1 & H1 & H2 & H3). exists n, o1. split; [exact H1|]. split; [exact H2|].
      intros m [->|[_ Hm]]; apply H3; lia.
    - intros Ht H. cbn [dlen] in H. destruct (f prev) as [n|] eqn:E; [|discriminate].
      exists n, o. split; [exact H|]. split; [eapply Ht; eauto|].
      intros m [->|[[] _]]. unfold again, enc_len. rewrite N.eqb_refl. exists []. split; [reflexivity|]. change (nlen (@nil byte)) with 0. lia.
    - intros [].
  Qed.

  Lemma repeat_good V nm en d n o vs o' : good V nm en d -> drepeat d n o = DOk vs o' ->
    length vs = n /\ Forall V vs /\ map nm vs = vs /\ Forall (fun v => exists b, en v = Ok b) vs
    /\ nsum (map (weight en) vs) + osize o' <= osize o.
  Proof.
    intros Hd. revert o vs. induction n as [|n IH]; intros o vs H; cbn [drepeat] in H.
    - injection H as <- <-. repeat split; try constructor. cbn. lia.
    - apply bind_inv in H as (v & o1 & H1 & H). apply bind_inv in H as (ws & o2 & H2 & H). injection H as <- <-.
      apply Hd in H1 as (Hv & Hn & b & Hb & Hl). apply IH in H2 as (H3 & H4 & H5 & H6 & H7).
      split; [cbn; lia|]. split; [constructor; assumption|]. split; [cbn; congruence|]. split; [constructor; eauto|].
      cbn [map nsum fold_right]. unfold weight at 1. rewrite Hb. unfold nsum in H7. lia.
  Qed.

  Lemma duration_good o v o' : dduration e o = DOk v o' ->
    exists s n, v = VSeq [VInt (Z.of_N s); VInt (Z.of_N n)] /\ s < 2 ^ 64 /\ n < 10 ^ 9 /\ 12 + osize o' = osize o.
  Proof.
    unfold dduration. intros H. apply bind_inv in H as (s & o1 & H1 & H). apply bind_inv in H as (n & o2 & H2 & H).
    destruct (N.ltb_spec (s + n / 10 ^ 9) (2 ^ 64)); [|discriminate]. injection H as <- <-.
    apply word_size in H1 as [_ H1]. apply word_size in H2 as [_ H2].
    exists (s + n / 10 ^ 9), (n mod 10 ^ 9). split; [reflexivity|]. split; [assumption|].
    split; [apply N.mod_lt; discriminate|]. lia.
  Qed.

  Ltac inv H := repeat match type of H with
    | dbind _ _ _ = DOk _ _ =>
      let a := fresh "a" in let o1 := fresh "o" in let H1 := fresh "Hd" in apply bind_inv in H as (a & o1 & H1 & H)
    | dmap _ _ _ = DOk _ _ => let H1 := fresh "Hd" in let a := fresh "a" in apply map_inv in H as (a & H1 & ->); rename H1 into H
    end.
  Ltac fin := cbv [dint dret] in *; match goal with H : DOk _ _ = DOk _ _ |- _ => injection H as <- <- end.
  Ltac sizes := repeat match goal with
    | H : dword e ?w _ = DOk _ _ |- _ => apply word_size in H as [? H]; cbn [N.of_nat Pos.of_succ_nat Pos.succ] in *
    | H : dprim e _ _ = DOk _ _ |- _ => apply prim_size in H as [? H]
    | H : dread _ _ = DOk _ _ |- _ => apply read_size in H as [? H]
    | H : dvarint e _ = DOk _ _ |- _ => apply varint_size in H as [? H]
    end.

  Lemma len_nat {A} (l : list A) n : nlen l = N.of_nat n -> length l = n.
  Proof. unfold nlen. lia. Qed.
  Lemma octets_len e' b : length (octets e' b) = length b.
  Proof. destruct e'; cbn; [apply rev_length|reflexivity]. Qed.

  Lemma scalar_good s : good (valid_scalar lim s) id (enc_scalar e e6 s) (dec_scalar lim e e6 s).
  Proof.
    intros o v o' H. unfold id.
    assert (Hx : valid_scalar lim s v /\ again (enc_scalar e e6 s v) o o'); [|tauto].
    destruct s; cbn [dec_scalar] in H.
    - inv H. sizes. split; [assumption|]. cbn. eexists. split; [reflexivity|]. rewrite WriteApi.nlen_enc_prim. lia.
    - inv H. destruct (N.leb_spec a (l_usize_max lim)); [|discriminate]. fin. sizes. split; [unfold valid_scalar, in_z; lia|].
      eexists. split; [reflexivity|]. rewrite nlen_word. lia.
    - inv H. fin. sizes. split; [exact I|]. eexists. split; [reflexivity|]. change (nlen [_]) with 1. lia.
    - inv H. destruct (is_scalar a) eqn:Es; [|discriminate]. fin. sizes. split; [cbn; split; [lia|rewrite N2Z.id; exact Es]|].
      eexists. split; [reflexivity|]. rewrite nlen_word. lia.
    - inv H. destruct (N.leb_spec a 1); [|discriminate]. fin. sizes. split; [cbn; lia|].
      eexists. split; [reflexivity|]. change (nlen [_]) with 1. lia.
    - fin. split; [exact I|]. exists []. split; [reflexivity|]. change (nlen (@nil byte)) with 0. lia.
    - inv H. destruct (Z.eqb_spec a 0); [discriminate|]. fin. sizes. split; [split; assumption|].
      eexists. split; [reflexivity|]. rewrite WriteApi.nlen_enc_prim. lia.
    - inv H. sizes. split; [assumption|]. cbn. eexists. split; [reflexivity|]. rewrite WriteApi.nlen_enc_prim. lia.
    - inv H. fin. sizes. split; [unfold valid_scalar, in_z; num_pow; lia|].
      eexists. split; [reflexivity|]. rewrite N2Z.id. apply Hd. lia.
    - inv H. fin. sizes. split; [cbn; rewrite octets_len; apply len_nat; assumption|].
      eexists. split; [reflexivity|]. rewrite !WriteApi.nlen_octets. lia.
    - inv H. fin. sizes. split; [cbn; rewrite octets_len; apply len_nat; assumption|].
      eexists. split; [reflexivity|]. rewrite !WriteApi.nlen_octets. lia.
    - inv H. destruct (a =? 0); [|destruct (a =? 1); [|discriminate]]; inv H; fin; sizes;
        (split; [cbn; rewrite octets_len; apply len_nat; assumption|]);
        (eexists; split; [reflexivity|]; rewrite nlen_cons, !WriteApi.nlen_octets; lia).
    - apply duration_good in H as (x & n & -> & H1 & H2 & H3). split; [unfold valid_scalar, in_z; num_pow; lia|].
      eexists. split; [reflexivity|]. rewrite nlen_app, !WriteApi.nlen_enc_prim. cbn [psize]. lia.
    - inv H. apply duration_good in Hd as (x & n & -> & H1 & H2 & H3).
      destruct (Z.leb_spec (Z.of_N x) (Z.of_N (l_systime_max lim))); [|discriminate]. fin.
      split; [unfold valid_scalar, in_z; num_pow; lia|].
      unfold again, enc_scalar. destruct (Z.ltb_spec (Z.of_N x) 0); [lia|].
      eexists. split; [reflexivity|]. rewrite nlen_app, !WriteApi.nlen_enc_prim. cbn [psize]. lia.
    - inv H. sizes. split; [apply len_nat; assumption|]. eexists. split; [reflexivity|]. lia.
    - inv H. destruct (l_chrono_ok lim a a0) eqn:Ec; [|discriminate]. fin. sizes.
      split; [unfold valid_scalar, in_z; rewrite N2Z.id; num_pow; split; [assumption|split; [lia|assumption]]|].
      eexists. split; [reflexivity|]. rewrite nlen_app, !WriteApi.nlen_enc_prim. cbn [psize] in *. lia.
    - inv H.
      assert (Hg : good (fun v => match v with VInt z => prim_ok p z = true | _ => False end) id
        (fun v => match v with VInt z => Ok (enc_prim e p z) | _ => Fault IllTyped end) (dmap VInt (dprim e p))).
      { clear. intros o v o' H. inv H. sizes. split; [assumption|]. split; [reflexivity|].
        eexists. split; [reflexivity|]. rewrite WriteApi.nlen_enc_prim. lia. }
      apply (repeat_good _ _ _ _ _ _ _ _ Hg) in H as (H1 & H2 & _ & H3 & H4). split; [split; assumption|].
      apply all_weight in H3 as (b & Hb & Hl). exists b. split; [exact Hb|]. lia.
    - inv H. fin. sizes. split; [split; [rewrite map_length, seq_length; reflexivity|]|].
      + apply Forall_forall. intros v Hv. apply in_map_iff in Hv as (i & <- & _). exact I.
      + eexists. split; [reflexivity|]. change (nlen [_]) with 1. lia.
  Qed.

  Definition stable_ty (t : ty) : Prop := forall lm prev, rewritable lm t ->
    good (valid t) (norm t) (enc (resolve false prev lm) t) (decl (resolve false prev lm) t).

  Lemma again_le en o o1 o2 : again en o o1 -> osize o2 <= osize o1 -> again en o o2.
  Proof. intros (b & -> & H) Hl. exists b. split; [reflexivity|lia]. Qed.

  Lemma again_map f en o o1 o2 : nlen f + osize o1 <= osize o -> again en o1 o2 -> again (rmap (app f) en) o o2.
  Proof. intros H (b & -> & Hb). exists (f ++ b). split; [reflexivity|]. rewrite nlen_app. lia. Qed.

  Lemma field_good prev a t : stable_ty t -> f_skip a = false -> rewritable_field lim rewritable a t ->
    good (valid t) (norm t) (enc_field e e6 enc prev a t) (dfield lim e e6 decl prev a t).
  Proof.
    intros Ht Es Hr o v o' H. unfold rewritable_field in Hr. rewrite Es in Hr. destruct Hr as [Ee Hr].
    unfold dfield in H. rewrite Ee in H. apply bind_inv in H as (u & o1 & H1 & H).
    assert (Hc : nlen (f_prefix a) + osize o1 = osize o).
    { unfold dconst in H1. apply bind_inv in H1 as (b & o2 & H1 & H2). apply read_size in H1 as [_ H1].
      destruct (list_eq_dec _ _ _); [|discriminate]. injection H2 as _ <-. exact H1. }
    unfold enc_field. destruct (f_varint a).
    - subst t. apply scalar_good in H as (H2 & H3 & H4).
      destruct v as [| |z| | | | | | |]; try contradiction. split; [|split; [reflexivity|]].
      + cbn [valid_scalar] in H2. unfold in_z in H2. cbn [Spec.valid TP valid_scalar].
        rewrite <- (Z2N.id z) by lia. apply Safe.u64_of_n. revert H2. num_pow. lia.
      + eapply again_map; [|exact H4]. lia.
    - assert (El : field_len false prev a t = resolve false prev (if sized_field a t then f_len a else LDefault)).
      { unfold field_len. destruct (sized_field a t); reflexivity. }
      rewrite El in *. apply (Ht _ prev Hr) in H as (H2 & H3 & H4). split; [exact H2|]. split; [exact H3|].
      eapply again_map; [|exact H4]. lia.
  Qed.

  Lemma fields_good fs : Forall (fun f => stable_ty (snd f)) fs -> all_fields (rewritable_field lim rewritable) fs ->
    forall prev o vs o', dfields lim e e6 decl prev fs o = DOk vs o' ->
    valid_fields valid fs vs /\ norm_fields norm fs vs = vs /\ again (enc_fields e e6 enc prev fs vs) o o'.
  Proof.
    induction 1 as [|[a t] fs Ht _ IH]; intros Hr prev o vs o' H; cbn [dfields fst snd] in H.
    - injection H as <- <-. split; [exact I|]. split; [reflexivity|]. exists []. split; [reflexivity|].
      change (nlen (@nil byte)) with 0. lia.
    - destruct Hr as [Ha Hr]. cbn [fst snd] in *. destruct (f_skip a) eqn:Es.
      + apply map_inv in H as (ws & H & ->). apply (IH Hr) in H as (H1 & H2 & H3).
        cbn [valid_fields norm_fields enc_fields fst snd]. rewrite Es.
        split; [split; [|exact H1]|split; [congruence|exact H3]].
        unfold rewritable_field in Ha. rewrite Es in Ha. exact Ha.
      + apply bind_inv in H as (v & o1 & H1 & H). apply bind_inv in H as (ws & o2 & H2 & H). injection H as <- <-.
        apply (field_good prev a t Ht Es Ha) in H1 as (H3 & H4 & H5). apply (IH Hr) in H2 as (H6 & H7 & H8).
        cbn [valid_fields norm_fields enc_fields fst snd]. rewrite Es.
        split; [split; assumption|]. split; [congruence|]. eapply again_app; eassumption.
  Qed.

  Lemma variant_good d vs : Forall (fun v => Forall (fun f => stable_ty (snd f)) (snd v)) vs ->
    all_variants (all_fields (rewritable_field lim rewritable)) vs ->
    forall tag i o v o', dvariant lim e e6 decl tag i vs o = DOk v o' ->
    exists j us, v = VVar (i + j) us /\ valid_variant valid vs j us /\ norm_variant norm vs j us = us
      /\ forall p, (e_peek d = true \/ nlen (enc_basic e (e_tag d) tag) + osize o <= osize p) -> osize o <= osize p ->
         again (enc_variant e e6 d enc vs j us) p o'.
  Proof.
    induction 1 as [|[g fs] vs Hf _ IH]; intros Hr tag i o v o' H; cbn [dvariant fst snd] in H; [discriminate|].
    destruct Hr as [Ha Hr]. cbn [fst snd] in *. destruct (N.eqb_spec g tag) as [->|Hg].
    - apply map_inv in H as (us & H & ->). apply (fields_good fs Hf Ha) in H as (H1 & H2 & H3).
      exists 0%nat, us. split; [f_equal; lia|]. cbn [valid_variant norm_variant enc_variant fst snd].
      split; [exact H1|]. split; [exact H2|]. intros p Hp Ho.
      eapply again_map; [|exact H3]. destruct (e_peek d); [change (nlen (@nil byte)) with 0; lia|].
      destruct Hp as [?|Hp]; [discriminate|exact Hp].
    - apply (IH Hr) in H as (j & us & -> & H1 & H2 & H3). exists (S j), us. split; [f_equal; lia|]. auto.
  Qed.

  Lemma tuple_good ts : Forall stable_ty ts -> all_tys (rewritable LDefault) ts ->
    forall o vs o', dtuple (decl len0) ts o = DOk vs o' ->
    valid_list valid ts vs /\ norm_list norm ts vs = vs /\ again (enc_tuple (enc len0) ts vs) o o'.
  Proof.
    induction 1 as [|t ts Ht _ IH]; intros Hr o vs o' H; cbn [dtuple] in H.
    - injection H as <- <-. split; [exact I|]. split; [reflexivity|]. exists []. split; [reflexivity|].
      change (nlen (@nil byte)) with 0. lia.
    - destruct Hr as [Ha Hr]. apply bind_inv in H as (v & o1 & H1 & H). apply bind_inv in H as (ws & o2 & H2 & H).
      injection H as <- <-. apply (Ht LDefault [] Ha) in H1 as (H3 & H4 & H5). apply (IH Hr) in H2 as (H6 & H7 & H8).
      cbn [valid_list norm_list enc_tuple]. split; [split; assumption|]. split; [congruence|]. eapply again_app; eassumption.
  Qed.

  Lemma again_nil o : again (Ok []) o o.
  Proof. exists []. split; [reflexivity|]. change (nlen (@nil byte)) with 0. lia. Qed.

  Lemma again_byte x n o o1 : dword e 1 o = DOk n o1 -> again (Ok [x]) o o1.
  Proof. intros H. apply word_size in H as [_ H]. exists [x]. split; [reflexivity|]. change (nlen [_]) with 1. lia. Qed.

  (** A collection of what was decoded. *)
  Lemma collect_good k key V en xs : Forall V xs -> Forall (fun v => exists b, en v = Ok b) xs ->
    Forall V (collect k key xs) /\
    exists b, enc_all en (iter_order it k (collect k key xs)) = Ok b /\ nlen b <= nsum (map (weight en) xs).
  Proof.
    intros HV He. split; [apply collect_Forall, HV|].
    assert (HP : Permutation (iter_order it k (collect k key xs)) (collect k key xs)).
    { unfold iter_order. destruct k; auto. }
    apply (collect_Forall key _ k) in He.
    assert (He' : Forall (fun v => exists b, en v = Ok b) (iter_order it k (collect k key xs))).
    { rewrite Forall_forall in *. intros x Hx. apply He. eapply Permutation_in; eauto. }
    apply all_weight in He' as (b & Hb & Hl). exists b. split; [exact Hb|]. rewrite Hl.
    rewrite (nsum_perm (map (weight en) (iter_order it k (collect k key xs))) (map (weight en) (collect k key xs)))
      by (apply Permutation_map; exact HP).
    apply collect_weight.
  Qed.

  Lemma map_Forall {A} (f : A -> A) l : map f l = l <-> Forall (fun x => f x = x) l.
  Proof.
    induction l as [|x l IH]; cbn; [split; auto|]. split.
    - intros E. injection E as H1 H2. constructor; [exact H1|]. apply IH, H2.
    - intros H. inversion H; subst. f_equal; [assumption|]. apply IH. assumption.
  Qed.

  Lemma dec_enc t : stable_ty t.
  Proof.
    induction t as [s|k|k t IH|t n IH|t n IH|t IH|t1 t2 IH1 IH2|ts IH|i t IH|k t IH|k tk tv IHk IHv|t IH|d fs IH|d vs IH|]
      using ty_ind'; intros lm prev Hr o v o' H; cbn [Spec.decl] in H.
    - apply scalar_good in H as (H1 & _ & H2). split; [exact H1|]. split; [reflexivity|exact H2].
    - apply (len_good _ _ _ _ _ _ _ Hr) in H as (n & o1 & H & Hn & Hl). inv H.
      unfold dsized in Hd. destruct (l_fits lim (TP U8) n) eqn:Ef; [|discriminate].
      apply unsure_some in Hd. apply read_size in Hd as [Hb Hd].
      assert (Hv : v = VBytes a /\ o' = o0 /\ utf8_valid a = true /\ match k with KRegex => l_regex_ok lim a = true | _ => True end).
      { unfold dstr in H. destruct (utf8_valid a); [|discriminate].
        destruct k; try (injection H as <- <-; auto).
        destruct (l_regex_ok lim a) eqn:Ex; [|discriminate]. injection H as <- <-. auto. }
      destruct Hv as (-> & -> & Hu & Hx). split; [|split; [reflexivity|]].
      + cbn [Spec.valid]. split; [exact Hu|]. split; [|exact Hx]. rewrite Hb. split; assumption.
      + cbn [Spec.enc]. rewrite Hb. eapply again_app; [apply Hl; left; reflexivity|]. exists a. split; [reflexivity|]. lia.
    - destruct Hr as [Hr1 Hr]. inv H. apply (len_good _ _ _ _ _ _ _ Hr1) in H as (n & o1 & H & Hn & Hl).
      unfold dsized in H. destruct (l_fits lim t n) eqn:Ef; [|discriminate]. apply unsure_some in H.
      apply (repeat_good _ _ _ _ _ _ _ _ (IH LDefault [] Hr)) in H as (H1 & H2 & H3 & H4 & H5).
      assert (El : nlen a = n) by (unfold nlen; lia).
      split; [|split].
      + cbn [Spec.valid]. rewrite El. split; [exact H2|]. split; assumption.
      + cbn [norm]. rewrite H3. reflexivity.
      + cbn [Spec.enc]. rewrite El. eapply again_app; [apply Hl; left; reflexivity|].
        apply all_weight in H4 as (b & Hb & Hw). exists b. split; [exact Hb|]. lia.
    - inv H. apply (repeat_good _ _ _ _ _ _ _ _ (IH LDefault [] Hr)) in H as (H1 & H2 & H3 & H4 & H5).
      split; [split; assumption|]. split; [cbn [norm]; congruence|].
      cbn [Spec.enc]. apply all_weight in H4 as (b & Hb & Hw). exists b. split; [exact Hb|]. lia.
    - inv H. apply (repeat_good _ _ _ _ _ _ _ _ (IH LDefault [] Hr)) in H as (H1 & H2 & H3 & H4 & H5).
      split; [split; assumption|]. split; [cbn [norm]; congruence|].
      cbn [Spec.enc]. apply all_weight in H4 as (b & Hb & Hw). exists b. split; [exact Hb|]. lia.
    - inv H. destruct (a =? 0).
      + fin. split; [exact I|]. split; [reflexivity|]. eapply again_byte, Hd.
      + inv H. apply (IH lm prev Hr) in H as (H1 & H2 & H3). split; [exact H1|]. split; [cbn [norm]; congruence|].
        cbn [Spec.enc]. eapply again_app; [eapply again_byte, Hd|exact H3].
    - destruct Hr as [Hr1 Hr2]. inv H. destruct (a =? 0); inv H.
      + apply (IH2 LDefault [] Hr2) in H as (H1 & H2 & H3). split; [exact H1|]. split; [cbn [norm]; congruence|].
        cbn [Spec.enc]. eapply again_app; [eapply again_byte, Hd|exact H3].
      + apply (IH1 LDefault [] Hr1) in H as (H1 & H2 & H3). split; [exact H1|]. split; [cbn [norm]; congruence|].
        cbn [Spec.enc]. eapply again_app; [eapply again_byte, Hd|exact H3].
    - inv H. apply (tuple_good ts IH Hr) in H as (H1 & H2 & H3). split; [exact H1|]. split; [cbn [norm]; congruence|exact H3].
    - inv H. apply (IH LDefault [] Hr) in Hd as (H1 & H2 & H3). apply (IH LDefault [] Hr) in Hd0 as (H4 & H5 & H6).
      fin. destruct i; (split; [split; assumption|]; split; [cbn [norm]; congruence|]);
        cbn [Spec.enc]; eapply again_app; eassumption.
    - destruct Hr as [Hr1 Hr]. inv H. fin.
      assert (Hr2 : expr_typed lim lm) by (destruct lm; auto; contradiction).
      apply (len_good _ _ _ _ _ _ _ Hr2) in Hd as (n & o1 & H & Hn & Hl).
      apply (repeat_good _ _ _ _ _ _ _ _ (IH LDefault [] Hr)) in H as (H1 & H2 & H3 & H4 & H5).
      pose proof (collect_length id k a) as Hc. pose proof (collect_keys_ok id k a) as Hk.
      assert (Hm : nlen (collect k id a) <= n) by (unfold nlen; lia).
      split; [|split].
      + cbn [Spec.valid]. split; [apply collect_Forall, H2|]. split; [unfold small; lia|exact Hk].
      + cbn [norm]. f_equal. apply map_Forall, collect_Forall, map_Forall, H3.
      + cbn [Spec.enc]. eapply again_app; [apply Hl; right; split; [exact Hr1|exact Hm]|].
        destruct (collect_good k id (fun _ => True) _ a ltac:(apply Forall_forall; auto) H4) as (_ & b & Hb & Hw).
        exists b. split; [exact Hb|]. change (resolve false [] LDefault) with len0 in Hw. unfold len0 in *. cbn [resolve] in *. lia.
    - destruct Hr as (Hr1 & Hrk & Hrv). inv H. fin.
      assert (Hr2 : expr_typed lim lm) by (destruct lm; auto; contradiction).
      apply (len_good _ _ _ _ _ _ _ Hr2) in Hd as (n & o1 & H & Hn & Hl).
      assert (Hg : good (valid_pair (valid tk) (valid tv))
        (fun p => match p with VSeq [x; y] => VSeq [norm tk x; norm tv y] | _ => p end)
        (enc_pair (enc len0 tk) (enc len0 tv)) (dpair (decl len0 tk) (decl len0 tv))).
      { clear - IHk IHv Hrk Hrv Hus Hit. intros o v o' H. unfold dpair in H. inv H. fin.
        apply (IHk LDefault [] Hrk) in Hd as (H1 & H2 & H3). apply (IHv LDefault [] Hrv) in Hd0 as (H4 & H5 & H6).
        split; [split; assumption|]. split; [congruence|]. cbn [enc_pair]. eapply again_app; eassumption. }
      apply (repeat_good _ _ _ _ _ _ _ _ Hg) in H as (H1 & H2 & H3 & H4 & H5).
      pose proof (collect_length pair_key k a) as Hc. pose proof (collect_keys_ok pair_key k a) as Hk.
      assert (Hm : nlen (collect k pair_key a) <= n) by (unfold nlen; lia).
      split; [|split].
      + cbn [Spec.valid]. split; [apply collect_Forall, H2|]. split; [unfold small; lia|exact Hk].
      + cbn [norm]. f_equal. apply map_Forall, collect_Forall, map_Forall, H3.
      + cbn [Spec.enc]. eapply again_app; [apply Hl; right; split; [exact Hr1|exact Hm]|].
        destruct (collect_good k pair_key (fun _ => True) _ a ltac:(apply Forall_forall; auto) H4) as (_ & b & Hb & Hw).
        exists b. split; [exact Hb|]. lia.
    - exact (IH LDefault [] Hr o v o' H).
    - inv H. apply (fields_good fs IH Hr) in H as (H1 & H2 & H3). split; [exact H1|]. split; [cbn [norm]; congruence|exact H3].
    - inv H. apply (variant_good d vs IH Hr) in H as (j & us & -> & H1 & H2 & H3). cbn [Nat.add].
      split; [exact H1|]. split; [cbn [norm]; congruence|]. cbn [Spec.enc]. destruct (e_peek d) eqn:Ep.
      + unfold dpeek in Hd. destruct (dbasic e (e_tag d) o); try discriminate. injection Hd as _ <-. apply H3; [left; reflexivity|lia].
      + apply basic_bytes in Hd as [_ Hd]. specialize (Hd a (N.le_refl a)). apply H3; [right; exact Hd|lia].
    - discriminate.
  Qed.
End Stable.

Definition until_end (lm : lenmode) : bool := match lm with LEof => true | _ => false end.

Lemma rewritable_no_eof lim t : forall lm, rewritable lim lm t -> no_eof (until_end lm) t.
Proof.
  assert (Hx : forall lm, expr_typed lim lm -> until_end lm = false) by (intros [| | |]; cbn; auto; contradiction).
  assert (Ho : forall lm, own_length lm -> until_end lm = false) by (intros [| | |]; cbn; auto; contradiction).
  assert (Hf : forall fs, Forall (fun f : fattrs * ty => forall lm, rewritable lim lm (snd f) -> no_eof (until_end lm) (snd f)) fs ->
    all_fields (rewritable_field lim (rewritable lim)) fs ->
    all_fields (fun a t' => f_skip a = true \/ (f_eof a = false /\ no_eof (field_eof a t') t')) fs).
  { induction 1 as [|[a t'] fs Ht _ IH]; [auto|]. intros [Ha Hr]. split; [|auto]. cbn [fst snd] in *.
    unfold rewritable_field in Ha. destruct (f_skip a); [left; reflexivity|right]. destruct Ha as [He Ha]. split; [exact He|].
    destruct (f_varint a); [subst t'; exact I|]. apply Ht in Ha. unfold field_eof.
    destruct (sized_field a t'); [|exact Ha]. exact Ha. }
  induction t as [s|k|k t IH|t n IH|t n IH|t IH|t1 t2 IH1 IH2|ts IH|i t IH|k t IH|k tk tv IHk IHv|t IH|d fs IH|d vs IH|]
    using ty_ind'; intros lm; cbn [rewritable no_eof]; auto.
  - intros [H1 H2]. split; [auto|]. apply (IH LDefault H2).
  - apply (IH LDefault).
  - apply (IH LDefault).
  - intros [H1 H2]. split; [apply (IH1 LDefault H1)|apply (IH2 LDefault H2)].
  - intros H. induction IH as [|t ts Ht _ IHts]; [exact I|]. destruct H as [H1 H2]. split; [apply (Ht LDefault H1)|auto].
  - apply (IH LDefault).
  - intros [H1 H2]. split; [auto|]. apply (IH LDefault H2).
  - intros (H1 & H2 & H3). split; [auto|]. split; [apply (IHk LDefault H2)|apply (IHv LDefault H3)].
  - apply (IH LDefault).
  - intros H. induction IH as [|v vs Hv _ IHvs]; [exact I|]. destruct H as [H1 H2]. split; [apply Hf; assumption|auto].
Qed.

(* ------------------------------------------------------------------ *)
(** * C63 *)

Section Main.
  Context (h : host) (VH : valid_host h) (e : endian).
  Context (mem : N -> bytes) (Hmem : forall n, n <= nlen (mem n)).
  Notation e6 := (ipv6_order h e).

  (** A value accepted from any bytes, through any entry point, can be written; the
      result is at most as long as what was read; and every entry point that can
      read the type reads the same value from it, whatever follows. *)
  Theorem C63_stable t bs bw v :
    covered h e bw true t -> rewritable (h_lim h) LDefault t -> no_peek t ->
    reading h e t bs bw (Ok v) ->
    exists b, write_to_vec h mem e t v = Ok b /\ nlen b <= nlen bs
      /\ forall rest bw' r, (bw = true -> bw' = true) -> reading h e t (b ++ rest) bw' r -> r = Ok v.
  Proof.
    intros [Hw Hs Hr] Hrw Hp Hread. pose proof (rewritable_no_eof _ _ _ Hrw) as Hn. cbn [until_end] in Hn.
    destruct (reading_decodes h VH e t bs bw v Hs Hread) as [(o & Hd)|Hd]; [|exfalso; exact (decode_spec _ _ _ _ _ Hn Hd)].
    unfold decode in Hd.
    destruct (dec_enc (h_lim h) (h_iter h) e e6 (vh_usize_lo h VH) (vh_iter h VH) t LDefault [] Hrw (Some bs) v o Hd)
      as (Hv & Hnm & b & Hb & Hl). cbn [osize] in Hl.
    assert (Hval : value_of h e t v) by (apply plain_value; assumption).
    exists b. split; [apply write_to_vec_ok; assumption|]. split; [lia|].
    intros rest bw' r Hbw Hr'.
    assert (Ho : opens false t = true -> rest = []) by (rewrite (no_eof_closed t false Hn); discriminate).
    pose proof (host_round_trip h VH e t v b rest Hr Hval Hb Ho) as Hd'. rewrite Hnm in Hd'.
    assert (Hs' : supported h e bw' true LDefault t).
    { destruct bw, bw'; auto; [discriminate Hbw; reflexivity|apply supported_borrow, Hs]. }
    apply (reading_ok h VH e t (b ++ rest) bw' r v (Some rest) Hs' Hr' Hd').
    rewrite nlen_app. pose proof (host_min h VH e _ _ t v b Hs Hval Hb). lia.
  Qed.

  (** Writing what was read from the result gives the result again: the second
      encoding is a fixed point. *)
  Corollary C63_fixed_point t bs bw v b addr w :
    covered h e bw true t -> rewritable (h_lim h) LDefault t -> no_peek t ->
    reading h e t bs bw (Ok v) -> nlen bs <= h_alloc_max h ->
    write_to_vec h mem e t v = Ok b -> read_from_buffer h e t addr b = Ok w ->
    write_to_vec h mem e t w = Ok b.
  Proof.
    intros Hc Hrw Hp Hread Hl Hb Hw. destruct (C63_stable t bs bw v Hc Hrw Hp Hread) as (b' & Hb' & Hle & H).
    rewrite Hb in Hb'. injection Hb' as <-.
    assert (Hr : read_from_buffer h e t addr b = Ok v).
    { apply (H [] true); [auto|]. rewrite app_nil_r. apply from_buffer. lia. }
    rewrite Hr in Hw. injection Hw as <-. exact Hb.
  Qed.
End Main.
Print Assumptions C63_stable.
Print Assumptions C63_fixed_point.

(* ------------------------------------------------------------------ *)
(** * The hypotheses are met *)

(** `length = count` where [count] is the first field, a byte. *)
Definition count (prev : list (option Z)) : option N :=
  match prev with Some z :: _ => Some (Z.to_N (z mod 256)) | _ => None end.

(* struct Loose {
     count: u8,
     #[speedy(varint)] size: u64,
     #[speedy(skip)] cache: u32,
     #[speedy(length = count)] raw: Vec<u8>,
     tags: HashSet<u16>,
     names: BTreeMap<u8, String>,
     on: bool,
     elapsed: Duration,
     #[speedy(constant_prefix = "SH")] shape: Option<Shape>,
   } *)
Definition loose : ty :=
  TStruct (sd 67 RRust)
    [ (plain, TP U8); (with_varint, TP U64); (with_skip (VInt 9), TP U32);
      (with_len (LExpr count), TSeq KVec (TP U8)); (plain, TSet CHash (TP U16));
      (plain, TMap CBTree (TP U8) (TStr KString)); (plain, TScalar SBool); (plain, TScalar SDuration);
      (with_prefix [x53; x48], TOption shape) ].

(** A variable length integer in three bytes instead of two, a duplicate in the set
    and in the map, 7 for `true`, more than a second of nanoseconds, 2 for `Some`. *)
Definition loose_bytes : bytes :=
  [ x02; xc0; x2c; x01; x07; x08; x02; x00; x00; x00; x05; x00; x05; x00;
    x02; x00; x00; x00; x01; x01; x00; x00; x00; x61; x01; x00; x00; x00; x00; x07;
    x01; x00; x00; x00; x00; x00; x00; x00; xff; xff; xff; xff; x53; x48; x02; x03; x00 ].

Lemma loose_covered bw : covered host64 LE bw true loose.
Proof. destruct bw; apply coveredb_sound; vm_compute; reflexivity. Qed.

Lemma loose_rewritable : rewritable (h_lim host64) LDefault loose.
Proof.
  assert (Hc : expr_typed (h_lim host64) (LExpr count)).
  { intros [|[z|] r] n E; try discriminate. injection E as <-.
    pose proof (Z.mod_pos_bound z 256 ltac:(lia)). change (l_usize_max (h_lim host64)) with (2 ^ 64 - 1). num_pow. lia. }
  unfold loose. cbn [rewritable all_fields all_variants shape fst snd TP].
  repeat split; try exact I; try exact Hc.
Qed.

(** Accepted from the 47 bytes above, written in 38, and read back the same. *)
Example C63_loose : exists v b, read_from_buffer host64 LE loose 3 loose_bytes = Ok v
  /\ nlen loose_bytes = 47 /\ write_to_vec host64 dirty LE loose v = Ok b /\ nlen b = 38
  /\ forall rest bw r, reading host64 LE loose (b ++ rest) bw r -> r = Ok v.
Proof.
  eexists. eexists. split; [vm_compute; reflexivity|]. split; [reflexivity|]. split; [vm_compute; reflexivity|].
  split; [reflexivity|].
  match goal with |- context [Ok ?x] => set (v := x) end.
  assert (Hr : reading host64 LE loose loose_bytes false (Ok v)).
  { replace (Ok v) with (read_from_buffer_copying host64 LE loose loose_bytes) by (vm_compute; reflexivity).
    apply from_copied_buffer. vm_compute. discriminate. }
  destruct (C63_stable host64 host64_valid LE dirty dirty_enough loose loose_bytes false v (loose_covered false)
    loose_rewritable ltac:(apply no_peekb_sound; vm_compute; reflexivity) Hr) as (b & Hb & _ & H).
  intros rest bw r Hx. apply (H rest bw r); [discriminate|].
  assert (E : write_to_vec host64 dirty LE loose v = Ok b) by exact Hb. vm_compute in E. injection E as <-. exact Hx.
Qed.

(* ------------------------------------------------------------------ *)
(** * The conditions are needed *)

(** A set whose length is taken from a field: duplicates in the input are accepted,
    and the value that comes out cannot be written.

    struct Tags { count: u8, #[speedy(length = count)] tags: BTreeSet<char> } *)
Definition counted_set : ty :=
  TStruct (sd 68 RRust) [(plain, TP U8); (with_len (LExpr count), TSet CBTree (TScalar SChar))].

Theorem C63_set_length_refuted : exists h t bs v, valid_host h /\ covered h LE true true t
  /\ (forall addr, read_from_buffer h LE t addr bs = Ok v) /\ valid (h_lim h) t v
  /\ write_to_vec h dirty LE t v = Err LengthIsNotTheSameAsLengthAttribute.
Proof.
  exists host64, counted_set, [x02; x41; x00; x00; x00; x41; x00; x00; x00]. eexists. split; [apply host64_valid|].
  split; [apply coveredb_sound; vm_compute; reflexivity|]. split; [intros addr; vm_compute; reflexivity|].
  split; [apply validb_sound; vm_compute; reflexivity|]. vm_compute. reflexivity.
Qed.

Print Assumptions C63_set_length_refuted.
