(* Writing follows the wire format on every lawful writer. *)
From Verif Require Export EncFacts WriteImpl VarintFacts.

(* ------------------------------------------------------------------ *)
(** * What a write may do *)

Section Post.
  (** [wrep s out]: the writer in state [s] has accepted [out] so far; [werr]: the
      errors the writer itself may raise; [room out]: it can take [out]. *)
  Context {St : Type} (wrep : St -> bytes -> Prop) (werr : error -> Prop) (room : bytes -> Prop).

  Definition wpost (out : bytes) (x : res bytes) (r : res unit) (s' : St) : Prop :=
    match x with
    | Ok b =>
      (r = Ok tt /\ wrep s' (out ++ b))
      \/ exists er b1 b2, b = b1 ++ b2 /\ r = Err er /\ werr er /\ wrep s' (out ++ b1)
                          /\ ~ room (out ++ b)
    | Err er =>
      exists er' y, r = Err er' /\ (er' = er \/ werr er') /\ wrep s' (out ++ y)
    | Fault f => r = Fault f \/ exists er', r = Err er' /\ werr er'
    end.

  Definition wsim (m : M St unit) (x : res bytes) : Prop :=
    forall s out, wrep s out -> wpost out x (fst (m s)) (snd (m s)).
End Post.

Record writer_ok {St} (h : host) (W : writer St) (wrep : St -> bytes -> Prop)
    (werr : error -> Prop) (room : bytes -> Prop) : Prop := {
  wk_bytes : forall b, wsim wrep werr room (wr_bytes W b) (Ok b);
  wk_u8 : forall n, wsim wrep werr room (wr_u8 W n) (Ok [n2b n]);
  wk_uint : forall w n, wsim wrep werr room (wr_uint W w n) (Ok (word (wr_endian W) w n));
  wk_can : forall n s out b, wrep s out -> wr_can W n s = Some false -> nlen b = n ->
    ~ room (out ++ b) /\ werr UnexpectedEndOfOutputBuffer;
  wk_room : forall a b, room (a ++ b) -> room a
}.

(* ------------------------------------------------------------------ *)
(** * Which types the writing theorems are about *)

Section Wsup.
  Context (h : host).

  Definition wsup_field (ws : ty -> Prop) (a : fattrs) (t : ty) : Prop :=
    f_skip a = true
    \/ ((f_varint a = true -> f_opaque a = false /\ t = TP U64) /\ ws t).

  Definition slice_elem (t : ty) : Prop := is_prim h t = true -> honest h t.

  Fixpoint wsup (t : ty) : Prop :=
    match t with
    | TScalar _ | TStr _ | TBot => True
    | TSeq _ t' | TArr t' _ => slice_elem t' /\ wsup t'
    | TRefArr t' _ | TOption t' | TRange _ t' | TSet _ t' | TBox t' => wsup t'
    | TResult t1 t2 => wsup t1 /\ wsup t2
    | TMap _ t1 t2 => wsup t1 /\ wsup t2
    | TTuple ts => all_tys wsup ts
    | TStruct _ fs => all_fields (wsup_field wsup) fs
    | TEnum d vs =>
      Forall (fun v => fst v <= basic_max (e_tag d)) vs
      /\ all_variants (all_fields (wsup_field wsup)) vs
    end.
End Wsup.

Section Sim.
  Context {St : Type} (h : host) (VH : valid_host h) (W : writer St)
          (wrep : St -> bytes -> Prop) (werr : error -> Prop) (room : bytes -> Prop)
          (OK : writer_ok h W wrep werr room).
  Notation e := (wr_endian W).
  Notation wsim := (wsim wrep werr room).
  Notation enc := (enc (h_iter h) e (ipv6_order h e)).
  Notation lim := (h_lim h).
  Notation valid := (valid lim).

  Lemma wsim_bind m1 m2 x1 x2 : wsim m1 x1 -> wsim m2 x2 -> wsim (m1 ;;; m2) (rapp x1 x2).
  Proof.
    intros H1 H2 s out Hs. specialize (H1 s out Hs). unfold bind.
    destruct (m1 s) as [r1 s1]. cbn [fst snd] in H1. destruct x1 as [b1|er|f]; cbn [wpost rapp rbind] in *.
    - destruct H1 as [[-> Hs1]|(er & c1 & c2 & -> & -> & He & Hs1 & Hr)].
      + specialize (H2 s1 (out ++ b1) Hs1).
        destruct (m2 s1) as [r2 s2]. cbn [fst snd] in *. destruct x2 as [b2|er|f]; cbn [wpost rmap] in *.
        * rewrite <- app_assoc in H2.
          destruct H2 as [[-> H2]|(er & c1 & c2 & -> & -> & He & Hs2 & Hr)]; [left; auto|right].
          exists er, (b1 ++ c1), c2. rewrite <- !app_assoc in *. auto.
        * destruct H2 as (er' & y & -> & He & Hy). exists er', (b1 ++ y). rewrite <- app_assoc in Hy. auto.
        * assumption.
      + destruct x2 as [b2|er2|f]; cbn [wpost rmap] in *.
        * right. exists er, c1, (c2 ++ b2). rewrite <- !app_assoc. repeat split; auto.
          intros Hx. apply Hr. rewrite !app_assoc in *. apply (wk_room _ _ _ _ _ OK) in Hx. assumption.
        * exists er, c1. auto.
        * right. exists er. auto.
    - destruct H1 as (er' & y & -> & He & Hy). cbn. exists er', y. auto.
    - destruct H1 as [->|(er' & -> & He)]; cbn; [left; reflexivity|right; exists er'; auto].
  Qed.

  Lemma wsim_ret : wsim (ret tt) (Ok []).
  Proof. intros s out Hs. left. cbn. rewrite app_nil_r. auto. Qed.

  Lemma wsim_fail er : wsim (fail er) (Err er).
  Proof. intros s out Hs. exists er, []. cbn. rewrite app_nil_r. auto. Qed.

  Lemma wsim_crash f : wsim (crash f) (Fault f).
  Proof. intros s out Hs. left. reflexivity. Qed.

  Lemma wsim_eq m x y : wsim m x -> x = y -> wsim m y.
  Proof. intros H <-. exact H. Qed.

  Lemma wsim_prim p z : wsim (write_prim W p z) (Ok (enc_prim e p z)).
  Proof.
    unfold write_prim, enc_prim.
    destruct p; cbn [psize];
      first [apply (wk_uint _ _ _ _ _ OK) | rewrite word1; apply (wk_u8 _ _ _ _ _ OK)].
  Qed.

  Lemma wsim_varint n : n < 2 ^ 64 -> wsim (write_varint h W n) (Ok (vi_enc n)).
  Proof.
    intros Hn s out Hs. unfold write_varint.
    assert (Hgo : wpost wrep werr room out (Ok (vi_enc n))
      (fst ((if vi_write_length n =? 0 then wr_u8 W (n mod 256)
            else wr_u8 W (vi_first n) ;;; wr_bytes W (vi_tail (h_native h) n)) s))
      (snd ((if vi_write_length n =? 0 then wr_u8 W (n mod 256)
            else wr_u8 W (vi_first n) ;;; wr_bytes W (vi_tail (h_native h) n)) s))).
    { rewrite vi_write_length_spec by assumption. destruct (N.eqb_spec (N.of_nat (vi_extra n)) 0) as [E|E].
      - rewrite vi_enc_short by lia. rewrite <- n2b_mod. apply (wk_u8 _ _ _ _ _ OK). assumption.
      - revert s out Hs. change (wsim (wr_u8 W (vi_first n) ;;; wr_bytes W (vi_tail (h_native h) n)) (Ok (vi_enc n))).
        rewrite <- (vi_bytes_spec (h_native h)) by assumption.
        apply (wsim_bind _ _ (Ok [n2b (vi_first n)]) (Ok _)).
        + apply (wk_u8 _ _ _ _ _ OK).
        + apply (wk_bytes _ _ _ _ _ OK). }
    destruct (wr_can W (vi_write_length n + 1) s) as [[]|] eqn:Ec; try exact Hgo.
    destruct (wk_can _ _ _ _ _ OK _ s out (vi_enc n) Hs Ec) as [H1 H2].
    { rewrite nlen_vi_enc, vi_write_length_spec by assumption. reflexivity. }
    right. exists UnexpectedEndOfOutputBuffer, [], (vi_enc n). cbn. rewrite app_nil_r. auto.
  Qed.

  Lemma wsim_length b n : n <= l_usize_max lim ->
    wsim (write_length h W b n) (enc_len e (LenPrefix b false) n).
  Proof.
    intros Hn. pose proof (vh_usize_hi h VH) as Hu. num_pow.
    destruct b; cbn [write_length enc_len basic_max enc_basic]; num_pow;
      repeat match goal with
             | |- context [?a <? ?b] => destruct (N.ltb_spec a b); try lia
             | |- context [?a <=? ?b] => destruct (N.leb_spec a b); try lia
             end; rewrite ?word1;
      first [apply wsim_fail | apply (wk_u8 _ _ _ _ _ OK) | apply (wk_uint _ _ _ _ _ OK)
            | apply wsim_varint; num_pow; lia].
  Qed.

  Lemma wsim_tag b n : n <= basic_max b -> wsim (write_tag h W b n) (Ok (enc_basic e b n)).
  Proof.
    intros Hn.
    destruct b; cbn [write_tag enc_basic basic_max] in *; num_pow; rewrite ?word1;
      first [apply (wk_u8 _ _ _ _ _ OK) | apply (wk_uint _ _ _ _ _ OK)
            | apply wsim_varint; num_pow; lia].
  Qed.

  Lemma wsim_each (wr : val -> M St unit) (en : val -> res bytes) vs :
    Forall (fun v => wsim (wr v) (en v)) vs -> wsim (write_each wr vs) (enc_all en vs).
  Proof.
    induction 1 as [|v vs H _ IH]; cbn [write_each]; [apply wsim_ret|].
    rewrite enc_all_cons. apply wsim_bind; assumption.
  Qed.

  Lemma native_dec e' : conversion_necessary (h_native h) e' = false -> h_native h = e'.
  Proof. unfold conversion_necessary. destruct (h_native h), e'; cbn; auto; discriminate. Qed.

  (** The memory copy and the element-wise path write the same bytes. *)
  Lemma wsim_slice t (wr : val -> M St unit) vs : slice_elem h t -> Forall (valid t) vs ->
    Forall (fun v => wsim (wr v) (enc len0 t v)) vs ->
    wsim (write_slice h W t wr vs) (enc_all (enc len0 t) vs).
  Proof.
    intros Hh Hv Hw. unfold write_slice.
    destruct (is_prim h t && _)%bool eqn:E; [|apply wsim_each; assumption].
    apply andb_prop in E as [Ep Ec].
    assert (Hp : plain_data h t) by (apply prim_plain; auto).
    eapply wsim_eq; [apply (wk_bytes _ _ _ _ _ OK)|].
    rewrite <- (mem_write_all h VH (h_iter h) (ipv6_order h e) t vs Hp Hv).
    apply enc_all_ext. eapply Forall_impl; [|exact Hv]. intros v Hvv.
    apply orb_prop in Ec as [Ec|Ec].
    - apply (plain_enc_small h VH (h_iter h)); auto. apply N.eqb_eq in Ec. lia.
    - apply negb_true_iff, native_dec in Ec. rewrite Ec. reflexivity.
  Qed.

  Lemma wsim_bytes_slice b : wsim (write_bytes_slice h W b) (Ok b).
  Proof.
    unfold write_bytes_slice, write_slice. unfold TU8 at 2. rewrite (vh_prim h VH U8).
    cbn [is_prim TU8 TP andb psize].
    change (N.of_nat 1 =? 1) with true. cbn [orb].
    eapply wsim_eq; [apply (wk_bytes _ _ _ _ _ OK)|]. f_equal.
    induction b as [|x b IH]; [reflexivity|]. cbn [map concat]. rewrite IH.
    change (x :: b) with ([x] ++ b). f_equal. unfold TU8, TP. cbn [mem_write psize].
    assert (E : to_bits U8 (Z.of_N (b2n x)) = b2n x).
    { pose proof (b2n_lt x). unfold to_bits. cbn [pmod psize]. change (pmod U8) with 256.
      rewrite Z.mod_small by lia. apply N2Z.id. }
    rewrite E. unfold to_ne. destruct (h_native h); cbn [le_bytes rev app]; rewrite n2b_b2n; reflexivity.
  Qed.

  Lemma wsim_ipv4 b : length b = 4%nat -> wsim (write_ipv4 W b) (Ok (octets e b)).
  Proof.
    intros Hl. eapply wsim_eq; [apply (wk_uint _ _ _ _ _ OK)|]. f_equal. unfold ipv4_num, word, octets.
    rewrite le_bytes_le_num' by (rewrite rev_length; assumption).
    destruct e; rewrite ?rev_involutive; reflexivity.
  Qed.

  Lemma wsim_ipv6 b : wsim (write_ipv6 h W b) (Ok (octets (ipv6_order h e) b)).
  Proof.
    eapply wsim_eq; [apply (wk_bytes _ _ _ _ _ OK)|]. unfold ipv6_order, octets, conversion_necessary.
    destruct (h_native h), e; reflexivity.
  Qed.

  Lemma bvec_bools vs : Forall (fun v => match v with VBool _ => True | _ => False end) vs ->
    bvec_mask vs = bools_num vs.
  Proof.
    induction 1 as [|v vs H _ IH]; [reflexivity|]. destruct v as [|[]| | | | | | | |]; try contradiction;
      cbn [bvec_mask bools_num]; rewrite IH; reflexivity.
  Qed.

  Lemma wsim_scalar s v : valid_scalar lim s v ->
    wsim (write_scalar h W s v) (enc_scalar e (ipv6_order h e) s v).
  Proof.
    destruct s; cbn [valid_scalar]; intros Hv.
    all: try (destruct v as [|bo|z|b|vs| | | | |i us]; try contradiction; cbn [write_scalar enc_scalar];
              first [ apply wsim_prim | apply (wk_uint _ _ _ _ _ OK) | apply wsim_ret
                    | apply wsim_ipv6 | apply (wk_bytes _ _ _ _ _ OK) | apply wsim_ipv4, Hv]; fail).
    - destruct v as [|[]| | | | | | | |]; try contradiction; apply (wk_u8 _ _ _ _ _ OK).
    - destruct v as [| | | | | | | | |i [|]]; try contradiction. apply (wk_u8 _ _ _ _ _ OK).
    - destruct v; try contradiction. cbn [write_scalar enc_scalar].
      apply wsim_varint. unfold in_z in Hv. num_pow. lia.
    - destruct v as [| | | | | | | | |[|[|i]] [|[] [|]]]; try contradiction; cbn [write_scalar enc_scalar].
      + apply (wsim_bind _ _ (Ok [_]) (Ok _)); [apply (wk_u8 _ _ _ _ _ OK)|apply wsim_ipv4, Hv].
      + apply (wsim_bind _ _ (Ok [_]) (Ok _)); [apply (wk_u8 _ _ _ _ _ OK)|apply wsim_ipv6].
    - destruct v as [| | | |[|[] [|[] [|]]]| | | | |]; try contradiction; cbn [write_scalar enc_scalar].
      apply (wsim_bind _ _ (Ok _) (Ok _)); apply (wk_uint _ _ _ _ _ OK).
    - destruct v as [| | | |[|[] [|[] [|]]]| | | | |]; try contradiction; cbn [write_scalar enc_scalar].
      destruct (_ <? 0)%Z; [apply wsim_fail|].
      apply (wsim_bind _ _ (Ok _) (Ok _)); apply (wk_uint _ _ _ _ _ OK).
    - destruct v as [| | | |[|[] [|[] [|]]]| | | | |]; try contradiction; cbn [write_scalar enc_scalar].
      apply (wsim_bind _ _ (Ok _) (Ok _)); apply (wk_uint _ _ _ _ _ OK).
    - destruct v as [| | | |vs| | | | |]; try contradiction; cbn [write_scalar enc_scalar].
      destruct Hv as [_ Hv]. apply wsim_each. eapply Forall_impl; [|exact Hv].
      intros [] H; try contradiction. apply wsim_prim.
    - destruct v as [| | | |vs| | | | |]; try contradiction; cbn [write_scalar enc_scalar].
      rewrite bvec_bools by apply Hv. apply (wk_u8 _ _ _ _ _ OK).
  Qed.

  Lemma wsim_length_body prev lm n : n <= l_usize_max lim ->
    wsim (write_length_body h W prev lm n) (enc_len e (resolve false prev lm) n).
  Proof.
    intros Hn. destruct lm; cbn [write_length_body resolve].
    - apply wsim_length; assumption.
    - apply wsim_length; assumption.
    - cbn [enc_len]. destruct (f prev); [|apply wsim_crash].
      destruct (n =? _); [apply wsim_ret|apply wsim_fail].
    - apply wsim_ret.
  Qed.

  Definition wok (t : ty) : Prop := forall v, valid t v -> wsim (write h W t v) (enc len0 t v).

  (** The code the derive macro emits for a field. *)
  Definition wok_inner (t : ty) : Prop := forall prev lm v, valid t v ->
    wsim (write_field_inner h W (write h W) prev lm false t v)
         (enc (if is_container t then resolve false prev lm else len0) t v).

  Lemma wok_each t k vs : wok t -> Forall (valid t) vs ->
    wsim (write_each (write h W t) (iter_order (h_iter h) k vs))
         (enc_all (enc len0 t) (iter_order (h_iter h) k vs)).
  Proof.
    intros Ht Hv. apply wsim_each.
    assert (Hp : Forall (valid t) (iter_order (h_iter h) k vs)).
    { destruct k; cbn [iter_order]; auto. eapply Permutation_Forall; [|exact Hv].
      symmetry. apply (vh_iter h VH). }
    eapply Forall_impl; [|exact Hp]. exact Ht.
  Qed.

  Lemma wok_pairs tk tv k vs : wok tk -> wok tv -> Forall (valid_pair (valid tk) (valid tv)) vs ->
    wsim (write_each (write_pair (write h W tk) (write h W tv)) (iter_order (h_iter h) k vs))
         (enc_all (enc_pair (enc len0 tk) (enc len0 tv)) (iter_order (h_iter h) k vs)).
  Proof.
    intros Hk Hx Hv. apply wsim_each.
    assert (Hp : Forall (valid_pair (valid tk) (valid tv)) (iter_order (h_iter h) k vs)).
    { destruct k; cbn [iter_order]; auto. eapply Permutation_Forall; [|exact Hv].
      symmetry. apply (vh_iter h VH). }
    eapply Forall_impl; [|exact Hp]. intros [| | | |[|a [|b [|]]]| | | | |] H; try contradiction.
    destruct H. cbn [write_pair enc_pair]. apply wsim_bind; auto.
  Qed.

  Lemma wsim_fields fs :
    Forall (fun f => wsup_field (wsup h) (fst f) (snd f) ->
              f_skip (fst f) = false -> wok (snd f) /\ wok_inner (snd f)
              /\ (forall t', snd f = TOption t' -> wok_inner t')) fs ->
    all_fields (wsup_field (wsup h)) fs ->
    forall prev vs, valid_fields valid fs vs ->
    wsim (write_fields h W (write h W) prev fs vs) (enc_fields e (ipv6_order h e) enc prev fs vs).
  Proof.
    induction 1 as [|[a t] fs Hf _ IH]; intros Hs prev [|v vs] Hv; cbn [valid_fields] in Hv; try contradiction.
    - apply wsim_ret.
    - cbn [fst snd] in *. destruct Hs as [Ha Hs]. destruct Hv as [Hv Hvs].
      cbn [write_fields enc_fields fst snd]. destruct (f_skip a) eqn:Esk; [apply IH; assumption|].
      apply wsim_bind; [|apply IH; assumption].
      destruct (Hf Ha eq_refl) as (H1 & H2 & H3). clear Hf.
      destruct Ha as [Ha|[Ha _]]; [cbn in Ha; congruence|].
      unfold write_field, enc_field. rewrite rmap_app.
      apply wsim_bind.
      { destruct (f_prefix a); [apply wsim_ret|apply wsim_bytes_slice]. }
      destruct (f_varint a) eqn:Evar.
      { cbn [fst snd] in Ha. destruct (Ha Evar) as [Ho ->]. rewrite Ho. cbn [write_field_inner].
        destruct v; try contradiction. cbn [enc_scalar]. apply wsim_varint.
        cbn in Hv. unfold prim_ok in Hv. cbn [psigned] in Hv. change (pmod U64) with (2 ^ 64) in Hv. num_pow. lia. }
      unfold field_len, sized_field.
      destruct (f_opaque a) eqn:Eop; cbn [negb andb]; [apply H1; assumption|].
      destruct t as [| | | | |t'| | | | | | | | |]; try (apply H2; assumption).
      destruct v as [| | | | | |u| | |]; try contradiction; cbn [enc].
      + apply (wk_u8 _ _ _ _ _ OK).
      + apply wsim_bind; [apply (wk_u8 _ _ _ _ _ OK)|]. apply H3; auto.
  Qed.

  Lemma wok_all t : wsup h t -> wok t /\ wok_inner t /\ (forall t', t = TOption t' -> wok_inner t').
  Proof.
    pose proof (vh_usize_lo h VH) as Hu.
    induction t as [s|k|k t IH|t n IH|t n IH|t IH|t1 t2 IH1 IH2|ts IH|i t IH|k t IH|k tk tv IHk IHv|t IH|d fs IH|d vs IH|]
      using ty_ind'; cbn [wsup]; intros Hs.
    - assert (H : wok (TScalar s)) by (intros v Hv; apply wsim_scalar, Hv).
      split; [exact H|split; [|discriminate]]. intros prev lm v Hv. cbn [is_container].
      destruct s; try (apply H; assumption). destruct v; try contradiction. apply H; assumption.
    - assert (H : wok (TStr k)).
      { intros v Hv. destruct v as [| | |b| | | | | |]; try contradiction. cbn [write enc].
        apply wsim_bind; [apply wsim_length|apply wsim_bytes_slice]. apply Hv. }
      split; [exact H|split; [|discriminate]]. intros prev lm v Hv.
      destruct v as [| | |b| | | | | |]; try contradiction.
      destruct k; cbn [is_container write_field_inner]; try (apply H; assumption); cbn [enc];
        (apply wsim_bind; [apply wsim_length_body; apply Hv|apply wsim_bytes_slice]).
    - destruct Hs as [Hse Hs]. destruct (IH Hs) as (Ht & _ & _).
      assert (H : wok (TSeq k t)).
      { intros v Hv. destruct v as [| | | |vs| | | | |]; try contradiction. cbn [write enc].
        destruct Hv as [Hv Hl].
        apply wsim_bind; [apply wsim_length; apply Hl|apply wsim_slice; auto].
        eapply Forall_impl; [|exact Hv]. exact Ht. }
      split; [exact H|split; [|discriminate]]. intros prev lm v Hv.
      destruct v as [| | | |vs| | | | |]; try contradiction.
      destruct k; cbn [is_container write_field_inner]; try (apply H; assumption); cbn [enc];
        destruct Hv as [Hv Hl];
        (apply wsim_bind; [apply wsim_length_body; apply Hl|apply wsim_slice; auto];
         eapply Forall_impl; [|exact Hv]; exact Ht).
    - destruct Hs as [Hse Hs]. destruct (IH Hs) as (Ht & _ & _).
      split; [|split; [|discriminate]].
      + intros v Hv. destruct v as [| | | |vs| | | | |]; try contradiction. cbn [write enc].
        apply wsim_each. eapply Forall_impl; [|apply Hv]. exact Ht.
      + intros prev lm v Hv. destruct v as [| | | |vs| | | | |]; try contradiction.
        cbn [is_container write_field_inner enc]. apply wsim_slice; auto; [apply Hv|].
        eapply Forall_impl; [|apply Hv]. exact Ht.
    - destruct (IH Hs) as (Ht & _ & _).
      assert (H : wok (TRefArr t n)).
      { intros v Hv. destruct v as [| | | |vs| | | | |]; try contradiction. cbn [write enc].
        apply wsim_each. eapply Forall_impl; [|apply Hv]. exact Ht. }
      split; [exact H|split; [|discriminate]]. intros prev lm v Hv. apply H, Hv.
    - destruct (IH Hs) as (Ht & Hi & _).
      assert (H : wok (TOption t)).
      { intros v Hv. destruct v as [| | | | | |u| | |]; try contradiction; cbn [write enc].
        - apply (wk_u8 _ _ _ _ _ OK).
        - apply wsim_bind; [apply (wk_u8 _ _ _ _ _ OK)|]. apply Ht, Hv. }
      split; [exact H|split]. { intros prev lm v Hv. apply H, Hv. }
      intros t' E. injection E as <-. exact Hi.
    - destruct Hs as [Hs1 Hs2]. destruct (IH1 Hs1) as (Ht1 & _ & _). destruct (IH2 Hs2) as (Ht2 & _ & _).
      assert (H : wok (TResult t1 t2)).
      { intros v Hv. destruct v as [| | | | | | |u|u|]; try contradiction; cbn [write enc];
          (apply wsim_bind; [apply (wk_u8 _ _ _ _ _ OK)|]); [apply Ht1, Hv|apply Ht2, Hv]. }
      split; [exact H|split; [|discriminate]]. intros prev lm v Hv. apply H, Hv.
    - assert (H : wok (TTuple ts)).
      { intros v Hv. destruct v as [| | | |vs| | | | |]; try contradiction; cbn [write enc].
        cbn in Hv. revert vs Hv.
        induction IH as [|t ts IHt _ IHts]; intros [|v vs] Hv; cbn [valid_list] in Hv; try contradiction.
        - apply wsim_ret.
        - destruct Hs as [Hs1 Hs2]. cbn [write_tuple enc_tuple]. apply wsim_bind.
          + apply IHt; tauto.
          + apply IHts; tauto. }
      split; [exact H|split; [|discriminate]]. intros prev lm v Hv. apply H, Hv.
    - destruct (IH Hs) as (Ht & _ & _).
      assert (H : wok (TRange i t)).
      { intros v Hv. destruct i; destruct v as [| | | |[|a [|b [|[] [|]]]]| | | | |]; try contradiction;
          cbn [write enc]; destruct Hv; (apply wsim_bind; apply Ht; assumption). }
      split; [exact H|split; [|discriminate]]. intros prev lm v Hv. apply H, Hv.
    - destruct (IH Hs) as (Ht & _ & _).
      assert (H : wok (TSet k t)).
      { intros v Hv. destruct v as [| | | |vs| | | | |]; try contradiction; cbn [write enc].
        destruct Hv as (Hv & Hl & _). apply wsim_bind; [apply wsim_length, Hl|]. apply wok_each; auto. }
      split; [exact H|split; [|discriminate]]. intros prev lm v Hv.
      destruct v as [| | | |vs| | | | |]; try contradiction.
      destruct k; cbn [is_container write_field_inner]; try (apply H; assumption); cbn [enc];
        destruct Hv as (Hv & Hl & _);
        (apply wsim_bind; [apply wsim_length_body; apply Hl|apply wok_each; auto]).
    - destruct Hs as [Hs1 Hs2]. destruct (IHk Hs1) as (Ht1 & _ & _). destruct (IHv Hs2) as (Ht2 & _ & _).
      assert (H : wok (TMap k tk tv)).
      { intros v Hv. destruct v as [| | | |vs| | | | |]; try contradiction; cbn [write enc].
        destruct Hv as (Hv & Hl & _). apply wsim_bind; [apply wsim_length, Hl|]. apply wok_pairs; auto. }
      split; [exact H|split; [|discriminate]]. intros prev lm v Hv.
      destruct v as [| | | |vs| | | | |]; try contradiction.
      destruct k; cbn [is_container write_field_inner]; try (apply H; assumption); cbn [enc];
        destruct Hv as (Hv & Hl & _);
        (apply wsim_bind; [apply wsim_length_body; apply Hl|apply wok_pairs; auto]).
    - destruct (IH Hs) as (Ht & _ & _).
      assert (H : wok (TBox t)).
      { intros v Hv. cbn [write enc]. destruct v; apply Ht, Hv. }
      split; [exact H|split; [|discriminate]]. intros prev lm v Hv. apply H, Hv.
    - assert (H : wok (TStruct d fs)).
      { intros v Hv. destruct v as [| | | |vs| | | | |]; try contradiction; cbn [write enc].
        apply wsim_fields; auto. eapply Forall_impl; [|exact IH]. cbn. intros [a t] Hf [Hx|[_ Hx]]; cbn in *.
        - congruence.
        - intros _. apply Hf, Hx. }
      split; [exact H|split; [|discriminate]]. intros prev lm v Hv. apply H, Hv.
    - assert (H : wok (TEnum d vs)).
      { destruct Hs as [Htag Hs]. intros v Hv. destruct v as [| | | | | | | | |i us]; try contradiction; cbn [write enc].
        cbn in Hv. revert i Hv.
        induction IH as [|[tag fs] vs IHf _ IHvs]; intros i Hv; [contradiction|].
        destruct Hs as [Hs1 Hs2]. inversion Htag as [|? ? Ht1 Ht2]; subst. cbn [fst snd] in *.
        destruct i as [|i]; cbn [valid_variant write_variant enc_variant fst snd] in *.
        - rewrite rmap_app. apply wsim_bind.
          + destruct (e_peek d); [apply wsim_ret|apply wsim_tag; assumption].
          + apply wsim_fields; auto. eapply Forall_impl; [|exact IHf]. cbn. intros [a t] Hf [Hx|[_ Hx]]; cbn in *.
            * congruence.
            * intros _. apply Hf, Hx.
        - apply IHvs; auto. }
      split; [exact H|split; [|discriminate]]. intros prev lm v Hv. apply H, Hv.
    - split; [|split; [|discriminate]].
      + intros v Hv. destruct v; contradiction.
      + intros prev lm v Hv. destruct v; contradiction.
  Qed.

  Theorem write_sim t v : wsup h t -> valid t v -> wsim (write h W t v) (enc len0 t v).
  Proof. intros Hs Hv. apply wok_all; assumption. Qed.
End Sim.
