(* What the wire format encodes, it decodes. *)
From Verif Require Import BaseFacts SpecFacts EncFacts TyInd ValOrder.
From Verif Require Export Wellformed.

Definition leof (l : lenspec) : bool := match l with LenEof => true | _ => false end.

Lemma leof_field lenient prev a t : leof (field_len lenient prev a t) = field_eof a t.
Proof. unfold field_len, field_eof. destruct (sized_field a t), (f_len a); reflexivity. Qed.

(* ------------------------------------------------------------------ *)
(** * Encodings do not depend on leniency *)

Section Lenient.
  Context (it : list val -> list val) (e e6 : endian).

  Lemma enc_len_only t : forall l l' v, (forall n, enc_len e l n = enc_len e l' n) ->
    enc it e e6 l t v = enc it e e6 l' t v.
  Proof.
    induction t as [s|k|k t IH|t n IH|t n IH|t IH|t1 t2 IH1 IH2|ts IH|i t IH|k t IH|k tk tv IHk IHv|t IH|d fs IH|d vs IH|] using ty_ind';
      intros l l' v H; destruct v; cbn [enc]; try reflexivity; rewrite ?H; try reflexivity.
    erewrite IH by exact H. reflexivity.
  Qed.

  Lemma enc_lenient b prev a t v :
    enc it e e6 (field_len b prev a t) t v = enc it e e6 (field_len false prev a t) t v.
  Proof.
    apply enc_len_only. intros n. unfold field_len. destruct (sized_field a t); [|reflexivity].
    destruct (f_len a); reflexivity.
  Qed.
End Lenient.

(* ------------------------------------------------------------------ *)
(** * Numbers *)

Lemma to_bits_lt p z : to_bits p z < 256 ^ N.of_nat (psize p).
Proof.
  unfold to_bits, pmod. rewrite pow2_256.
  assert (0 < 256 ^ N.of_nat (psize p)) by apply pow256_pos. lia.
Qed.

Lemma of_to_bits p z : prim_ok p z = true -> of_bits p (to_bits p z) = z.
Proof.
  unfold prim_ok, of_bits, to_bits. intros H.
  assert (Hm : 0 < pmod p) by (destruct p; reflexivity).
  assert (Hm2 : pmod p = 2 * (pmod p / 2)) by (destruct p; reflexivity).
  set (m := Z.of_N (pmod p)) in *.
  assert (E : (z mod m = if z <? 0 then z + m else z)%Z).
  { destruct (Z.ltb_spec z 0).
    - transitivity ((z + 1 * m) mod m)%Z; [rewrite Z_mod_plus_full; reflexivity|].
      rewrite Z.mul_1_l. apply Z.mod_small. destruct (psigned p); lia.
    - apply Z.mod_small. destruct (psigned p); lia. }
  rewrite E. clear E. destruct (psigned p); cbn [andb].
  - destruct (Z.ltb_spec z 0); destruct (N.leb_spec (pmod p / 2) (Z.to_N (z + m)));
      destruct (N.leb_spec (pmod p / 2) (Z.to_N z)); lia.
  - destruct (Z.ltb_spec z 0); lia.
Qed.

Section Dec.
  Context (lim : limits) (e e6 : endian).

  Lemma dprim_rt p z rest : prim_ok p z = true ->
    dprim e p (Some (enc_prim e p z ++ rest)) = DOk z (Some rest).
  Proof.
    intros H. unfold dprim, enc_prim, dmap, dbind. rewrite dword_word by apply to_bits_lt.
    unfold dret. rewrite of_to_bits by assumption. reflexivity.
  Qed.

  Lemma dbasic_rt b n rest : n <= basic_max b ->
    dbasic e b (Some (enc_basic e b n ++ rest)) = DOk n (Some rest).
  Proof.
    intros H. destruct b; cbn [dbasic enc_basic basic_max] in *;
      try (apply dword_word; revert H; num_pow; cbn; lia).
    apply dvarint_enc. revert H. num_pow. lia.
  Qed.

  Lemma dprefix_rt b n rest : n <= basic_max b -> small lim n ->
    dprefix lim e b (Some (enc_basic e b n ++ rest)) = DOk n (Some rest).
  Proof.
    intros H Hs. unfold dprefix, dbind. rewrite dbasic_rt by assumption.
    destruct (N.leb_spec n match b with BU7 => 127 | _ => l_usize_max lim end) as [|C]; [reflexivity|].
    exfalso. unfold small in Hs. destruct b; cbn [basic_max] in *; lia.
  Qed.

  Lemma dlen_rt {A} l n (c : N -> dec A) (te : dec A) p rest :
    enc_len e l n = Ok p -> small lim n -> leof l = false ->
    dlen lim e l c te (Some (p ++ rest)) = c n (Some rest).
  Proof.
    intros H Hs Hl. destruct l as [b len|[m|]|]; cbn [enc_len dlen leof] in *; try discriminate.
    - destruct (N.leb_spec n (basic_max b)) as [Hn|]; [|discriminate]. injection H as <-.
      unfold dbind. destruct len; unfold dcatch; rewrite dprefix_rt by assumption; reflexivity.
    - destruct (N.eqb_spec n m); [|discriminate]. injection H as <-. subst. reflexivity.
  Qed.

  Lemma bools_num_lt vs : (bools_num vs < 2 ^ nlen vs).
  Proof.
    induction vs as [|v vs IH]; cbn [bools_num]; [reflexivity|].
    rewrite nlen_cons, N.pow_add_r. change (2 ^ 1) with 2.
    destruct v as [|[]| | | | | | | |]; lia.
  Qed.

  Lemma bools_num_bits vs n : Forall (fun v => match v with VBool _ => True | _ => False end) vs ->
    length vs = n -> forall k m, m = bools_num vs ->
    map (fun i => VBool (N.odd (m * 2 ^ N.of_nat k / 2 ^ N.of_nat i))) (seq k n) = vs.
  Proof.
    intros H. revert n. induction H as [|v vs Hv _ IH]; intros [|n] Hn k m Hm; try discriminate; [reflexivity|].
    destruct v as [|b| | | | | | | |]; try contradiction. cbn [seq map]. f_equal.
    - rewrite N.div_mul by (apply N.pow_nonzero; discriminate). subst m. cbn [bools_num].
      rewrite N.odd_add_mul_2. destruct b; reflexivity.
    - injection Hn as Hn. transitivity (map (fun i => VBool (N.odd (bools_num vs * 2 ^ N.of_nat (S k) / 2 ^ N.of_nat i))) (seq (S k) n)); [|exact (IH n Hn (S k) (bools_num vs) eq_refl)].
      apply map_ext_in. intros i Hi. apply in_seq in Hi. do 2 f_equal.
      assert (E : 2 ^ N.of_nat i = 2 ^ N.of_nat k * 2 * 2 ^ N.of_nat (i - S k)).
      { rewrite <- N.pow_succ_r', <- N.pow_add_r || idtac.
        replace (2 ^ N.of_nat k * 2) with (2 ^ (N.of_nat k + 1)) by (rewrite N.pow_add_r; reflexivity).
        rewrite <- N.pow_add_r. f_equal. lia. }
      rewrite E. replace (2 ^ N.of_nat (S k)) with (2 * 2 ^ N.of_nat k)
        by (rewrite Nat2N.inj_succ, N.pow_succ_r'; reflexivity).
      assert (Hk : 2 ^ N.of_nat k <> 0) by (apply N.pow_nonzero; discriminate).
      assert (Hi' : 2 ^ N.of_nat (i - S k) <> 0) by (apply N.pow_nonzero; discriminate).
      rewrite <- !N.div_div by lia.
      subst m. cbn [bools_num]. rewrite N.div_mul by assumption.
      rewrite (N.mul_assoc (bools_num vs)), N.div_mul by assumption.
      f_equal. destruct b; lia.
  Qed.

  Hypothesis Hus : l_usize_max lim <= 2 ^ 64 - 1.
  Hypothesis Hst : l_systime_max lim < 2 ^ 64.

  Lemma drepeat_rt {A V} (d : dec A) (en : V -> res bytes) (nm : V -> A) vs b rest :
    Forall (fun v => forall b rest, en v = Ok b -> d (Some (b ++ rest)) = DOk (nm v) (Some rest)) vs ->
    rmap (@concat _) (rmapM en vs) = Ok b ->
    drepeat d (length vs) (Some (b ++ rest)) = DOk (map nm vs) (Some rest).
  Proof.
    intros H. revert b. induction H as [|v vs Hv _ IH]; cbn [rmapM length drepeat map]; intros b Hb.
    - injection Hb as <-. reflexivity.
    - apply rmap_ok in Hb as (bs & Hb & ->). apply rbind_ok in Hb as (b1 & E1 & Hb).
      apply rmap_ok in Hb as (bs2 & E2 & ->). cbn [concat]. rewrite <- app_assoc.
      unfold dbind at 1. rewrite (Hv _ _ E1). unfold dbind at 1.
      rewrite IH by (rewrite E2; reflexivity). reflexivity.
  Qed.

  Lemma octets_involutive b : octets e (octets e b) = b.
  Proof. destruct e; cbn [octets]; rewrite ?rev_involutive; reflexivity. Qed.

  Lemma nlen_octets e' b : nlen (octets e' b) = nlen b.
  Proof. destruct e'; cbn [octets]; rewrite ?nlen_rev; reflexivity. Qed.
End Dec.

Section Scalar.
  Context (lim : limits) (e e6 : endian).
  Hypothesis Hus : l_usize_max lim <= 2 ^ 64 - 1.
  Hypothesis Hst : l_systime_max lim < 2 ^ 64.

  Lemma dduration_rt s n rest : in_z 0 s (2 ^ 64) -> in_z 0 n (10 ^ 9) ->
    dduration e (Some ((enc_prim e U64 s ++ enc_prim e U32 n) ++ rest)) = DOk (VSeq [VInt s; VInt n]) (Some rest).
  Proof.
    intros Hs Hn. unfold in_z in *. change (2 ^ 64)%Z with 18446744073709551616%Z in *. change (10 ^ 9)%Z with 1000000000%Z in *.
    unfold dduration. rewrite <- app_assoc. unfold dbind at 1, enc_prim.
    rewrite dword_word by apply to_bits_lt. unfold dbind at 1. rewrite dword_word by apply to_bits_lt.
    unfold to_bits. change (Z.of_N (pmod U64)) with 18446744073709551616%Z. change (Z.of_N (pmod U32)) with 4294967296%Z.
    rewrite !Z.mod_small by lia.
    change (10 ^ 9) with 1000000000.
    rewrite N.div_small by lia. rewrite N.mod_small by lia. rewrite N.add_0_r.
    destruct (N.ltb_spec (Z.to_N s) (2 ^ 64)) as [|C]; [|revert C; num_pow; lia].
    rewrite !Z2N.id by lia. reflexivity.
  Qed.

  Lemma scalar_rt s v b rest : valid_scalar lim s v -> match s with SBVec n => (n <= 8)%nat | _ => True end ->
    enc_scalar e e6 s v = Ok b ->
    dec_scalar lim e e6 s (Some (b ++ rest)) = DOk v (Some rest).
  Proof.
    intros Hv Hn H.
    assert (W8 : 256 ^ N.of_nat 8 = 18446744073709551616) by reflexivity.
    assert (W4 : 256 ^ N.of_nat 4 = 4294967296) by reflexivity.
    assert (Hus' : l_usize_max lim <= 18446744073709551615) by (revert Hus; num_pow; lia).
    destruct s; destruct v; cbn [valid_scalar] in Hv; try contradiction Hv; cbn [enc_scalar] in H; cbn [dec_scalar].
    all: try (injection H as <-; unfold dmap, dbind; rewrite dprim_rt by (first [exact Hv | exact (proj1 Hv)]);
              try reflexivity).
    - (* usize *) injection H as <-. unfold in_z in Hv. unfold dbind at 1. rewrite dword_word by lia.
      destruct (N.leb_spec (Z.to_N z) (l_usize_max lim)); [|lia].
      unfold dint. rewrite Z2N.id by lia. reflexivity.
    - injection H as <-. unfold dbind. cbn [app]. rewrite dword1. destruct b0; reflexivity.
    - injection H as <-. destruct Hv as [H0 Hs]. unfold dbind at 1.
      assert (Z.to_N z <= 0x10FFFF).
      { unfold is_scalar in Hs. lia. }
      rewrite dword_word by lia. rewrite Hs. unfold dint. rewrite Z2N.id by lia. reflexivity.
    - destruct vs; [|contradiction]. injection H as <-. unfold dbind. cbn [app]. rewrite dword1.
      rewrite n2b_small by lia. destruct (N.leb_spec (N.of_nat i) 1); [|lia]. rewrite Nat2N.id. reflexivity.
    - injection H as <-. reflexivity.
    - destruct Hv as [_ Hz]. destruct (Z.eqb_spec z 0); [contradiction|reflexivity].
    - injection H as <-. unfold in_z in Hv. change (2 ^ 64)%Z with 18446744073709551616%Z in *.
      unfold dbind. rewrite dvarint_enc by (num_pow; lia). unfold dint. rewrite Z2N.id by lia. reflexivity.
    - injection H as <-. unfold dbind. rewrite dread_app' by (rewrite nlen_octets; unfold nlen; lia).
      rewrite octets_involutive. reflexivity.
    - injection H as <-. unfold dbind. rewrite dread_app' by (rewrite nlen_octets; unfold nlen; lia).
      rewrite octets_involutive. reflexivity.
    - destruct i as [|[|i]]; destruct vs as [|[] [|]]; try contradiction; injection H as <-; unfold dbind at 1; cbn [app];
        rewrite dword1.
      + change (b2n x00 =? 0) with true. unfold dbind. rewrite dread_app' by (rewrite nlen_octets; unfold nlen; lia).
        rewrite octets_involutive. reflexivity.
      + change (b2n x01 =? 0) with false. change (b2n x01 =? 1) with true. unfold dbind. rewrite dread_app' by (rewrite nlen_octets; unfold nlen; lia).
        rewrite octets_involutive. reflexivity.
    - destruct vs as [|[] [|[] [|]]]; try contradiction. injection H as <-. apply dduration_rt; tauto.
    - destruct vs as [|[] [|[] [|]]]; try contradiction. destruct (Z.ltb_spec z 0); [discriminate|].
      injection H as <-. unfold dbind at 1. destruct Hv as [Hs Hn'].
      rewrite dduration_rt; [|unfold in_z|assumption].
      + destruct (Z.leb_spec z (Z.of_N (l_systime_max lim))); [reflexivity|lia].
      + revert Hst. num_pow. change (2 ^ 64)%Z with 18446744073709551616%Z. lia.
    - injection H as <-. unfold dmap, dbind. rewrite dread_app' by (unfold nlen; lia). reflexivity.
    - destruct vs as [|[] [|[] [|]]]; try contradiction. injection H as <-. destruct Hv as (Hs & Hn' & Hc).
      rewrite <- app_assoc. unfold dbind at 1. rewrite dprim_rt by assumption. unfold dbind at 1.
      unfold enc_prim. rewrite dword_word by apply to_bits_lt. unfold in_z in *.
      change (2 ^ 32)%Z with 4294967296%Z in *.
      unfold to_bits. change (Z.of_N (pmod U32)) with 4294967296%Z.
      rewrite Z.mod_small by lia. rewrite Hc. rewrite Z2N.id by lia. reflexivity.
    - destruct Hv as [<- Hv].
      unfold dmap at 1, dbind at 1. erewrite (drepeat_rt _ _ (fun v => v)); [|clear H|exact H].
      + rewrite map_id. reflexivity.
      + eapply Forall_impl; [|exact Hv]. intros [] Hz b' rest' Hb; try contradiction.
        injection Hb as <-. unfold dmap, dbind. rewrite dprim_rt by assumption. reflexivity.
    - destruct Hv as [Hl Hv]. injection H as <-. unfold dbind. cbn [app]. rewrite dword1.
      rewrite n2b_small.
      + unfold dret. do 2 f_equal. pose proof (bools_num_bits vs n Hv Hl 0 _ eq_refl) as E.
        change (2 ^ N.of_nat 0) with 1 in E. rewrite N.mul_1_r in E. exact E.
      + eapply N.lt_le_trans; [apply bools_num_lt|]. change 256 with (2 ^ 8). apply N.pow_le_mono_r; unfold nlen; lia.
  Qed.
End Scalar.

(* ------------------------------------------------------------------ *)
(** * Normal forms *)

Lemma norm_list_length nm lim ts : forall vs, valid_list (valid lim) ts vs -> length (norm_list nm ts vs) = length vs.
Proof. induction ts as [|t ts IH]; intros [|v vs]; cbn; try contradiction; auto. intros [_ Hv]. rewrite IH by assumption. reflexivity. Qed.

Lemma norm_fields_length nm lim fs : forall vs, valid_fields (valid lim) fs vs -> length (norm_fields nm fs vs) = length vs.
Proof. induction fs as [|f fs IH]; intros [|v vs]; cbn; try contradiction; auto. intros [_ Hv]. rewrite IH by assumption. reflexivity. Qed.

Lemma proj_norm lim t : forall v, valid lim t v -> proj (norm t v) = proj v.
Proof.
  induction t as [s|k|k t IH|t n IH|t n IH|t IH|t1 t2 IH1 IH2|ts IH|i t IH|k t IH|k tk tv IHk IHv|t IH|d fs IH|d vs IH|] using ty_ind';
    intros v Hv; try destruct i; destruct v as [| | | |us| | | | |]; cbn [norm]; auto; cbn [proj]; unfold nlen; try (rewrite map_length; reflexivity).
  - cbn [valid] in Hv. rewrite (norm_list_length _ lim) by assumption. reflexivity.
  - destruct us as [|? [|? [|? [|]]]]; reflexivity.
  - destruct us as [|? [|? [|? [|]]]]; reflexivity.
  - cbn [valid] in Hv. rewrite (norm_fields_length _ lim) by assumption. reflexivity.
Qed.

Section Exact.
  Context (lim : limits).

  Lemma map_id_Forall {A} (f : A -> A) l : Forall (fun x => f x = x) l -> map f l = l.
  Proof. induction 1 as [|x l H _ IH]; cbn; congruence. Qed.

  Lemma norm_exact t : exact t -> forall v, valid lim t v -> norm t v = v.
  Proof.
    assert (FS : forall fs, Forall (fun f => exact (snd f) -> forall v, valid lim (snd f) v -> norm (snd f) v = v) fs ->
      all_fields (fun a t' => f_skip a = false /\ exact t') fs ->
      forall vs, valid_fields (valid lim) fs vs -> norm_fields norm fs vs = vs).
    { induction 1 as [|f fs Hf _ IH]; intros Ha [|v vs]; cbn; try contradiction; auto.
      destruct Ha as [[Hs He] Ha]. intros [Hv Hr]. rewrite Hs, Hf, IH by assumption. reflexivity. }
    induction t as [s|k|k t IH|t n IH|t n IH|t IH|t1 t2 IH1 IH2|ts IH|i t IH|k t IH|k tk tv IHk IHv|t IH|d fs IH|d vs IH|] using ty_ind';
      cbn [exact]; intros He v Hv; try match type of He with _ = _ /\ _ => destruct He as [-> He] end; destruct v; cbn [valid] in Hv; try contradiction Hv; cbn [norm]; auto.
    - f_equal. apply map_id_Forall. eapply Forall_impl; [|apply Hv]. auto.
    - f_equal. apply map_id_Forall. eapply Forall_impl; [|apply Hv]. auto.
    - f_equal. apply map_id_Forall. eapply Forall_impl; [|apply Hv]. auto.
    - f_equal. auto.
    - f_equal. apply IH1; tauto.
    - f_equal. apply IH2; tauto.
    - f_equal. revert vs Hv He. induction IH as [|t ts Ht _ IH]; intros [|v vs]; cbn; try contradiction; auto.
      intros [Hv Hr] [He Hs]. rewrite Ht, IH by assumption. reflexivity.
    - destruct vs as [|a [|b [|]]]; try contradiction. rewrite !IH by tauto. reflexivity.
    - f_equal. apply map_id_Forall. eapply Forall_impl; [|apply Hv]. auto.
    - f_equal. apply map_id_Forall. eapply Forall_impl; [|apply Hv]. intros p Hp.
      destruct p as [| | | |[|a [|b [|]]]| | | | |]; try contradiction Hp. cbn [valid_pair] in Hp.
      rewrite IHk, IHv by tauto. reflexivity.
    - f_equal. apply FS; assumption.
    - f_equal. revert vs IH He Hv. intros vs1 IH. revert i.
      induction IH as [|[g fs] vs1 Hf _ IH]; intros [|i] He Hv; cbn in *; try contradiction.
      + apply FS; tauto.
      + apply IH; tauto.
  Qed.
End Exact.

(* ------------------------------------------------------------------ *)
(** * Loops and collections *)

Lemma duntil_rt {A V} (d : dec A) (en : V -> res bytes) (nm : V -> A) vs b :
  ends d ->
  Forall (fun v => forall b rest, en v = Ok b -> d (Some (b ++ rest)) = DOk (nm v) (Some rest)) vs ->
  rmap (@concat _) (rmapM en vs) = Ok b ->
  duntil d (Some b) = DOk (map nm vs) (Some []).
Proof.
  intros He H. unfold duntil. enough (G : forall k b, (length b < k)%nat ->
    rmap (@concat _) (rmapM en vs) = Ok b -> duntil_loop d k (Some b) = DOk (map nm vs) (Some [])).
  { intros Hb. apply G; [lia|assumption]. }
  clear b. induction H as [|v vs Hv _ IH]; cbn [rmapM map]; intros [|k] b Hk Hb; try lia.
  - injection Hb as <-. cbn [duntil_loop]. rewrite He. reflexivity.
  - apply rmap_ok in Hb as (bs & Hb & ->). apply rbind_ok in Hb as (b1 & E1 & Hb).
    apply rmap_ok in Hb as (bs2 & E2 & ->). cbn [concat] in *. cbn [duntil_loop].
    rewrite (Hv _ _ E1). destruct b1 as [|x b1].
    + pose proof (Hv _ [] E1) as C. cbn [app] in C. unfold ends in He. congruence.
    + unfold dmap, dbind. rewrite IH; [reflexivity| |rewrite E2; reflexivity].
      cbn [app length] in Hk. rewrite app_length in Hk. lia.
Qed.

Section CollectMap.
  Context (k : colkind) (key : val -> val) (f : val -> val).

  Lemma insert_map x l : Forall (fun y => key (f y) = key y) (x :: l) ->
    container_insert k key (map f l) (f x) = map f (container_insert k key l x).
  Proof.
    intros H. inversion H as [|? ? Hx Hl]; subst. clear H.
    induction Hl as [|y l Hy _ IH].
    - destruct k; reflexivity.
    - destruct k; cbn in *; rewrite Hx, Hy; destruct (val_cmp (key x) (key y)); cbn; rewrite ?IH; reflexivity.
  Qed.

  Lemma insert_in x l y : In y (container_insert k key l x) -> y = x \/ In y l.
  Proof. destruct k; cbn; first [apply sorted_insert_in | apply index_insert_in]. Qed.

  Lemma collect_map xs : Forall (fun y => key (f y) = key y) xs ->
    collect k key (map f xs) = map f (collect k key xs).
  Proof.
    unfold collect. intros H. change (@nil val) with (map f []) at 1.
    assert (Ha : Forall (fun y => key (f y) = key y) []) by constructor.
    revert Ha. generalize (@nil val) as acc.
    induction H as [|x xs Hx _ IH]; intros acc Ha; [reflexivity|]. cbn [map fold_left].
    rewrite insert_map by (constructor; assumption). apply IH.
    rewrite Forall_forall in *. intros y Hy. apply insert_in in Hy as [->|Hy]; auto.
  Qed.
End CollectMap.

Lemma iter_order_perm it k l : (forall l, Permutation (it l) l) -> Permutation (iter_order it k l) l.
Proof. intros H. destruct k; cbn; auto. Qed.

(* ------------------------------------------------------------------ *)
(** * The theorem *)

Section RoundTrip.
  Context (lim : limits) (it : list val -> list val) (e e6 : endian).
  Hypothesis Hus : l_usize_max lim <= 2 ^ 64 - 1.
  Hypothesis Hst : l_systime_max lim < 2 ^ 64.
  Hypothesis Hit : forall l, Permutation (it l) l.

  Notation enc := (enc it e e6).
  Notation decl := (decl lim e e6).
  Notation valid := (valid lim).
  Notation tagged := (tagged it e e6).
  Notation rtok := (rtok lim e e6).

  Definition rt (t : ty) : Prop := forall l v b rest,
    valid t v -> tagged t v -> rtok (leof l) t -> enc l t v = Ok b ->
    (opens (leof l) t = true -> rest = []) ->
    decl l t (Some (b ++ rest)) = DOk (norm t v) (Some rest).

  Lemma opens_weak t eof : opens false t = true -> opens eof t = true.
  Proof.
    revert eof. induction t as [s|k|k t IH|t n IH|t n IH|t IH|t1 t2 IH1 IH2|ts IH|i t IH|k t IH|k tk tv IHk IHv|t IH|d fs IH|d vs IH|] using ty_ind';
      cbn [opens]; auto; intros; discriminate.
  Qed.

  Lemma elem_rt t : rt t -> rtok false t -> opens false t = false ->
    forall v, valid t v -> tagged t v ->
    forall b rest, enc len0 t v = Ok b -> decl len0 t (Some (b ++ rest)) = DOk (norm t v) (Some rest).
  Proof. intros H Hr Ho v Hv Ht b rest Hb. apply H; auto. cbn [leof len0]. congruence. Qed.

  Lemma elems_rt t vs : rt t -> rtok false t -> opens false t = false ->
    Forall (valid t) vs -> Forall (tagged t) vs ->
    Forall (fun v => forall b rest, enc len0 t v = Ok b ->
              decl len0 t (Some (b ++ rest)) = DOk (norm t v) (Some rest)) vs.
  Proof.
    intros H Hr Ho Hv Ht. rewrite Forall_forall in *. intros v Hin. apply elem_rt; auto.
  Qed.

  (** Counted or until the end. *)
  Lemma seq_rt {A} l (dc : N -> dec A) (de : dec A) n p b rest a :
    enc_len e l n = Ok p -> small lim n ->
    (leof l = false -> dc n (Some (b ++ rest)) = DOk a (Some rest)) ->
    (leof l = true -> de (Some b) = DOk a (Some [])) ->
    (leof l = true -> rest = []) ->
    dlen lim e l dc de (Some ((p ++ b) ++ rest)) = DOk a (Some rest).
  Proof.
    intros Hl Hs H1 H2 H3. destruct (leof l) eqn:E.
    - destruct l as [| |]; try discriminate. cbn in Hl. injection Hl as <-. rewrite H3 by reflexivity.
      cbn [dlen app]. rewrite app_nil_r. auto.
    - rewrite <- app_assoc, (dlen_rt lim e l n) by assumption. auto.
  Qed.

  Definition pair_norm tk tv (p : val) : val :=
    match p with VSeq [k; x] => VSeq [norm tk k; norm tv x] | _ => p end.

  Lemma dconst_rt c rest : dconst c (Some (c ++ rest)) = DOk tt (Some rest).
  Proof.
    unfold dconst, dbind. rewrite dread_app.
    destruct (list_eq_dec Byte.byte_eq_dec c c); [reflexivity|contradiction].
  Qed.

  Lemma field_rt prev a t v b rest : rt t -> valid t v -> tagged t v ->
    (f_varint a = true -> t = TP U64) -> rtok (field_eof a t) t ->
    (opens (field_eof a t) t = true -> rest = []) ->
    enc_field e e6 enc prev a t v = Ok b ->
    dfield lim e e6 decl prev a t (Some (b ++ rest)) = DOk (norm t v) (Some rest).
  Proof.
    intros Hrt Hv Ht Hvi Hr Ho Hb. unfold enc_field in Hb. apply rmap_ok in Hb as (b' & Hb & ->).
    unfold dfield. rewrite <- app_assoc.
    assert (G : (_ <-- dconst (f_prefix a) ;;
                 (if f_varint a then dec_scalar lim e e6 SVarint else decl (field_len (f_eof a) prev a t) t))
                (Some (f_prefix a ++ b' ++ rest)) = DOk (norm t v) (Some rest)).
    { unfold dbind at 1. rewrite dconst_rt. destruct (f_varint a).
      - rewrite Hvi in * by reflexivity. cbn [norm TP]. change (match v with VSeq _ => v | _ => v end) with v || idtac.
        replace (norm (TP U64) v) with v by (destruct v; reflexivity).
        apply scalar_rt; auto. cbn in Hv |- *. destruct v; try contradiction Hv. unfold prim_ok in Hv.
        unfold in_z. cbn [psigned] in Hv. change (Z.of_N (pmod U64)) with (2 ^ 64)%Z in Hv. lia.
      - apply Hrt; auto; rewrite ?leof_field; auto. rewrite enc_lenient. assumption. }
    destruct (f_eof a); [|exact G]. unfold dcatch. rewrite G. reflexivity.
  Qed.

  Lemma skipped_rt fs : all_fields (fun a _ => f_skip a = true) fs ->
    forall prev vs b rest, enc_fields e e6 enc prev fs vs = Ok b ->
    dfields lim e e6 decl prev fs (Some (b ++ rest)) = DOk (norm_fields norm fs vs) (Some rest)
    /\ b = [].
  Proof.
    induction fs as [|f fs IH]; intros Hs prev [|v vs] b rest Hb; cbn in *; try discriminate.
    - injection Hb as <-. split; reflexivity.
    - destruct Hs as [Hf Hs]. rewrite Hf in *. destruct (IH Hs _ _ _ rest Hb) as [E ->].
      split; [|reflexivity]. unfold dmap, dbind. rewrite E. reflexivity.
  Qed.

  Lemma fields_rt fs : Forall (fun f => rt (snd f)) fs ->
    forall prev vs b rest,
    valid_fields valid fs vs -> tagged_fields tagged fs vs ->
    rt_fields rtok fs -> enc_fields e e6 enc prev fs vs = Ok b ->
    (fields_open opens fs = true -> rest = []) ->
    dfields lim e e6 decl prev fs (Some (b ++ rest)) = DOk (norm_fields norm fs vs) (Some rest).
  Proof.
    induction 1 as [|[a t] fs Hf Hfs IH]; intros prev [|v vs] b rest Hv Ht Hr Hb Ho; cbn [valid_fields] in Hv; try contradiction Hv.
    - cbn in Hb. injection Hb as <-. reflexivity.
    - cbn in Hv, Ht, Hr, Hb, Ho. cbn [dfields norm_fields fst snd] in *.
      destruct Hv as [Hv Hvs], Ht as [Ht Hts], Hr as [Hr Hrs].
      destruct (f_skip a) eqn:Es.
      + cbn [negb andb orb] in Ho.
        unfold dmap at 1, dbind at 1. rewrite IH with (vs := vs) by assumption. reflexivity.
      + destruct Ht as [?|Ht]; [discriminate|]. destruct Hr as [?|(Hvi & Hr & Hlast)]; [discriminate|].
        apply rapp_ok in Hb as (b1 & b2 & E1 & E2 & ->). rewrite <- app_assoc.
        cbn [negb andb] in Ho.
        assert (Hopen : opens (field_eof a t) t = true -> b2 ++ rest = []).
        { intros Hop. specialize (Hlast Hop).
          destruct (skipped_rt _ Hlast _ _ _ rest E2) as [_ ->].
          cbn [app]. apply Ho. destruct (f_varint a).
          - rewrite Hvi in Hop by reflexivity. discriminate Hop.
          - rewrite Hop. reflexivity. }
        unfold dbind at 1. rewrite (field_rt _ _ _ _ _ _ Hf Hv Ht Hvi Hr Hopen E1).
        unfold dbind at 1. rewrite (proj_norm _ _ _ Hv). rewrite IH with (vs := vs); auto.
        intros Hop. apply Ho. rewrite Hop. apply orb_true_r.
  Qed.

  Lemma tuple_rt ts : Forall rt ts -> forall vs b rest,
    valid_list valid ts vs -> valid_list tagged ts vs -> rt_tys (rtok false) ts ->
    enc_tuple (enc len0) ts vs = Ok b -> (existsb (opens false) ts = true -> rest = []) ->
    dtuple (decl len0) ts (Some (b ++ rest)) = DOk (norm_list norm ts vs) (Some rest).
  Proof.
    induction 1 as [|t ts Hf Hfs IH]; intros [|v vs] b rest Hv Ht Hr Hb Ho; cbn in *; try contradiction.
    - injection Hb as <-. reflexivity.
    - apply rapp_ok in Hb as (b1 & b2 & E1 & E2 & ->). rewrite <- app_assoc.
      destruct Hv as [Hv Hvs], Ht as [Ht Hts], Hr as (Hr & Hlast & Hrs).
      unfold dbind at 1. rewrite Hf with (v := v); auto.
      + unfold dbind at 1. rewrite IH with (vs := vs); auto. intros Hop. apply Ho. rewrite Hop. apply orb_true_r.
      + cbn [leof len0]. intros Hop. rewrite (Hlast Hop) in *. destruct vs; [|contradiction Hvs].
        cbn in E2. injection E2 as <-. apply Ho. rewrite Hop. reflexivity.
  Qed.

  Lemma variant_rt d : forall vs i k us b,
    valid_variant valid vs i us -> enc_variant e e6 d enc vs i us = Ok b ->
    exists g fs b', nth_error vs i = Some (g, fs) /\ enc_fields e e6 enc [] fs us = Ok b'
      /\ b = (if e_peek d then [] else enc_basic e (e_tag d) g) ++ b'
      /\ valid_fields valid fs us
      /\ norm_variant norm vs i us = norm_fields norm fs us
      /\ (NoDup (map fst vs) -> forall o, dvariant lim e e6 decl g k vs o
           = dmap (VVar (k + i)) (dfields lim e e6 decl [] fs) o)
      /\ (tagged_variant it e e6 d tagged vs i us ->
          (e_peek d = true -> begins b' (enc_basic e (e_tag d) g)) /\ tagged_fields tagged fs us).
  Proof.
    induction vs as [|[g fs] vs IH]; intros [|i] k us b Hv Hb; cbn in Hv, Hb; try contradiction.
    - apply rmap_ok in Hb as (b' & Hb & ->). exists g, fs, b'. cbn. repeat split; auto; try tauto.
      + intros _ o. rewrite N.eqb_refl, Nat.add_0_r. reflexivity.
      + intros Hp. apply H; auto.
    - destruct (IH i (S k) us b Hv Hb) as (g' & fs' & b' & H1 & H2 & H3 & H4 & H5 & H6 & H7).
      exists g', fs', b'. cbn. repeat split; auto; try (apply H7; assumption).
      intros Hnd o. inversion Hnd as [|? ? Hin Hnd']; subst.
      destruct (N.eqb_spec g g') as [<-|].
      + exfalso. apply Hin. apply nth_error_In in H1. apply (in_map fst) in H1. exact H1.
      + rewrite H6 by assumption. f_equal. f_equal. lia.
  Qed.

  Theorem round_trip t : rt t.
  Proof.
    induction t as [s|k|k t IH|t n IH|t n IH|t IH|t1 t2 IH1 IH2|ts IH|i t IH|k t IH|k tk tv IHk IHv|t IH|d fs IH|d vs IH|] using ty_ind';
      intros l v b rest Hv Ht Hr Hb Ho.
    - cbn [Spec.decl]. replace (norm (TScalar s) v) with v by (destruct v; reflexivity).
      apply scalar_rt; auto.
    - destruct v as [| | |bs| | | | | |]; try contradiction Hv. cbn [Spec.enc] in Hb.
      apply rapp_ok in Hb as (p & b' & Hp & E & ->). injection E as <-.
      cbn [Spec.decl norm]. cbn [Spec.valid] in Hv. destruct Hv as (Hu & [Hs Hfit] & Hk).
      assert (Hd : forall o, dstr lim k bs o = DOk (VBytes bs) o).
      { intros o. unfold dstr. rewrite Hu. destruct k; try rewrite Hk; reflexivity. }
      apply (seq_rt l _ _ (nlen bs)); auto.
      + intros _. unfold dbind, dsized, dunsure. rewrite Hfit, dread_app. apply Hd.
      + intros _. unfold dbind, drest. apply Hd.
    - destruct v as [| | | |vs| | | | |]; try contradiction Hv. cbn [Spec.enc] in Hb.
      apply rapp_ok in Hb as (p & b' & Hp & E & ->). cbn [Spec.decl norm].
      cbn in Hv, Ht, Hr. destruct Hv as [Hv [Hs Hfit]], Hr as (Hr & Hc & He).
      pose proof (elems_rt t vs IH Hr Hc Hv Ht) as Hall.
      unfold dmap at 1, dbind at 1.
      rewrite (seq_rt l _ _ (nlen vs) p b' rest (map (norm t) vs)); auto.
      + intros _. unfold dsized. rewrite Hfit. unfold dunsure, nlen. rewrite Nat2N.id. rewrite (drepeat_rt _ _ (norm t) vs b' rest Hall E). reflexivity.
      + intros Hl. apply (duntil_rt _ (enc len0 t)); auto.
    - destruct v as [| | | |vs| | | | |]; try contradiction Hv. cbn [Spec.enc] in Hb. cbn [Spec.decl norm].
      cbn in Hv, Ht, Hr. destruct Hv as [Hv <-], Hr as [Hr Hc].
      unfold dmap at 1, dbind at 1. rewrite (drepeat_rt _ (enc len0 t) (norm t)); auto.
      apply elems_rt; auto.
    - destruct v as [| | | |vs| | | | |]; try contradiction Hv. cbn [Spec.enc] in Hb. cbn [Spec.decl norm].
      cbn in Hv, Ht, Hr. destruct Hv as [Hv <-], Hr as [Hr Hc].
      unfold dmap at 1, dbind at 1. rewrite (drepeat_rt _ (enc len0 t) (norm t)); auto.
      apply elems_rt; auto.
    - cbn in Hv, Ht, Hr, Ho. cbn [Spec.enc] in Hb. cbn [Spec.decl norm]. destruct v; try contradiction Hv.
      + injection Hb as <-. unfold dbind. cbn [app]. rewrite dword1. reflexivity.
      + apply rapp_ok in Hb as (p & b' & E & Hb & ->). injection E as <-. unfold dbind at 1. cbn [app].
        rewrite dword1. change (b2n x01 =? 0) with false. cbn iota.
        unfold dmap, dbind. rewrite IH with (v := v); auto.
    - cbn in Hv, Ht, Hr, Ho. cbn [Spec.enc] in Hb. cbn [Spec.decl norm]. destruct Hr as [Hr1 Hr2].
      destruct v; try contradiction Hv; apply rapp_ok in Hb as (p & b' & E & Hb & ->); injection E as <-;
        unfold dbind at 1; cbn [app]; rewrite dword1.
      + change (b2n x01 =? 0) with false. cbn iota. unfold dmap, dbind. rewrite IH1 with (v := v); auto.
        intros Hop. apply Ho. cbn [leof len0] in Hop. rewrite Hop. reflexivity.
      + change (b2n x00 =? 0) with true. cbn iota. unfold dmap, dbind. rewrite IH2 with (v := v); auto.
        intros Hop. apply Ho. cbn [leof len0] in Hop. rewrite Hop. apply orb_true_r.
    - destruct v as [| | | |vs| | | | |]; try contradiction Hv. cbn in Hv, Ht, Hr, Ho. cbn [Spec.enc] in Hb. cbn [Spec.decl norm].
      unfold dmap at 1, dbind at 1. rewrite tuple_rt with (vs := vs) by assumption. reflexivity.
    - destruct v as [| | | |vs| | | | |]; try (destruct i; contradiction Hv). cbn in Hv, Ht, Hr, Ho. cbn [Spec.enc] in Hb.
      cbn [Spec.decl norm]. destruct Hr as [Hr Hc].
      destruct vs as [|x [|y vs]]; try (destruct i; contradiction Hv).
      assert (Hxy : valid t x /\ valid t y) by (destruct i; [destruct vs as [|[] [|]]|destruct vs]; tauto).
      apply rapp_ok in Hb as (b1 & b2 & E1 & E2 & ->). rewrite <- app_assoc.
      unfold dbind at 1. rewrite (elem_rt t IH Hr Hc x (proj1 Hxy) (proj1 Ht) _ _ E1).
      unfold dbind at 1. rewrite (elem_rt t IH Hr Hc y (proj2 Hxy) (proj2 Ht) _ _ E2).
      unfold dret. destruct i; [destruct vs as [|[] [|]]|destruct vs]; try contradiction; reflexivity.
    - destruct v as [| | | |vs| | | | |]; try contradiction Hv. cbn [Spec.enc] in Hb.
      apply rapp_ok in Hb as (p & b' & Hp & E & ->). cbn [Spec.decl].
      assert (Hn : norm (TSet k t) (VSeq vs) = VSeq vs).
      { apply (norm_exact lim); [|exact Hv]. apply Hr. }
      rewrite Hn. cbn in Hv, Ht, Hr. destruct Hv as (Hv & Hs & Hk), Hr as (Hr & Hc & Hex & He).
      assert (HP : Permutation (iter_order it k vs) vs) by (apply iter_order_perm; assumption).
      assert (Hv' : Forall (valid t) (iter_order it k vs)) by (eapply Permutation_Forall; [symmetry; exact HP|exact Hv]).
      assert (Ht' : Forall (tagged t) (iter_order it k vs)) by (eapply Permutation_Forall; [symmetry; exact HP|exact Ht]).
      pose proof (elems_rt t _ IH Hr Hc Hv' Ht') as Hall.
      assert (Hmap : map (norm t) (iter_order it k vs) = iter_order it k vs).
      { apply map_id_Forall. eapply Forall_impl; [|exact Hv']. apply norm_exact; assumption. }
      unfold dbind at 1.
      rewrite (seq_rt l _ _ (nlen vs) p b' rest (iter_order it k vs)); auto.
      + unfold dret. rewrite collect_roundtrip by assumption. reflexivity.
      + intros _. rewrite <- Hmap at 1. unfold nlen. rewrite Nat2N.id, <- (Permutation_length HP).
        apply (drepeat_rt _ (enc len0 t)); auto.
      + intros Hl. rewrite <- Hmap at 1. apply (duntil_rt _ (enc len0 t)); auto.
    - destruct v as [| | | |vs| | | | |]; try contradiction Hv. cbn [Spec.enc] in Hb.
      apply rapp_ok in Hb as (p & b' & Hp & E & ->). cbn [Spec.decl norm].
      change (map _ vs) with (map (pair_norm tk tv) vs).
      cbn in Hv, Ht, Hr. destruct Hv as (Hv & Hs & Hk), Hr as (Hrk & Hck & Hex & Hrv & Hcv & He).
      assert (HP : Permutation (iter_order it k vs) vs) by (apply iter_order_perm; assumption).
      assert (Hv' : Forall (valid_pair (valid tk) (valid tv)) (iter_order it k vs))
        by (eapply Permutation_Forall; [symmetry; exact HP|exact Hv]).
      assert (Ht' : Forall (valid_pair (tagged tk) (tagged tv)) (iter_order it k vs))
        by (eapply Permutation_Forall; [symmetry; exact HP|exact Ht]).
      assert (Hall : Forall (fun v => forall b rest, enc_pair (enc len0 tk) (enc len0 tv) v = Ok b ->
          dpair (decl len0 tk) (decl len0 tv) (Some (b ++ rest)) = DOk (pair_norm tk tv v) (Some rest)) (iter_order it k vs)).
      { rewrite Forall_forall in Hv', Ht' |- *. intros q Hq b1 rest1 Hb1.
        specialize (Hv' q Hq). specialize (Ht' q Hq).
        destruct q as [| | | |[|x [|y [|]]]| | | | |]; try contradiction Hv'. cbn in Hb1, Hv', Ht'.
        apply rapp_ok in Hb1 as (b2 & b3 & E1 & E2 & ->). rewrite <- app_assoc. unfold dpair.
        unfold dbind at 1. rewrite (elem_rt tk IHk Hrk Hck x (proj1 Hv') (proj1 Ht') _ _ E1).
        unfold dbind at 1. rewrite (elem_rt tv IHv Hrv Hcv y (proj2 Hv') (proj2 Ht') _ _ E2).
        reflexivity. }
      unfold dbind at 1.
      rewrite (seq_rt l _ _ (nlen vs) p b' rest (map (pair_norm tk tv) (iter_order it k vs))); auto.
      + unfold dret. rewrite collect_map.
        * rewrite collect_roundtrip by assumption. reflexivity.
        * eapply Forall_impl; [|exact Hv']. intros q Hq.
          destruct q as [| | | |[|x [|y [|]]]| | | | |]; try contradiction Hq. cbn in Hq |- *.
          apply (norm_exact lim); tauto.
      + intros _. unfold nlen. rewrite Nat2N.id, <- (Permutation_length HP).
        apply (drepeat_rt _ (enc_pair (enc len0 tk) (enc len0 tv))); auto.
      + intros Hl. apply (duntil_rt _ (enc_pair (enc len0 tk) (enc len0 tv))); auto.
    - cbn [Spec.enc] in Hb. cbn in Hv, Ht, Hr, Ho. cbn [Spec.decl]. replace (norm (TBox t) v) with (norm t v) by (destruct v; reflexivity).
      apply IH; auto; destruct v; assumption.
    - destruct v as [| | | |vs| | | | |]; try contradiction Hv. cbn in Hv, Ht, Hr, Ho. cbn [Spec.enc] in Hb. cbn [Spec.decl norm].
      unfold dmap at 1, dbind at 1. rewrite fields_rt with (vs := vs) by assumption. reflexivity.
    - destruct v as [| | | | | | | | |i us]; try contradiction Hv. cbn [Spec.enc] in Hb. cbn in Hv, Ht, Hr, Ho.
      cbn [Spec.decl norm]. destruct Hr as (Hnd & Hmax & Hr).
      destruct (variant_rt d vs i 0 us b Hv Hb) as (g & fs & b' & H1 & H2 & -> & H4 & H5 & H6 & H7).
      specialize (H7 Ht) as [Hpk Htf].
      assert (Hg : g <= basic_max (e_tag d)).
      { apply nth_error_In in H1. rewrite Forall_forall in Hmax. apply (Hmax _ H1). }
      assert (Hfs : Forall (fun f => rt (snd f)) fs).
      { apply nth_error_In in H1. rewrite Forall_forall in IH. apply (IH _ H1). }
      assert (Hrf : rt_fields rtok fs /\ (fields_open opens fs = true -> rest = [])).
      { clear - H1 Hr Ho. revert i H1. induction vs as [|[g0 f0] vs IH]; intros [|i] H1; try discriminate.
        - injection H1 as -> ->. cbn in Hr, Ho. split; [tauto|]. intros E. apply Ho. rewrite E. reflexivity.
        - cbn in H1, Hr, Ho. eapply IH; [tauto| |exact H1]. intros E. apply Ho. rewrite E. apply orb_true_r. }
      destruct Hrf as [Hrf Hof].
      assert (Hfin : dvariant lim e e6 decl g 0 vs (Some (b' ++ rest)) = DOk (VVar i (norm_variant norm vs i us)) (Some rest)).
      { rewrite H6 by assumption. unfold dmap, dbind. rewrite fields_rt with (vs := us) by assumption.
        rewrite H5. reflexivity. }
      destruct (e_peek d).
      + cbn [app]. destruct (Hpk eq_refl) as [r ->]. unfold dbind at 1, dpeek. rewrite <- app_assoc in *.
        rewrite dbasic_rt by assumption. exact Hfin.
      + rewrite <- app_assoc. unfold dbind at 1. rewrite dbasic_rt by assumption. exact Hfin.
    - contradiction Hv.
  Qed.
End RoundTrip.
