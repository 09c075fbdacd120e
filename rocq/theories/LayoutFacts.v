(* Memory images of plain data: numbers, and structs of plain data without
   padding whose fields lie in declaration order. *)
From Verif Require Export Supported TyInd VarintFacts.

(* ------------------------------------------------------------------ *)
(** * Numbers *)

Lemma pmod_pow p : pmod p = 256 ^ N.of_nat (psize p).
Proof. unfold pmod. rewrite pow2_256. reflexivity. Qed.

Lemma to_bits_lt p z : to_bits p z < pmod p.
Proof.
  unfold to_bits. assert (0 < pmod p) by (rewrite pmod_pow; apply pow256_pos).
  pose proof (Z.mod_pos_bound z (Z.of_N (pmod p))). lia.
Qed.

Lemma pmod_even p : exists q, pmod p = 2 * q /\ 0 < q.
Proof.
  exists (2 ^ (8 * N.of_nat (psize p) - 1)). split.
  - unfold pmod. rewrite <- N.pow_succ_r by lia. f_equal. destruct p; cbn; lia.
  - assert (2 ^ (8 * N.of_nat (psize p) - 1) <> 0) by (apply N.pow_nonzero; lia). lia.
Qed.

Lemma to_bits_of_bits p n : n < pmod p -> to_bits p (of_bits p n) = n.
Proof.
  intros H. unfold to_bits, of_bits. destruct (pmod_even p) as (q & E & Hq). rewrite E in *.
  destruct (psigned p && _)%bool.
  - rewrite <- (Z.mod_unique (Z.of_N n - Z.of_N (2 * q)) (Z.of_N (2 * q)) (-1) (Z.of_N n)); lia.
  - rewrite Z.mod_small; lia.
Qed.

Lemma of_bits_to_bits p z : prim_ok p z = true -> of_bits p (to_bits p z) = z.
Proof.
  unfold prim_ok, to_bits, of_bits. destruct (pmod_even p) as (q & E & Hq). rewrite E.
  replace (Z.of_N (2 * q) / 2)%Z with (Z.of_N q) by (rewrite N2Z.inj_mul, Z.mul_comm, Z.div_mul; lia).
  replace (2 * q / 2) with q by (rewrite N.mul_comm, N.div_mul; lia).
  destruct (psigned p); cbn [andb]; intros H.
  - destruct (Z.neg_nonneg_cases z).
    + rewrite <- (Z.mod_unique z (Z.of_N (2 * q)) (-1) (z + Z.of_N (2 * q))) by lia.
      destruct (N.leb_spec q (Z.to_N (z + Z.of_N (2 * q)))); lia.
    + rewrite Z.mod_small by lia. destruct (N.leb_spec q (Z.to_N z)); lia.
  - rewrite Z.mod_small by lia. lia.
Qed.

Lemma of_bits_ok p n : n < pmod p -> prim_ok p (of_bits p n) = true.
Proof.
  intros H. unfold prim_ok, of_bits. destruct (pmod_even p) as (q & E & Hq). rewrite E in *.
  replace (Z.of_N (2 * q) / 2)%Z with (Z.of_N q) by (rewrite N2Z.inj_mul, Z.mul_comm, Z.div_mul; lia).
  replace (2 * q / 2) with q by (rewrite N.mul_comm, N.div_mul; lia).
  destruct (psigned p); cbn [andb].
  - destruct (N.leb_spec q n); lia.
  - lia.
Qed.

Lemma of_ne_word native bs : of_ne native bs = unword native bs.
Proof. reflexivity. Qed.

Lemma swap_unword e w bs : length bs = w -> swap_bytes w (unword e bs) = unword (match e with LE => BE | BE => LE end) bs.
Proof.
  intros H. destruct e; cbn [unword].
  - apply swap_le_num. assumption.
  - rewrite swap_le_num by (rewrite rev_length; assumption). rewrite rev_involutive. reflexivity.
Qed.

(* ------------------------------------------------------------------ *)
(** * Tight layouts *)

Lemma all_fields_impl (P Q : fattrs -> ty -> Prop) fs :
  (forall a t, P a t -> Q a t) -> all_fields P fs -> all_fields Q fs.
Proof. intros H. induction fs as [|[a t] r IH]; cbn; [auto|]. intuition. Qed.

Section Layout.
  Context (h : host).
  Notation sizes := (sizes h).
  Notation declared_layout := (declared_layout h).
  Notation honest := (honest h).

  (** Every field that has a size starts where the preceding ones end. *)
  Fixpoint tight (d : sdecl) (fs : fields) (i : nat) (base : N) (l : fields) : Prop :=
    match l with
    | [] => True
    | f :: r =>
      (h_size h (snd f) = 0 \/ h_offset h d fs i = base)
      /\ tight d fs (S i) (base + h_size h (snd f)) r
    end.

  Fixpoint plain_data (t : ty) : Prop :=
    match t with
    | TScalar (SPrim _) => True
    | TStruct d fs =>
      all_fields (fun a t' => can_be_primitive a = true /\ plain_data t') fs
      /\ nsum (sizes fs) = h_size h t
      /\ tight d fs 0 0 fs
    | _ => False
    end.

  Context (VH : valid_host h).

  (** Ascending, disjoint, inside and filling the struct: tight. *)
  Lemma ascending_nth l i j a b : ascending l = true -> (i < j)%nat ->
    nth_error l i = Some a -> nth_error l j = Some b -> a <= b.
  Proof.
    revert i j a b. induction l as [|x l IH]; intros i j a b Ha Hij Hi Hj; [destruct i; discriminate|].
    assert (Hl : ascending l = true) by (destruct l; [reflexivity|]; cbn in Ha; apply andb_prop in Ha; tauto).
    destruct j as [|j]; [lia|]. cbn in Hj. destruct i as [|i].
    - cbn in Hi. injection Hi as ->. clear Hij.
      assert (Hx : forall y, nth_error l 0 = Some y -> a <= y).
      { intros y Hy. destruct l as [|z l]; [discriminate|]. cbn in Hy. injection Hy as ->.
        cbn in Ha. apply andb_prop in Ha as [Hle _]. lia. }
      destruct j as [|j]; [auto|]. destruct l as [|z l]; [discriminate|].
      specialize (Hx z eq_refl). pose proof (IH 0%nat (S j) z b Hl ltac:(lia) eq_refl Hj). lia.
    - apply (IH i j); auto. lia.
  Qed.

  Lemma nth_offsets d fs i f : nth_error fs i = Some f -> nth_error (offsets h d fs) i = Some (h_offset h d fs i).
  Proof.
    intros H. unfold offsets. apply map_nth_error.
    assert (i < length fs)%nat by (apply nth_error_Some; congruence).
    rewrite nth_error_nth' with (d := 0%nat) by (rewrite seq_length; assumption).
    rewrite seq_nth by assumption. reflexivity.
  Qed.

  Lemma fields_ordered d fs i j f g : ascending (offsets h d fs) = true -> (i < j)%nat ->
    nth_error fs i = Some f -> nth_error fs j = Some g ->
    h_size h (snd f) <> 0 -> h_size h (snd g) <> 0 ->
    h_offset h d fs i + h_size h (snd f) <= h_offset h d fs j.
  Proof.
    intros Ha Hij Hi Hj Hf Hg.
    destruct (vh_disjoint h VH d fs i j f g Hij Hi Hj Hf Hg) as [?|Hc]; [assumption|].
    pose proof (ascending_nth _ i j _ _ Ha Hij (nth_offsets d fs i f Hi) (nth_offsets d fs j g Hj)). lia.
  Qed.

  (** [l] is the part of [fs] from position [i]. *)
  Lemma upper d fs l i b : ascending (offsets h d fs) = true ->
    (forall k, nth_error l k = nth_error fs (i + k)) ->
    b <= h_size h (TStruct d fs) ->
    (forall k f, nth_error l k = Some f -> h_size h (snd f) <> 0 -> b <= h_offset h d fs (i + k)) ->
    b + nsum (sizes l) <= h_size h (TStruct d fs).
  Proof.
    intros Ha. revert i b. induction l as [|f r IH]; intros i b Hn Hb Hlo; cbn [sizes map nsum fold_right].
    - lia.
    - fold (sizes r). fold (nsum (sizes r)).
      assert (Hf : nth_error fs i = Some f) by (rewrite <- (Nat.add_0_r i), <- Hn; reflexivity).
      assert (Hr : forall k, nth_error r k = nth_error fs (S i + k))
        by (intros k; rewrite Nat.add_succ_comm, <- Hn; reflexivity).
      destruct (N.eq_dec (h_size h (snd f)) 0) as [E|E].
      + rewrite E, N.add_0_l. apply (IH (S i) b Hr Hb).
        intros k g Hg Hz. specialize (Hlo (S k) g Hg Hz). rewrite Nat.add_succ_comm. exact Hlo.
      + pose proof (Hlo 0%nat f eq_refl E) as H0. rewrite Nat.add_0_r in H0.
        pose proof (vh_inside h VH d fs i f Hf).
        enough (h_offset h d fs i + h_size h (snd f) + nsum (sizes r) <= h_size h (TStruct d fs)) by lia.
        apply (IH (S i) _ Hr); [assumption|].
        intros k g Hg Hz. apply (fields_ordered d fs i (S i + k) f g Ha); auto; [lia|].
        rewrite <- Hr. assumption.
  Qed.

  Lemma tight_suffix d fs l i b : ascending (offsets h d fs) = true ->
    (forall k, nth_error l k = nth_error fs (i + k)) ->
    b + nsum (sizes l) = h_size h (TStruct d fs) ->
    (forall k f, nth_error l k = Some f -> h_size h (snd f) <> 0 -> b <= h_offset h d fs (i + k)) ->
    tight d fs i b l.
  Proof.
    intros Ha. revert i b. induction l as [|f r IH]; intros i b Hn Hb Hlo; cbn [tight]; [exact I|].
    cbn [sizes map nsum fold_right] in Hb. fold (sizes r) in Hb. fold (nsum (sizes r)) in Hb.
    assert (Hf : nth_error fs i = Some f) by (rewrite <- (Nat.add_0_r i), <- Hn; reflexivity).
    assert (Hr : forall k, nth_error r k = nth_error fs (S i + k))
      by (intros k; rewrite Nat.add_succ_comm, <- Hn; reflexivity).
    destruct (N.eq_dec (h_size h (snd f)) 0) as [E|E].
    - split; [left; assumption|]. apply IH; [assumption|lia|].
      intros k g Hg Hz. specialize (Hlo (S k) g Hg Hz). rewrite Nat.add_succ_comm. lia.
    - pose proof (Hlo 0%nat f eq_refl E) as H0. rewrite Nat.add_0_r in H0.
      assert (Hnext : forall k g, nth_error r k = Some g -> h_size h (snd g) <> 0 ->
                h_offset h d fs i + h_size h (snd f) <= h_offset h d fs (S i + k)).
      { intros k g Hg Hz. apply (fields_ordered d fs i (S i + k) f g Ha); auto; [lia|].
        rewrite <- Hr. assumption. }
      pose proof (vh_inside h VH d fs i f Hf).
      pose proof (upper d fs r (S i) _ Ha Hr ltac:(eassumption) Hnext).
      assert (h_offset h d fs i = b) by lia.
      split; [right; assumption|]. apply IH; [assumption|lia|].
      intros k g Hg Hz. specialize (Hnext k g Hg Hz). lia.
  Qed.

  Lemma tight_struct d fs : ascending (offsets h d fs) = true ->
    nsum (sizes fs) = h_size h (TStruct d fs) -> tight d fs 0 0 fs.
  Proof. intros. apply tight_suffix; auto; intros; lia. Qed.

  Lemma forallb_fields (p : fattrs -> ty -> bool) fs :
    forallb (fun f => p (fst f) (snd f)) fs = true -> all_fields (fun a t => p a t = true) fs.
  Proof.
    induction fs as [|[a t] r IH]; cbn; [auto|]. intros H. apply andb_prop in H. intuition.
  Qed.

  Lemma all_fields_and (P Q : fattrs -> ty -> Prop) fs :
    all_fields P fs -> all_fields Q fs -> all_fields (fun a t => P a t /\ Q a t) fs.
  Proof. induction fs as [|[a t] r IH]; cbn; intuition. Qed.

  (** One level of [is_prim]. *)
  Lemma is_prim_struct d fs : declared_layout d fs -> is_prim h (TStruct d fs) = true ->
    all_fields (fun a t => can_be_primitive a = true /\ is_prim h t = true) fs
    /\ nsum (sizes fs) = h_size h (TStruct d fs)
    /\ tight d fs 0 0 fs
    /\ (is_transparent d fs = false -> potentially_primitive d fs = true).
  Proof.
    intros Hd Hp.
    assert (Hpp : is_transparent d fs = false -> potentially_primitive d fs = true).
    { intros E. cbn [is_prim] in Hp. rewrite E in Hp. destruct (potentially_primitive d fs); [reflexivity|discriminate]. }
    destruct (sd_forced d || is_transparent d fs || is_packed d)%bool eqn:E.
    - destruct (Hd E Hp) as (H1 & H2 & H3). repeat split; auto. apply tight_struct; auto.
    - apply orb_false_elim in E as [E E3]. apply orb_false_elim in E as [E1 E2].
      pose proof (Hpp E2) as Hpp'. cbn [is_prim] in Hp. rewrite E2, Hpp' in Hp.
      destruct fs as [|f r].
      { cbn. rewrite (vh_empty h VH). repeat split; auto. }
      remember (f :: r) as fs eqn:Efs.
      rewrite E1 in Hp. cbn [orb] in Hp.
      apply andb_prop in Hp as [Hp Ho]. apply andb_prop in Hp as [Hp Hs].
      apply N.eqb_eq in Hs.
      assert (Ha : ascending (offsets h d fs) = true).
      { destruct (is_c d) eqn:Ec.
        - apply (vh_c h VH). unfold is_c in Ec. destruct (sd_repr d); congruence.
        - unfold check_order in Ho. rewrite E2, E3, Ec in Ho. exact Ho. }
      unfold potentially_primitive in Hpp'. rewrite E1 in Hpp'. cbn [orb] in Hpp'.
      apply andb_prop in Hpp' as [Hc _].
      repeat split; auto.
      + apply all_fields_and.
        * apply (forallb_fields (fun a _ => can_be_primitive a)). exact Hc.
        * apply (forallb_fields (fun _ t => is_prim h t)). exact Hp.
      + apply tight_struct; assumption.
  Qed.

  Lemma all_fields_forall (P : fattrs -> ty -> Prop) fs :
    all_fields P fs <-> Forall (fun f => P (fst f) (snd f)) fs.
  Proof.
    induction fs as [|[a t] r IH]; cbn; split; auto.
    - intros [? ?]. constructor; tauto.
    - intros H. inversion H; subst. tauto.
  Qed.

  Lemma prim_plain t : honest t -> is_prim h t = true -> plain_data t.
  Proof.
    induction t as [s| | | | | | | | | | | |d fs IH| |] using ty_ind'; cbn [is_prim]; try discriminate.
    - destruct s; try discriminate. intros; exact I.
    - intros [Hd Hf] Hp. destruct (is_prim_struct d fs Hd Hp) as (H1 & H2 & H3 & _).
      cbn [plain_data]. repeat split; auto.
      clear Hd Hp H2 H3. apply all_fields_forall in H1. apply all_fields_forall in Hf.
      apply all_fields_forall. rewrite Forall_forall in *. intros [a t] Hin.
      specialize (IH _ Hin). specialize (H1 _ Hin). specialize (Hf _ Hin). cbn in *. tauto.
  Qed.

  (* ---------------------------------------------------------------- *)
  (** ** The value plain data has on the wire *)

  Fixpoint pval (e : endian) (t : ty) (bs : bytes) : val :=
    match t with
    | TScalar (SPrim p) => VInt (of_bits p (unword e bs))
    | TStruct _ fs =>
      VSeq ((fix go (l : fields) (bs : bytes) : list val :=
               match l with
               | [] => []
               | f :: r => pval e (snd f) (ntake (h_size h (snd f)) bs)
                           :: go r (ndrop (h_size h (snd f)) bs)
               end) fs bs)
    | _ => VUnit
    end.

  Definition pvals (e : endian) : fields -> bytes -> list val :=
    fix go (l : fields) (bs : bytes) : list val :=
      match l with
      | [] => []
      | f :: r => pval e (snd f) (ntake (h_size h (snd f)) bs)
                  :: go r (ndrop (h_size h (snd f)) bs)
      end.

  Lemma pval_struct e d fs bs : pval e (TStruct d fs) bs = VSeq (pvals e fs bs).
  Proof. reflexivity. Qed.

  Lemma slice_tight d fs i base (f : fattrs * ty) (bs : bytes) :
    h_size h (snd f) = 0 \/ h_offset h d fs i = base ->
    slice bs (h_offset h d fs i) (h_size h (snd f)) = ntake (h_size h (snd f)) (ndrop base bs).
  Proof.
    unfold slice. intros [E|E]; rewrite E; [|reflexivity]. rewrite !take_0. reflexivity.
  Qed.

  (** Every memory image of plain data is a value. *)
  Lemma plain_ok t bs : plain_data t -> mem_ok h t bs = true.
  Proof.
    revert bs. induction t as [s| | | | | | | | | | | |d fs IH| |] using ty_ind';
      cbn [plain_data mem_ok]; intros bs Hp; try contradiction; [destruct s; try contradiction; reflexivity|].
    destruct Hp as (Hp & _ & _). generalize fs at 1 as all. generalize 0%nat as i.
    induction IH as [|f r IHf IH IHl]; intros i all; [reflexivity|]. destruct Hp as [[_ Hpf] Hp].
    rewrite IHf by exact Hpf. apply IHl, Hp.
  Qed.
  Lemma plain_all_ok t l : plain_data t -> forallb (mem_ok h t) l = true.
  Proof. intros Hp. apply forallb_forall. intros bs _. apply plain_ok, Hp. Qed.

  (** In memory, plain data is its wire form in the host's byte order. *)
  Lemma mem_read_pval t bs : plain_data t -> nlen bs = h_size h t ->
    mem_read h t bs = pval (h_native h) t bs.
  Proof.
    revert bs. induction t as [s| | | | | | | | | | | |d fs IH| |] using ty_ind';
      cbn [plain_data]; intros bs Hp Hl; try contradiction.
    - destruct s; try contradiction. reflexivity.
    - destruct Hp as (Hf & Hs & Ht). rewrite pval_struct. cbn [mem_read]. f_equal.
      rewrite <- Hs in Hl. clear Hs.
      assert (Hgen : forall l i base, tight d fs i base l ->
        all_fields (fun a t => can_be_primitive a = true /\ plain_data t) l ->
        Forall (fun f => forall bs, plain_data (snd f) -> nlen bs = h_size h (snd f) ->
                         mem_read h (snd f) bs = pval (h_native h) (snd f) bs) l ->
        base + nsum (sizes l) <= nlen bs ->
        (fix go (i : nat) (l : fields) : list val :=
             match l with
             | [] => []
             | f :: r =>
               mem_read h (snd f) (slice bs (h_offset h d fs i) (h_size h (snd f)))
               :: go (S i) r
             end) i l = pvals (h_native h) l (ndrop base bs)).
      { clear. induction l as [|f r IHl]; intros i base Ht Hf IH Hl; [reflexivity|].
        cbn [tight] in Ht. destruct Ht as [H1 H2]. destruct Hf as [[_ Hpd] Hf].
        inversion IH as [|? ? IHf IHr]; subst.
        cbn [sizes map nsum fold_right] in Hl. fold (sizes r) in Hl. fold (nsum (sizes r)) in Hl.
        cbn [pvals]. f_equal.
        - rewrite (slice_tight d fs i base f bs H1). apply IHf; [assumption|].
          rewrite nlen_take, nlen_drop. lia.
        - rewrite (IHl (S i) (base + h_size h (snd f)) H2 Hf IHr) by lia.
          rewrite drop_drop. f_equal. f_equal. lia. }
      rewrite (Hgen fs 0%nat 0 Ht Hf IH) by lia. rewrite drop_0. reflexivity.
  Qed.

  (** Byte order does not matter for data of at most one byte. *)
  Lemma pval_small e e' t bs : plain_data t -> nlen bs = h_size h t -> nlen bs <= 1 ->
    pval e t bs = pval e' t bs.
  Proof.
    revert bs. induction t as [s| | | | | | | | | | | |d fs IH| |] using ty_ind';
      cbn [plain_data]; intros bs Hp Hl H1; try contradiction.
    - destruct s; try contradiction. cbn. do 2 f_equal.
      destruct bs as [|b [|c r]]; [destruct e, e'; reflexivity|destruct e, e'; reflexivity|].
      unfold nlen in H1. cbn in H1. lia.
    - destruct Hp as (Hf & Hs & _). rewrite !pval_struct. f_equal.
      rewrite <- Hs in Hl. clear Hs. revert bs Hl H1.
      induction fs as [|f r IHl]; intros bs Hl H1; [reflexivity|].
      destruct Hf as [[_ Hpd] Hf]. inversion IH as [|? ? IHf IHr]; subst.
      cbn [sizes map nsum fold_right] in Hl. fold (sizes r) in Hl. fold (nsum (sizes r)) in Hl.
      cbn [pvals]. f_equal.
      + apply IHf; [assumption|rewrite nlen_take; lia..].
      + apply IHl; auto; rewrite nlen_drop; lia.
  Qed.

  (* ---------------------------------------------------------------- *)
  (** ** Conversion in place *)

  Lemma flip_pval e t bs : conversion_necessary (h_native h) e = true ->
    honest t -> is_prim h t = true -> flips t -> nlen bs = h_size h t ->
    flip h t (pval (h_native h) t bs) = Ok (pval e t bs).
  Proof.
    intros Hc. revert bs. induction t as [s| | | | | | | | | | | |d fs IH| |] using ty_ind';
      intros bs Hh Hp Hf Hl; try (cbn in Hp; discriminate).
    - destruct s; try discriminate. cbn [pval flip].
      pose proof (vh_prim h VH p) as Hs. unfold TP in Hs. rewrite Hs in Hl.
      assert (Hlen : length bs = psize p) by (unfold nlen in Hl; lia).
      rewrite to_bits_of_bits.
      + rewrite swap_unword by assumption. do 4 f_equal.
        destruct (h_native h), e; cbn in Hc; try discriminate; reflexivity.
      + rewrite pmod_pow, <- Hl. apply unword_lt.
    - destruct Hh as [Hd Hh]. destruct (is_prim_struct d fs Hd Hp) as (H1 & H2 & _ & H4).
      destruct Hf as [Ht Hf]. rewrite !pval_struct. cbn [flip]. rewrite Ht, (H4 Ht).
      rewrite <- H2 in Hl. clear H2 H4 Hp Hd Ht.
      assert (Hgen : forall bs, nlen bs = nsum (sizes fs) ->
        (fix go (l : fields) (us : list val) : res (list val) :=
            match l, us with
            | [], [] => Ok []
            | f :: r, u :: ur =>
              rbind (flip h (snd f) u) (fun u' => rmap (cons u') (go r ur))
            | _, _ => Fault IllTyped
            end) fs (pvals (h_native h) fs bs) = Ok (pvals e fs bs)).
      { clear bs Hl. induction fs as [|f r IHl]; intros bs Hl; [reflexivity|].
        destruct H1 as [[_ Hpd] H1]. destruct Hf as [Hff Hf]. destruct Hh as [Hhf Hh].
        inversion IH as [|? ? IHf IHr]; subst.
        cbn [sizes map nsum fold_right] in Hl. fold (sizes r) in Hl. fold (nsum (sizes r)) in Hl.
        cbn [pvals]. rewrite IHf by (auto; rewrite nlen_take; lia). cbn [rbind].
        rewrite IHl by (auto; rewrite nlen_drop; lia). reflexivity. }
      rewrite Hgen by assumption. reflexivity.
  Qed.

  Lemma conv_pval e t bs : honest t -> is_prim h t = true ->
    (conversion_necessary (h_native h) e = true -> convertible t) -> nlen bs = h_size h t ->
    conv h e t (pval (h_native h) t bs) = Ok (pval e t bs).
  Proof.
    revert bs. induction t as [s| | | | | | | | | | | |d fs IH| |] using ty_ind';
      intros bs Hh Hp Hf Hl; try (cbn in Hp; discriminate).
    - destruct s; try discriminate. cbn [pval conv].
      destruct (conversion_necessary (h_native h) e) eqn:Hc.
      + pose proof (flip_pval e (TScalar (SPrim p)) bs Hc I eq_refl I Hl) as E. exact E.
      + destruct (h_native h), e; cbn in Hc; try discriminate; reflexivity.
    - cbn [conv]. destruct (is_transparent d fs) eqn:Et.
      + assert (Hx : exists f, fs = [f]) by (unfold is_transparent in Et; destruct (sd_repr d), fs as [|? []]; try discriminate; eauto).
        destruct Hx as [f ->]. rewrite !pval_struct. cbn [pvals].
        destruct Hh as [Hd [Hh _]]. destruct (is_prim_struct d [f] Hd Hp) as ([[_ Hpf] _] & H2 & _).
        inversion IH as [|? ? IHf _]; subst. cbn [sizes map nsum fold_right] in H2.
        rewrite IHf; auto.
        * intros Hc. specialize (Hf Hc). cbn [convertible] in Hf. rewrite Et in Hf. apply Hf.
        * rewrite nlen_take. lia.
      + destruct Hh as [Hd Hh]. destruct (is_prim_struct d fs Hd Hp) as (_ & _ & _ & H4).
        rewrite (H4 Et). rewrite pval_struct.
        destruct (conversion_necessary (h_native h) e) eqn:Hc.
        * specialize (Hf eq_refl). cbn [convertible] in Hf. rewrite Et in Hf.
          rewrite <- (pval_struct _ d). apply flip_pval; auto; [split; assumption|split; assumption].
        * assert (h_native h = e) as -> by (destruct (h_native h), e; cbn in Hc; congruence).
          rewrite pval_struct. reflexivity.
  Qed.

  (** A run of elements. *)
  Lemma chunks_Forall sz n bs : nlen bs = N.of_nat n * N.of_nat sz ->
    Forall (fun c => length c = sz) (chunks sz n bs).
  Proof.
    revert bs. induction n as [|n IH]; intros bs Hl; cbn [chunks]; constructor.
    - rewrite firstn_length. unfold nlen in Hl. lia.
    - apply IH. unfold nlen in *. rewrite skipn_length. lia.
  Qed.

  Lemma conv_chunks e t n bs : honest t -> is_prim h t = true ->
    (conversion_necessary (h_native h) e = true -> convertible t) ->
    nlen bs = N.of_nat n * h_size h t ->
    rmapM (conv h e t) (map (mem_read h t) (chunks (N.to_nat (h_size h t)) n bs))
    = Ok (map (pval e t) (chunks (N.to_nat (h_size h t)) n bs)).
  Proof.
    intros Hh Hp Hc Hl.
    assert (HF : Forall (fun c => length c = N.to_nat (h_size h t)) (chunks (N.to_nat (h_size h t)) n bs))
      by (apply chunks_Forall; lia).
    induction HF as [|c r Hx HF IH]; [reflexivity|].
    assert (nlen c = h_size h t) by (unfold nlen; lia).
    cbn [map rmapM]. rewrite mem_read_pval by (auto using prim_plain).
    rewrite conv_pval by assumption. cbn [rbind]. rewrite IH. reflexivity.
  Qed.

  Lemma raw_chunks e t n bs : plain_data t ->
    (h_size h t <= 1 \/ h_native h = e) ->
    nlen bs = N.of_nat n * h_size h t ->
    map (mem_read h t) (chunks (N.to_nat (h_size h t)) n bs)
    = map (pval e t) (chunks (N.to_nat (h_size h t)) n bs).
  Proof.
    intros Hp Hc Hl.
    assert (HF : Forall (fun c => length c = N.to_nat (h_size h t)) (chunks (N.to_nat (h_size h t)) n bs))
      by (apply chunks_Forall; lia).
    apply map_ext_in. intros c Hin. rewrite Forall_forall in HF. specialize (HF c Hin). cbn in HF.
    assert (nlen c = h_size h t) by (unfold nlen; lia).
    rewrite mem_read_pval by auto.
    destruct Hc as [Hc| ->]; [|reflexivity].
    apply pval_small; [assumption|assumption|lia].
  Qed.

  (** The number of elements in a block of memory. *)
  Lemma slice_count_prim t m : honest t -> is_prim h t = true -> h_size h t <> 0 ->
    slice_count h t m = Ok (m / h_size h t).
  Proof.
    induction t as [s| | | | | | | | | | | |d fs IH| |] using ty_ind';
      intros Hh Hp Hz; try (cbn in Hp; discriminate).
    - destruct s; try discriminate. cbn [slice_count].
      pose proof (vh_prim h VH p) as Hs. unfold TP in Hs. rewrite Hs. reflexivity.
    - destruct Hh as [Hd Hh]. destruct (is_prim_struct d fs Hd Hp) as (H1 & _ & _ & H4).
      cbn [slice_count]. destruct (is_transparent d fs) eqn:Et.
      + assert (Hx : exists f, fs = [f] /\ sd_repr d = RTransparent)
          by (unfold is_transparent in Et; destruct (sd_repr d), fs as [|? []]; try discriminate; eauto).
        destruct Hx as (f & -> & Er). destruct (vh_transparent h VH d f Er) as [Es _].
        rewrite Es in *. inversion IH as [|? ? IHf _]; subst. apply IHf; [apply Hh|apply H1|assumption].
      + rewrite (H4 eq_refl). destruct (N.eqb_spec (h_size h (TStruct d fs)) 0); [contradiction|reflexivity].
  Qed.

  Lemma plain_minok t : plain_data t -> minok h t.
  Proof.
    induction t as [s| | | | | | | | | | | |d fs IH| |] using ty_ind';
      cbn [plain_data minok]; intros Hp; try contradiction; [exact I|].
    destruct Hp as (Hf & _ & _). apply all_fields_forall in Hf. apply all_fields_forall.
    rewrite Forall_forall in *. intros f Hin. specialize (IH f Hin). specialize (Hf f Hin).
    cbn in Hf. destruct Hf as [Hc Hp]. specialize (IH Hp).
    unfold field_minok. unfold can_be_primitive in Hc.
    destruct (f_eof (fst f)), (f_len (fst f)), (f_skip (fst f)), (f_varint (fst f)); cbn in Hc; try discriminate.
    cbn [orb negb]. destruct (f_opaque (fst f)); [assumption|].
    destruct (snd f); try (cbn in Hp; contradiction); assumption.
  Qed.

  Lemma plain_min t : plain_data t -> min_bytes h t = h_size h t.
  Proof.
    induction t as [s| | | | | | | | | | | |d fs IH| |] using ty_ind';
      cbn [plain_data min_bytes]; intros Hp; try contradiction.
    - destruct s; try contradiction. cbn. pose proof (vh_prim h VH p) as Hs. unfold TP in Hs. rewrite Hs. reflexivity.
    - destruct Hp as (Hf & Hs & _). rewrite <- Hs. clear Hs. unfold Supported.sizes. f_equal.
      apply map_ext_in. intros f Hin. apply all_fields_forall in Hf. rewrite Forall_forall in *.
      specialize (IH f Hin). specialize (Hf f Hin). cbn in Hf. destruct Hf as [Hc Hp].
      unfold field_min, can_be_primitive in *.
      destruct (f_eof (fst f)), (f_len (fst f)), (f_skip (fst f)), (f_varint (fst f)), (f_prefix (fst f));
        cbn in Hc; try discriminate.
      cbn [orb negb]. rewrite <- (IH Hp). change (nlen []) with 0. rewrite N.add_0_r.
      destruct (f_opaque (fst f)); [reflexivity|].
      destruct (snd f); try (cbn in Hp; contradiction); reflexivity.
  Qed.
End Layout.
