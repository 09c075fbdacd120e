(* Facts about the decoder alone: plain data, types with an empty encoding, and
   lower bounds on how much input is consumed. *)
From Verif Require Export LayoutFacts SpecFacts.

(* ------------------------------------------------------------------ *)
(** * Sequencing *)

Lemma dbind_ext {A B} (d d' : dec A) (k k' : A -> dec B) o :
  d o = d' o -> (forall a o', k a o' = k' a o') -> dbind d k o = dbind d' k' o.
Proof. intros H Hk. unfold dbind. rewrite H. destruct (d' o); auto. Qed.

Lemma dmap_ext {A B} (f f' : A -> B) (d d' : dec A) o :
  d o = d' o -> (forall a, f a = f' a) -> dmap f d o = dmap f' d' o.
Proof. intros H Hf. apply dbind_ext; [assumption|]. intros. unfold dret. rewrite Hf. reflexivity. Qed.

Lemma dbind_assoc {A B C} (d : dec A) (k : A -> dec B) (k2 : B -> dec C) o :
  dbind (dbind d k) k2 o = dbind d (fun a => dbind (k a) k2) o.
Proof. unfold dbind. destruct (d o); reflexivity. Qed.

Lemma dbind_dmap {A B C} (f : A -> B) (d : dec A) (k : B -> dec C) o :
  dbind (dmap f d) k o = dbind d (fun a => k (f a)) o.
Proof. unfold dmap, dbind, dret. destruct (d o); reflexivity. Qed.

Lemma dmap_dmap {A B C} (f : A -> B) (g : B -> C) (d : dec A) o :
  dmap g (dmap f d) o = dmap (fun a => g (f a)) d o.
Proof. unfold dmap at 1. rewrite dbind_dmap. reflexivity. Qed.

Lemma dbind_ret {A B} (a : A) (k : A -> dec B) o : dbind (dret a) k o = k a o.
Proof. reflexivity. Qed.

Lemma dread_add a b {A} (k : bytes -> bytes -> dec A) o :
  dbind (dread a) (fun x => dbind (dread b) (fun y => k x y)) o
  = dbind (dread (a + b)) (fun z => k (ntake a z) (ndrop a z)) o.
Proof.
  unfold dbind, dread.
  destruct (N.eqb_spec a 0) as [->|Ha].
  - rewrite N.add_0_l. destruct (N.eqb_spec b 0) as [->|Hb]; [reflexivity|].
    destruct o as [bs|]; [|reflexivity]. destruct (N.leb_spec b (nlen bs)); [|reflexivity].
    rewrite take_0, drop_0. reflexivity.
  - destruct (N.eqb_spec (a + b) 0); [lia|].
    destruct o as [bs|]; [|reflexivity].
    destruct (N.leb_spec a (nlen bs)).
    + destruct (N.eqb_spec b 0) as [->|Hb].
      * rewrite N.add_0_r. destruct (N.leb_spec a (nlen bs)); [|lia].
        rewrite take_take, N.min_id. rewrite (drop_all a (ntake a bs)) by (rewrite nlen_take; lia).
        reflexivity.
      * rewrite nlen_drop. destruct (N.leb_spec b (nlen bs - a)), (N.leb_spec (a + b) (nlen bs)); try lia.
        -- rewrite drop_drop, (N.add_comm b a).
           rewrite take_take, N.min_l by lia. rewrite take_drop_comm. reflexivity.
        -- reflexivity.
    + destruct (N.leb_spec (a + b) (nlen bs)); [lia|reflexivity].
Qed.

Lemma drepeat_dread {B} (f : bytes -> B) sz n o :
  drepeat (dmap f (dread sz)) n o
  = dmap (fun bs => map f (chunks (N.to_nat sz) n bs)) (dread (N.of_nat n * sz)) o.
Proof.
  revert o. induction n as [|n IH]; intros o.
  - cbn [drepeat chunks map]. rewrite N.mul_0_l. reflexivity.
  - cbn [drepeat]. rewrite dbind_dmap.
    rewrite (dbind_ext (dread sz) (dread sz) _
      (fun x => dbind (dread (N.of_nat n * sz)) (fun y => dret (f x :: map f (chunks (N.to_nat sz) n y)))));
      [|reflexivity|].
    + rewrite (dread_add sz (N.of_nat n * sz) (fun x y => dret (f x :: map f (chunks (N.to_nat sz) n y)))).
      replace (N.of_nat (S n) * sz) with (sz + N.of_nat n * sz) by lia. reflexivity.
    + intros x o'. rewrite (dbind_ext _ _ _ (fun xs => dret (f x :: xs)) _ (IH o')) by reflexivity.
      rewrite dbind_dmap. reflexivity.
Qed.

Section Decode.
  Context (h : host) (VH : valid_host h) (lim : limits) (e e6 : endian).
  Notation decl := (decl lim e e6).
  Notation dfields := (dfields lim e e6 decl).

  (* ---------------------------------------------------------------- *)
  (** ** Plain data *)

  Lemma prim_attrs a : can_be_primitive a = true ->
    f_eof a = false /\ f_len a = LDefault /\ f_skip a = false /\ f_varint a = false /\ f_prefix a = [].
  Proof.
    unfold can_be_primitive. destruct (f_eof a), (f_len a), (f_skip a), (f_varint a), (f_prefix a);
      cbn; try discriminate; auto.
  Qed.

  Lemma field_len_default prev a t : f_len a = LDefault -> field_len false prev a t = len0.
  Proof. intros E. unfold field_len. rewrite E. destruct (sized_field a t); reflexivity. Qed.

  Lemma dfield_plain prev a t o : can_be_primitive a = true ->
    dfield lim e e6 decl prev a t o = decl len0 t o.
  Proof.
    intros H. apply prim_attrs in H as (H1 & H2 & H3 & H4 & H5).
    unfold dfield. rewrite H1, H4, H5. rewrite field_len_default by assumption. reflexivity.
  Qed.

  Lemma decl_plain t o : plain_data h t ->
    decl len0 t o = dmap (pval h e t) (dread (h_size h t)) o.
  Proof.
    revert o. induction t as [s| | | | | | | | | | | |d fs IH| |] using ty_ind';
      cbn [plain_data]; intros o Hp; try contradiction.
    - destruct s; try contradiction. cbn [Spec.decl dec_scalar]. unfold dprim, dword.
      pose proof (vh_prim h VH p) as Hs. unfold TP in Hs. rewrite Hs.
      unfold dmap, dbind, dret. destruct (dread (N.of_nat (psize p)) o); reflexivity.
    - destruct Hp as (Hf & Hs & _). cbn [Spec.decl].
      assert (Hgen : forall prev o, dfields prev fs o = dmap (pvals h e fs) (dread (nsum (sizes h fs))) o).
      { clear Hs o. induction fs as [|f r IHl]; intros prev o; [reflexivity|].
        destruct Hf as [[Hc Hpd] Hf]. inversion IH as [|? ? IHf IHr]; subst.
        cbn [Spec.dfields]. pose proof (prim_attrs _ Hc) as (_ & _ & Hsk & _). rewrite Hsk.
        rewrite (dbind_ext _ (dmap (pval h e (snd f)) (dread (h_size h (snd f)))) _
           (fun v => dbind (dread (nsum (sizes h r))) (fun y => dret (v :: pvals h e r y)))).
        - rewrite dbind_dmap.
          rewrite (dread_add _ _ (fun x y => dret (pval h e (snd f) x :: pvals h e r y))).
          reflexivity.
        - rewrite dfield_plain by assumption. apply IHf. assumption.
        - intros v o'. rewrite (dbind_ext _ _ _ (fun vs => dret (v :: vs)) _ (IHl IHr Hf _ o')) by reflexivity.
          rewrite dbind_dmap. reflexivity. }
      unfold dmap at 1. rewrite (dbind_ext _ _ _ (fun x => dret (VSeq x)) _ (Hgen [] o)) by reflexivity.
      rewrite Hs, dbind_dmap. reflexivity.
  Qed.

  Lemma drepeat_ext {A} (d d' : dec A) n o : (forall o, d o = d' o) -> drepeat d n o = drepeat d' n o.
  Proof.
    intros H. revert o. induction n as [|n IH]; intros o; [reflexivity|]. cbn [drepeat].
    apply dbind_ext; [apply H|]. intros. apply dbind_ext; [apply IH|reflexivity].
  Qed.

  Lemma drepeat_plain t n o : plain_data h t ->
    drepeat (decl len0 t) n o
    = dmap (fun bs => map (pval h e t) (chunks (N.to_nat (h_size h t)) n bs))
           (dread (N.of_nat n * h_size h t)) o.
  Proof.
    intros Hp. rewrite <- drepeat_dread. apply drepeat_ext. intros. apply decl_plain. assumption.
  Qed.

  (** To the end of the input. *)
  Lemma duntil_loop_dread {B} (f : bytes -> B) sz k bs : sz <> 0 -> (length bs < k)%nat ->
    duntil_loop (dmap f (dread sz)) k (Some bs)
    = DOk (map f (chunks (N.to_nat sz) (N.to_nat (nlen bs / sz)) bs))
          (if nlen bs mod sz =? 0 then Some [] else None).
  Proof.
    intros Hz. revert bs. induction k as [|k IH]; intros bs Hk; [lia|].
    cbn [duntil_loop].
    assert (Es : dmap f (dread sz) (Some bs)
                 = if sz <=? nlen bs then DOk (f (ntake sz bs)) (Some (ndrop sz bs)) else DEof).
    { unfold dmap, dbind, dread. destruct (N.eqb_spec sz 0); [contradiction|].
      destruct (sz <=? nlen bs); reflexivity. }
    rewrite Es. clear Es.
    destruct (N.leb_spec sz (nlen bs)) as [Hle|Hlt].
    - unfold dmap at 1. unfold dbind at 1.
      assert (Hd : nlen (ndrop sz bs) = nlen bs - sz) by apply nlen_drop.
      rewrite IH.
      2:{ unfold nlen in *. lia. }
      rewrite Hd.
      assert (E1 : nlen bs / sz = 1 + (nlen bs - sz) / sz).
      { replace (nlen bs) with (nlen bs - sz + 1 * sz) at 1 by lia. rewrite N.div_add by assumption. lia. }
      assert (E2 : nlen bs mod sz = (nlen bs - sz) mod sz).
      { replace (nlen bs) with (nlen bs - sz + 1 * sz) at 1 by lia. rewrite N.mod_add by assumption. reflexivity. }
      rewrite E1, E2. rewrite N2Nat.inj_add. change (N.to_nat 1) with 1%nat. cbn [Nat.add chunks map].
      unfold dret. reflexivity.
    - rewrite N.div_small by assumption. rewrite N.mod_small by assumption. cbn [N.to_nat chunks map].
      destruct bs as [|b r]; [reflexivity|]. destruct (N.eqb_spec (nlen (b :: r)) 0) as [E|E]; [|reflexivity].
      apply nlen_0 in E. discriminate.
  Qed.

  (* ---------------------------------------------------------------- *)
  (** ** Types with an empty encoding *)

  Lemma decl_silent t o : silent t -> decl len0 t o = DOk (zst_val t) o.
  Proof.
    revert o. induction t as [s| | |t n IHt| | | |ts IH| | | | |d fs IH| |] using ty_ind';
      cbn [silent]; intros o Hp; try contradiction.
    - destruct s; try contradiction. reflexivity.
    - cbn [Spec.decl zst_val]. unfold dmap, dbind.
      assert (Hx : drepeat (decl len0 t) n o = DOk (repeat (zst_val t) n) o).
      { destruct Hp as [->|Hp]; [reflexivity|]. revert o. induction n as [|n IHn]; intros o; [reflexivity|].
        cbn [drepeat repeat]. unfold dbind. rewrite IHt by assumption. rewrite IHn. reflexivity. }
      rewrite Hx. reflexivity.
    - cbn [Spec.decl zst_val]. unfold dmap, dbind.
      assert (Hx : forall o, dtuple (decl len0) ts o = DOk (map zst_val ts) o).
      { clear o. induction ts as [|t r IHl]; intros o; [reflexivity|].
        destruct Hp as [Hp Hr]. inversion IH as [|? ? IHt IHr]; subst.
        cbn [dtuple map]. unfold dbind. rewrite IHt by assumption. rewrite IHl by assumption. reflexivity. }
      rewrite Hx. reflexivity.
    - cbn [Spec.decl zst_val]. unfold dmap, dbind.
      assert (Hx : forall prev o, dfields prev fs o = DOk (map (fun f => zst_val (snd f)) fs) o).
      { clear o. induction fs as [|f r IHl]; intros prev o; [reflexivity|].
        destruct Hp as [[Hc Hp] Hr]. inversion IH as [|? ? IHf IHr]; subst.
        cbn [Spec.dfields map]. pose proof (prim_attrs _ Hc) as (_ & _ & -> & _). unfold dbind.
        rewrite dfield_plain by assumption. rewrite IHf by assumption.
        rewrite IHl by assumption. reflexivity. }
      rewrite Hx. reflexivity.
  Qed.

  Lemma drepeat_silent t n o : silent t -> drepeat (decl len0 t) n o = DOk (repeat (zst_val t) n) o.
  Proof.
    intros H. revert o. induction n as [|n IH]; intros o; [reflexivity|].
    cbn [drepeat repeat]. unfold dbind. rewrite decl_silent by assumption. rewrite IH. reflexivity.
  Qed.
End Decode.
