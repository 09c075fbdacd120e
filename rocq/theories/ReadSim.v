(* Reading follows the decoder, for every supported type on every lawful
   reader. *)
From Verif Require Export MinFacts ReadFacts.

Section Read.
  Context {St : Type} (h : host) (VH : valid_host h) (R : reader St) (bw pk : bool)
          (rep : St -> bytes -> Prop) (io : error -> Prop).
  Context (OK : reader_ok h R pk rep io).
  Context (Hbw : bw = true -> rd_borrow R <> None /\ rd_borrow_eof R <> None).
  Notation lim := (h_lim h).
  Notation e := (rd_endian R).
  Notation e6 := (ipv6_order h (rd_endian R)).
  Notation umax := (l_usize_max (h_lim h)).
  Notation simh := (sim rep io).
  Notation decl := (decl lim e e6).
  Notation supported := (supported h e bw pk).

  Lemma sim_alloc {A} n size min (m : M St A) d : n * size <= h_alloc_max h ->
    simh m d -> simh (alloc h R n size min ;;; m) d.
  Proof.
    intros Hle Hm s o Hr. unfold bind, alloc. destruct (N.ltb_spec (h_alloc_max h) (n * size)); [lia|].
    assert (Hx : forall s', s' = snd (rd_alloc R n size min s) ->
      rd_alloc R n size min s = (Ok tt, s') /\ repo rep s' o).
    { intros s' ->. destruct o as [bs|]; cbn in Hr.
      - destruct (ok_alloc _ _ _ _ _ OK n size min s bs Hr) as (s' & -> & ?). auto.
      - destruct Hr as [bs Hr].
        destruct (ok_alloc _ _ _ _ _ OK n size min s bs Hr) as (s' & -> & ?). cbn. eauto. }
    destruct (Hx _ eq_refl) as [E Hr']. clear Hx. rewrite E. apply Hm. assumption.
  Qed.

  (** Allocating room for the elements of a vector. *)
  Lemma sim_alloc_sized {A} t n min (m : M St A) d : simh m d ->
    simh (alloc h R n (h_size h t) min ;;; m) (dsized lim t n d).
  Proof.
    intros Hm. unfold dsized. rewrite (vh_fits h VH). destruct (N.leb_spec (n * h_size h t) (h_alloc_max h)).
    - apply sim_alloc; [assumption|]. apply sim_unsure, Hm.
    - unfold alloc. destruct (N.ltb_spec (h_alloc_max h) (n * h_size h t)); [|lia].
      intros s o Hr. right. left. reflexivity.
  Qed.

  Lemma sim_lent_eof {A} n (m : M St A) d er : rd_borrow R <> None -> h_alloc_max h < n ->
    simh m d -> (forall bs, dread n (Some bs) = DEof -> d (Some bs) = DEof) ->
    simh m (fun _ => DPanic er false).
  Proof.
    intros Hb Hlt Hm Hd s o Hr.
    assert (Hx : exists bs, rep s bs /\ (o = Some [] -> bs = [])).
    { destruct o as [bs|]; cbn in Hr.
      - exists bs. split; [assumption|]. congruence.
      - destruct Hr as [bs Hr]. exists bs. split; [assumption|discriminate]. }
    destruct Hx as (bs & Hr' & Ho). specialize (Hm s (Some bs) Hr'). rewrite Hd in Hm.
    - destruct Hm as [Hm|(y & E & Hy & Hs & Hemp)]; [left; exact Hm|right]. right. split; [reflexivity|].
      exists y. repeat split; auto. intros E'. apply Hemp. rewrite (Ho E'). reflexivity.
    - pose proof (ok_lent _ _ _ _ _ OK Hb s bs Hr'). unfold dread. destruct (N.eqb_spec n 0); [lia|].
      destruct (N.leb_spec n (nlen bs)); [lia|reflexivity].
  Qed.

  Lemma sim_lent_big {A} b n (k : N * bytes -> M St A) er : rd_borrow R = Some b ->
    h_alloc_max h < n -> simh (x <- b n ;; k x) (fun _ => DPanic er false).
  Proof.
    intros Hb Hlt. assert (Hm : simh (mmap snd (b n)) (fun _ => DPanic er false)).
    { apply (sim_lent_eof n _ (dread n)); auto; [congruence|]. apply (ok_borrow _ _ _ _ _ OK b Hb n). }
    intros s o Hr. specialize (Hm s o Hr).
    unfold mmap, bind in Hm |- *. destruct (b n s) as [r s'].
    destruct r as [x|x|x]; cbn [fst snd ret post] in *.
    - destruct Hm as [(? & E & _)|[E|(_ & ? & E & _)]]; discriminate.
    - destruct Hm as [(? & E & ?)|[E|(_ & y & E & ?)]]; [|discriminate|].
      + left. eexists. split; [|eassumption]. congruence.
      + right. right. split; [reflexivity|]. exists y. split; [congruence|assumption].
    - destruct Hm as [(? & E & _)|[E|(_ & ? & E & _)]]; [discriminate| |discriminate].
      right. left. congruence.
  Qed.

  (** Borrowing the elements: what cannot be allocated is not there either. *)
  Lemma sim_lent {A} t n (m : M St A) d (f : bytes -> dec A) : rd_borrow R <> None ->
    simh m d -> (forall o, d o = dbind (dread (n * h_size h t)) f o) -> simh m (dsized lim t n d).
  Proof.
    intros Hb Hm Hd. unfold dsized. rewrite (vh_fits h VH).
    destruct (N.leb_spec (n * h_size h t) (h_alloc_max h)); [apply sim_unsure, Hm|].
    eapply sim_lent_eof; [eassumption|eassumption|exact Hm|].
    intros bs E. rewrite Hd. unfold dbind. rewrite E. reflexivity.
  Qed.

  Lemma elem_minok t : vec_elem h e t -> minok h t.
  Proof.
    unfold vec_elem. destruct (is_prim h t) eqn:Ep; [|tauto].
    intros [Hh _]. apply plain_minok. apply (prim_plain h VH); assumption.
  Qed.

  Lemma weak_repeat t n o : minok h t ->
    match o with Some bs => nlen bs < min_bytes h t * n | None => 0 < min_bytes h t * n end ->
    weak (dunsure (drepeat (decl len0 t) (N.to_nat n)) o).
  Proof.
    intros Hm Hlt. pose proof (atleast_repeat _ _ (N.to_nat n) (atleast_min h VH lim e e6 t Hm)) as Ha.
    rewrite N2Nat.id in Ha. specialize (Ha o). unfold dunsure.
    destruct (drepeat (decl len0 t) (N.to_nat n) o) as [a o'| | | |] eqn:E; cbn; auto.
    specialize (Ha a o' eq_refl). destruct o, o'; lia.
  Qed.

  Lemma weak_sized t n o : minok h t ->
    match o with Some bs => nlen bs < min_bytes h t * n | None => 0 < min_bytes h t * n end ->
    weak (dsized lim t n (drepeat (decl len0 t) (N.to_nat n)) o).
  Proof.
    intros Hm Hlt. unfold dsized. destruct (l_fits lim t n); [apply weak_repeat; assumption|reflexivity].
  Qed.

  Lemma read_vec_sim t rd n : vec_elem h e t ->
    (is_prim h t = false -> simh rd (decl len0 t)) ->
    simh (read_vec h R t rd n) (dsized lim t n (drepeat (decl len0 t) (N.to_nat n))).
  Proof.
    intros He Hrd. pose proof (elem_minok t He) as Hmin.
    assert (Hgo : simh
      (alloc h R n (h_size h t) (min_bytes h t) ;;;
       if is_prim h t then
         bs <- rd_read_ptr R (h_capacity h n (h_size h t) * h_size h t) ;;
         lift (rmapM (conv h e t)
              (map (mem_read h t) (chunks (N.to_nat (h_size h t)) (N.to_nat n) bs)))
       else if h_size h t =? 0 then ret (repeat (zst_val t) (N.to_nat n))
       else repeatM rd (N.to_nat n))
      (dsized lim t n (drepeat (decl len0 t) (N.to_nat n)))).
    { apply sim_alloc_sized. unfold vec_elem in He. destruct (is_prim h t) eqn:Ep.
      - destruct He as [Hh Hc]. assert (Hp : plain_data h t) by (apply (prim_plain h VH); assumption).
        assert (Ecap : h_capacity h n (h_size h t) * h_size h t = n * h_size h t).
        { destruct (N.eq_dec (h_size h t) 0) as [->|Hz]; [lia|]. rewrite (vh_capacity h VH) by assumption. lia. }
        rewrite Ecap.
        eapply sim_ext; [reflexivity|intros o; symmetry; apply (drepeat_plain h VH); assumption|].
        rewrite N2Nat.id.
        apply (sim_bind_where _ _ (fun bs => nlen bs = n * h_size h t)); [apply OK| |].
        + intros o a o' H. eapply dread_len; eauto.
        + intros bs Hb. apply sim_lift. apply conv_chunks; auto. rewrite N2Nat.id. assumption.
      - destruct He as [Hz _]. destruct (N.eqb_spec (h_size h t) 0) as [E|E].
        + destruct Hz as [Hz|Hz]; [contradiction|].
          eapply sim_ext; [reflexivity|intros o; symmetry; apply (drepeat_silent lim e e6); assumption|].
          apply sim_ret.
        + apply sim_repeat. auto. }
    unfold read_vec. destruct (N.ltb_spec (usize_max h) (min_bytes h t * n)) as [Hbig|Hsmall].
    - intros s o Hr. right. cbn [bind fail fst snd]. apply weak_ended; [assumption|reflexivity|].
      apply weak_sized; [assumption|]. unfold usize_max in Hbig. destruct o as [bs|]; [|lia].
      cbn in Hr. pose proof (ok_small _ _ _ _ _ OK _ _ Hr). lia.
    - apply (sim_require h R pk rep io OK); auto.
      + intros bs Hlt _. apply weak_sized; assumption.
      + intros Hlt. apply weak_sized; assumption.
  Qed.

  Lemma no_conv_spec t : no_conv h R t = true -> h_size h t <= 1 \/ h_native h = e.
  Proof.
    unfold no_conv, conversion_necessary. intros H. apply orb_prop in H as [H|H].
    - apply N.eqb_eq in H. lia.
    - right. destruct (h_native h), e; cbn in H; congruence.
  Qed.

  Lemma read_cow_sim lm t rd n : vec_elem h e t -> copy_elem h lm t -> possible_length h lm n ->
    (is_prim h t = false -> simh rd (decl len0 t)) ->
    simh (read_cow h R t rd n) (dsized lim t n (drepeat (decl len0 t) (N.to_nat n))).
  Proof.
    intros He Hc Hn Hrd. unfold read_cow.
    destruct (if is_prim h t && no_conv h R t then rd_borrow R else None)%bool as [b|] eqn:Eb;
      [|apply read_vec_sim; assumption].
    destruct (is_prim h t && no_conv h R t)%bool eqn:E2; [|discriminate].
    apply andb_prop in E2 as [Ep Enc]. apply no_conv_spec in Enc.
    destruct (Hc Ep) as (Hh & Hz & Hfit). specialize (Hfit n Hn).
    assert (Hp : plain_data h t) by (apply (prim_plain h VH); assumption).
    unfold usize_max.
    destruct (N.ltb_spec umax (n * h_size h t)); [lia|]. cbn [andb]. rewrite N.mod_small by lia.
    unfold dsized. rewrite (vh_fits h VH).
    destruct (N.leb_spec (n * h_size h t) (h_alloc_max h)) as [Hle|Hgt];
      [|apply sim_lent_big; assumption].
    apply sim_unsure. eapply sim_ext; [reflexivity|intros o; symmetry; apply (drepeat_plain h VH); assumption|].
    rewrite N2Nat.id.
    change (simh (x <- b (n * h_size h t) ;;
       let (addr, bs) := (x : N * bytes) in
      if (h_align h t =? 1) || (addr mod h_align h t =? 0) then
        n <- lift (slice_count h t (nlen bs)) ;;
        ret (map (mem_read h t) (chunks (N.to_nat (h_size h t)) (N.to_nat n) bs))
      else
        alloc h R n (h_size h t) (h_size h t) ;;;
        ret (map (mem_read h t) (chunks (N.to_nat (h_size h t)) (N.to_nat n) bs)))
     (dmap (fun bs => map (pval h e t) (chunks (N.to_nat (h_size h t)) (N.to_nat n) bs))
       (dread (n * h_size h t)))).
    apply (sim_bind_via _ _ snd (fun bs => nlen bs = n * h_size h t)).
    - apply OK; assumption.
    - intros o a o' H'. eapply dread_len; eauto.
    - intros [addr bs] Hb. cbn [snd] in *.
      assert (Ev : map (mem_read h t) (chunks (N.to_nat (h_size h t)) (N.to_nat n) bs)
                   = map (pval h e t) (chunks (N.to_nat (h_size h t)) (N.to_nat n) bs)).
      { apply raw_chunks; auto. rewrite N2Nat.id. assumption. }
      destruct ((h_align h t =? 1) || (addr mod h_align h t =? 0))%bool.
      + rewrite (slice_count_prim h VH) by assumption. rewrite Hb, N.div_mul by assumption.
        cbn [bind lift]. rewrite <- Ev. apply sim_ret.
      + apply sim_alloc; [assumption|]. rewrite <- Ev. apply sim_ret.
  Qed.

  Lemma raw_collect_sim k key t n bs xs : h_size h t <> 0 ->
    map (mem_read h t) (chunks (N.to_nat (h_size h t)) (N.to_nat n) bs) = xs ->
    simh (raw_collect h k key t n bs) (dret (VSeq (collect k key xs))).
  Proof.
    intros Hz <-. unfold raw_collect. destruct (N.eqb_spec (h_size h t) 0); [contradiction|].
    apply sim_ret.
  Qed.

  Lemma slow_sim k key rd d n : simh rd d ->
    simh (xs <- repeatM rd n ;; ret (VSeq (collect k key xs)))
         (xs <-- drepeat d n ;; dret (VSeq (collect k key xs))).
  Proof. intros H. apply sim_bind; [apply sim_repeat, H|]. intros. apply sim_ret. Qed.

  Lemma read_collection_sim lm k key t rd n : copy_elem h lm t -> possible_length h lm n ->
    simh rd (decl len0 t) ->
    simh (read_collection h R k key t rd n)
         (xs <-- drepeat (decl len0 t) (N.to_nat n) ;; dret (VSeq (collect k key xs))).
  Proof.
    intros Hc Hn Hrd. unfold read_collection.
    destruct (is_prim h t && no_conv h R t)%bool eqn:E2; [|apply slow_sim, Hrd].
    apply andb_prop in E2 as [Ep Enc]. apply no_conv_spec in Enc.
    destruct (Hc Ep) as (Hh & Hz & Hfit). specialize (Hfit n Hn).
    assert (Hp : plain_data h t) by (apply (prim_plain h VH); assumption).
    unfold usize_max. destruct (N.ltb_spec umax (n * h_size h t)); [lia|].
    destruct (rd_borrow_r R) as [b|] eqn:Eb; [|apply slow_sim, Hrd].
    eapply sim_ext; [reflexivity| |].
    { intros o. symmetry. etransitivity;
        [apply dbind_ext; [apply (drepeat_plain h VH); assumption|reflexivity]|].
      apply dbind_dmap. }
    rewrite N2Nat.id.
    apply (sim_bind_where _ _ (fun bs => nlen bs = n * h_size h t)).
    - apply OK; assumption.
    - intros o a o' H'. eapply dread_len; eauto.
    - intros bs Hb. apply raw_collect_sim; [assumption|].
      apply raw_chunks; auto. rewrite N2Nat.id. assumption.
  Qed.

  (* ---------------------------------------------------------------- *)
  (** ** Maps *)

  Lemma pair_plain tk tv : plain_data h tk -> plain_data h tv ->
    h_size h tk + h_size h tv = h_size h (pair_ty tk tv) ->
    ascending (offsets h pair_decl [(plain, tk); (plain, tv)]) = true ->
    plain_data h (pair_ty tk tv).
  Proof.
    intros Hk Hv Hs Ha. cbn [plain_data pair_ty].
    assert (Hn : nsum (sizes h [(plain, tk); (plain, tv)]) = h_size h (pair_ty tk tv))
      by (cbn [sizes map nsum fold_right snd]; rewrite <- Hs; lia).
    split; [|split].
    - cbn. auto.
    - exact Hn.
    - apply (tight_struct h VH); assumption.
  Qed.

  Lemma pair_value ee tk tv bs : h_size h tk + h_size h tv = nlen bs ->
    pval h ee (pair_ty tk tv) bs
    = VSeq [pval h ee tk (ntake (h_size h tk) bs); pval h ee tv (ndrop (h_size h tk) bs)].
  Proof.
    intros H. unfold pair_ty. rewrite pval_struct. cbn [pvals snd]. do 3 f_equal.
    rewrite take_all; [reflexivity|]. rewrite nlen_drop. lia.
  Qed.

  Lemma read_pair_sim rk rv dk dv : simh rk dk -> simh rv dv ->
    simh (read_pair rk rv) (dpair dk dv).
  Proof.
    intros Hk Hv. apply sim_bind; [assumption|]. intros. apply sim_bind; [assumption|]. intros. apply sim_ret.
  Qed.

  Lemma read_kv_sim lm k tk tv rk rv n : pair_elem h lm tk tv -> possible_length h lm n ->
    simh rk (decl len0 tk) -> simh rv (decl len0 tv) ->
    simh (read_kv h R k tk tv rk rv n)
         (xs <-- drepeat (dpair (decl len0 tk) (decl len0 tv)) (N.to_nat n) ;;
          dret (VSeq (collect k pair_key xs))).
  Proof.
    intros Hc Hn Hk Hv. unfold read_kv.
    match goal with |- simh (if ?b then _ else _) _ => destruct b eqn:E2 end;
      [|apply slow_sim, read_pair_sim; assumption].
    apply andb_prop in E2 as [E2 Enc]. apply andb_prop in E2 as [Ek Ev].
    destruct (Hc Ek Ev) as (Hhk & Hhv & Hs & Hz & Ha & Hfit). specialize (Hfit n Hn).
    assert (Hpk : plain_data h tk) by (apply (prim_plain h VH); assumption).
    assert (Hpv : plain_data h tv) by (apply (prim_plain h VH); assumption).
    assert (Hp := pair_plain tk tv Hpk Hpv Hs Ha).
    unfold usize_max. destruct (N.ltb_spec umax (n * h_size h (pair_ty tk tv))); [lia|].
    destruct (rd_borrow_r R) as [b|] eqn:Eb; [|apply slow_sim, read_pair_sim; assumption].
    set (sz := h_size h (pair_ty tk tv)) in *.
    assert (Hpair : forall o, dpair (decl len0 tk) (decl len0 tv) o
      = dmap (fun z => VSeq [pval h e tk (ntake (h_size h tk) z); pval h e tv (ndrop (h_size h tk) z)]) (dread sz) o).
    { intros o. unfold dpair.
      rewrite (dbind_ext _ _ _ (fun a => dbind (dread (h_size h tv)) (fun y => dret (VSeq [a; pval h e tv y]))) _
               (decl_plain h VH lim e e6 tk o Hpk)).
      - rewrite dbind_dmap.
        rewrite (dread_add _ _ (fun x y => dret (VSeq [pval h e tk x; pval h e tv y]))).
        rewrite Hs. reflexivity.
      - intros a o'.
        rewrite (dbind_ext _ _ _ (fun y => dret (VSeq [a; y])) _ (decl_plain h VH lim e e6 tv o' Hpv)) by reflexivity.
        rewrite dbind_dmap. reflexivity. }
    eapply sim_ext; [reflexivity| |].
    { intros o. symmetry. etransitivity; [apply dbind_ext; [|reflexivity]|].
      - etransitivity; [apply drepeat_ext, Hpair|apply drepeat_dread].
      - apply dbind_dmap. }
    rewrite N2Nat.id.
    apply (sim_bind_where _ _ (fun bs => nlen bs = n * sz)).
    - apply OK; assumption.
    - intros o a o' H'. eapply dread_len; eauto.
    - intros bs Hb. apply raw_collect_sim; [assumption|]. fold sz.
      assert (HF : Forall (fun c => length c = N.to_nat sz) (chunks (N.to_nat sz) (N.to_nat n) bs))
        by (apply chunks_Forall; lia).
      apply map_ext_in. intros c Hin. rewrite Forall_forall in HF. specialize (HF c Hin). cbn in HF.
      assert (Hlc : nlen c = sz) by (unfold nlen; lia).
      rewrite (mem_read_pval h) by assumption. rewrite pair_value by (rewrite Hs; symmetry; assumption).
      apply orb_prop in Enc as [Enc|Enc].
      + apply andb_prop in Enc as [E1 E2]. apply N.eqb_eq in E1, E2. do 2 f_equal.
        * apply pval_small; [assumption| |]; rewrite nlen_take; lia.
        * f_equal. apply pval_small; [assumption| |]; rewrite nlen_drop; lia.
      + assert (h_native h = e) as ->; [|reflexivity].
        unfold conversion_necessary in Enc. destruct (h_native h), e; cbn in Enc; congruence.
  Qed.

  Lemma read_map_sim lm k tk tv rk rv n : pair_elem h lm tk tv -> possible_length h lm n ->
    simh rk (decl len0 tk) -> simh rv (decl len0 tv) ->
    simh (read_map h R k tk tv rk rv n)
         (xs <-- drepeat (dpair (decl len0 tk) (decl len0 tv)) (N.to_nat n) ;;
          dret (VSeq (collect k pair_key xs))).
  Proof.
    intros. destruct k; cbn [read_map].
    - eapply read_kv_sim; eassumption.
    - eapply read_kv_sim; eassumption.
    - apply slow_sim, read_pair_sim; assumption.
  Qed.

  (* ---------------------------------------------------------------- *)
  (** ** Borrowed slices *)

  Lemma borrowed_sim n : bw = true -> simh (mmap snd (borrowed R n)) (dread n).
  Proof.
    intros H. destruct (Hbw H) as [Hb _]. unfold borrowed.
    destruct (rd_borrow R) as [b|] eqn:E; [|congruence]. apply OK. assumption.
  Qed.

  Lemma cast_sim t n b : view_elem h e t -> nlen (snd b) = n * h_size h t ->
    simh (cast_slice h t n b)
      (dret (VSeq (map (pval h e t) (chunks (N.to_nat (h_size h t)) (N.to_nat n) (snd b))))).
  Proof.
    intros (Hp & Hh & Hz & Ha & Hc) Hl. unfold cast_slice. rewrite Ha, N.mod_1_r. cbn [N.eqb].
    rewrite (plain_all_ok h) by (apply (prim_plain h VH); assumption). rewrite (raw_chunks h e).
    - apply sim_ret.
    - apply (prim_plain h VH); assumption.
    - destruct Hc; [left; lia|right; assumption].
    - rewrite N2Nat.id. assumption.
  Qed.

  Lemma guard_ok {A} t (m : M St A) d : view_elem h e t -> simh m d ->
    simh (endianness_guard h R t ;;; m) d.
  Proof.
    intros (_ & _ & _ & _ & Hc) Hm. unfold endianness_guard.
    assert (negb (h_size h t =? 1) && conversion_necessary (h_native h) e = false)%bool as ->; [|exact Hm].
    destruct Hc as [-> | ->]; [reflexivity|]. unfold conversion_necessary. destruct e; cbn; apply andb_false_r.
  Qed.

  Lemma view_repeat t n o : view_elem h e t ->
    drepeat (decl len0 t) (N.to_nat n) o
    = dmap (fun bs => map (pval h e t) (chunks (N.to_nat (h_size h t)) (N.to_nat n) bs))
           (dread (n * h_size h t)) o.
  Proof.
    intros (Hp & Hh & _). rewrite (drepeat_plain h VH); [rewrite N2Nat.id; reflexivity|].
    apply (prim_plain h VH); assumption.
  Qed.

  Lemma dsized_map {A B} (f : A -> B) t n d o : dmap f (dsized lim t n d) o = dsized lim t n (dmap f d) o.
  Proof.
    unfold dsized. destruct (l_fits lim t n); [|reflexivity].
    unfold dunsure, dmap, dbind. destruct (d o); reflexivity.
  Qed.

  Lemma dsized_ext {A} t n (d d' : dec A) : (forall o, d o = d' o) ->
    forall o, dsized lim t n d o = dsized lim t n d' o.
  Proof.
    intros H o. unfold dsized. destruct (l_fits lim t n); [|reflexivity]. unfold dunsure. rewrite H. reflexivity.
  Qed.

  Lemma read_ref_slice_sim lm t n : bw = true -> view_elem h e t -> fits h lm (h_size h t) ->
    possible_length h lm n ->
    simh (read_ref_slice h R t n) (dmap VSeq (dsized lim t n (drepeat (decl len0 t) (N.to_nat n)))).
  Proof.
    intros Hb Hv Hf Hn. specialize (Hf n Hn). unfold read_ref_slice, usize_max.
    destruct (N.ltb_spec umax (n * h_size h t)); [lia|].
    eapply sim_ext; [reflexivity|intros o; symmetry; apply dsized_map|].
    eapply sim_lent; [apply Hbw, Hb| |].
    2: { intros o. unfold dmap at 1. etransitivity; [apply dbind_ext; [apply view_repeat, Hv|reflexivity]|].
         apply dbind_dmap. }
    eapply sim_ext; [reflexivity| |].
    { intros o. symmetry. unfold dmap at 1. etransitivity; [apply dbind_ext; [apply view_repeat, Hv|reflexivity]|].
      apply dbind_dmap. }
    apply (sim_bind_via _ _ snd (fun bs => nlen bs = n * h_size h t)).
    - apply borrowed_sim. assumption.
    - intros o a o' H'. eapply dread_len; eauto.
    - intros b Hl. apply cast_sim; assumption.
  Qed.

  (* ---------------------------------------------------------------- *)
  (** ** Strings *)

  Lemma as_bytes_chunks n bs : nlen bs = N.of_nat n ->
    as_bytes (map (pval h e (TP U8)) (chunks 1 n bs)) = bs.
  Proof.
    revert bs. induction n as [|n IH]; intros bs Hl.
    - apply nlen_0 in Hl. subst. reflexivity.
    - destruct bs as [|b r]; [unfold nlen in Hl; cbn in Hl; lia|].
      cbn [chunks firstn skipn map as_bytes]. f_equal.
      + cbn [pval TP]. rewrite unword1. unfold of_bits. cbn [psigned andb].
        rewrite N2Z.id. apply n2b_b2n.
      + apply IH. unfold nlen in *. cbn [length] in Hl. lia.
  Qed.

  Lemma size_u8 : h_size h (TP U8) = 1.
  Proof. apply (vh_prim h VH U8). Qed.

  Lemma u8_repeat n o : dmap as_bytes (dsized lim (TP U8) n (drepeat (decl len0 (TP U8)) (N.to_nat n))) o = dsized lim (TP U8) n (dread n) o.
  Proof.
    rewrite dsized_map. apply dsized_ext. clear o. intros o.
    transitivity (dmap as_bytes (dmap (fun bs => map (pval h e (TP U8)) (chunks 1 (N.to_nat n) bs)) (dread n)) o).
    - apply dmap_ext; [|reflexivity].
      rewrite (drepeat_plain h VH lim e e6 (TP U8)) by exact I. rewrite size_u8, N2Nat.id, N.mul_1_r.
      reflexivity.
    - rewrite dmap_dmap. unfold dmap, dbind. destruct (dread n o) as [bs o'| | | |] eqn:E; try reflexivity.
      unfold dret. rewrite as_bytes_chunks; [reflexivity|]. apply dread_len in E. lia.
  Qed.

  Lemma u8_sim : simh (read_elem_u8 h R) (decl len0 (TP U8)).
  Proof.
    apply sim_bind; [apply (read_prim_sim h R pk rep io OK U8)|]. intros. apply sim_ret.
  Qed.

  Lemma u8_elem : vec_elem h e (TP U8).
  Proof. unfold vec_elem. cbn. auto. Qed.

  Lemma read_vec_u8_sim n : simh (read_vec_u8 h R n) (dsized lim (TP U8) n (dread n)).
  Proof.
    eapply sim_ext; [reflexivity|intros o; apply u8_repeat|].
    apply sim_map, read_vec_sim; [apply u8_elem|discriminate].
  Qed.

  Lemma read_cow_u8_sim lm n : fits h lm 1 -> possible_length h lm n -> simh (read_cow_u8 h R n) (dsized lim (TP U8) n (dread n)).
  Proof.
    intros Hf Hn. eapply sim_ext; [reflexivity|intros o; apply u8_repeat|].
    apply sim_map. eapply read_cow_sim; [apply u8_elem| |eassumption|discriminate].
    intros _. change TU8 with (TP U8). rewrite size_u8. repeat split; auto. discriminate.
  Qed.

  Lemma to_str_sim k b : k <> KRegex -> simh (to_str b) (dstr lim k b).
  Proof.
    intros Hk. unfold to_str, dstr. destruct (utf8_valid b).
    - destruct k; try (apply sim_ret). congruence.
    - apply sim_fail. reflexivity.
  Qed.

  Lemma borrowed_sized n : bw = true ->
    simh (mmap snd (borrowed R n)) (dsized lim (TP U8) n (dread n)).
  Proof.
    intros H. apply (sim_lent (TP U8) n _ _ dret); [apply Hbw, H|apply borrowed_sim, H|].
    intros o. rewrite size_u8, N.mul_1_r. unfold dbind. destruct (dread n o); reflexivity.
  Qed.

  Lemma read_vec_u8_small n : n <= h_alloc_max h -> simh (read_vec_u8 h R n) (dread n).
  Proof.
    intros Hn. eapply sim_ext; [reflexivity| |apply read_vec_u8_sim].
    intros o. unfold dsized. rewrite (vh_fits h VH), size_u8, N.mul_1_r.
    destruct (N.leb_spec n (h_alloc_max h)); [|lia]. unfold dunsure, dread.
    destruct (n =? 0); [reflexivity|]. destruct o as [bs|]; [|reflexivity].
    destruct (n <=? nlen bs); reflexivity.
  Qed.

  Lemma read_constant_sim c : nlen c <= h_alloc_max h -> simh (read_constant h R c) (dconst c).
  Proof.
    intros Hc. unfold read_constant, dconst. apply sim_bind.
    - destruct (rd_borrow R) eqn:E; [apply OK; assumption|apply read_vec_u8_small, Hc].
    - intros b. destruct (list_eq_dec _ b c); [apply sim_ret|apply sim_fail; reflexivity].
  Qed.

  (* ---------------------------------------------------------------- *)
  (** ** To the end of the input *)

  Lemma read_until_eof_sim rd d : simh rd d -> simh (read_until_eof R rd) (duntil d).
  Proof.
    intros H s o Hr. destruct o as [bs|]; [|right; exact I].
    unfold read_until_eof, duntil. cbn in Hr. rewrite (ok_fuel _ _ _ _ _ OK s bs Hr).
    apply sim_until; [assumption|apply OK|exact Hr].
  Qed.

  Lemma duntil_u8 o : dmap as_bytes (duntil (decl len0 (TP U8))) o = drest o.
  Proof.
    destruct o as [bs|]; [|reflexivity]. unfold dmap, dbind, duntil.
    assert (Hx : forall k o, duntil_loop (decl len0 (TP U8)) k o
                 = duntil_loop (dmap (pval h e (TP U8)) (dread 1)) k o).
    { induction k as [|k IH]; intros o; [reflexivity|]. cbn [duntil_loop].
      rewrite (decl_plain h VH lim e e6 (TP U8)) by exact I. rewrite size_u8.
      destruct (dmap _ _ o); try reflexivity. apply dmap_ext; [apply IH|reflexivity]. }
    rewrite Hx, duntil_loop_dread by lia. rewrite N.div_1_r, N.mod_1_r.
    change (N.to_nat 1) with 1%nat. unfold dret. rewrite as_bytes_chunks by lia. reflexivity.
  Qed.

  Lemma until_str_sim k : k <> KRegex ->
    simh (vs <- read_until_eof R (read_elem_u8 h R) ;; to_str (as_bytes vs))
         (b <-- drest ;; dstr lim k b).
  Proof.
    intros Hk. eapply sim_ext; [reflexivity| |].
    { intros o. symmetry. etransitivity; [apply dbind_ext; [symmetry; apply duntil_u8|reflexivity]|].
      apply dbind_dmap. }
    apply sim_bind; [apply read_until_eof_sim, u8_sim|]. intros vs. apply to_str_sim, Hk.
  Qed.

  (* ---------------------------------------------------------------- *)
  (** ** Lengths *)

  Lemma usize_lo : 2 ^ 32 - 1 <= umax.
  Proof. apply (vh_usize_lo h VH). Qed.

  Lemma dprefix_possible b o n o' : dprefix lim e b o = DOk n o' -> possible_length h (LType b) n.
  Proof. intros H. eapply dprefix_le; [apply usize_lo|exact H]. Qed.

  Lemma read_length_then {A} b (k : N -> M St A) c :
    (forall n, possible_length h (LType b) n -> simh (k n) (c n)) ->
    simh (n <- read_length h R b ;; k n) (n <-- dprefix lim e b ;; c n).
  Proof.
    intros H. eapply sim_bind_where; [eapply read_length_sim; [eassumption|apply usize_lo]| |exact H].
    apply dprefix_possible.
  Qed.

  Lemma possible_default n : possible_length h (LType BU32) n -> possible_length h LDefault n.
  Proof. intros [H _]. exact H. Qed.

  Lemma with_length_sim prev a k c ue te :
    (forall n, possible_length h (f_len a) n -> simh (k n) (c n)) ->
    (f_len a = LEof -> simh ue te) ->
    simh (with_length h R prev a k ue) (dlen lim e (resolve (f_eof a) prev (f_len a)) c te).
  Proof.
    intros Hk Hue. unfold with_length.
    assert (Hpre : forall b, (forall n, possible_length h (LType b) n -> possible_length h (f_len a) n) ->
      simh (n <- (if f_eof a then catch_eof 0 (read_length h R b) else read_length h R b) ;; k n)
           (n <-- (if f_eof a then dcatch 0 (dprefix lim e b) else dprefix lim e b) ;; c n)).
    { intros b Hb. destruct (f_eof a); [|apply read_length_then; auto].
      apply (sim_bind_where _ _ (fun n => possible_length h (LType b) n)).
      - apply sim_catch; [eapply read_length_sim; [eassumption|apply usize_lo]|apply OK].
      - intros o n o' E. unfold dcatch in E.
        destruct (dprefix lim e b o) as [x o1| |er []|f []|] eqn:Ed; try discriminate.
        + injection E as <- <-. eapply dprefix_possible; eassumption.
        + injection E as <- _. split; lia.
      - intros n Hn. auto. }
    destruct (f_len a) as [|b|f|] eqn:El; cbn [resolve dlen length_type].
    - apply Hpre. apply possible_default.
    - apply Hpre. auto.
    - destruct (f prev) as [n|] eqn:Ef; [|apply sim_crash]. apply Hk. exists prev. assumption.
    - auto.
  Qed.

  (* ---------------------------------------------------------------- *)
  (** ** Scalars *)

  Notation u8_ok := (read_u8_sim h R pk rep io OK).
  Notation uint_ok := (read_uint_sim h R pk rep io OK).
  Notation prim_sim := (read_prim_sim h R pk rep io OK).
  Notation varint_ok := (read_varint_sim h R pk rep io OK).

  Lemma read_ipv4_sim : simh (read_ipv4 h R) (b <-- dread 4 ;; dret (VBytes (octets e b))).
  Proof.
    eapply sim_ext with (d := n <-- dword e 4 ;; dret (VBytes (rev (le_bytes 4 n)))); [reflexivity| |].
    - intros o. unfold dword. rewrite dbind_dmap. change (N.of_nat 4) with 4.
      unfold dbind. destruct (dread 4 o) as [b o'| | | |] eqn:E; try reflexivity.
      apply dread_len in E. unfold dret. do 2 f_equal.
      assert (Hl : length b = 4%nat) by (unfold nlen in E; lia).
      destruct e; cbn [unword octets].
      + rewrite le_bytes_le_num' by assumption. reflexivity.
      + rewrite le_bytes_le_num' by (rewrite rev_length; assumption). apply rev_involutive.
    - apply sim_bind; [apply uint_ok|]. intros. apply sim_ret.
  Qed.

  Lemma read_ipv6_sim : simh (read_ipv6 h R) (b <-- dread 16 ;; dret (VBytes (octets e6 b))).
  Proof.
    apply sim_bind; [apply OK|]. intros b.
    replace (octets e6 b) with
      (if negb (conversion_necessary (h_native h) e) then rev b else b); [apply sim_ret|].
    unfold ipv6_order. destruct (h_native h), e; reflexivity.
  Qed.

  Lemma read_duration_sim : simh (read_duration h R) (dduration e).
  Proof.
    apply sim_bind; [apply uint_ok|]. intros secs. apply sim_bind; [apply uint_ok|]. intros nanos.
    unfold duration_new. change (10 ^ 9) with 1000000000.
    destruct (secs + nanos / 1000000000 <? 2 ^ 64); [apply sim_lift; reflexivity|].
    apply (sim_crash rep io PanicExplicit).
  Qed.

  Lemma read_scalar_sim s : simh (read_scalar h R s) (dec_scalar lim e e6 s).
  Proof.
    destruct s; cbn [read_scalar dec_scalar]; unfold dint.
    - apply sim_bind; [apply prim_sim|]. intros. apply sim_ret.
    - apply sim_bind; [apply uint_ok|]. intros n. unfold usize_max. rewrite N.ltb_antisym.
      destruct (n <=? umax); cbn [negb]; [apply sim_ret|apply sim_fail; reflexivity].
    - apply sim_bind; [apply u8_ok|]. intros. apply sim_ret.
    - apply sim_bind; [apply uint_ok|]. intros n.
      destruct (is_scalar n); [apply sim_ret|apply sim_fail; reflexivity].
    - apply sim_bind; [apply u8_ok|]. intros n.
      destruct (N.eqb_spec n 0) as [->|H0]; [apply sim_ret|].
      destruct (N.eqb_spec n 1) as [->|H1]; [apply sim_ret|].
      destruct (N.leb_spec n 1); [lia|]. apply sim_fail. reflexivity.
    - apply sim_ret.
    - apply sim_bind; [apply prim_sim|]. intros z.
      destruct (z =? 0)%Z; [apply sim_fail; reflexivity|apply sim_ret].
    - apply sim_bind; [apply prim_sim|]. intros. apply sim_ret.
    - apply sim_bind; [apply varint_ok|]. intros. apply sim_ret.
    - apply read_ipv4_sim.
    - apply read_ipv6_sim.
    - apply sim_bind; [apply u8_ok|]. intros n. destruct (n =? 0); [|destruct (n =? 1)].
      + eapply sim_ext; [reflexivity| |apply sim_bind; [apply read_ipv4_sim|intros; apply sim_ret]].
        intros o. rewrite dbind_assoc. reflexivity.
      + eapply sim_ext; [reflexivity| |apply sim_bind; [apply read_ipv6_sim|intros; apply sim_ret]].
        intros o. rewrite dbind_assoc. reflexivity.
      + apply sim_fail. reflexivity.
    - apply read_duration_sim.
    - apply (sim_bind_where _ _ (fun v => exists s r, v = VSeq (VInt s :: r))); [apply read_duration_sim| |].
      + intros o v o' E. unfold dduration, dbind in E.
        destruct (dword e 8 o) as [x o1| | | |]; try discriminate.
        destruct (dword e 4 o1) as [y o2| | | |]; try discriminate.
        destruct (_ <? _); [|discriminate]. injection E as <- _. eauto.
      + intros v (s & r & ->). rewrite Z.ltb_antisym.
        destruct (s <=? Z.of_N (l_systime_max lim))%Z; cbn [negb]; [apply sim_ret|apply sim_fail; reflexivity].
    - apply sim_bind; [apply OK|]. intros. apply sim_ret.
    - apply sim_bind; [apply prim_sim|]. intros s. apply sim_bind; [apply uint_ok|]. intros n.
      destruct (l_chrono_ok lim s n); [apply sim_ret|apply sim_crash].
    - apply sim_bind; [|intros; apply sim_ret]. apply sim_repeat.
      apply sim_bind; [apply prim_sim|]. intros. apply sim_ret.
    - apply sim_bind; [apply u8_ok|]. intros m.
      replace (bvec_of_mask n m) with (map (fun i => VBool (N.odd (m / 2 ^ N.of_nat i))) (seq 0 n)); [apply sim_ret|].
      apply map_ext. intros i. rewrite N.testbit_odd, N.shiftr_div_pow2. reflexivity.
  Qed.

  (* ---------------------------------------------------------------- *)
  (** ** Every type *)

  Notation read := (read h R).

  (** How a field of the type is read: [l] as given by the attributes. *)
  Definition inner_sim (t : ty) : Prop := forall a prev,
    supported (if is_container t then f_len a else LDefault) t ->
    simh (read_field_inner h R read prev a false t)
         (decl (if is_container t then resolve (f_eof a) prev (f_len a) else len0) t).

  Definition type_sim (t : ty) : Prop :=
    (supported LDefault t -> simh (read t) (decl len0 t)) /\ inner_sim t
    /\ (forall t', t = TOption t' -> inner_sim t').

  Lemma read_field_sim prev a t : type_sim t -> f_skip a = false -> sup_field h supported a t ->
    simh (read_field h R read prev a t) (dfield lim e e6 decl prev a t).
  Proof.
    intros (Ht & Hi & Ho) Hs [Hs'|(Hv & Hpf & Hsup)]; [congruence|].
    unfold read_field, dfield.
    match goal with |- simh (if _ then catch_eof _ ?m else _) (if _ then dcatch _ ?d else _) =>
      assert (Hbody : simh m d) end.
    { apply sim_bind.
      - destruct (f_prefix a) eqn:Ep; [|apply read_constant_sim, Hpf].
        apply (sim_ext rep io (ret tt) (ret tt) (dret tt)); [reflexivity|reflexivity|apply sim_ret].
      - intros _. unfold sized_field, field_len in *. unfold sized_field.
        destruct (f_opaque a) eqn:Eo; cbn [negb andb] in *.
        + destruct (f_varint a); [destruct (Hv eq_refl); discriminate|]. auto.
        + destruct (f_varint a) eqn:Ev.
          * destruct (Hv eq_refl) as [_ Hx]. destruct t as [[]| | | | | | | | | | | | | |]; try contradiction.
            cbn [read_field_inner]. apply sim_bind; [apply varint_ok|]. intros. apply sim_ret.
          * specialize (Hi a prev). destruct t; try exact (Hi Hsup).
            cbn [Spec.decl]. apply sim_bind; [apply u8_ok|]. intros x.
            destruct (x =? 0); [apply sim_ret|]. apply sim_map.
            apply (Ho _ eq_refl a prev). exact Hsup. }
    destruct (f_eof a); [|exact Hbody]. apply sim_catch; [exact Hbody|apply OK].
  Qed.

  Lemma read_fields_sim fs : Forall (fun f => type_sim (snd f)) fs ->
    all_fields (sup_field h supported) fs -> forall prev,
    simh (read_fields h R read prev fs) (dfields lim e e6 decl prev fs).
  Proof.
    induction 1 as [|f r Hf Hr IH]; intros Hs prev; cbn [read_fields dfields]; [apply sim_ret|].
    destruct Hs as [Hs Hsr]. destruct (f_skip (fst f)) eqn:Ek; [apply sim_map, IH, Hsr|].
    apply sim_bind; [apply read_field_sim; assumption|]. intros v.
    apply sim_bind; [apply IH, Hsr|]. intros. apply sim_ret.
  Qed.

  Lemma read_variant_sim tag vs : Forall (fun v => Forall (fun f => type_sim (snd f)) (snd v)) vs ->
    all_variants (all_fields (sup_field h supported)) vs -> forall i,
    simh (read_variant h R read tag i vs) (dvariant lim e e6 decl tag i vs).
  Proof.
    induction 1 as [|v r Hv Hr IH]; intros Hs i; cbn [read_variant dvariant];
      [apply sim_fail; reflexivity|].
    destruct Hs as [Hs Hsr]. destruct (fst v =? tag); [|apply IH, Hsr].
    apply sim_map, read_fields_sim; assumption.
  Qed.

  Lemma read_tag_sim d : (e_peek d = true -> pk = true /\ e_tag d <> BVarint) ->
    simh (read_tag h R d) (if e_peek d then dpeek (dbasic e (e_tag d)) else dbasic e (e_tag d)).
  Proof.
    intros H. unfold read_tag. destruct (e_peek d).
    - destruct (H eq_refl) as [Hp Hne].
      destruct (e_tag d); cbn [dbasic];
        first [congruence | apply (peek_u8_sim h R pk rep io OK Hp) | apply (peek_uint_sim h R pk rep io OK _ Hp)].
    - destruct (e_tag d); cbn [dbasic]; first [apply u8_ok | apply uint_ok | apply varint_ok].
  Qed.

  Lemma plain_inner t : is_container t = false -> (forall t' n, t <> TArr t' n) ->
    (supported LDefault t -> simh (read t) (decl len0 t)) -> inner_sim t.
  Proof.
    intros Hc Ha H a prev. rewrite Hc. intros Hs.
    replace (read_field_inner h R read prev a false t) with (read t); [auto|].
    destruct t as [[]|[]|[]| | | | | | |[]|[]| | | |]; try discriminate; try reflexivity.
    exfalso. eapply Ha. reflexivity.
  Qed.

  Lemma sim_length_default (k : N -> M St val) c :
    (forall n, possible_length h LDefault n -> simh (k n) (c n)) ->
    forall te, simh (n <- read_length h R BU32 ;; k n) (dlen lim e len0 c te).
  Proof.
    intros H te. cbn [len0 dlen]. apply read_length_then. intros n Hn. apply H, possible_default, Hn.
  Qed.

  Lemma dmap_dlen {A B} (f : A -> B) l c te o :
    dmap f (dlen lim e l c te) o = dlen lim e l (fun n => dmap f (c n)) (dmap f te) o.
  Proof.
    destruct l as [b ln|[n|]|]; cbn [dlen]; try reflexivity. apply dbind_assoc.
  Qed.

  Lemma dbind_dlen {A B} (k : A -> dec B) l c te o :
    dbind (dlen lim e l c te) k o = dlen lim e l (fun n => dbind (c n) k) (dbind te k) o.
  Proof.
    destruct l as [b ln|[n|]|]; cbn [dlen]; try reflexivity. apply dbind_assoc.
  Qed.

  (** Borrowing everything that is left. *)
  Lemma rest_slice_sim t : bw = true -> view_elem h e t ->
    simh (b <- match rd_borrow_eof R with Some b => b | None => fail Unsized end ;;
          if h_size h t =? 0 then crash PanicDivZero
          else cast_slice h t (nlen (snd b) / h_size h t) b)
         (dmap VSeq (duntil (decl len0 t))).
  Proof.
    intros Hb Hv. pose proof Hv as (Hp & Hh & Hz & Ha & Hc).
    assert (Hpl : plain_data h t) by (apply (prim_plain h VH); assumption).
    destruct (Hbw Hb) as [_ Hbe]. destruct (rd_borrow_eof R) as [b|] eqn:Eb; [|congruence].
    pose proof (ok_borrow_eof _ _ _ _ _ OK b Eb) as Hrest.
    intros s o Hr. destruct o as [bs|]; [|right; exact I].
    specialize (Hrest s (Some bs) Hr). unfold bind. unfold mmap, bind in Hrest.
    destruct (b s) as [r s'] eqn:Es. cbn [drest] in Hrest.
    assert (Hu : duntil (decl len0 t) (Some bs)
      = DOk (map (pval h e t) (chunks (N.to_nat (h_size h t)) (N.to_nat (nlen bs / h_size h t)) bs))
            (if nlen bs mod h_size h t =? 0 then Some [] else None)).
    { unfold duntil. rewrite <- duntil_loop_dread with (k := S (length bs)) by (try assumption; lia).
      generalize (S (length bs)) as k. generalize (Some bs) as o. clear -VH Hpl.
      intros o k. revert o. induction k as [|k IH]; intros o; [reflexivity|]. cbn [duntil_loop].
      rewrite (decl_plain h VH lim e e6 t) by assumption. destruct (dmap _ _ o); try reflexivity.
      apply dmap_ext; [apply IH|reflexivity]. }
    destruct r as [x|er|f]; cbn [fst snd ret] in *.
    - destruct Hrest as [(er & E & _)|Hpost]; [discriminate|].
      cbn [post] in Hpost. destruct Hpost as (E & Hr' & Hemp). injection E as E.
      destruct (N.eqb_spec (h_size h t) 0); [contradiction|].
      right. unfold dmap, dbind. rewrite Hu. unfold dret.
      unfold cast_slice. rewrite Ha, N.mod_1_r, (plain_all_ok h) by assumption.
      cbn [N.eqb ret fst snd post]. rewrite E.
      assert (Ev : map (mem_read h t) (chunks (N.to_nat (h_size h t)) (N.to_nat (nlen bs / h_size h t)) bs)
         = map (pval h e t) (chunks (N.to_nat (h_size h t)) (N.to_nat (nlen bs / h_size h t)) bs)).
      { (* leftover bytes are ignored *)
        set (q := nlen bs / h_size h t).
        assert (Hle : q * h_size h t <= nlen bs) by (rewrite N.mul_comm; apply N.mul_div_le; assumption).
        assert (Hck : forall k sz (l : bytes), (k * sz <= length l)%nat ->
                  chunks sz k l = chunks sz k (firstn (k * sz) l)).
        { clear. induction k as [|k IH]; intros sz l Hl; [reflexivity|]. cbn [chunks Nat.mul].
          rewrite firstn_firstn, Nat.min_l by lia. f_equal.
          rewrite IH by (rewrite skipn_length; lia). rewrite skipn_firstn_comm.
          replace (sz + k * sz - sz)%nat with (k * sz)%nat by lia. reflexivity. }
        rewrite Hck by (unfold nlen in Hle; lia).
        apply raw_chunks; auto.
        - destruct Hc; [left; lia|right; assumption].
        - unfold nlen in *. rewrite firstn_length. lia. }
      rewrite Ev. split; [reflexivity|]. split.
      + destruct (nlen bs mod h_size h t =? 0); cbn; [exact Hr'|]. exists []. exact Hr'.
      + intros Eo. injection Eo as ->. change (nlen []) with 0. rewrite N.mod_0_l by assumption. reflexivity.
    - left. destruct Hrest as [He|Hpost]; [|destruct Hpost; discriminate].
      eapply escape_cast; [|exact He]. reflexivity.
    - left. destruct Hrest as [He|Hpost]; [|destruct Hpost; discriminate].
      eapply escape_cast; [|exact He]. reflexivity.
  Qed.

  Theorem read_sim_all t : type_sim t.
  Proof.
    induction t as [s|k|k t IH|t n IH|t n IH|t IH|t1 t2 IH1 IH2|ts IH|i t IH|k t IH|k tk tv IHk IHv|t IH|d fs IH|d vs IH|]
      using ty_ind'.
    - (* scalar *)
      assert (H : supported LDefault (TScalar s) -> simh (read (TScalar s)) (decl len0 (TScalar s)))
        by (intros _; apply read_scalar_sim).
      split; [exact H|split; [|intros; discriminate]]. apply plain_inner; [reflexivity|discriminate|exact H].
    - (* string *)
      assert (H : supported LDefault (TStr k) -> simh (read (TStr k)) (decl len0 (TStr k))).
      { intros Hs. cbn [ReadImpl.read read_str Spec.decl]. apply sim_length_default. intros n Hn.
        destruct k; cbn [Supported.supported] in Hs.
        - apply sim_bind; [apply read_vec_u8_sim|]. intros. apply to_str_sim. discriminate.
        - apply sim_bind; [apply read_vec_u8_sim|]. intros. apply to_str_sim. discriminate.
        - apply sim_bind; [eapply read_cow_u8_sim; eassumption|]. intros. apply to_str_sim. discriminate.
        - apply (sim_bind_via _ _ snd (fun _ => True)); [apply borrowed_sized, Hs|auto|].
          intros. apply to_str_sim. discriminate.
        - apply sim_bind; [eapply read_cow_u8_sim; eassumption|]. intros b. unfold to_str, dstr.
          destruct (utf8_valid b); cbn [bind ret fail].
          + unfold bind, ret. destruct (l_regex_ok lim b); [apply sim_ret|apply sim_fail; reflexivity].
          + unfold bind, fail. apply (sim_fail rep io InvalidUtf8). reflexivity. }
      split; [exact H|split; [|intros; discriminate]].
      destruct k; try (apply plain_inner; [reflexivity|discriminate|exact H]);
        intros a prev Hs; cbn [is_container] in *; cbn [Supported.supported] in Hs;
        cbn [read_field_inner Spec.decl]; apply with_length_sim.
      + intros n Hn. apply sim_bind; [apply read_vec_u8_sim|]. intros. apply to_str_sim. discriminate.
      + intros _. apply until_str_sim. discriminate.
      + intros n Hn. apply sim_bind; [eapply read_cow_u8_sim; eassumption|]. intros. apply to_str_sim. discriminate.
      + intros _. apply until_str_sim. discriminate.
      + intros n Hn. apply (sim_bind_via _ _ snd (fun _ => True)); [apply borrowed_sized, Hs|auto|].
        intros. apply to_str_sim. discriminate.
      + intros _. destruct (Hbw Hs) as [_ Hbe]. destruct (rd_borrow_eof R) as [b|] eqn:Eb; [|congruence].
        apply (sim_bind_via _ _ snd (fun _ => True)); [apply OK, Eb|auto|].
        intros. apply to_str_sim. discriminate.
    - (* slice *)
      destruct IH as (IH & _ & _).
      assert (Hcnt : forall lm k n, seq_elem h e bw lm k t -> supported LDefault t -> possible_length h lm n ->
         match k with
         | KVec | KBoxSlice | KSmallVec => simh (read_vec h R t (read t) n) (dsized lim t n (drepeat (decl len0 t) (N.to_nat n)))
         | KCow => simh (read_cow h R t (read t) n) (dsized lim t n (drepeat (decl len0 t) (N.to_nat n)))
         | KRef => simh (read_ref_slice h R t n) (dmap VSeq (dsized lim t n (drepeat (decl len0 t) (N.to_nat n))))
         end).
      { intros lm k0 n He Hs Hn. destruct k0; cbn [seq_elem] in He.
        - apply read_vec_sim; auto.
        - apply read_vec_sim; auto.
        - apply read_vec_sim; auto.
        - destruct He. eapply read_cow_sim; eauto.
        - destruct He as (? & ? & ?). eapply read_ref_slice_sim; eauto. }
      assert (H : supported LDefault (TSeq k t) -> simh (read (TSeq k t)) (decl len0 (TSeq k t))).
      { intros [He Hs]. cbn [ReadImpl.read Spec.decl].
        eapply sim_ext; [reflexivity|intros o; symmetry; apply dmap_dlen|].
        pose proof (fun n => Hcnt LDefault k n He Hs) as Hc.
        destruct k; cbn [read_seq];
          try (apply sim_length_default; intros n Hn; apply sim_map, Hc, Hn).
        destruct He as (? & ? & ?). apply guard_ok; [assumption|]. apply sim_length_default. exact Hc. }
      split; [exact H|split; [|intros; discriminate]].
      destruct k; try (apply plain_inner; [reflexivity|discriminate|exact H]);
        intros a prev Hs; cbn [is_container] in *; destruct Hs as [He Hs];
        cbn [read_field_inner Spec.decl];
        (eapply sim_ext; [reflexivity|intros o; symmetry; apply dmap_dlen|]);
        pose proof (fun n => Hcnt (f_len a) _ n He Hs) as Hc; cbn beta iota in Hc.
      + apply with_length_sim.
        * intros n Hn. apply sim_map, Hc, Hn.
        * intros _. apply sim_map, read_until_eof_sim; auto.
      + apply with_length_sim.
        * intros n Hn. apply sim_map, Hc, Hn.
        * intros _. apply sim_map, read_until_eof_sim; auto.
      + destruct He as (Hb & Hv & Hf). apply guard_ok; [assumption|]. apply with_length_sim.
        * intros n Hn. apply Hc, Hn.
        * intros _. apply rest_slice_sim; assumption.
    - (* array *)
      destruct IH as (IH & _ & _).
      split; [|split; [|intros; discriminate]].
      + intros [He Hs]. cbn [ReadImpl.read Spec.decl]. unfold read_array. destruct (is_prim h t) eqn:Ep.
        * specialize (He eq_refl). unfold vec_elem in He. rewrite Ep in He. destruct He as [Hh Hc].
          assert (Hp : plain_data h t) by (apply (prim_plain h VH); assumption).
          eapply sim_ext; [reflexivity| |].
          { intros o. symmetry. unfold dmap at 1. etransitivity;
              [apply dbind_ext; [apply (drepeat_plain h VH); assumption|reflexivity]|]. apply dbind_dmap. }
          apply (sim_bind_where _ _ (fun bs => nlen bs = N.of_nat n * h_size h t)); [apply OK| |].
          -- intros o a o' E. eapply dread_len; eauto.
          -- intros bs Hb. rewrite (conv_chunks h VH) by auto.
             apply (sim_ret rep io).
        * apply sim_map, sim_repeat, IH, Hs.
      + intros a prev [_ Hs]. cbn [is_container] in *. cbn [read_field_inner Spec.decl].
        apply sim_map, sim_repeat, IH, Hs.
    - (* borrowed array *)
      assert (H : supported LDefault (TRefArr t n) -> simh (read (TRefArr t n)) (decl len0 (TRefArr t n))).
      { intros [Hb Hv]. cbn [ReadImpl.read Spec.decl]. unfold read_ref_array. apply guard_ok; [assumption|].
        eapply sim_ext; [reflexivity| |].
        { intros o. symmetry. unfold dmap at 1. etransitivity; [apply dbind_ext; [|reflexivity]|].
          - pose proof (view_repeat t (N.of_nat n) o Hv) as E. rewrite Nat2N.id in E. exact E.
          - apply dbind_dmap. }
        rewrite (N.mul_comm (h_size h t)).
        apply (sim_bind_via _ _ snd (fun bs => nlen bs = N.of_nat n * h_size h t)).
        - apply borrowed_sim. assumption.
        - intros o a o' H'. eapply dread_len; eauto.
        - intros b Hl. pose proof (cast_sim t (N.of_nat n) b Hv Hl) as E. rewrite Nat2N.id in E. exact E. }
      split; [exact H|split; [|intros; discriminate]]. apply plain_inner; [reflexivity|discriminate|exact H].
    - (* option *)
      destruct IH as (IH & Hi & _).
      assert (H : supported LDefault (TOption t) -> simh (read (TOption t)) (decl len0 (TOption t))).
      { intros Hs. cbn [ReadImpl.read Spec.decl]. apply sim_bind; [apply u8_ok|]. intros x.
        destruct (x =? 0); [apply sim_ret|]. apply sim_map, IH, Hs. }
      split; [exact H|split].
      + apply plain_inner; [reflexivity|discriminate|exact H].
      + intros t' E. injection E as <-. exact Hi.
    - (* result *)
      destruct IH1 as (IH1 & _). destruct IH2 as (IH2 & _).
      assert (H : supported LDefault (TResult t1 t2) -> simh (read (TResult t1 t2)) (decl len0 (TResult t1 t2))).
      { intros [Hs1 Hs2]. cbn [ReadImpl.read Spec.decl]. apply sim_bind; [apply u8_ok|]. intros x.
        destruct (x =? 0); apply sim_map; auto. }
      split; [exact H|split; [|intros; discriminate]]. apply plain_inner; [reflexivity|discriminate|exact H].
    - (* tuple *)
      assert (H : supported LDefault (TTuple ts) -> simh (read (TTuple ts)) (decl len0 (TTuple ts))).
      { intros Hs. cbn [ReadImpl.read Spec.decl]. apply sim_map. cbn [Supported.supported] in Hs.
        induction IH as [|t r IHt IHr IHl]; cbn [read_tuple dtuple]; [apply sim_ret|].
        destruct Hs as [Hs Hsr]. apply sim_bind; [apply IHt, Hs|]. intros v.
        apply sim_bind; [apply IHl, Hsr|]. intros. apply sim_ret. }
      split; [exact H|split; [|intros; discriminate]]. apply plain_inner; [reflexivity|discriminate|exact H].
    - (* range *)
      destruct IH as (IH & _).
      assert (H : supported LDefault (TRange i t) -> simh (read (TRange i t)) (decl len0 (TRange i t))).
      { intros Hs. cbn [ReadImpl.read Spec.decl]. apply sim_bind; [apply IH, Hs|]. intros x.
        apply sim_bind; [apply IH, Hs|]. intros. apply sim_ret. }
      split; [exact H|split; [|intros; discriminate]]. apply plain_inner; [reflexivity|discriminate|exact H].
    - (* set *)
      destruct IH as (IH & _).
      assert (H : supported LDefault (TSet k t) -> simh (read (TSet k t)) (decl len0 (TSet k t))).
      { intros [He Hs]. cbn [ReadImpl.read Spec.decl].
        eapply sim_ext; [reflexivity|intros o; symmetry; apply dbind_dlen|].
        apply sim_length_default. intros n Hn. eapply read_collection_sim; eauto. }
      split; [exact H|split; [|intros; discriminate]].
      destruct k; try (apply plain_inner; [reflexivity|discriminate|exact H]);
        intros a prev [He Hs]; cbn [is_container] in *; cbn [read_field_inner Spec.decl];
        (eapply sim_ext; [reflexivity|intros o; symmetry; apply dbind_dlen|]); apply with_length_sim;
        try (intros n Hn; eapply read_collection_sim; eauto; fail);
        intros _; (apply sim_bind; [apply read_until_eof_sim; auto|]); intros; apply sim_ret.
    - (* map *)
      destruct IHk as (IHk & _). destruct IHv as (IHv & _).
      assert (H : supported LDefault (TMap k tk tv) -> simh (read (TMap k tk tv)) (decl len0 (TMap k tk tv))).
      { intros (He & Hs1 & Hs2). cbn [ReadImpl.read Spec.decl].
        eapply sim_ext; [reflexivity|intros o; symmetry; apply dbind_dlen|].
        apply sim_length_default. intros n Hn. eapply read_map_sim; eauto. }
      split; [exact H|split; [|intros; discriminate]].
      destruct k; try (apply plain_inner; [reflexivity|discriminate|exact H]);
        intros a prev (He & Hs1 & Hs2); cbn [is_container] in *; cbn [read_field_inner Spec.decl];
        (eapply sim_ext; [reflexivity|intros o; symmetry; apply dbind_dlen|]); apply with_length_sim;
        try (intros n Hn; eapply read_kv_sim; eauto; fail);
        intros _; (apply sim_bind; [apply read_until_eof_sim, read_pair_sim; auto|]); intros; apply sim_ret.
    - (* box *)
      destruct IH as (IH & _).
      assert (H : supported LDefault (TBox t) -> simh (read (TBox t)) (decl len0 (TBox t))) by exact IH.
      split; [exact H|split; [|intros; discriminate]]. apply plain_inner; [reflexivity|discriminate|exact H].
    - (* struct *)
      assert (H : supported LDefault (TStruct d fs) -> simh (read (TStruct d fs)) (decl len0 (TStruct d fs))).
      { intros Hs. apply sim_map, read_fields_sim; assumption. }
      split; [exact H|split; [|intros; discriminate]]. apply plain_inner; [reflexivity|discriminate|exact H].
    - (* enum *)
      assert (H : supported LDefault (TEnum d vs) -> simh (read (TEnum d vs)) (decl len0 (TEnum d vs))).
      { intros [Hp Hs]. cbn [ReadImpl.read Spec.decl]. apply sim_bind; [apply read_tag_sim, Hp|].
        intros tag. apply read_variant_sim; assumption. }
      split; [exact H|split; [|intros; discriminate]]. apply plain_inner; [reflexivity|discriminate|exact H].
    - (* end of an unrolling *)
      assert (H : supported LDefault TBot -> simh (read TBot) (decl len0 TBot)).
      { intros _. apply sim_crash. }
      split; [exact H|split; [|intros; discriminate]]. apply plain_inner; [reflexivity|discriminate|exact H].
  Qed.

  (** Reading a supported type follows the decoder. *)
  Theorem read_sim t : supported LDefault t -> simh (read t) (decl len0 t).
  Proof. apply read_sim_all. Qed.
End Read.
