(* The sample 64-bit host is a 64-bit host in the sense of [host_64]. *)
From Verif Require Import Ordinary Samples.

Lemma place_sum packed l : forall off, off + nsum (map fst l) <= snd (place packed off l).
Proof.
  induction l as [|[s a] l IH]; intros off; cbn [place map fst nsum fold_right].
  - cbn. lia.
  - specialize (IH ((if packed then off else round_up off a) + s)).
    destruct (place packed _ l) as [os e] eqn:E. cbn [snd] in *.
    assert (off <= if packed then off else round_up off a) by (destruct packed; [lia|apply round_up_le]).
    unfold nsum in *. lia.
Qed.

Lemma seq_layout_sum packed off l : off + nsum (map fst l) <= fst (seq_layout packed off l).
Proof. unfold seq_layout. cbn [fst]. eapply N.le_trans; [apply place_sum|apply round_up_le]. Qed.

Lemma enum_layout_pos vs : (2 <= length vs)%nat -> fst (enum_layout vs) <> 0.
Proof.
  destruct vs as [|v1 [|v2 vs]]; cbn [length]; try lia. intros _. unfold enum_layout. cbn [fst].
  generalize (map (seq_layout false 1) (v1 :: v2 :: vs)). intros ls.
  assert (Hm : 1 <= fold_right (fun x m => N.max (fst x) m) 1 ls).
  { induction ls as [|x ls IH]; cbn [fold_right]; lia. }
  pose proof (round_up_le (fold_right (fun x m => N.max (fst x) m) 1 ls) (fold_right (fun x m => N.max (snd x) m) 1 ls)). lia.
Qed.

Lemma layout64_hollow t : ordinary t -> fst (layout 8 false t) = 0 -> hollow t.
Proof.
  assert (Hfs : forall fs, Forall (fun f => ordinary (snd f) -> fst (layout 8 false (snd f)) = 0 -> hollow (snd f)) fs ->
    all_fields (ordinary_field ordinary) fs -> nsum (map fst (map (fun f => layout 8 false (snd f)) fs)) = 0 ->
    all_fields (fun _ t => hollow t) fs).
  { induction 1 as [|[a t0] fs IH _ IHfs]; [auto|]. intros [[H _] Hs] E. cbn [map nsum fold_right fst snd] in *.
    unfold nsum in IHfs. split; [apply IH; [exact H|]|apply IHfs; [exact Hs|]]; lia. }
  induction t as [s|k|k t IH|t n IH|t n IH|t IH|t1 t2 IH1 IH2|ts IH|i t IH|k t IH|k tk tv IHk IHv|t IH|d fs IH|d vs IH|]
    using ty_ind'; cbn [ordinary hollow layout]; try tauto.
  - destruct s; cbn [scalar_layout fst]; try (intros _ E; discriminate E); auto; try (destruct p; discriminate).
    + intros Hn E. destruct n; [congruence|]. destruct p; cbn in E; lia.
    + intros Hn E. lia.
  - intros _ E. destruct k; discriminate E.
  - intros _ E. destruct k; discriminate E.
  - intros Ho. destruct (layout 8 false t) as [s a]. cbn [fst] in *. intros E.
    apply N.eq_mul_0 in E as [E|E]; [right; auto|left; lia].
  - intros Ho E. apply enum_layout_pos in E; [destruct E|cbn; lia].
  - intros Ho E. apply enum_layout_pos in E; [destruct E|cbn; lia].
  - intros Ho E. pose proof (seq_layout_sum false 0 (map (layout 8 false) ts)) as Hs. rewrite E in Hs.
    clear E. induction IH as [|t ts IH _ IHts]; [exact I|]. destruct Ho as [H1 H2]. cbn [map nsum fold_right] in *.
    unfold nsum in *. split; [apply IH; [exact H1|]|apply IHts; [exact H2|]]; lia.
  - intros Ho E. destruct i.
    + pose proof (seq_layout_sum false 0 [layout 8 false t; layout 8 false t; (1, 1)]) as Hs. rewrite E in Hs. cbn in Hs. lia.
    + pose proof (seq_layout_sum false 0 [layout 8 false t; layout 8 false t]) as Hs. rewrite E in Hs. cbn in Hs.
      split; [reflexivity|]. apply IH; [exact Ho|lia].
  - intros _ E. discriminate E.
  - intros _ E. discriminate E.
  - intros _ E. discriminate E.
  - intros (_ & Hr & H) E. apply Hfs; [exact IH|exact H|].
    pose proof (seq_layout_sum false 0 (map (fun f => layout 8 false (snd f)) fs)) as Hs.
    assert (E' : struct_layout false d (map (fun f => layout 8 false (snd f)) fs)
                 = seq_layout false 0 (map (fun f => layout 8 false (snd f)) fs)).
    { unfold struct_layout, order. destruct Hr as [-> | ->]; reflexivity. }
    rewrite E' in E. rewrite E in Hs. lia.
  - intros (_ & Hl & _) E. apply enum_layout_pos in E; [destruct E|]. rewrite map_length. exact Hl.
Qed.

Lemma host64_64 : host_64 host64.
Proof.
  constructor.
  - exact host64_valid.
  - reflexivity.
  - reflexivity.
  - exact layout64_hollow.
  - intros tk tv. cbn [host64 make_host h_size]. unfold pair_ty. cbn [layout map snd]. unfold struct_layout.
    cbn [pair_decl sd_repr]. destruct (layout 8 false tk) as [s1 a1] eqn:E1, (layout 8 false tv) as [s2 a2] eqn:E2. split.
    + cbn [seq_layout place snd fst]. unfold round_up. cbn [N.eqb]. change (1 =? 0) with false. cbv iota. rewrite N.div_1_r, N.mul_1_r. lia.
    + unfold offsets. cbn [length seq map host64 make_host h_offset]. unfold the_offset, field_layouts. cbn [map snd].
      rewrite E1, E2. unfold struct_offsets. cbn [pair_decl sd_repr place fst nth]. unfold ascending. rewrite andb_true_r.
      apply N.leb_le. lia.
Qed.
