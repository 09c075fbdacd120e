(* Property C133: `minimum_bytes_needed` is computed in `usize`. *)
From Verif Require Import MinCounted TyInd Safe Sane CalmCheck Hosts Samples PropSafe.

(** The types whose minimum goes into that of [t]; the fields of a variant count as a
    struct. *)
Inductive inside (u : ty) : ty -> Prop :=
| in_self : inside u u
| in_array t n : inside u t -> inside u (TArr t n)
| in_range i t : inside u t -> inside u (TRange i t)
| in_box t : inside u t -> inside u (TBox t)
| in_tuple t ts : In t ts -> inside u t -> inside u (TTuple ts)
| in_field a t d fs : In (a, t) fs -> inside u t -> inside u (TStruct d fs)
| in_variant i fs d e vs : In (i, fs) vs -> inside u (TStruct d fs) -> inside u (TEnum e vs).

Section C133.
  Context (h : host) (VH : valid_host h) (part : fields -> bool).
  Notation umax := (l_usize_max (h_lim h)).
  Notation checks := (h_overflow_checks h).
  Notation min := (min_bytes h).
  Notation counted := (min_counted h part).

  (** What `usize` makes of a number. *)
  Definition seen (n : N) : N := if checks then n else n mod (umax + 1).

  (** [r] is [n] as `usize` sees it, or a panic for which [P] is the reason. *)
  Definition counts (P : Prop) (r : res N) (n : N) : Prop :=
    match r with Ok x => x = seen n | Err _ => False | Fault f => f = PanicOverflow /\ checks = true /\ P end.

  Lemma usize_pos : umax + 1 <> 0. Proof. lia. Qed.

  Lemma counts_in (P : Prop) n m : (checks = true -> umax < m -> P) -> n = m \/ checks = false /\ n mod (umax + 1) = m mod (umax + 1) ->
    counts P (in_usize h n) m.
  Proof.
    intros HP Hn. unfold in_usize, counts, seen.
    destruct (N.leb_spec n umax).
    - destruct checks; destruct Hn as [Hn|[E Hn]]; try discriminate; [exact Hn| |].
      + subst n. symmetry. apply N.mod_small. lia.
      + rewrite <- Hn. symmetry. apply N.mod_small. lia.
    - destruct checks.
      + destruct Hn as [->|[E _]]; [|discriminate]. auto.
      + destruct Hn as [->|[_ ->]]; reflexivity.
  Qed.

  Lemma seen_plus a b : seen a + seen b = a + b \/ checks = false /\ (seen a + seen b) mod (umax + 1) = (a + b) mod (umax + 1).
  Proof.
    unfold seen. destruct checks; [left; reflexivity|]. right. split; [reflexivity|]. symmetry. apply N.add_mod, usize_pos.
  Qed.

  Lemma seen_times a b : seen a * b = a * b \/ checks = false /\ (seen a * b) mod (umax + 1) = (a * b) mod (umax + 1).
  Proof.
    unfold seen. destruct checks; [left; reflexivity|]. right. split; [reflexivity|].
    rewrite N.mul_mod_idemp_l by apply usize_pos. reflexivity.
  Qed.

  Lemma seen_small n : n <= umax -> seen n = n.
  Proof. intros H. unfold seen. destruct checks; [reflexivity|]. apply N.mod_small. lia. Qed.

  Lemma counts_small (P : Prop) n : n <= 2 ^ 32 - 1 -> counts P (Ok n) n.
  Proof. intros H. cbn. symmetry. apply seen_small. pose proof (vh_usize_lo h VH). lia. Qed.

  Lemma counts_impl (P Q : Prop) r n : (P -> Q) -> counts P r n -> counts Q r n.
  Proof. intros H. destruct r; cbn; tauto. Qed.

  Lemma counts_bind (P : Prop) r n f m : counts P r n -> counts P (f (seen n)) m -> counts P (rbind r f) m.
  Proof. intros H Hf. destruct r as [x|er|g]; cbn in *; [subst x; exact Hf|exact H|exact H]. Qed.

  Lemma sum_counts {A} (P : Prop) (f : A -> res N) (g : A -> N) l : (forall x, In x l -> counts P (f x) (g x)) ->
    forall o, (umax < o + nsum (map g l) -> P) -> counts P (count_sum h f (seen o) l) (o + nsum (map g l)).
  Proof.
    induction l as [|x l IH]; intros Hf o HP; cbn [count_sum map].
    - cbn. rewrite N.add_0_r. reflexivity.
    - unfold nsum in *. cbn [map fold_right] in *. apply (counts_bind P _ (g x)); [apply Hf; left; reflexivity|].
      apply (counts_bind P _ (o + g x)).
      + apply counts_in; [|apply seen_plus]. intros _ H. apply HP. lia.
      + fold (@count_sum h A f). rewrite N.add_assoc in *. apply IH; [intros y Hy; apply Hf; right; exact Hy|exact HP].
  Qed.

  Lemma sum_counts0 {A} (P : Prop) (f : A -> res N) (g : A -> N) l : (forall x, In x l -> counts P (f x) (g x)) ->
    (umax < nsum (map g l) -> P) -> counts P (count_sum h f 0 l) (nsum (map g l)).
  Proof.
    intros Hf HP. pose proof (sum_counts P f g l Hf 0) as H. rewrite N.add_0_l in H. rewrite (seen_small 0) in H by lia. exact (H HP).
  Qed.

  Definition reason (t : ty) : Prop := exists u, inside u t /\ umax < min u.

  Lemma min_counts (P : Prop) (f : fields -> res N) (g : fields -> N) vs : (forall v, In v vs -> counts P (f (snd v)) (g (snd v))) ->
    counts P (count_min part f 0 vs) 0.
  Proof.
    induction vs as [|v vs IH]; intros Hf; [cbn; symmetry; apply seen_small; lia|]. cbn [count_min].
    assert (IH' : counts P (count_min part f 0 vs) 0) by (apply IH; intros w Hw; apply Hf; right; exact Hw).
    destruct (part (snd v)); [|exact IH'].
    apply (counts_bind P _ (g (snd v))); [apply Hf; left; reflexivity|]. rewrite N.min_0_l. exact IH'.
  Qed.

  Lemma field_counts (P : Prop) f : counts P (counted (snd f)) (min (snd f)) -> (umax < field_min min f -> P) ->
    counts P (field_counted h counted f) (field_min min f).
  Proof.
    intros Hm HP. unfold field_counted, field_min in *. destruct f as [a t]. cbn [fst snd] in *.
    destruct (_ || _ || _); [apply counts_small; lia|].
    match goal with |- counts P (rbind ?r _) (?x + _) => assert (Hr : counts P r x) end.
    { destruct (f_opaque a); [exact Hm|].
      assert (Hc : counts P (Ok (basic_size (length_type (f_len a)))) (basic_size (length_type (f_len a)))).
      { apply counts_small. destruct (f_len a) as [|[]| |]; cbn; lia. }
      assert (H1 : counts P (Ok 1) 1) by (apply counts_small; lia).
      destruct t; try exact H1; try exact Hm;
        match goal with |- context [is_container ?x] => destruct (is_container x) end;
        try exact Hc; (destruct (f_varint a); [exact H1|exact Hm]). }
    eapply counts_bind; [exact Hr|].
    destruct (f_prefix a) as [|c p]; [cbn; rewrite N.add_0_r; reflexivity|].
    apply counts_in; [intros _; exact HP|].
    match goal with |- seen ?x + ?y = _ \/ _ => pose proof (seen_plus x y) as E end.
    unfold seen in *. destruct checks; [left; reflexivity|]. right. split; [reflexivity|].
    rewrite N.add_mod_idemp_l by apply usize_pos. reflexivity.
  Qed.

  Lemma struct_counts d fs : Forall (fun f => counts (reason (snd f)) (counted (snd f)) (min (snd f))) fs ->
    counts (reason (TStruct d fs)) (count_sum h (field_counted h counted) 0 fs) (nsum (map (field_min min) fs)).
  Proof.
    intros IH. rewrite Forall_forall in IH.
    assert (Hsum : umax < nsum (map (field_min min) fs) -> reason (TStruct d fs)).
    { intros H. eexists. split; [apply in_self|exact H]. }
    apply (sum_counts0 (reason (TStruct d fs)) (field_counted h counted) (field_min min) fs); [|exact Hsum].
    intros [a t] Hf. apply field_counts; cbn [snd].
    - generalize (IH (a, t) Hf). apply counts_impl. intros (u & Hu & H). exists u. split; [apply (in_field u a t d fs Hf Hu)|exact H].
    - intros H. apply Hsum. apply (N.lt_le_trans _ _ _ H). clear - Hf. unfold nsum. induction fs as [|f fs IH]; [destruct Hf|].
      cbn [map fold_right]. destruct Hf as [->|Hf]; [lia|]. specialize (IH Hf). lia.
  Qed.

  Lemma minimum_counts t : counts (reason t) (counted t) (min t).
  Proof.
    induction t as [s|k|k t _|t n IH|t n _|t _|t1 t2 _ _|ts IH|i t IH|k t _|k tk tv _ _|t IH|d fs IH|d vs IH|] using ty_ind';
      cbn [min_counted min_bytes]; try (apply counts_small; lia).
    - destruct s; try (apply counts_small; cbn; try destruct p; cbn; lia).
      cbn [scalar_min]. apply counts_in; [|left; reflexivity]. intros _ H. eexists. split; [apply in_self|exact H].
    - apply (counts_bind _ _ (min t)).
      + revert IH. apply counts_impl. intros (u & Hu & H). exists u. split; [apply in_array, Hu|exact H].
      + apply counts_in; [|apply seen_times]. intros _ H. eexists. split; [apply in_self|exact H].
    - apply counts_in; [|left; reflexivity]. intros _ H. eexists. split; [apply in_self|exact H].
    - apply (sum_counts0 (reason (TTuple ts)) counted min ts).
      + intros t Ht. rewrite Forall_forall in IH. generalize (IH t Ht). apply counts_impl. intros (u & Hu & H). exists u.
        split; [apply (in_tuple u t ts Ht Hu)|exact H].
      + intros H. eexists. split; [apply in_self|exact H].
    - apply (counts_bind _ _ (min t)).
      + revert IH. apply counts_impl. intros (u & Hu & H). exists u. split; [apply in_range, Hu|exact H].
      + apply counts_in; [|apply seen_times]. intros _ H. eexists. split; [apply in_self|exact H].
    - revert IH. apply counts_impl. intros (u & Hu & H). exists u. split; [apply in_box, Hu|exact H].
    - apply struct_counts, IH.
    - set (d0 := {| sd_id := 0; sd_repr := RRust; sd_forced := false; sd_generic := false |}).
      assert (E : fold_left N.min (map (fun v => nsum (map (field_min min) (snd v))) vs) 0 = 0).
      { clear. induction (map _ vs) as [|x l IH]; [reflexivity|]. cbn [fold_left]. rewrite N.min_0_l. exact IH. }
      rewrite E. eapply counts_bind.
      + apply (min_counts _ _ (fun fs => nsum (map (field_min min) fs))). intros [i fs] Hv. rewrite Forall_forall in IH.
        generalize (struct_counts d0 fs (IH (i, fs) Hv)). apply counts_impl. intros (u & Hu & H). exists u.
        split; [apply (in_variant u i fs d0 d vs Hv Hu)|exact H].
      + rewrite (seen_small 0) by lia. assert (Ht : basic_size (e_tag d) <= 2 ^ 32 - 1) by (destruct (e_tag d); cbn; lia).
        destruct (e_peek d).
        * apply counts_small. lia.
        * apply counts_in; [|left; reflexivity]. intros _ H. pose proof (vh_usize_lo h VH). lia.
  Qed.

  (** With overflow checks the minimum is right, or the call panics, *)
  Theorem C133_checked t n : checks = true -> counted t = Ok n -> n = min t.
  Proof. intros Hc E. pose proof (minimum_counts t) as H. rewrite E in H. cbn in H. unfold seen in H. rewrite Hc in H. exact H. Qed.

  (** without them it is right modulo the size of `usize`: never too large. *)
  Theorem C133_unchecked t : checks = false -> counted t = Ok (min t mod (umax + 1)).
  Proof.
    intros Hc. pose proof (minimum_counts t) as H. unfold counts, seen in H. rewrite Hc in H.
    destruct (counted t) as [x|er|f]; [subst x; reflexivity|contradiction|destruct H as (_ & H & _); discriminate].
  Qed.

  (** It panics only if the minimum of a part of the type does not fit, and in no other
      way. *)
  Theorem C133_panics t : (exists n, counted t = Ok n /\ n <= min t)
    \/ counted t = Fault PanicOverflow /\ checks = true /\ exists u, inside u t /\ umax < min u.
  Proof.
    pose proof (minimum_counts t) as H. destruct (counted t) as [x|er|f]; [left|contradiction|right].
    - exists x. split; [reflexivity|]. cbn in H. subst x. unfold seen. destruct checks; [lia|]. apply N.mod_le, usize_pos.
    - destruct H as (-> & H). auto.
  Qed.

  (** If all parts have minima that fit, it is right. *)
  Theorem C133_fits t : (forall u, inside u t -> min u <= umax) -> counted t = Ok (min t).
  Proof.
    intros Hf. pose proof (minimum_counts t) as H. destruct (counted t) as [x|er|f]; [|contradiction|].
    - cbn in H. rewrite seen_small in H by (apply Hf, in_self). subst x. reflexivity.
    - destruct H as (_ & _ & u & Hu & H). specialize (Hf u Hu). lia.
  Qed.

  (** A vector whose elements have a minimum that is computed right is read as it should
      be. *)
  Theorem C133_vec {St} (R : reader St) t rd length s : (forall u, inside u t -> min u <= umax) ->
    read_vec_counted h part R t rd length s = read_vec h R t rd length s.
  Proof. intros Hf. unfold read_vec_counted, read_vec. rewrite (C133_fits t Hf). reflexivity. Qed.

  (* ---------------------------------------------------------------- *)
  (** ** The entry points *)

  (** Without a panic, the entry points give values exactly when they would with the
      exact minimum, and the same ones. *)
  Theorem C133_entry e L t addr bs v n : least h t -> sane h L LDefault t -> nlen bs <= L -> L <= h_alloc_max h ->
    forall R, R = BufferReader e \/ R = CopyingBufferReader e ->
    fst (with_counted h part t R addr bs) = (Ok v, n) <->
    fst (with_min h t R addr bs) = (Ok v, n) /\ counted t <> Fault PanicOverflow.
  Proof.
    intros Hl Hs Hb HL R HR.
    assert (Hchk : nlen bs < min t -> fst (read h R t (br_start addr bs)) <> Ok v).
    { intros Hlt. destruct (C15_entry_check_partial h VH e L t addr bs v Hl Hs Hb HL Hlt) as [H1 H2].
      destruct HR as [->| ->]; assumption. }
    unfold with_counted, with_min. destruct (C133_panics t) as [(m & E & Hm)|(E & _)]; rewrite E.
    - destruct (N.ltb_spec (nlen bs) m); [|destruct (N.ltb_spec (nlen bs) (min t))].
      + destruct (N.ltb_spec (nlen bs) (min t)); [|lia]. split; [discriminate|]. intros [H' _]. discriminate.
      + specialize (Hchk H0). destruct (read h R t (br_start addr bs)) as [r s]. cbn [fst] in *. split.
        * intros H'. injection H' as -> _. contradiction (Hchk eq_refl).
        * intros [H' _]. discriminate.
      + split; [intros H'; split; [exact H'|discriminate]|intros [H' _]; exact H'].
    - split; [discriminate|]. intros [_ H]. contradiction (H eq_refl).
  Qed.

  (** If nothing overflows, the outcome is the same also where it is an error. *)
  Theorem C133_entry_fits t (R : reader breader) addr bs : (forall u, inside u t -> min u <= umax) ->
    with_counted h part t R addr bs = with_min h t R addr bs.
  Proof.
    intros Hf. unfold with_counted, with_min. rewrite (C133_fits t Hf).
    destruct (nlen bs <? min t); [reflexivity|]. destruct (read h R t (br_start addr bs)); reflexivity.
  Qed.
End C133.

Print Assumptions C133_checked.
Print Assumptions C133_unchecked.
Print Assumptions C133_panics.
Print Assumptions C133_fits.
Print Assumptions C133_vec.
Print Assumptions C133_entry.
Print Assumptions C133_entry_fits.

(* ------------------------------------------------------------------ *)
(** * Minima that do not fit *)

(** `enum Two { A, B }`, with a tag of four bytes, takes one byte of memory; an array of
    2^30 of them takes half of what a vector may on a platform of 32 bits, and needs
    2^32 bytes of input. *)
Definition two : ty := TEnum {| e_tag := BU32; e_peek := false |} [(0, []); (1, [])].
Definition many : ty := TArr (TArr (TArr two 1024) 1024) 1024.
Definition all_parts : fields -> bool := fun fs => negb (match fs with [] => true | _ => false end).

Example many_size : h_size host32 many = 2 ^ 30 /\ min_bytes host32 many = 2 ^ 32 /\ l_usize_max (h_lim host32) = 2 ^ 32 - 1
  /\ h_alloc_max host32 = 2 ^ 31 - 1 /\ is_prim host32 many = false.
Proof. vm_compute. auto. Qed.

(** Hence reading an empty vector of such arrays panics, with overflow checks: the bytes
    after the length are of no concern. *)
Theorem C133_empty_vector_refuted : exists h t rest, valid_host h /\ h_overflow_checks h = true
  /\ fst (read_vec h (BufferReader LE) t (read h (BufferReader LE) t) 0 (br_start 0 rest)) = Ok []
  /\ fst (read_vec_counted h all_parts (BufferReader LE) t (read h (BufferReader LE) t) 0 (br_start 0 rest)) = Fault PanicOverflow.
Proof. exists host32, many, []. split; [apply host32_valid|]. vm_compute. auto. Qed.

(** Without overflow checks the minimum is 0, so that the check before the allocation of
    a vector lets a length of one pass although no byte of input is left: a GiB is
    allocated. *)
Theorem C133_allocation_refuted : exists h t, valid_host h /\ h_overflow_checks h = false
  /\ br_log (snd (read_vec h (BufferReader BE) t (fail UnexpectedEndOfInput) 1 (br_start 0 []))) = []
  /\ exists a, In a (br_log (snd (read_vec_counted h all_parts (BufferReader BE) t (fail UnexpectedEndOfInput) 1 (br_start 0 []))))
      /\ al_count a * al_size a = 2 ^ 30 /\ al_rest a = 0.
Proof.
  exists host32be, many. split; [apply host32be_valid|]. split; [reflexivity|]. split; [vm_compute; reflexivity|].
  exists {| al_count := 1; al_size := 2 ^ 30; al_min := 0; al_rest := 0 |}. vm_compute. auto.
Qed.

Print Assumptions C133_empty_vector_refuted.
Print Assumptions C133_allocation_refuted.

(* ------------------------------------------------------------------ *)
(** * Examples *)

Example tidy_counted h : h = host64 \/ h = host32 -> min_counted h all_parts tidy = Ok (min_bytes h tidy) /\ 0 < min_bytes h tidy.
Proof. intros [->| ->]; vm_compute; auto. Qed.

Lemma two_parts u : inside u (TArr two 3) -> min_bytes host32 u <= 2 ^ 32 - 1.
Proof.
  intros H. inversion_clear H as [|t n H'| | | | |]; [vm_compute; discriminate|].
  inversion_clear H' as [| | | | | |i fs d e vs Hv H]; [vm_compute; discriminate|].
  destruct Hv as [Hv|[Hv|[]]]; injection Hv as <- <-; (inversion_clear H as [| | | | |a t d' fs Hf _|]; [vm_compute; discriminate|destruct Hf]).
Qed.

Example two_counted : min_counted host32 all_parts (TArr two 3) = Ok 12.
Proof. apply (C133_fits host32 host32_valid all_parts (TArr two 3) two_parts). Qed.

Example many_counted : min_counted host32 all_parts many = Fault PanicOverflow /\ min_counted host32be all_parts many = Ok 0
  /\ min_counted host64 all_parts many = Ok (2 ^ 32).
Proof. vm_compute. auto. Qed.

Example entry_counted : least host32 (TArr two 3) /\ sane host32 12 LDefault (TArr two 3)
  /\ exists v, fst (with_counted host32 all_parts (TArr two 3) (BufferReader LE) 0 (repeat x00 12)) = (Ok v, 12).
Proof.
  split; [apply leastb_sound; vm_compute; reflexivity|]. split; [apply saneb_sound; vm_compute; reflexivity|].
  eexists. vm_compute. reflexivity.
Qed.
