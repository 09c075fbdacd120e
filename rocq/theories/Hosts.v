(* Concrete hosts: the conditions of [valid_host] can be met, in more than one
   way.  Used for examples and refutations only. *)
From Verif Require Export Host BaseFacts.

Definition round_up (n a : N) : N := if a =? 0 then n else (n + a - 1) / a * a.

(** Put fields of given sizes and alignments one after the other, the first one
    not before [off]; the offsets and the end. *)
Fixpoint place (packed : bool) (off : N) (l : list (N * N)) : list N * N :=
  match l with
  | [] => ([], off)
  | (s, a) :: r =>
    let o := if packed then off else round_up off a in
    let (os, e) := place packed (o + s) r in (o :: os, e)
  end.

Definition max_align (l : list (N * N)) : N := fold_right (fun x m => N.max (snd x) m) 1 l.

(** Size and alignment of fields in sequence. *)
Definition seq_layout (packed : bool) (off : N) (l : list (N * N)) : N * N :=
  let a := if packed then 1 else max_align l in
  (round_up (snd (place packed off l)) a, a).

Section Layout.
  (** [ptr]: size of a pointer; [reversed]: `repr(Rust)` structs are laid out
      backwards (which the language allows). *)
  Context (ptr : N) (reversed : bool).

  Definition order {A} (d : sdecl) (l : list A) : list A :=
    match sd_repr d with RRust => if reversed then rev l else l | _ => l end.

  Definition struct_layout (d : sdecl) (l : list (N * N)) : N * N :=
    match sd_repr d, l with
    | RTransparent, [x] => x
    | RPacked, _ => seq_layout true 0 l
    | _, _ => seq_layout false 0 (order d l)
    end.

  Definition struct_offsets (d : sdecl) (l : list (N * N)) : list N :=
    match sd_repr d, l with
    | RTransparent, [_] => [0]
    | RPacked, _ => fst (place true 0 l)
    | _, _ => order d (fst (place false 0 (order d l)))
    end.

  (** An enum: a one-byte tag unless there is at most one variant. *)
  Definition enum_layout (vs : list (list (N * N))) : N * N :=
    match vs with
    | [] => (0, 1)
    | [l] => seq_layout false 0 l
    | _ =>
      let ls := map (seq_layout false 1) vs in
      let a := fold_right (fun x m => N.max (snd x) m) 1 ls in
      (round_up (fold_right (fun x m => N.max (fst x) m) 1 ls) a, a)
    end.

  Definition scalar_layout (s : scalar) : N * N :=
    match s with
    | SPrim p | SNonZero p | SAtomic p => (N.of_nat (psize p), N.of_nat (psize p))
    | SUsize => (ptr, ptr)
    | SBool | SEndian => (1, 1)
    | SChar => (4, 4)
    | SUnit => (0, 1)
    | SVarint => (8, 8)
    | SIpv4 => (4, 1) | SIpv6 => (16, 1) | SIpAddr => (17, 1)
    | SDuration | SSystemTime => (16, 8)
    | SUuid => (16, 1)
    | SDateTime => (12, 4)
    | SGlam p n => (N.of_nat (psize p) * N.of_nat n, N.of_nat (psize p))
    | SBVec n => (N.of_nat n, 1)
    end.

  Fixpoint layout (t : ty) : N * N :=
    match t with
    | TScalar s => scalar_layout s
    | TStr (KString | KCowStr | KRegex) => (3 * ptr, ptr)
    | TStr (KBoxStr | KRefStr) => (2 * ptr, ptr)
    | TSeq (KVec | KCow | KSmallVec) _ => (3 * ptr, ptr)
    | TSeq (KBoxSlice | KRef) _ => (2 * ptr, ptr)
    | TArr t' n => let (s, a) := layout t' in (s * N.of_nat n, a)
    | TRefArr _ _ => (ptr, ptr)
    | TOption t' => enum_layout [[]; [layout t']]
    | TResult t1 t2 => enum_layout [[layout t1]; [layout t2]]
    | TTuple ts => seq_layout false 0 (map layout ts)
    | TRange false t' => let l := layout t' in seq_layout false 0 [l; l]
    | TRange true t' => let l := layout t' in seq_layout false 0 [l; l; (1, 1)]
    | TSet _ _ | TMap _ _ _ => (6 * ptr, ptr)
    | TBox _ => (ptr, ptr)
    | TStruct d fs => struct_layout d (map (fun f => layout (snd f)) fs)
    | TEnum _ vs => enum_layout (map (fun v => map (fun f => layout (snd f)) (snd v)) vs)
    | TBot => (0, 1)
    end.

  Definition field_layouts (fs : fields) : list (N * N) := map (fun f => layout (snd f)) fs.

  Definition the_offset (d : sdecl) (fs : fields) (i : nat) : N :=
    nth i (struct_offsets d (field_layouts fs)) 0.

  Definition make_host (native : endian) (checks : bool) : host :=
    {| h_native := native;
       h_lim := {| l_usize_max := 2 ^ (8 * ptr) - 1;
                   l_fits t n := n * fst (layout t) <=? 2 ^ (8 * ptr - 1) - 1;
                   l_systime_max := 2 ^ 63 - 1;
                   l_chrono_ok secs nanos := ((Z.abs secs <? 8210266876800) && (Z.of_N nanos <? 2000000000))%Z;
                   l_regex_ok b := negb (existsb (fun c => Byte.eqb c x28) b) |};
       h_overflow_checks := checks;
       h_size t := fst (layout t);
       h_align t := N.max 1 (snd (layout t));
       h_offset := the_offset;
       h_capacity n size := if size =? 0 then 2 ^ (8 * ptr) - 1 else n;
       h_iter l := if reversed then rev l else l;
       h_alloc_max := 2 ^ (8 * ptr - 1) - 1 |}.
End Layout.

(* ------------------------------------------------------------------ *)
(** * They are valid *)

Lemma round_up_le n a : n <= round_up n a.
Proof.
  unfold round_up. destruct (N.eqb_spec a 0); [lia|].
  pose proof (N.mul_succ_div_gt (n + a - 1) a). lia.
Qed.

Lemma place_length packed l : forall off, length (fst (place packed off l)) = length l.
Proof.
  induction l as [|[s a] r IH]; intros off; [reflexivity|]. cbn [place].
  specialize (IH ((if packed then off else round_up off a) + s)).
  destruct (place packed _ r). cbn in *. congruence.
Qed.

Lemma place_end packed l : forall off, off <= snd (place packed off l).
Proof.
  induction l as [|[s a] r IH]; intros off; [cbn; lia|]. cbn [place].
  specialize (IH ((if packed then off else round_up off a) + s)).
  pose proof (round_up_le off a).
  destruct (place packed _ r). cbn in *. destruct packed; lia.
Qed.

Lemma place_inside packed l : forall off i d, (i < length l)%nat ->
  off <= nth i (fst (place packed off l)) 0
  /\ nth i (fst (place packed off l)) 0 + fst (nth i l d) <= snd (place packed off l).
Proof.
  induction l as [|[s a] r IH]; intros off i d Hi; [cbn in Hi; lia|]. cbn [place].
  set (o := if packed then off else round_up off a).
  assert (Ho : off <= o) by (unfold o; pose proof (round_up_le off a); destruct packed; lia).
  pose proof (place_end packed r (o + s)) as He. specialize (IH (o + s)).
  destruct (place packed (o + s) r) as [os e]. cbn [fst snd] in *.
  destruct i as [|i]; cbn [nth fst].
  - lia.
  - destruct (IH i d); [cbn in Hi; lia|]. lia.
Qed.

Lemma place_ordered packed l : forall off i j d, (i < j < length l)%nat ->
  nth i (fst (place packed off l)) 0 + fst (nth i l d) <= nth j (fst (place packed off l)) 0.
Proof.
  induction l as [|[s a] r IH]; intros off i j d Hi; [cbn in Hi; lia|]. cbn [place].
  set (o := if packed then off else round_up off a).
  pose proof (place_inside packed r (o + s)) as Hin. specialize (IH (o + s)).
  destruct (place packed (o + s) r) as [os e]. cbn [fst snd length] in *.
  destruct j as [|j]; [lia|]. destruct i as [|i]; cbn [nth fst].
  - apply (Hin j d). lia.
  - apply IH. lia.
Qed.

Section Valid.
  Context (ptr : N) (reversed : bool) (native : endian) (checks : bool).
  Context (Hptr : ptr = 4 \/ ptr = 8).
  Notation layout := (layout ptr).

  (** Both facts about a struct: where its fields are. *)
  Definition placed (d : sdecl) (l : list (N * N)) : Prop :=
    (forall i x, (i < length l)%nat ->
       nth i (struct_offsets reversed d l) 0 + fst (nth i l x) <= fst (struct_layout reversed d l))
    /\ (forall i j x, (i < j < length l)%nat ->
       nth i (struct_offsets reversed d l) 0 + fst (nth i l x) <= nth j (struct_offsets reversed d l) 0
       \/ nth j (struct_offsets reversed d l) 0 + fst (nth j l x) <= nth i (struct_offsets reversed d l) 0)
    /\ (sd_repr d = RC -> forall i j x, (i < j < length l)%nat ->
       nth i (struct_offsets reversed d l) 0 + fst (nth i l x) <= nth j (struct_offsets reversed d l) 0)
    /\ length (struct_offsets reversed d l) = length l.

  Lemma placed_seq packed l :
    (forall i x, (i < length l)%nat ->
       nth i (fst (place packed 0 l)) 0 + fst (nth i l x) <= fst (seq_layout packed 0 l)).
  Proof.
    intros i x Hi. unfold seq_layout. cbn [fst].
    pose proof (proj2 (place_inside packed l 0 i x Hi)).
    pose proof (round_up_le (snd (place packed 0 l)) (if packed then 1 else max_align l)). lia.
  Qed.

  Lemma placed_all d l : placed d l.
  Proof.
    assert (Hfwd : forall packed, 
      (forall i x, (i < length l)%nat ->
         nth i (fst (place packed 0 l)) 0 + fst (nth i l x) <= fst (seq_layout packed 0 l))
      /\ (forall i j x, (i < j < length l)%nat ->
         nth i (fst (place packed 0 l)) 0 + fst (nth i l x) <= nth j (fst (place packed 0 l)) 0)
      /\ length (fst (place packed 0 l)) = length l).
    { intros packed. split; [apply placed_seq|]. split; [|apply place_length].
      intros. apply place_ordered. assumption. }
    assert (Hrev : let os := rev (fst (place false 0 (rev l))) in
      (forall i x, (i < length l)%nat -> nth i os 0 + fst (nth i l x) <= fst (seq_layout false 0 (rev l)))
      /\ (forall i j x, (i < j < length l)%nat -> nth j os 0 + fst (nth j l x) <= nth i os 0)
      /\ length os = length l).
    { cbn zeta.
      assert (Hlen : length (rev (fst (place false 0 (rev l)))) = length l)
        by (rewrite rev_length, place_length, rev_length; reflexivity).
      assert (Hr : forall i x, (i < length l)%nat -> nth i l x = nth (length l - S i) (rev l) x).
      { intros i x Hi. rewrite <- (rev_involutive l) at 1.
        rewrite rev_nth; rewrite rev_length; [reflexivity|assumption]. }
      assert (Ho : forall i, (i < length l)%nat -> nth i (rev (fst (place false 0 (rev l)))) 0
                 = nth (length l - S i) (fst (place false 0 (rev l))) 0).
      { intros i Hi. rewrite rev_nth; rewrite place_length, rev_length; [reflexivity|assumption]. }
      split; [|split; [|assumption]].
      - intros i x Hi. rewrite Ho, Hr by assumption. apply placed_seq. rewrite rev_length. lia.
      - intros i j x Hij. rewrite !Ho, Hr by lia. apply place_ordered. rewrite rev_length. lia. }
    unfold placed, struct_offsets, struct_layout, order.
    destruct (sd_repr d); cbn zeta in Hrev.
    - destruct reversed.
      + destruct Hrev as (H1 & H2 & H3). repeat split; auto; try (intros; discriminate).
      + destruct (Hfwd false) as (H1 & H2 & H3). repeat split; auto.
    - destruct (Hfwd false) as (H1 & H2 & H3). repeat split; auto.
    - destruct (Hfwd true) as (H1 & H2 & H3). repeat split; auto.
    - destruct (Hfwd false) as (H1 & H2 & H3).
      destruct l as [|y [|z r]]; [repeat split; auto| |repeat split; auto].
      repeat split; try (cbn; intros; lia).
      intros [|i] x Hi; cbn in *; lia.
  Qed.

  Lemma nth_of_error {A} (l : list A) i x d : nth_error l i = Some x -> (i < length l)%nat /\ nth i l d = x.
  Proof.
    intros H. split; [apply nth_error_Some; congruence|]. apply nth_error_nth. assumption.
  Qed.

  Lemma ascending_intro l : (forall i j, (i < j < length l)%nat -> nth i l 0 <= nth j l 0) -> ascending l = true.
  Proof.
    induction l as [|a [|b r] IH]; intros H; [reflexivity|reflexivity|].
    cbn [ascending]. apply andb_true_intro. split.
    - apply N.leb_le. apply (H 0%nat 1%nat). cbn. lia.
    - apply IH. intros i j Hij. apply (H (S i) (S j)). cbn in *. lia.
  Qed.

  Lemma map_nth_seq {A} (l : list A) d : map (fun i => nth i l d) (seq 0 (length l)) = l.
  Proof.
    induction l as [|a r IH]; [reflexivity|]. cbn [length seq map nth]. f_equal.
    rewrite <- seq_shift, map_map. exact IH.
  Qed.

  Theorem make_host_valid : valid_host (make_host ptr reversed native checks).
  Proof.
    constructor; cbn [make_host h_lim l_usize_max l_fits l_systime_max h_size h_align h_offset
                      h_capacity h_iter h_alloc_max].
    - destruct Hptr as [-> | ->]; vm_compute; discriminate.
    - destruct Hptr as [-> | ->]; vm_compute; discriminate.
    - destruct Hptr as [-> | ->]; vm_compute; discriminate.
    - reflexivity.
    - reflexivity.
    - reflexivity.
    - intros t. lia.
    - intros d. cbn [Hosts.layout map]. unfold struct_layout, order.
      destruct (sd_repr d); try reflexivity. destruct reversed; reflexivity.
    - intros d f Hd. cbn [Hosts.layout map]. unfold struct_layout, the_offset, field_layouts, struct_offsets.
      rewrite Hd. split; reflexivity.
    - intros d fs i f Hf. destruct (placed_all d (field_layouts ptr reversed fs)) as (H1 & _).
      destruct (nth_of_error _ _ _ f Hf) as [Hi E].
      specialize (H1 i (layout reversed (snd f))). unfold field_layouts in H1 at 1. rewrite map_length in H1.
      specialize (H1 Hi). unfold the_offset.
      unfold field_layouts in H1 at 2.
      rewrite (map_nth (fun f => layout reversed (snd f)) fs f i), E in H1. exact H1.
    - intros d fs i j f g Hij Hf Hg _ _. destruct (placed_all d (field_layouts ptr reversed fs)) as (_ & H2 & _).
      destruct (nth_of_error _ _ _ f Hf) as [Hi Ei]. destruct (nth_of_error _ _ _ f Hg) as [Hj Ej].
      specialize (H2 i j (layout reversed (snd f))). unfold field_layouts in H2 at 1. rewrite map_length in H2.
      specialize (H2 (conj Hij Hj)). unfold the_offset.
      unfold field_layouts in H2 at 2 5.
      rewrite !(map_nth (fun f => layout reversed (snd f)) fs f), Ei, Ej in H2. exact H2.
    - intros d fs Hd. destruct (placed_all d (field_layouts ptr reversed fs)) as (_ & _ & H3 & H4).
      specialize (H3 Hd). unfold offsets. cbn [h_offset].
      assert (El : length fs = length (struct_offsets reversed d (field_layouts ptr reversed fs)))
        by (rewrite H4; unfold field_layouts; rewrite map_length; reflexivity).
      change (make_host ptr reversed native checks).(h_offset) with (the_offset ptr reversed).
      unfold the_offset. rewrite El. rewrite (map_nth_seq (struct_offsets reversed d (field_layouts ptr reversed fs)) 0).
      apply ascending_intro.
      intros i j Hij. rewrite H4 in Hij. specialize (H3 i j (0, 1) Hij). lia.
    - intros n size Hs. destruct (N.eqb_spec size 0); [contradiction|reflexivity].
    - intros l. destruct reversed; [|reflexivity]. symmetry. apply Permutation_rev.
  Qed.
End Valid.

(** A little-endian 64-bit host, a big-endian 32-bit host that lays out structs
    backwards and iterates hash tables backwards, and a little-endian 32-bit
    host with overflow checks. *)
Definition host64 : host := make_host 8 false LE false.
Definition host32be : host := make_host 4 true BE false.
Definition host32 : host := make_host 4 false LE true.

Lemma host64_valid : valid_host host64.
Proof. apply make_host_valid. auto. Qed.
Lemma host32be_valid : valid_host host32be.
Proof. apply make_host_valid. auto. Qed.
Lemma host32_valid : valid_host host32.
Proof. apply make_host_valid. auto. Qed.
