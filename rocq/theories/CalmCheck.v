(* Sound decision procedure for [calm], for use in examples. *)
From Verif Require Export SafeReaders Checker.

Section Calmb.
  Context (h : host) (e : endian) (allowb : fault -> bool) (L : N).
  Context (roomb : lenmode -> N -> N -> bool) (vec_ok : N -> N -> N -> Prop).
  Context (Hroom : forall lm size min, roomb lm size min = true ->
                   forall n, possible_length h lm n -> vec_ok size min n).

  Definition allowed (f : fault) : Prop := allowb f = true.

  Fixpoint numericb (t : ty) : bool :=
    match t with
    | TScalar (SPrim _) => true
    | TStruct _ fs => all_fieldsb (fun _ t' => numericb t') fs
    | _ => false
    end.

  Lemma numericb_sound t : numericb t = true -> numeric t.
  Proof.
    induction t as [s| | | | | | | | | | | |d fs IH| |] using ty_ind'; cbn [numericb numeric]; try discriminate.
    - destruct s; try discriminate; auto.
    - apply (all_fieldsb_sound (fun _ t' => numericb t') (fun _ t' => numeric t') fs IH).
  Qed.

  Fixpoint imageb (t : ty) : bool :=
    match t with
    | TScalar (SPrim _) => true
    | TStruct _ fs => is_prim h t && all_fieldsb (fun _ t' => imageb t') fs
    | _ => false
    end.

  Lemma imageb_sound t : imageb t = true -> image h t.
  Proof.
    induction t as [s| | | | | | | | | | | |d fs IH| |] using ty_ind'; cbn [imageb image]; try discriminate.
    - destruct s; try discriminate; auto.
    - intros E. apply andb_prop in E as [E1 E2]. split; [exact E1|].
      apply (all_fieldsb_sound (fun _ t' => imageb t') (fun _ t' => image h t') fs IH), E2.
  Qed.

  Fixpoint leastb (t : ty) : bool :=
    match t with
    | TArr t' _ => (if is_prim h t' then min_bytes h t' <=? h_size h t' else true) && leastb t'
    | TRange _ t' | TBox t' => leastb t'
    | TTuple ts => all_tysb leastb ts
    | TStruct _ fs => all_fieldsb (field_minokb leastb) fs
    | TEnum d vs =>
      if e_peek d then
        all_variantsb (fun fs => all_fieldsb (field_minokb leastb) fs
          && (basic_size (e_tag d) <=? nsum (map (field_min (min_bytes h)) fs))) vs
      else true
    | _ => true
    end.

  Lemma field_leastb_sound a t : (leastb t = true -> least h t) -> (forall t' n, t = TArr t' n -> leastb t' = true -> least h t') ->
    field_minokb leastb a t = true -> field_minok (least h) a t.
  Proof.
    intros IH IHa. unfold field_minokb, field_minok. destruct (_ || _); [auto|].
    destruct (f_varint a).
    { intros E. bools. split; [assumption|]. destruct t as [[]| | | | | | | | | | | | | |]; try discriminate; exact I. }
    destruct (f_opaque a); [exact IH|].
    destruct t; auto; try (destruct (is_container _); auto; fail). apply (IHa _ _ eq_refl).
  Qed.

  Lemma leastb_sound' t : (leastb t = true -> least h t) /\ (forall t' n, t = TArr t' n -> leastb t' = true -> least h t').
  Proof.
    assert (Hf : forall fs, Forall (fun f => (leastb (snd f) = true -> least h (snd f))
        /\ (forall t' n, snd f = TArr t' n -> leastb t' = true -> least h t')) fs ->
      all_fieldsb (field_minokb leastb) fs = true -> all_fields (field_minok (least h)) fs).
    { intros fs Hfs. apply all_fieldsb_sound. revert Hfs. apply Forall_impl. intros f [H1 H2]. apply field_leastb_sound; assumption. }
    induction t as [s|k|k t IH|t n IH|t n IH|t IH|t1 t2 IH1 IH2|ts IH|i t IH|k t IH|k tk tv IHk IHv|t IH|d fs IH|d vs IH|]
      using ty_ind'; (split; [|intros t' m E; try discriminate E]); cbn [leastb least]; auto.
    - intros E. bools. split; [|apply IH; assumption]. intros Hp. rewrite Hp in *. apply N.leb_le. assumption.
    - injection E as <- _. apply IH.
    - apply all_tysb_sound. revert IH. apply Forall_impl. tauto.
    - apply IH.
    - apply IH.
    - destruct (e_peek d); [|auto]. apply all_variantsb_sound. revert IH. apply Forall_impl.
      intros v Hv E. bools. split; [apply Hf; assumption|assumption].
  Qed.

  Lemma leastb_sound t : leastb t = true -> least h t.
  Proof. apply leastb_sound'. Qed.

  Definition len_okb (lm : lenmode) : bool := match lm with LExpr _ => false | _ => true end.
  Lemma len_okb_sound lm : len_okb lm = true -> len_ok h allowed lm.
  Proof. destruct lm; try discriminate; cbn; auto. Qed.

  Definition countedb (lm : lenmode) (t : ty) : bool := allowb PanicCapacity || roomb lm (h_size h t) (min_bytes h t).
  Lemma countedb_sound lm t : countedb lm t = true -> counted h allowed vec_ok lm t.
  Proof. intros E. apply orb_prop in E as [E|E]; [left; exact E|right; apply Hroom, E]. Qed.

  Definition endsb (t : ty) : bool := allowb Diverges || (leastb t && (1 <=? min_bytes h t)).
  Lemma endsb_sound t : endsb t = true -> finishes h allowed t.
  Proof.
    intros E. apply orb_prop in E as [E|E]; [left; exact E|right]. apply andb_prop in E as [E1 E2].
    split; [apply leastb_sound, E1|]. apply N.leb_le in E2. lia.
  Qed.

  Definition roomyb (t : ty) : bool :=
    (L * h_size h t <=? h_alloc_max h)
    || (leastb t && (1 <=? min_bytes h t) && (L / min_bytes h t * h_size h t <=? h_alloc_max h)).
  Lemma roomyb_sound t : roomyb t = true -> roomy h L t.
  Proof.
    intros E. apply orb_prop in E as [E|E].
    - left. apply N.leb_le in E. intros n Hn. nia.
    - right. apply andb_prop in E as [E E3]. apply andb_prop in E as [E1 E2].
      split; [apply leastb_sound, E1|]. apply N.leb_le in E2, E3. intros n _ Hn.
      assert (n <= L / min_bytes h t) by (apply N.div_le_lower_bound; lia). nia.
  Qed.

  Definition convertsb (t : ty) : bool :=
    if is_prim h t then
      imageb t && (allowb PanicExplicit || (if conversion_necessary (h_native h) e then convertibleb t else true))
    else true.
  Lemma convertsb_sound t : convertsb t = true -> converts h e allowed t.
  Proof.
    unfold convertsb. intros E Hp. rewrite Hp in E. apply andb_prop in E as [E1 E2].
    split; [apply imageb_sound, E1|]. apply orb_prop in E2 as [E2|E2]; [left; exact E2|right].
    intros Hc. rewrite Hc in E2. apply convertibleb_sound, E2.
  Qed.

  Definition elem_okb (t : ty) : bool :=
    convertsb t && (is_prim h t || negb (h_size h t =? 0) || validb (h_lim h) t (zst_val t)).
  Lemma elem_okb_sound t : elem_okb t = true -> elem_ok h e allowed t.
  Proof.
    intros E. apply andb_prop in E as [E1 E2]. split; [apply convertsb_sound, E1|]. intros Hp. rewrite Hp in E2.
    cbn [orb] in E2. apply orb_prop in E2 as [E2|E2]; [left; bools; assumption|right; apply validb_sound, E2].
  Qed.

  Definition fits_orb (lm : lenmode) (size : N) : bool := fitsb h lm size || (allowb PanicOverflow && allowb PanicCapacity).
  Lemma fits_orb_sound lm size : fits_orb lm size = true -> fits h lm size \/ (allowed PanicOverflow /\ allowed PanicCapacity).
  Proof.
    intros E. apply orb_prop in E as [E|E]; [left; apply fitsb_sound, E|right]. apply andb_prop in E. exact E.
  Qed.

  Definition div_orb (size : N) : bool := allowb PanicDivZero || negb (size =? 0).
  Lemma div_orb_sound size : div_orb size = true -> allowed PanicDivZero \/ size <> 0.
  Proof. intros E. apply orb_prop in E as [E|E]; [left; exact E|right; bools; assumption]. Qed.

  Definition cow_okb (lm : lenmode) (t : ty) : bool :=
    if is_prim h t then div_orb (h_size h t) && fits_orb lm (h_size h t) else true.
  Lemma cow_okb_sound lm t : cow_okb lm t = true -> cow_ok h allowed lm t.
  Proof.
    unfold cow_okb. intros E Hp. rewrite Hp in E. apply andb_prop in E as [E1 E2].
    split; [apply div_orb_sound, E1|apply fits_orb_sound, E2].
  Qed.

  Definition view_okb (t : ty) : bool := numericb t && (allowb UbMisaligned || (h_align h t =? 1)).
  Lemma view_okb_sound t : view_okb t = true -> view_ok h allowed t.
  Proof.
    intros E. apply andb_prop in E as [E1 E2]. split; [apply numericb_sound, E1|].
    apply orb_prop in E2 as [E2|E2]; [left; exact E2|right; bools; assumption].
  Qed.

  Definition tree (k : colkind) : bool := match k with CBTree => true | _ => false end.
  Definition index (k : colkind) : bool := match k with CIndex => true | _ => false end.
  Lemma raw_okb_sound k size : tree k || div_orb size = true -> k = CBTree \/ allowed PanicDivZero \/ size <> 0.
  Proof. intros E. apply orb_prop in E as [E|E]; [left; destruct k; try discriminate; reflexivity|right; apply div_orb_sound, E]. Qed.

  Definition set_elemb (k : colkind) (t : ty) : bool :=
    if is_prim h t then numericb t && (tree k || div_orb (h_size h t)) else true.
  Lemma set_elemb_sound k t : set_elemb k t = true -> set_elem h allowed k t.
  Proof.
    unfold set_elemb. intros E Hp. rewrite Hp in E. apply andb_prop in E as [E1 E2].
    split; [apply numericb_sound, E1|apply raw_okb_sound, E2].
  Qed.

  Definition map_elemb (k : colkind) (tk tv : ty) : bool :=
    index k || (if is_prim h tk && is_prim h tv then
                  numericb tk && numericb tv && (tree k || div_orb (h_size h (pair_ty tk tv))) else true).
  Lemma map_elemb_sound k tk tv : map_elemb k tk tv = true -> map_elem h allowed k tk tv.
  Proof.
    intros E. apply orb_prop in E as [E|E]; [left; destruct k; try discriminate; reflexivity|right]. intros H1 H2. rewrite H1, H2 in E.
    cbn [andb] in E. apply andb_prop in E as [E E3]. apply andb_prop in E as [E1 E2].
    split; [apply numericb_sound, E1|]. split; [apply numericb_sound, E2|apply raw_okb_sound, E3].
  Qed.

  Definition is_u64 (t : ty) : bool := match t with TScalar (SPrim U64) => true | _ => false end.
  Definition eof_or (lm : lenmode) (b : bool) : bool := match lm with LEof => b | _ => true end.

  Definition calm_fieldb (c : lenmode -> ty -> bool) (a : fattrs) (t : ty) : bool :=
    (if f_skip a || f_eof a then validb (h_lim h) t (f_default a) else true)
    && (f_skip a
        || ((if f_varint a then is_u64 t else true)
            && (nlen (f_prefix a) <=? h_alloc_max h)
            && c (if sized_field a t then f_len a else LDefault) t)).

  Fixpoint calmb (lm : lenmode) (t : ty) {struct t} : bool :=
    match t with
    | TScalar (SDuration | SSystemTime | SDateTime) => allowb PanicExplicit
    | TScalar _ => true
    | TStr k =>
      len_okb lm
      && (match k with
          | KRefStr => true
          | _ => countedb lm (TP U8) && eof_or lm (L <=? h_alloc_max h)
          end
      && match k with
         | KCowStr | KRegex => fits_orb lm 1
         | _ => true
         end)
    | TSeq k t' =>
      len_okb lm
      && match k with
         | KRef => view_okb t' && eof_or lm (div_orb (h_size h t'))
         | _ => elem_okb t' && (match k with KCow => cow_okb lm t' | _ => true end) && countedb lm t'
                && eof_or lm (endsb t' && roomyb t') && calmb LDefault t'
         end
    | TArr t' _ => convertsb t' && calmb LDefault t'
    | TRange _ t' | TBox t' => calmb LDefault t'
    | TRefArr t' _ => view_okb t'
    | TOption t' => calmb lm t'
    | TResult t1 t2 => calmb LDefault t1 && calmb LDefault t2
    | TTuple ts => all_tysb (calmb LDefault) ts
    | TSet k t' => len_okb lm && (set_elemb k t' && (eof_or lm (endsb t') && calmb LDefault t'))
    | TMap k tk tv =>
      len_okb lm && (map_elemb k tk tv && (eof_or lm (endsb tk || endsb tv) && (calmb LDefault tk && calmb LDefault tv)))
    | TStruct _ fs => all_fieldsb (calm_fieldb calmb) fs
    | TEnum _ vs => all_variantsb (all_fieldsb (calm_fieldb calmb)) vs
    | TBot => allowb IllTyped
    end.

  Notation calm := (calm h e allowed L vec_ok).

  Lemma calm_fieldb_sound a t : (forall lm, calmb lm t = true -> calm lm t) ->
    calm_fieldb calmb a t = true -> calm_field h calm a t.
  Proof.
    intros IH E. apply andb_prop in E as [E1 E2]. split.
    - intros Hs. rewrite Hs in E1. apply validb_sound, E1.
    - apply orb_prop in E2 as [E2|E2]; [left; exact E2|right]. apply andb_prop in E2 as [E2 E3]. apply andb_prop in E2 as [E2 E4].
      split; [|split; [apply N.leb_le, E4|apply IH, E3]]. intros Hv. rewrite Hv in E2.
      destruct t as [[[]| | | | | | | | | | | | | | | | |]| | | | | | | | | | | | | |]; try discriminate; reflexivity.
  Qed.

  Lemma calmb_sound t : forall lm, calmb lm t = true -> calm lm t.
  Proof.
    induction t as [s|k|k t IH|t n IH|t n IH|t IH|t1 t2 IH1 IH2|ts IH|i t IH|k t IH|k tk tv IHk IHv|t IH|d fs IH|d vs IH|]
      using ty_ind'; intros lm; cbn [calmb Safe.calm].
    - destruct s; auto.
    - intros E. apply andb_prop in E as [E1 E]. apply andb_prop in E as [E2 E3].
      split; [apply len_okb_sound, E1|].
      destruct k; try apply andb_prop in E2 as [E2 E4];
        (split; [first [exact I | split; [apply countedb_sound, E2|intros ->; apply N.leb_le, E4]]
                |first [exact I | apply fits_orb_sound, E3]]).
    - intros E. apply andb_prop in E as [E1 E]. split; [apply len_okb_sound, E1|].
      assert (Hlist : forall cow, elem_okb t && cow && countedb lm t && eof_or lm (endsb t && roomyb t) && calmb LDefault t = true ->
        elem_ok h e allowed t /\ cow = true /\ counted h allowed vec_ok lm t
        /\ (lm = LEof -> finishes h allowed t /\ roomy h L t) /\ calm LDefault t).
      { intros cow E'. apply andb_prop in E' as [E' H5]. apply andb_prop in E' as [E' H4]. apply andb_prop in E' as [E' H3].
        apply andb_prop in E' as [H1 H2]. split; [apply elem_okb_sound, H1|]. split; [exact H2|].
        split; [apply countedb_sound, H3|]. split; [|apply IH, H5]. intros ->. cbn [eof_or] in H4. apply andb_prop in H4 as [H4 H6].
        split; [apply endsb_sound, H4|apply roomyb_sound, H6]. }
      destruct k.
      + destruct (Hlist true E) as (H1 & _ & H3). split; [exact H1|]. split; [discriminate|exact H3].
      + destruct (Hlist true E) as (H1 & _ & H3). split; [exact H1|]. split; [discriminate|exact H3].
      + destruct (Hlist true E) as (H1 & _ & H3). split; [exact H1|]. split; [discriminate|exact H3].
      + destruct (Hlist _ E) as (H1 & H2 & H3). split; [exact H1|]. split; [intros _; apply cow_okb_sound, H2|exact H3].
      + apply andb_prop in E as [E2 E3]. split; [apply view_okb_sound, E2|]. intros ->. apply div_orb_sound, E3.
    - intros E. apply andb_prop in E as [E1 E2]. split; [apply convertsb_sound, E1|apply IH, E2].
    - apply view_okb_sound.
    - apply IH.
    - intros E. apply andb_prop in E as [E1 E2]. auto.
    - apply all_tysb_sound. revert IH. apply Forall_impl. auto.
    - apply IH.
    - intros E. apply andb_prop in E as [E1 E]. apply andb_prop in E as [E2 E]. apply andb_prop in E as [E3 E4].
      split; [apply len_okb_sound, E1|]. split; [apply set_elemb_sound, E2|]. split; [|apply IH, E4].
      intros ->. apply endsb_sound, E3.
    - intros E. apply andb_prop in E as [E1 E]. apply andb_prop in E as [E2 E]. apply andb_prop in E as [E3 E]. apply andb_prop in E as [E4 E5].
      split; [apply len_okb_sound, E1|]. split; [apply map_elemb_sound, E2|]. split; [|split; [apply IHk, E4|apply IHv, E5]].
      intros ->. cbn [eof_or] in E3. apply orb_prop in E3 as [E3|E3]; [left|right]; apply endsb_sound, E3.
    - apply IH.
    - apply all_fieldsb_sound. revert IH. apply Forall_impl. intros f Hf. apply calm_fieldb_sound, Hf.
    - apply all_variantsb_sound. revert IH. apply Forall_impl. intros v Hv.
      apply all_fieldsb_sound. revert Hv. apply Forall_impl. intros f Hf. apply calm_fieldb_sound, Hf.
    - auto.
  Qed.
End Calmb.

(** Room for what the length prefix can say. *)
Definition stream_roomb (h : host) (lm : lenmode) (size min : N) : bool :=
  match lm with
  | LDefault => basic_max BU32 * size <=? h_alloc_max h
  | LType b => (basic_max b * size <=? h_alloc_max h) || (l_usize_max (h_lim h) * size <=? h_alloc_max h)
  | LExpr _ => false
  | LEof => true
  end.

Lemma stream_roomb_sound h lm size min : stream_roomb h lm size min = true ->
  forall n, possible_length h lm n -> stream_room h size min n.
Proof.
  unfold stream_room. destruct lm as [|b|f|]; cbn [stream_roomb possible_length]; intros E n Hn; try discriminate; try contradiction.
  - apply N.leb_le in E. nia.
  - apply orb_prop in E as [E|E]; apply N.leb_le in E; nia.
Qed.

Definition buffer_roomb (h : host) (L : N) (lm : lenmode) (size min : N) : bool :=
  stream_roomb h lm size min || ((1 <=? min) && (L / min * size <=? h_alloc_max h)).

Lemma buffer_roomb_sound h L lm size min : buffer_roomb h L lm size min = true ->
  forall n, possible_length h lm n -> buffer_room h L size min n.
Proof.
  intros E n Hn. apply orb_prop in E as [E|E]; [left; eapply stream_roomb_sound; eassumption|right].
  apply andb_prop in E as [E1 E2]. apply N.leb_le in E1, E2. intros m Hm.
  assert (m <= L / min) by (apply N.div_le_lower_bound; lia). nia.
Qed.
