(* The conditions under which whatever is read is a valid value (C24), with a
   sound decision procedure for use in examples. *)
From Verif Require Export CalmCheck.

(** The declared type has to make sense.  [L] bounds the length of the input. *)
Section Sane.
  Context (h : host) (L : N).
  Notation size := (h_size h).

  (** Length expressions are of type usize. *)
  Definition len_typed (lm : lenmode) : Prop :=
    match lm with
    | LExpr f => forall prev n, f prev = Some n -> n <= l_usize_max (h_lim h)
    | _ => True
    end.

  (** Elements read as raw memory are numbers or structs of such (always so
      without `unsafe_is_primitive`: [unforced_sane_elem] below); elements without
      size, which are not read at all, exist. *)
  Definition sane_elem (t : ty) : Prop :=
    if is_prim h t then image h t else size t <> 0 \/ valid (h_lim h) t (zst_val t).

  Definition sane_field (sane : lenmode -> ty -> Prop) (a : fattrs) (t : ty) : Prop :=
    (f_skip a || f_eof a = true -> valid (h_lim h) t (f_default a))
    /\ (f_skip a = true
        \/ (f_varint a = true -> t = TP U64)
           /\ nlen (f_prefix a) <= h_alloc_max h
           /\ sane (if sized_field a t then f_len a else LDefault) t).

  Fixpoint sane (lm : lenmode) (t : ty) {struct t} : Prop :=
    match t with
    | TScalar _ | TBot => True
    | TStr k => len_typed lm /\ (lm = LEof -> L <= h_alloc_max h)
    | TSeq KRef t' => len_typed lm /\ numeric t'
    | TSeq _ t' => len_typed lm /\ sane_elem t' /\ (lm = LEof -> roomy h L t') /\ sane LDefault t'
    | TArr t' _ => (is_prim h t' = true -> image h t') /\ sane LDefault t'
    | TRefArr t' _ => numeric t'
    | TOption t' => sane lm t'
    | TRange _ t' | TBox t' => sane LDefault t'
    | TResult t1 t2 => sane LDefault t1 /\ sane LDefault t2
    | TTuple ts => all_tys (sane LDefault) ts
    | TSet _ t' => len_typed lm /\ (is_prim h t' = true -> numeric t') /\ sane LDefault t'
    | TMap _ tk tv =>
      len_typed lm /\ (is_prim h tk = true -> numeric tk) /\ (is_prim h tv = true -> numeric tv)
      /\ sane LDefault tk /\ sane LDefault tv
    | TStruct _ fs => all_fields (sane_field sane) fs
    | TEnum _ vs => all_variants (all_fields (sane_field sane)) vs
    end.

  Lemma unforced_sane_elem t : unforced t -> is_prim h t = true -> sane_elem t.
  Proof. intros Hu Hp. unfold sane_elem. rewrite Hp. apply unforced_image; assumption. Qed.

  Lemma sane_calm e vec_ok t : forall lm, sane lm t -> calm h e (fun _ => True) L vec_ok lm t.
  Proof.
    assert (Hlen : forall lm, len_typed lm -> len_ok h (fun _ => True) lm).
    { intros [| |f|]; cbn; auto. }
    assert (Hel : forall t, sane_elem t -> elem_ok h e (fun _ => True) t).
    { intros t' H. unfold sane_elem in H. destruct (is_prim h t') eqn:E; (split; [intros C|intros C]); try congruence; auto. }
    assert (Hf : forall a t', (forall lm, sane lm t' -> calm h e (fun _ => True) L vec_ok lm t') ->
      sane_field sane a t' -> calm_field h (calm h e (fun _ => True) L vec_ok) a t').
    { intros a t' IH [H1 H2]. split; [exact H1|]. destruct H2 as [H2|(H2 & H3 & H4)]; auto. }
    induction t as [s|k|k t IH|t n IH|t n IH|t IH|t1 t2 IH1 IH2|ts IH|i t IH|k t IH|k tk tv IHk IHv|t IH|d fs IH|d vs IH|]
      using ty_ind'; intros lm; cbn [sane calm].
    - destruct s; auto.
    - intros [H1 H2]. split; [auto|]. unfold counted. split; destruct k; auto.
    - assert (Hvec : len_typed lm /\ sane_elem t /\ (lm = LEof -> roomy h L t) /\ sane LDefault t ->
        len_ok h (fun _ => True) lm /\ elem_ok h e (fun _ => True) t /\ (k = KCow -> cow_ok h (fun _ => True) lm t)
        /\ counted h (fun _ => True) vec_ok lm t /\ (lm = LEof -> finishes h (fun _ => True) t /\ roomy h L t)
        /\ calm h e (fun _ => True) L vec_ok LDefault t).
      { intros (H1 & H2 & H3 & H4). unfold cow_ok, counted, finishes. auto 10. }
      destruct k; auto. unfold view_ok. intros [H1 H2]. auto.
    - intros [H1 H2]. split; [intros E; auto|auto].
    - unfold view_ok. auto.
    - apply IH.
    - intros [H1 H2]. auto.
    - intros H. revert H. induction IH as [|t r Ht Hr IHr]; cbn [all_tys]; [auto|]. intros [H1 H2]. auto.
    - apply IH.
    - intros (H1 & H2 & H3). unfold set_elem, finishes. auto 10.
    - intros (H1 & H2 & H3 & H4 & H5). split; [auto|]. split; [right; intros C1 C2; auto|]. unfold finishes. auto.
    - apply IH.
    - intros H. revert H. induction IH as [|f r Ht Hr IHr]; cbn [all_fields]; [auto|]. intros [H1 H2]. auto.
    - intros H. revert H. induction IH as [|v r Hv Hr IHr]; cbn [all_variants]; [auto|]. intros [H1 H2]. split; [|auto].
      clear - Hv H1 Hf. revert H1. induction Hv as [|f r Ht Hr IHr]; cbn [all_fields]; [auto|]. intros [H1 H2]. auto.
    - auto.
  Qed.
End Sane.


Section Saneb.
  Context (h : host) (L : N).

  Definition sane_elemb (t : ty) : bool :=
    if is_prim h t then imageb h t else negb (h_size h t =? 0) || validb (h_lim h) t (zst_val t).
  Lemma sane_elemb_sound t : sane_elemb t = true -> sane_elem h t.
  Proof.
    unfold sane_elemb, sane_elem. destruct (is_prim h t); [apply imageb_sound|].
    intros E. apply orb_prop in E as [E|E]; [left; bools; assumption|right; apply validb_sound, E].
  Qed.

  Definition len_typedb (lm : lenmode) : bool := match lm with LExpr _ => false | _ => true end.
  Lemma len_typedb_sound lm : len_typedb lm = true -> len_typed h lm.
  Proof. destruct lm; cbn; auto; discriminate. Qed.

  Definition sane_fieldb (c : lenmode -> ty -> bool) (a : fattrs) (t : ty) : bool :=
    (if f_skip a || f_eof a then validb (h_lim h) t (f_default a) else true)
    && (f_skip a
        || ((if f_varint a then is_u64 t else true)
            && (nlen (f_prefix a) <=? h_alloc_max h)
            && c (if sized_field a t then f_len a else LDefault) t)).

  Definition impb (a b : bool) : bool := if a then b else true.

  Fixpoint saneb (lm : lenmode) (t : ty) {struct t} : bool :=
    match t with
    | TScalar _ | TBot => true
    | TStr k => len_typedb lm && eof_or lm (L <=? h_alloc_max h)
    | TSeq KRef t' => len_typedb lm && numericb t'
    | TSeq _ t' => len_typedb lm && (sane_elemb t' && (eof_or lm (roomyb h L t') && saneb LDefault t'))
    | TArr t' _ => impb (is_prim h t') (imageb h t') && saneb LDefault t'
    | TRefArr t' _ => numericb t'
    | TOption t' => saneb lm t'
    | TRange _ t' | TBox t' => saneb LDefault t'
    | TResult t1 t2 => saneb LDefault t1 && saneb LDefault t2
    | TTuple ts => all_tysb (saneb LDefault) ts
    | TSet _ t' => len_typedb lm && (impb (is_prim h t') (numericb t') && saneb LDefault t')
    | TMap _ tk tv =>
      len_typedb lm && (impb (is_prim h tk) (numericb tk) && (impb (is_prim h tv) (numericb tv)
      && (saneb LDefault tk && saneb LDefault tv)))
    | TStruct _ fs => all_fieldsb (sane_fieldb saneb) fs
    | TEnum _ vs => all_variantsb (all_fieldsb (sane_fieldb saneb)) vs
    end.

  Notation sane := (sane h L).

  Lemma sane_fieldb_sound a t : (forall lm, saneb lm t = true -> sane lm t) ->
    sane_fieldb saneb a t = true -> sane_field h sane a t.
  Proof.
    intros IH E. apply andb_prop in E as [E1 E2]. split.
    - intros Hs. rewrite Hs in E1. apply validb_sound, E1.
    - apply orb_prop in E2 as [E2|E2]; [left; exact E2|right]. apply andb_prop in E2 as [E2 E3]. apply andb_prop in E2 as [E2 E4].
      split; [|split; [apply N.leb_le, E4|apply IH, E3]]. intros Hv. rewrite Hv in E2.
      destruct t as [[[]| | | | | | | | | | | | | | | | |]| | | | | | | | | | | | | |]; try discriminate; reflexivity.
  Qed.

  Lemma impb_sound a b (A : Prop) : impb a b = true -> (b = true -> A) -> a = true -> A.
  Proof. intros E H ->. auto. Qed.

  Lemma saneb_sound t : forall lm, saneb lm t = true -> sane lm t.
  Proof.
    induction t as [s|k|k t IH|t n IH|t n IH|t IH|t1 t2 IH1 IH2|ts IH|i t IH|k t IH|k tk tv IHk IHv|t IH|d fs IH|d vs IH|]
      using ty_ind'; intros lm; cbn [saneb Sane.sane].
    - auto.
    - intros E. apply andb_prop in E as [E1 E2]. split; [apply len_typedb_sound, E1|]. intros ->. apply N.leb_le, E2.
    - assert (Hvec : len_typedb lm && (sane_elemb t && (eof_or lm (roomyb h L t) && saneb LDefault t)) = true ->
        len_typed h lm /\ sane_elem h t /\ (lm = LEof -> roomy h L t) /\ sane LDefault t).
      { intros E. apply andb_prop in E as [E1 E]. apply andb_prop in E as [E2 E]. apply andb_prop in E as [E3 E4].
        split; [apply len_typedb_sound, E1|]. split; [apply sane_elemb_sound, E2|]. split; [|apply IH, E4].
        intros ->. eapply (roomyb_sound h L (fun _ _ _ => true) (fun _ _ _ => True)); [auto|exact E3]. }
      destruct k; auto. intros E. apply andb_prop in E as [E1 E2]. split; [apply len_typedb_sound, E1|apply numericb_sound, E2].
    - intros E. apply andb_prop in E as [E1 E2]. split; [|apply IH, E2]. apply (impb_sound _ _ _ E1), imageb_sound.
    - apply numericb_sound.
    - apply IH.
    - intros E. apply andb_prop in E as [E1 E2]. auto.
    - apply all_tysb_sound. revert IH. apply Forall_impl. auto.
    - apply IH.
    - intros E. apply andb_prop in E as [E1 E]. apply andb_prop in E as [E2 E3].
      split; [apply len_typedb_sound, E1|]. split; [|apply IH, E3]. apply (impb_sound _ _ _ E2), numericb_sound.
    - intros E. apply andb_prop in E as [E1 E]. apply andb_prop in E as [E2 E]. apply andb_prop in E as [E3 E]. apply andb_prop in E as [E4 E5].
      split; [apply len_typedb_sound, E1|]. split; [apply (impb_sound _ _ _ E2), numericb_sound|].
      split; [apply (impb_sound _ _ _ E3), numericb_sound|]. split; [apply IHk, E4|apply IHv, E5].
    - apply IH.
    - apply all_fieldsb_sound. revert IH. apply Forall_impl. intros f Hf. apply sane_fieldb_sound, Hf.
    - apply all_variantsb_sound. revert IH. apply Forall_impl. intros v Hv.
      apply all_fieldsb_sound. revert Hv. apply Forall_impl. intros f Hf. apply sane_fieldb_sound, Hf.
    - auto.
  Qed.
End Saneb.
