(* Sound decision procedures for the conditions of the theorems, so that examples
   can be checked by computation. *)
From Verif Require Import BaseFacts.
From Verif Require Export Conditions.

Definition all_fieldsb (p : fattrs -> ty -> bool) : fields -> bool :=
  fix go (l : fields) : bool :=
    match l with [] => true | f :: r => p (fst f) (snd f) && go r end.
Definition all_tysb (p : ty -> bool) : list ty -> bool :=
  fix go (l : list ty) : bool := match l with [] => true | t :: r => p t && go r end.
Definition all_variantsb (p : fields -> bool) : list (N * fields) -> bool :=
  fix go (l : list (N * fields)) : bool :=
    match l with [] => true | v :: r => p (snd v) && go r end.

Lemma all_fieldsb_sound (p : fattrs -> ty -> bool) (P : fattrs -> ty -> Prop) fs :
  Forall (fun f => p (fst f) (snd f) = true -> P (fst f) (snd f)) fs ->
  all_fieldsb p fs = true -> all_fields P fs.
Proof.
  induction 1 as [|f fs H _ IH]; cbn; [auto|]. intros E. apply andb_prop in E as [E1 E2]. auto.
Qed.

Lemma all_tysb_sound (p : ty -> bool) (P : ty -> Prop) ts :
  Forall (fun t => p t = true -> P t) ts -> all_tysb p ts = true -> all_tys P ts.
Proof. induction 1 as [|t ts H _ IH]; cbn; [auto|]. intros E. apply andb_prop in E as [E1 E2]. auto. Qed.

Lemma all_variantsb_sound (p : fields -> bool) (P : fields -> Prop) vs :
  Forall (fun v => p (snd v) = true -> P (snd v)) vs -> all_variantsb p vs = true -> all_variants P vs.
Proof. induction 1 as [|v vs H _ IH]; cbn; [auto|]. intros E. apply andb_prop in E as [E1 E2]. auto. Qed.

Ltac bools := repeat match goal with
  | H : _ && _ = true |- _ => apply andb_prop in H as [? ?]
  | H : negb _ = true |- _ => apply negb_true_iff in H
  | H : (_ =? _) = true |- _ => apply N.eqb_eq in H
  | H : (_ =? _) = false |- _ => apply N.eqb_neq in H
  | H : (_ <=? _) = true |- _ => apply N.leb_le in H
  end.

Section Layoutb.
  Context (h : host).

  Definition declared_layoutb (d : sdecl) (fs : fields) : bool :=
    if sd_forced d || is_transparent d fs || is_packed d then
      if is_prim h (TStruct d fs) then
        all_fieldsb (fun a t => can_be_primitive a && is_prim h t) fs
        && (nsum (sizes h fs) =? h_size h (TStruct d fs)) && ascending (offsets h d fs)
      else true
    else true.

  Lemma declared_layoutb_sound d fs : declared_layoutb d fs = true -> declared_layout h d fs.
  Proof.
    unfold declared_layoutb, declared_layout. intros H C E. rewrite C, E in H. bools. split; [|auto].
    eapply all_fieldsb_sound; [|eassumption]. apply Forall_forall. intros f _ E'. bools. auto.
  Qed.

  Fixpoint honestb (t : ty) : bool :=
    match t with
    | TStruct d fs => declared_layoutb d fs && all_fieldsb (fun _ t' => honestb t') fs
    | _ => true
    end.

  Lemma honestb_sound t : honestb t = true -> honest h t.
  Proof.
    induction t using ty_ind'; cbn [honestb honest]; auto. intros E. bools.
    split; [apply declared_layoutb_sound; assumption|].
    apply (all_fieldsb_sound (fun _ t' => honestb t') (fun _ t' => honest h t') fs H). assumption.
  Qed.

  Fixpoint flipsb (t : ty) : bool :=
    match t with
    | TStruct d fs => negb (is_transparent d fs) && all_fieldsb (fun _ t' => flipsb t') fs
    | _ => true
    end.

  Lemma flipsb_sound t : flipsb t = true -> flips t.
  Proof.
    induction t using ty_ind'; cbn [flipsb flips]; auto. intros E. bools.
    split; [assumption|].
    apply (all_fieldsb_sound (fun _ t' => flipsb t') (fun _ t' => flips t') fs H). assumption.
  Qed.

  Fixpoint convertibleb (t : ty) : bool :=
    match t with
    | TStruct d fs =>
      if is_transparent d fs then all_fieldsb (fun _ t' => convertibleb t') fs
      else all_fieldsb (fun _ t' => flipsb t') fs
    | _ => true
    end.

  Lemma convertibleb_sound t : convertibleb t = true -> convertible t.
  Proof.
    induction t using ty_ind'; cbn [convertibleb convertible]; auto.
    destruct (is_transparent d fs).
    - apply (all_fieldsb_sound (fun _ t' => convertibleb t') (fun _ t' => convertible t') fs H).
    - apply (all_fieldsb_sound (fun _ t' => flipsb t') (fun _ t' => flips t') fs).
      apply Forall_forall. intros f _. apply flipsb_sound.
  Qed.

  Fixpoint silentb (t : ty) : bool :=
    match t with
    | TScalar SUnit => true
    | TArr t' n => Nat.eqb n 0 || silentb t'
    | TTuple ts => all_tysb silentb ts
    | TStruct _ fs => all_fieldsb (fun a t' => can_be_primitive a && silentb t') fs
    | _ => false
    end.

  Lemma silentb_sound t : silentb t = true -> silent t.
  Proof.
    induction t as [[]| | |t n IH| | | |ts IH| | | | |d fs IH| |] using ty_ind'; cbn [silentb silent]; try discriminate; auto; intros E.
    - apply orb_prop in E as [E|E]; [left; apply Nat.eqb_eq, E|right; auto].
    - eapply all_tysb_sound; eassumption.
    - eapply all_fieldsb_sound; [|eassumption]. revert IH. apply Forall_impl. intros f IH E'. bools. auto.
  Qed.

  Definition field_minokb (mok : ty -> bool) (a : fattrs) (t : ty) : bool :=
    if f_eof a || negb (match f_len a with LDefault | LType _ => true | _ => false end)
       || f_skip a then true
    else if f_varint a then negb (f_opaque a) && match t with TScalar (SPrim _) => true | _ => false end
    else if f_opaque a then mok t
    else match t with
         | TOption _ => true
         | TArr t' _ => mok t'
         | _ => if is_container t then true else mok t
         end.

  Fixpoint minokb (t : ty) : bool :=
    match t with
    | TArr t' _ | TRange _ t' | TBox t' => minokb t'
    | TRefArr t' _ => is_prim h t' && honestb t'
    | TTuple ts => all_tysb minokb ts
    | TStruct _ fs => all_fieldsb (field_minokb minokb) fs
    | TEnum d vs =>
      if e_peek d then
        all_variantsb (fun fs => all_fieldsb (field_minokb minokb) fs
          && (basic_size (e_tag d) <=? nsum (map (field_min (min_bytes h)) fs))) vs
      else true
    | _ => true
    end.

  Lemma field_minokb_sound a t : (minokb t = true -> minok h t) ->
    field_minokb minokb a t = true -> field_minok (minok h) a t.
  Proof.
    intros IH. unfold field_minokb, field_minok. destruct (_ || _); [auto|].
    destruct (f_varint a).
    { intros E. bools. split; [assumption|]. destruct t as [[]| | | | | | | | | | | | | |]; try discriminate; exact I. }
    destruct (f_opaque a); [exact IH|].
    destruct t; auto; destruct (is_container _); auto.
  Qed.

  Lemma minokb_sound t : minokb t = true -> minok h t.
  Proof.
    induction t using ty_ind'; cbn [minokb minok]; auto.
    - intros E. bools. split; [assumption|apply honestb_sound; assumption].
    - apply all_tysb_sound; assumption.
    - apply all_fieldsb_sound. revert H. apply Forall_impl. intros f. apply field_minokb_sound.
    - destruct (e_peek d); [|auto]. apply all_variantsb_sound. revert H. apply Forall_impl.
      intros v Hv E. bools. split; [|assumption]. eapply all_fieldsb_sound; [|eassumption].
      revert Hv. apply Forall_impl. intros f. apply field_minokb_sound.
  Qed.
End Layoutb.

Section Supportedb.
  Context (h : host) (e : endian) (bw pk : bool).

  Definition fitsb (lm : lenmode) (size : N) : bool :=
    match lm with
    | LDefault => basic_max BU32 * size <=? l_usize_max (h_lim h)
    | LType b => (basic_max b * size <=? l_usize_max (h_lim h)) || (size <=? 1)
    | LExpr _ => size =? 0
    | LEof => true
    end.

  Lemma fitsb_sound lm size : fitsb lm size = true -> fits h lm size.
  Proof.
    unfold fits. destruct lm as [|b|f|]; cbn [fitsb possible_length]; intros H n Hn.
    - bools. nia.
    - destruct Hn as [Hn1 Hn2]. apply orb_prop in H as [H|H]; bools; nia.
    - bools. nia.
    - contradiction.
  Qed.

  Definition same_endian (a b : endian) : bool :=
    match a, b with LE, LE | BE, BE => true | _, _ => false end.

  Definition vec_elemb (t : ty) : bool :=
    if is_prim h t then
      honestb h t && (if conversion_necessary (h_native h) e then convertibleb t else true)
    else (negb (h_size h t =? 0) || silentb t) && minokb h t.

  Lemma vec_elemb_sound t : vec_elemb t = true -> vec_elem h e t.
  Proof.
    unfold vec_elemb, vec_elem. destruct (is_prim h t); intros E; bools.
    - split; [apply honestb_sound; assumption|]. intros C. rewrite C in *. apply convertibleb_sound. assumption.
    - split; [|apply minokb_sound; assumption]. apply orb_prop in H as [H|H]; [left; bools; assumption|right; apply silentb_sound, H].
  Qed.

  Definition view_elemb (t : ty) : bool :=
    is_prim h t && honestb h t && negb (h_size h t =? 0) && (h_align h t =? 1)
    && ((h_size h t =? 1) || same_endian (h_native h) e).

  Lemma view_elemb_sound t : view_elemb t = true -> view_elem h e t.
  Proof.
    unfold view_elemb, view_elem. intros E. bools. repeat split; auto; [apply honestb_sound; assumption|].
    apply orb_prop in H0 as [H0|H0]; bools; [auto|]. right. destruct (h_native h), e; try discriminate; reflexivity.
  Qed.

  Definition copy_elemb (lm : lenmode) (t : ty) : bool :=
    if is_prim h t then honestb h t && negb (h_size h t =? 0) && fitsb lm (h_size h t) else true.

  Lemma copy_elemb_sound lm t : copy_elemb lm t = true -> copy_elem h lm t.
  Proof.
    unfold copy_elemb, copy_elem. intros E C. rewrite C in E. bools. repeat split; auto; [apply honestb_sound|apply fitsb_sound]; assumption.
  Qed.

  Definition pair_elemb (lm : lenmode) (tk tv : ty) : bool :=
    if is_prim h tk && is_prim h tv then
      honestb h tk && honestb h tv
      && (h_size h tk + h_size h tv =? h_size h (pair_ty tk tv))
      && negb (h_size h (pair_ty tk tv) =? 0)
      && ascending (offsets h pair_decl [(plain, tk); (plain, tv)])
      && fitsb lm (h_size h (pair_ty tk tv))
    else true.

  Lemma pair_elemb_sound lm tk tv : pair_elemb lm tk tv = true -> pair_elem h lm tk tv.
  Proof.
    unfold pair_elemb, pair_elem. intros E H1 H2. rewrite H1, H2 in E. cbn [andb] in E. bools.
    repeat split; auto; try (apply honestb_sound; assumption). apply fitsb_sound. assumption.
  Qed.

  Definition seq_elemb (lm : lenmode) (k : seqkind) (t : ty) : bool :=
    match k with
    | KVec | KBoxSlice | KSmallVec => vec_elemb t
    | KCow => vec_elemb t && copy_elemb lm t
    | KRef => bw && view_elemb t && fitsb lm (h_size h t)
    end.

  Lemma seq_elemb_sound lm k t : seq_elemb lm k t = true -> seq_elem h e bw lm k t.
  Proof.
    destruct k; cbn [seq_elemb seq_elem]; intros E; bools; auto using vec_elemb_sound, copy_elemb_sound, view_elemb_sound, fitsb_sound.
  Qed.

  Definition sup_fieldb (sup : lenmode -> ty -> bool) (a : fattrs) (t : ty) : bool :=
    f_skip a
    || ((if f_varint a then negb (f_opaque a) && match t with TScalar (SPrim _) => true | _ => false end else true)
        && (nlen (f_prefix a) <=? h_alloc_max h)
        && sup (if sized_field a t then f_len a else LDefault) t).

  Fixpoint supportedb (lm : lenmode) (t : ty) {struct t} : bool :=
    match t with
    | TScalar _ | TBot => true
    | TStr k =>
      match k with
      | KRefStr => bw
      | KCowStr | KRegex => fitsb lm 1
      | _ => true
      end
    | TSeq k t' => seq_elemb lm k t' && supportedb LDefault t'
    | TArr t' _ => (if is_prim h t' then vec_elemb t' else true) && supportedb LDefault t'
    | TRefArr t' _ => bw && view_elemb t'
    | TOption t' => supportedb lm t'
    | TResult t1 t2 => supportedb LDefault t1 && supportedb LDefault t2
    | TTuple ts => all_tysb (supportedb LDefault) ts
    | TRange _ t' => supportedb LDefault t'
    | TSet _ t' => copy_elemb lm t' && supportedb LDefault t'
    | TMap _ tk tv => pair_elemb lm tk tv && (supportedb LDefault tk && supportedb LDefault tv)
    | TBox t' => supportedb LDefault t'
    | TStruct _ fs => all_fieldsb (sup_fieldb supportedb) fs
    | TEnum d vs =>
      (if e_peek d then pk && match e_tag d with BVarint => false | _ => true end else true)
      && all_variantsb (all_fieldsb (sup_fieldb supportedb)) vs
    end.

  Lemma sup_fieldb_sound a t : (forall lm, supportedb lm t = true -> supported h e bw pk lm t) ->
    sup_fieldb supportedb a t = true -> sup_field h (supported h e bw pk) a t.
  Proof.
    intros IH E. unfold sup_fieldb in E. apply orb_prop in E as [E|E]; [left; assumption|right]. bools.
    split; [|auto]. intros Hv. rewrite Hv in *. bools. split; [assumption|].
    destruct t as [[]| | | | | | | | | | | | | |]; try discriminate; exact I.
  Qed.

  Lemma supportedb_sound t : forall lm, supportedb lm t = true -> supported h e bw pk lm t.
  Proof.
    induction t as [s|k|k t IH|t n IH|t n IH|t IH|t1 t2 IH1 IH2|ts IH|i t IH|k t IH|k tk tv IHk IHv|t IH|d fs IH|d vs IH|]
      using ty_ind'; intros lm; cbn [supportedb supported]; auto; intros E; bools.
    - destruct k; auto; apply fitsb_sound; assumption.
    - split; [apply seq_elemb_sound|apply IH]; assumption.
    - split; [|auto]. intros Hp. rewrite Hp in *. apply vec_elemb_sound. assumption.
    - split; [assumption|apply view_elemb_sound; assumption].
    - auto.
    - eapply all_tysb_sound; [|eassumption]. revert IH. apply Forall_impl. auto.
    - split; [apply copy_elemb_sound|apply IH]; assumption.
    - split; [apply pair_elemb_sound; assumption|auto].
    - eapply all_fieldsb_sound; [|eassumption]. revert IH. apply Forall_impl. intros f. apply sup_fieldb_sound.
    - split.
      + intros Hp. rewrite Hp in *. bools. split; [assumption|]. destruct (e_tag d); discriminate.
      + eapply all_variantsb_sound; [|eassumption]. revert IH. apply Forall_impl. intros v IH E.
        eapply all_fieldsb_sound; [|eassumption]. revert IH. apply Forall_impl. intros f. apply sup_fieldb_sound.
  Qed.
End Supportedb.

Section Wsupb.
  Context (h : host).

  Definition wsup_fieldb (ws : ty -> bool) (a : fattrs) (t : ty) : bool :=
    f_skip a
    || ((if f_varint a then negb (f_opaque a) && match t with TScalar (SPrim U64) => true | _ => false end else true) && ws t).

  Definition slice_elemb (t : ty) : bool := if is_prim h t then honestb h t else true.

  Fixpoint wsupb (t : ty) : bool :=
    match t with
    | TScalar _ | TStr _ | TBot => true
    | TSeq _ t' | TArr t' _ => slice_elemb t' && wsupb t'
    | TRefArr t' _ | TOption t' | TRange _ t' | TSet _ t' | TBox t' => wsupb t'
    | TResult t1 t2 => wsupb t1 && wsupb t2
    | TMap _ t1 t2 => wsupb t1 && wsupb t2
    | TTuple ts => all_tysb wsupb ts
    | TStruct _ fs => all_fieldsb (wsup_fieldb wsupb) fs
    | TEnum d vs =>
      forallb (fun v => fst v <=? basic_max (e_tag d)) vs
      && all_variantsb (all_fieldsb (wsup_fieldb wsupb)) vs
    end.

  Lemma slice_elemb_sound t : slice_elemb t = true -> slice_elem h t.
  Proof. unfold slice_elemb, slice_elem. intros E H. rewrite H in E. apply honestb_sound, E. Qed.

  Lemma wsup_fieldb_sound a t : (wsupb t = true -> wsup h t) -> wsup_fieldb wsupb a t = true -> wsup_field (wsup h) a t.
  Proof.
    intros IH E. unfold wsup_fieldb in E. apply orb_prop in E as [E|E]; [left; assumption|right]. bools.
    split; [|auto]. intros Hv. rewrite Hv in *. bools. split; [assumption|].
    destruct t as [[[]| | | | | | | | | | | | | | | | |]| | | | | | | | | | | | | |]; try discriminate; reflexivity.
  Qed.

  Lemma forallb_le (m : N) (vs : list (N * fields)) : forallb (fun v => fst v <=? m) vs = true ->
    Forall (fun v => fst v <= m) vs.
  Proof. rewrite forallb_forall, Forall_forall. intros H v Hv. apply N.leb_le, H, Hv. Qed.

  Lemma wsupb_sound t : wsupb t = true -> wsup h t.
  Proof.
    induction t using ty_ind'; cbn [wsupb wsup]; auto; intros E; bools; auto using slice_elemb_sound.
    - eapply all_tysb_sound; eassumption.
    - eapply all_fieldsb_sound; [|eassumption]. revert H. apply Forall_impl. intros f. apply wsup_fieldb_sound.
    - split; [apply forallb_le; assumption|]. eapply all_variantsb_sound; [|eassumption]. revert H. apply Forall_impl.
      intros v Hv E. eapply all_fieldsb_sound; [|eassumption]. revert Hv. apply Forall_impl. intros f. apply wsup_fieldb_sound.
  Qed.
End Wsupb.

Fixpoint exactb (t : ty) : bool :=
  match t with
  | TScalar _ | TStr _ | TBot => true
  | TSeq _ t' | TArr t' _ | TRefArr t' _ | TOption t' | TSet _ t' | TBox t' => exactb t'
  | TRange incl t' => negb incl && exactb t'
  | TResult t1 t2 => exactb t1 && exactb t2
  | TMap _ t1 t2 => exactb t1 && exactb t2
  | TTuple ts => all_tysb exactb ts
  | TStruct _ fs => all_fieldsb (fun a t' => negb (f_skip a) && exactb t') fs
  | TEnum _ vs => all_variantsb (all_fieldsb (fun a t' => negb (f_skip a) && exactb t')) vs
  end.

Lemma exactb_sound t : exactb t = true -> exact t.
Proof.
  induction t using ty_ind'; cbn [exactb exact]; auto; intros E; bools; auto.
  - eapply all_tysb_sound; eassumption.
  - eapply all_fieldsb_sound; [|eassumption]. revert H. apply Forall_impl. intros f IH E'. bools. auto.
  - eapply all_variantsb_sound; [|eassumption]. revert H. apply Forall_impl.
    intros v Hv E'. eapply all_fieldsb_sound; [|eassumption]. revert Hv. apply Forall_impl. intros f IH E2. bools. auto.
Qed.

Fixpoint no_peekb (t : ty) : bool :=
  match t with
  | TScalar _ | TStr _ | TBot => true
  | TSeq _ t' | TArr t' _ | TRefArr t' _ | TOption t' | TSet _ t' | TBox t' | TRange _ t' => no_peekb t'
  | TResult t1 t2 => no_peekb t1 && no_peekb t2
  | TMap _ t1 t2 => no_peekb t1 && no_peekb t2
  | TTuple ts => all_tysb no_peekb ts
  | TStruct _ fs => all_fieldsb (fun a t' => f_skip a || no_peekb t') fs
  | TEnum d vs => negb (e_peek d) && all_variantsb (all_fieldsb (fun a t' => f_skip a || no_peekb t')) vs
  end.

Lemma no_peekb_sound t : no_peekb t = true -> no_peek t.
Proof.
  induction t using ty_ind'; cbn [no_peekb no_peek]; auto; intros E; bools; auto.
  - eapply all_tysb_sound; eassumption.
  - eapply all_fieldsb_sound; [|eassumption]. revert H. apply Forall_impl. intros f IH E'.
    apply orb_prop in E' as [E'|E']; auto.
  - split; [assumption|]. eapply all_variantsb_sound; [|eassumption]. revert H. apply Forall_impl.
    intros v Hv E'. eapply all_fieldsb_sound; [|eassumption]. revert Hv. apply Forall_impl. intros f IH E2.
    apply orb_prop in E2 as [E2|E2]; auto.
Qed.

Definition no_eof_fieldb (ne : bool -> ty -> bool) (a : fattrs) (t : ty) : bool :=
  f_skip a || (negb (f_eof a) && ne (field_eof a t) t).

Fixpoint no_eofb (eof : bool) (t : ty) : bool :=
  match t with
  | TScalar _ | TBot => true
  | TStr _ => negb eof
  | TSeq _ t' | TSet _ t' => negb eof && no_eofb false t'
  | TMap _ t1 t2 => negb eof && (no_eofb false t1 && no_eofb false t2)
  | TArr t' _ | TRefArr t' _ | TBox t' | TRange _ t' => no_eofb false t'
  | TOption t' => no_eofb eof t'
  | TResult t1 t2 => no_eofb false t1 && no_eofb false t2
  | TTuple ts => all_tysb (no_eofb false) ts
  | TStruct _ fs => all_fieldsb (no_eof_fieldb no_eofb) fs
  | TEnum _ vs => all_variantsb (all_fieldsb (no_eof_fieldb no_eofb)) vs
  end.

Lemma no_eof_fieldb_sound a t : (forall eof, no_eofb eof t = true -> no_eof eof t) ->
  no_eof_fieldb no_eofb a t = true ->
  f_skip a = true \/ (f_eof a = false /\ no_eof (field_eof a t) t).
Proof.
  intros IH E. unfold no_eof_fieldb in E. apply orb_prop in E as [E|E]; [auto|]. bools. auto.
Qed.

Lemma no_eofb_sound t : forall eof, no_eofb eof t = true -> no_eof eof t.
Proof.
  induction t using ty_ind'; intros eof; cbn [no_eofb no_eof]; auto; intros E; bools; auto.
  - eapply all_tysb_sound; [|eassumption]. revert H. apply Forall_impl. auto.
  - eapply all_fieldsb_sound; [|eassumption]. revert H. apply Forall_impl. intros f IH. apply no_eof_fieldb_sound, IH.
  - eapply all_variantsb_sound; [|eassumption]. revert H. apply Forall_impl.
    intros v Hv E'. eapply all_fieldsb_sound; [|eassumption]. revert Hv. apply Forall_impl. intros f IH.
    apply no_eof_fieldb_sound, IH.
Qed.

Fixpoint nodupb (l : list N) : bool :=
  match l with [] => true | x :: r => negb (existsb (N.eqb x) r) && nodupb r end.

Lemma nodupb_sound l : nodupb l = true -> NoDup l.
Proof.
  induction l as [|x l IH]; cbn; constructor; bools; auto. intros Hin.
  assert (existsb (N.eqb x) l = true); [|congruence]. apply existsb_exists. exists x. split; [assumption|apply N.eqb_refl].
Qed.

Section Rtokb.
  Context (lim : limits) (e e6 : endian).

  Definition rt_tysb (ok : ty -> bool) : list ty -> bool :=
    fix go (ts : list ty) : bool :=
      match ts with
      | [] => true
      | t :: r => ok t && (if opens false t then match r with [] => true | _ => false end else true) && go r
      end.

  Definition rt_fieldsb (ok : bool -> ty -> bool) : fields -> bool :=
    fix go (fs : fields) : bool :=
      match fs with
      | [] => true
      | f :: r =>
        (f_skip (fst f)
         || ((if f_varint (fst f) then match snd f with TScalar (SPrim U64) => true | _ => false end else true)
             && ok (field_eof (fst f) (snd f)) (snd f)
             && (if opens (field_eof (fst f) (snd f)) (snd f)
                 then all_fieldsb (fun a _ => f_skip a) r else true)))
        && go r
      end.

  Definition endsb {A} (d : dec A) : bool := match d (Some []) with DEof => true | _ => false end.

  Lemma endsb_sound {A} (d : dec A) : endsb d = true -> ends d.
  Proof. unfold endsb, ends. destruct (d (Some [])); congruence. Qed.

  Fixpoint rtokb (eof : bool) (t : ty) : bool :=
    match t with
    | TScalar (SBVec n) => Nat.leb n 8
    | TScalar _ | TStr _ | TBot => true
    | TSeq _ t' =>
      rtokb false t' && negb (opens false t') && (if eof then endsb (decl lim e e6 len0 t') else true)
    | TSet _ t' =>
      rtokb false t' && negb (opens false t') && exactb t'
      && (if eof then endsb (decl lim e e6 len0 t') else true)
    | TMap _ tk tv =>
      rtokb false tk && negb (opens false tk) && exactb tk && rtokb false tv && negb (opens false tv)
      && (if eof then endsb (dpair (decl lim e e6 len0 tk) (decl lim e e6 len0 tv)) else true)
    | TArr t' _ | TRefArr t' _ | TRange _ t' => rtokb false t' && negb (opens false t')
    | TBox t' => rtokb false t'
    | TOption t' => rtokb eof t'
    | TResult t1 t2 => rtokb false t1 && rtokb false t2
    | TTuple ts => rt_tysb (rtokb false) ts
    | TStruct _ fs => rt_fieldsb rtokb fs
    | TEnum d vs =>
      nodupb (map fst vs) && forallb (fun v => fst v <=? basic_max (e_tag d)) vs
      && all_variantsb (rt_fieldsb rtokb) vs
    end.

  Lemma rt_fieldsb_sound fs : Forall (fun f => forall eof, rtokb eof (snd f) = true -> rtok lim e e6 eof (snd f)) fs ->
    rt_fieldsb rtokb fs = true -> rt_fields (rtok lim e e6) fs.
  Proof.
    induction 1 as [|[a t] fs Hf _ IH]; cbn; [auto|]. intros E. bools. split; [|auto].
    apply orb_prop in H as [H|H]; [auto|right]. bools. repeat split.
    - intros Hv. rewrite Hv in *. destruct t as [[[]| | | | | | | | | | | | | | | | |]| | | | | | | | | | | | | |]; try discriminate; reflexivity.
    - apply Hf. assumption.
    - intros Ho. rewrite Ho in *. eapply all_fieldsb_sound; [|eassumption]. apply Forall_forall. auto.
  Qed.

  Lemma rtokb_sound t : forall eof, rtokb eof t = true -> rtok lim e e6 eof t.
  Proof.
    induction t as [s|k|k t IH|t n IH|t n IH|t IH|t1 t2 IH1 IH2|ts IH|i t IH|k t IH|k tk tv IHk IHv|t IH|d fs IH|d vs IH|]
      using ty_ind'; intros eof; cbn [rtokb rtok]; auto; intros E; bools.
    - destruct s; auto. apply Nat.leb_le, E.
    - split; [apply IH; assumption|]. split; [assumption|]. intros ->. apply endsb_sound. assumption.
    - auto.
    - auto.
    - auto.
    - induction IH as [|t ts Ht _ IHts]; [exact I|]. cbn in *. bools. split; [auto|]. split; [|auto].
      intros Ho. rewrite Ho in *. destruct ts; [reflexivity|discriminate].
    - auto.
    - split; [apply IH; assumption|]. split; [assumption|]. split; [apply exactb_sound; assumption|].
      intros ->. apply endsb_sound. assumption.
    - split; [apply IHk; assumption|]. split; [assumption|]. split; [apply exactb_sound; assumption|].
      split; [apply IHv; assumption|]. split; [assumption|]. intros ->. apply endsb_sound. assumption.
    - apply rt_fieldsb_sound; assumption.
    - split; [apply nodupb_sound; assumption|]. split; [apply forallb_le; assumption|].
      eapply all_variantsb_sound; [|eassumption]. revert IH. apply Forall_impl. intros v. apply rt_fieldsb_sound.
  Qed.
End Rtokb.

Definition coveredb (h : host) (e : endian) (bw pk : bool) (t : ty) : bool :=
  wsupb h t && supportedb h e bw pk LDefault t && rtokb (h_lim h) e (ipv6_order h e) false t.

Theorem coveredb_sound h e bw pk t : coveredb h e bw pk t = true -> covered h e bw pk t.
Proof.
  unfold coveredb. intros E. bools.
  constructor; [apply wsupb_sound|apply supportedb_sound|apply rtokb_sound]; assumption.
Qed.

(* ------------------------------------------------------------------ *)
(** * Values *)

Fixpoint distinctb (key : val -> val) (vs : list val) : bool :=
  match vs with
  | [] => true
  | v :: r => forallb (fun u => match val_cmp (key v) (key u) with Eq => false | _ => true end) r && distinctb key r
  end.
Fixpoint increasingb (key : val -> val) (vs : list val) : bool :=
  match vs with
  | [] => true
  | v :: r => forallb (fun u => match val_cmp (key v) (key u) with Lt => true | _ => false end) r && increasingb key r
  end.
Definition keys_okb (k : colkind) (key : val -> val) (vs : list val) : bool :=
  match k with CIndex => distinctb key vs | CBTree | CHash => increasingb key vs end.

Lemma keys_okb_sound k key vs : keys_okb k key vs = true -> keys_ok k key vs.
Proof.
  assert (Hd : distinctb key vs = true -> distinct key vs).
  { induction vs as [|v vs IH]; cbn; [auto|]. intros E. bools. split; [|auto].
    rewrite forallb_forall in H. apply Forall_forall. intros u Hu C. specialize (H u Hu). rewrite C in H. discriminate. }
  assert (Hi : increasingb key vs = true -> increasing key vs).
  { clear Hd. induction vs as [|v vs IH]; cbn; [auto|]. intros E. bools. split; [|auto].
    rewrite forallb_forall in H. apply Forall_forall. intros u Hu. specialize (H u Hu). destruct (val_cmp _ _); congruence. }
  destruct k; cbn; auto.
Qed.

Section Validb.
  Context (lim : limits).

  Definition in_zb (lo z hi : Z) : bool := ((lo <=? z) && (z <? hi))%Z.

  Definition valid_scalarb (s : scalar) (v : val) : bool :=
    match s, v with
    | (SPrim p | SAtomic p), VInt z => prim_ok p z
    | SNonZero p, VInt z => prim_ok p z && negb (z =? 0)%Z
    | SUsize, VInt z => in_zb 0 z (Z.of_N (l_usize_max lim) + 1)
    | SBool, VBool _ => true
    | SChar, VInt z => (0 <=? z)%Z && is_scalar (Z.to_N z)
    | SEndian, VVar i [] => Nat.ltb i 2
    | SUnit, VUnit => true
    | SVarint, VInt z => in_zb 0 z (2 ^ 64)
    | SIpv4, VBytes b => Nat.eqb (length b) 4
    | (SIpv6 | SUuid), VBytes b => Nat.eqb (length b) 16
    | SIpAddr, VVar 0%nat [VBytes b] => Nat.eqb (length b) 4
    | SIpAddr, VVar 1%nat [VBytes b] => Nat.eqb (length b) 16
    | SDuration, VSeq [VInt s; VInt n] => in_zb 0 s (2 ^ 64) && in_zb 0 n (10 ^ 9)
    | SSystemTime, VSeq [VInt s; VInt n] => (s <=? Z.of_N (l_systime_max lim))%Z && in_zb 0 n (10 ^ 9)
    | SDateTime, VSeq [VInt s; VInt n] =>
      prim_ok I64 s && in_zb 0 n (2 ^ 32) && l_chrono_ok lim s (Z.to_N n)
    | SGlam p n, VSeq vs =>
      Nat.eqb (length vs) n && forallb (fun v => match v with VInt z => prim_ok p z | _ => false end) vs
    | SBVec n, VSeq vs =>
      Nat.eqb (length vs) n && forallb (fun v => match v with VBool _ => true | _ => false end) vs
    | _, _ => false
    end.

  Lemma in_zb_sound lo z hi : in_zb lo z hi = true -> in_z lo z hi.
  Proof. unfold in_zb, in_z. lia. Qed.

  Lemma valid_scalarb_sound s v : valid_scalarb s v = true -> valid_scalar lim s v.
  Proof.
    destruct s; cbn [valid_scalarb valid_scalar]; intros E;
      destruct v as [| | | |vs| | | | |i us]; try discriminate; try exact I; try exact E;
      try (apply in_zb_sound, E); try (apply Nat.eqb_eq, E); bools.
    - split; [apply Z.leb_le|]; assumption.
    - destruct us; [apply Nat.ltb_lt, E|discriminate].
    - split; [assumption|]. apply Z.eqb_neq. assumption.
    - destruct i as [|[|i]], us as [|[] [|]]; try discriminate; apply Nat.eqb_eq, E.
    - destruct vs as [|[] [|[] [|]]]; try discriminate. bools. split; apply in_zb_sound; assumption.
    - destruct vs as [|[] [|[] [|]]]; try discriminate. bools. split; [apply Z.leb_le; assumption|apply in_zb_sound; assumption].
    - destruct vs as [|[] [|[] [|]]]; try discriminate. bools. split; [assumption|]. split; [apply in_zb_sound|]; assumption.
    - split; [apply Nat.eqb_eq; assumption|]. apply Forall_forall. rewrite forallb_forall in *. intros v Hv.
      match goal with H : forall x, _ |- _ => specialize (H v Hv) end. destruct v; try discriminate. assumption.
    - split; [apply Nat.eqb_eq; assumption|]. apply Forall_forall. rewrite forallb_forall in *. intros v Hv.
      match goal with H : forall x, _ |- _ => specialize (H v Hv) end. destruct v; try discriminate. exact I.
  Qed.

  Definition smallb (n : N) : bool := n <=? l_usize_max lim.
  Definition fits_inb (t : ty) (n : N) : bool := smallb n && l_fits lim t n.

  Definition valid_pairb (vk vv : val -> bool) (v : val) : bool :=
    match v with VSeq [k; x] => vk k && vv x | _ => false end.
  Definition valid_listb (va : ty -> val -> bool) : list ty -> list val -> bool :=
    fix go (ts : list ty) (vs : list val) : bool :=
      match ts, vs with
      | [], [] => true
      | t :: tr, v :: vr => va t v && go tr vr
      | _, _ => false
      end.
  Definition valid_fieldsb (va : ty -> val -> bool) : fields -> list val -> bool :=
    fix go (fs : fields) (vs : list val) : bool :=
      match fs, vs with
      | [], [] => true
      | f :: fr, v :: vr => va (snd f) v && go fr vr
      | _, _ => false
      end.
  Definition valid_variantb (va : ty -> val -> bool) : list (N * fields) -> nat -> list val -> bool :=
    fix go (vs : list (N * fields)) (i : nat) (us : list val) : bool :=
      match vs, i with
      | [], _ => false
      | v :: _, O => valid_fieldsb va (snd v) us
      | _ :: r, S i' => go r i' us
      end.

  Fixpoint validb (t : ty) (v : val) {struct t} : bool :=
    match t, v with
    | TScalar s, _ => valid_scalarb s v
    | TStr k, VBytes b =>
      utf8_valid b && fits_inb (TP U8) (nlen b)
      && match k with KRegex => l_regex_ok lim b | _ => true end
    | TSeq _ t', VSeq vs => forallb (validb t') vs && fits_inb t' (nlen vs)
    | (TArr t' n | TRefArr t' n), VSeq vs => forallb (validb t') vs && Nat.eqb (length vs) n
    | TSet k t', VSeq vs => forallb (validb t') vs && (smallb (nlen vs) && keys_okb k id vs)
    | TMap k tk tv, VSeq vs =>
      forallb (valid_pairb (validb tk) (validb tv)) vs && (smallb (nlen vs) && keys_okb k pair_key vs)
    | TOption t', VNone => true
    | TOption t', VSome u => validb t' u
    | TResult t1 t2, VOk u => validb t1 u
    | TResult t1 t2, VErr u => validb t2 u
    | TTuple ts, VSeq vs => valid_listb validb ts vs
    | TRange false t', VSeq [a; b] => validb t' a && validb t' b
    | TRange true t', VSeq [a; b; VBool _] => validb t' a && validb t' b
    | TBox t', _ => validb t' v
    | TStruct _ fs, VSeq vs => valid_fieldsb validb fs vs
    | TEnum _ vs, VVar i us => valid_variantb validb vs i us
    | _, _ => false
    end.

  Lemma forallb_sound {A} (p : A -> bool) (P : A -> Prop) l :
    (forall x, p x = true -> P x) -> forallb p l = true -> Forall P l.
  Proof. rewrite forallb_forall, Forall_forall. auto. Qed.

  Lemma fits_inb_sound t n : fits_inb t n = true -> fits_in lim t n.
  Proof. unfold fits_inb, smallb, fits_in, small. intros E. bools. auto. Qed.

  Lemma valid_fieldsb_sound fs : Forall (fun f => forall v, validb (snd f) v = true -> valid lim (snd f) v) fs ->
    forall vs, valid_fieldsb validb fs vs = true -> valid_fields (valid lim) fs vs.
  Proof.
    induction 1 as [|f fs Hf _ IH]; intros [|v vs]; cbn; try discriminate; auto. intros E. bools. auto.
  Qed.

  Lemma validb_sound t : forall v, validb t v = true -> valid lim t v.
  Proof.
    induction t as [s|k|k t IH|t n IH|t n IH|t IH|t1 t2 IH1 IH2|ts IH|i t IH|k t IH|k tk tv IHk IHv|t IH|d fs IH|d vs IH|]
      using ty_ind'; intros v E.
    - destruct v; apply valid_scalarb_sound; exact E.
    - destruct v; try discriminate E. cbn [validb valid] in *. bools. repeat split; auto.
      + apply fits_inb_sound in H1. apply H1.
      + apply fits_inb_sound in H1. apply H1.
      + destruct k; auto.
    - destruct v; try discriminate E. cbn [validb valid] in *. bools.
      split; [eapply forallb_sound; [|eassumption]; apply IH|apply fits_inb_sound; assumption].
    - destruct v; try discriminate E. cbn [validb valid] in *. bools.
      split; [eapply forallb_sound; [|eassumption]; apply IH|apply Nat.eqb_eq; assumption].
    - destruct v; try discriminate E. cbn [validb valid] in *. bools.
      split; [eapply forallb_sound; [|eassumption]; apply IH|apply Nat.eqb_eq; assumption].
    - destruct v; try discriminate E; cbn [validb valid] in *; auto.
    - destruct v; try discriminate E; cbn [validb valid] in *; auto.
    - destruct v; try discriminate E. cbn [validb valid] in *. revert vs E.
      induction IH as [|t ts Ht _ IHts]; intros [|v vs] E; cbn in *; try discriminate; auto. bools. auto.
    - destruct i, v as [| | | |[|x [|y [|[] [|]]]]| | | | |]; try discriminate E; cbn [validb valid] in *; bools; auto.
    - destruct v; try discriminate E. cbn [validb valid] in *. bools.
      split; [eapply forallb_sound; [|eassumption]; apply IH|]. split; [apply N.leb_le; assumption|apply keys_okb_sound; assumption].
    - destruct v; try discriminate E. cbn [validb valid] in *. bools.
      split; [|split; [apply N.leb_le; assumption|apply keys_okb_sound; assumption]].
      eapply forallb_sound; [|eassumption]. intros [| | | |[|x [|y [|]]]| | | | |]; cbn; try discriminate. intros E. bools. auto.
    - cbn [validb valid] in *. destruct v; apply IH, E.
    - destruct v; try discriminate E. cbn [validb valid] in *. apply valid_fieldsb_sound; assumption.
    - destruct v; try discriminate E. cbn [validb valid] in *. revert i E.
      induction IH as [|[g fs] vs Hf _ IHvs]; intros [|i] E; cbn in *; try discriminate; auto.
      apply valid_fieldsb_sound; assumption.
    - destruct v; discriminate E.
  Qed.
End Validb.

Definition value_ofb (h : host) (t : ty) (v : val) : bool := no_peekb t && validb (h_lim h) t v.

Theorem value_ofb_sound h e t v : value_ofb h t v = true -> value_of h e t v.
Proof.
  unfold value_ofb. intros E. bools. apply plain_value; [apply no_peekb_sound|apply validb_sound]; assumption.
Qed.
