(* Properties C30 and C31: `default_on_eof`. *)
From Verif Require Import StructFacts.

(* ------------------------------------------------------------------ *)
(** * Fields that begin with a byte *)

Definition scalar_hungry (s : scalar) : bool :=
  match s with SUnit => false | SGlam _ n => negb (Nat.eqb n 0) | _ => true end.

(** The first field that is not skipped. *)
Definition first_field (p : fattrs -> ty -> bool) : fields -> bool :=
  fix go (fs : fields) : bool :=
    match fs with
    | [] => false
    | f :: r => if f_skip (fst f) then go r else p (fst f) (snd f)
    end.

(** A length the reader looks for in the input. *)
Definition prefixed (a : fattrs) : bool :=
  match f_len a with LDefault | LType _ => true | _ => false end.

(** Types of which nothing can be read from nothing: they begin with a number, a
    length, a flag or a tag. *)
Fixpoint hungry (t : ty) : bool :=
  match t with
  | TScalar s => scalar_hungry s
  | TStr _ | TSeq _ _ | TSet _ _ | TMap _ _ _ | TOption _ | TResult _ _ | TEnum _ _ => true
  | TArr t' n | TRefArr t' n => negb (Nat.eqb n 0) && hungry t'
  | TTuple ts => match ts with [] => false | t' :: _ => hungry t' end
  | TRange _ t' | TBox t' => hungry t'
  | TStruct _ fs =>
    first_field (fun a t' =>
      negb (f_eof a)
      && ((match f_prefix a with [] => false | _ => true end) || f_varint a
          || (hungry t' && (negb (sized_field a t') || prefixed a
                            || match t' with TOption _ => true | _ => false end)))) fs
  | TBot => false
  end.

(** The empty container. *)
Definition empty_of (t : ty) : val := match t with TStr _ => VBytes [] | _ => VSeq [] end.

Section Hungry.
  Context (lim : limits) (e e6 : endian).
  Notation decl := (decl lim e e6).

  Lemma dread_nothing n : n <> 0 -> dread n (Some []) = DEof.
  Proof. intros H. unfold dread. destruct (N.eqb_spec n 0); [contradiction|]. rewrite nlen_nil. destruct (N.leb_spec n 0); [lia|reflexivity]. Qed.

  Lemma dword_nothing w : w <> 0%nat -> dword e w (Some []) = DEof.
  Proof. intros H. unfold dword, dmap, dbind. rewrite dread_nothing by lia. reflexivity. Qed.

  Lemma dprim_nothing p : dprim e p (Some []) = DEof.
  Proof. unfold dprim, dmap, dbind. rewrite dword_nothing by (destruct p; discriminate). reflexivity. Qed.

  Lemma dbasic_nothing b : dbasic e b (Some []) = DEof.
  Proof.
    destruct b; cbn [dbasic]; try (apply dword_nothing; discriminate).
    unfold dvarint, dbind. rewrite dword_nothing by discriminate. reflexivity.
  Qed.

  Lemma dread_number n bs : match dread n (Some bs) with DOk _ (Some _) | DEof => True | _ => False end.
  Proof. unfold dread. destruct (n =? 0); [exact I|]. destruct (n <=? nlen bs); exact I. Qed.

  Lemma dword_number w bs : match dword e w (Some bs) with DOk _ (Some _) | DEof => True | _ => False end.
  Proof. unfold dword, dmap, dbind. pose proof (dread_number (N.of_nat w) bs) as H. destruct (dread _ _) as [? [|]| | | |]; exact H. Qed.

  Lemma dbasic_number b bs : match dbasic e b (Some bs) with DOk _ (Some _) | DEof => True | _ => False end.
  Proof.
    destruct b; cbn [dbasic]; try apply dword_number.
    unfold dvarint, dbind. pose proof (dword_number 1 bs) as H. destruct (dword e 1 (Some bs)) as [n [q|]| | | |]; try contradiction; try exact H.
    pose proof (dread_number (N.of_nat (vi_ones n)) q) as H'. destruct (dread _ _) as [? [|]| | | |]; exact H'.
  Qed.

  Lemma dprefix_nothing b : dprefix lim e b (Some []) = DEof.
  Proof. unfold dprefix, dbind. rewrite dbasic_nothing. reflexivity. Qed.

  Lemma dconst_nothing c : c <> [] -> dconst c (Some []) = DEof.
  Proof.
    intros H. unfold dconst, dbind. rewrite dread_nothing; [reflexivity|].
    destruct c; [contradiction|]. rewrite nlen_cons. lia.
  Qed.

  Lemma scalar_nothing s : scalar_hungry s = true -> dec_scalar lim e e6 s (Some []) = DEof.
  Proof.
    intros H. destruct s; try discriminate; cbn [dec_scalar]; unfold dmap, dbind.
    all: try (rewrite dword_nothing by discriminate; reflexivity).
    all: try (rewrite dprim_nothing; reflexivity).
    all: try (rewrite dread_nothing by discriminate; reflexivity).
    - unfold dvarint, dbind. rewrite dword_nothing by discriminate. reflexivity.
    - unfold dduration, dbind. rewrite dword_nothing by discriminate. reflexivity.
    - unfold dduration, dbind. rewrite dword_nothing by discriminate. reflexivity.
    - cbn [scalar_hungry] in H. destruct n; [discriminate|]. cbn [drepeat]. unfold dbind. rewrite dprim_nothing. reflexivity.
  Qed.

  Definition hungry_ok (t : ty) : Prop := hungry t = true -> forall l,
    (exists b, l = LenPrefix b false) \/ match t with TOption _ => True | _ => False end ->
    decl l t (Some []) = DEof.

  Lemma hungry_fields fs : Forall (fun f => hungry_ok (snd f)) fs ->
    hungry (TStruct {| sd_id := 0; sd_repr := RRust; sd_forced := false; sd_generic := false |} fs) = true ->
    forall prev, dfields lim e e6 decl prev fs (Some []) = DEof.
  Proof.
    cbn [hungry]. induction 1 as [|[a t] fs Hf _ IH]; intros Hh prev; [discriminate|].
    cbn [first_field dfields fst snd] in *. destruct (f_skip a).
    - unfold dmap, dbind. rewrite IH by exact Hh. reflexivity.
    - apply andb_true_iff in Hh as [He Hh]. unfold dbind at 1, dfield. destruct (f_eof a); [discriminate|].
      unfold dbind at 1. destruct (f_prefix a) as [|c cs].
      + change (dconst [] (Some [])) with (DOk tt (Some (@nil byte))). cbn [orb] in Hh.
        destruct (f_varint a).
        * rewrite scalar_nothing by reflexivity. reflexivity.
        * cbn [orb] in Hh. apply andb_true_iff in Hh as [Hh Hl]. rewrite Hf; [reflexivity|exact Hh|].
          unfold field_len. destruct (sized_field a t); [|left; eexists; reflexivity]. cbn [negb orb] in Hl.
          unfold prefixed in Hl. destruct (f_len a); cbn [resolve]; try (left; eexists; reflexivity);
            (destruct t; try discriminate; right; exact I).
      + rewrite dconst_nothing by discriminate. reflexivity.
  Qed.

  Theorem hungry_nothing t : hungry_ok t.
  Proof.
    induction t as [s|k|k t IH|t n IH|t n IH|t IH|t1 t2 IH1 IH2|ts IH|i t IH|k t IH|k tk tv IHk IHv|t IH|d fs IH|d vs IH|]
      using ty_ind'; intros Hh l Hl; cbn [hungry] in Hh; cbn [Spec.decl]; try discriminate.
    - apply scalar_nothing, Hh.
    - destruct Hl as [[b ->]|[]]. cbn [dlen]. unfold dbind at 1. rewrite dprefix_nothing. reflexivity.
    - destruct Hl as [[b ->]|[]]. cbn [dlen]. unfold dmap, dbind. rewrite dprefix_nothing. reflexivity.
    - apply andb_true_iff in Hh as [Hn Hh]. destruct n; [discriminate|]. unfold dmap. cbn [drepeat]. unfold dbind.
      rewrite IH; [reflexivity|exact Hh|left; eexists; reflexivity].
    - apply andb_true_iff in Hh as [Hn Hh]. destruct n; [discriminate|]. unfold dmap. cbn [drepeat]. unfold dbind.
      rewrite IH; [reflexivity|exact Hh|left; eexists; reflexivity].
    - unfold dbind at 1. rewrite dword_nothing by discriminate. reflexivity.
    - unfold dbind at 1. rewrite dword_nothing by discriminate. reflexivity.
    - destruct ts as [|t ts]; [discriminate|]. inversion IH as [|? ? Ht _]; subst. cbn [dtuple]. unfold dmap, dbind.
      rewrite Ht; [reflexivity|exact Hh|left; eexists; reflexivity].
    - unfold dbind at 1. rewrite IH; [reflexivity|exact Hh|left; eexists; reflexivity].
    - destruct Hl as [[b ->]|[]]. cbn [dlen]. unfold dbind. rewrite dprefix_nothing. reflexivity.
    - destruct Hl as [[b ->]|[]]. cbn [dlen]. unfold dbind. rewrite dprefix_nothing. reflexivity.
    - apply IH; [exact Hh|left; eexists; reflexivity].
    - unfold dmap, dbind. rewrite hungry_fields; [reflexivity|exact IH|exact Hh].
    - unfold dbind at 1. destruct (e_peek d); [unfold dpeek|]; rewrite dbasic_nothing; reflexivity.
  Qed.

  (** ** Fields that are their default at the end of the input *)

  (** A fixed number of elements. *)
  Definition fixed_falls (n : N) (t : ty) : Prop :=
    n = 0
    \/ match t with
       | TStr _ => l_fits lim (TP U8) n = true
       | TSeq _ t' => l_fits lim t' n = true /\ hungry t' = true
       | TSet _ t' => hungry t' = true
       | TMap _ tk _ => hungry tk = true
       | _ => False
       end.

  Definition elements_hungry (t : ty) : Prop :=
    match t with
    | TStr _ => True
    | TSeq _ t' | TSet _ t' => hungry t' = true
    | TMap _ tk _ => hungry tk = true
    | _ => False
    end.

  (** The field begins with something, or is a container whose default is empty. *)
  Definition falls_back (prev : list (option Z)) (a : fattrs) (t : ty) : Prop :=
    f_prefix a <> [] \/ f_varint a = true
    \/ (sized_field a t = false /\ hungry t = true)
    \/ (sized_field a t = true /\ (exists t', t = TOption t'))
    \/ (sized_field a t = true /\ f_default a = empty_of t
        /\ match f_len a with
           | LDefault | LType _ => True
           | LExpr f => exists n, f prev = Some n /\ fixed_falls n t
           | LEof => elements_hungry t
           end).

  Fixpoint all_fall_back (prev : list (option Z)) (fs : fields) : Prop :=
    match fs with
    | [] => True
    | f :: r =>
      if f_skip (fst f) then all_fall_back prev r
      else f_eof (fst f) = true /\ falls_back prev (fst f) (snd f)
           /\ all_fall_back (prev ++ [proj (f_default (fst f))]) r
    end.

  Context (Hfits0 : forall t, l_fits lim t 0 = true).

  Lemma counted_zero t (o : option bytes) : is_container t = true ->
    decl (LenFixed (Some 0)) t o = DOk (empty_of t) o.
  Proof.
    intros Hc. destruct t as [| k | k t'| | | | | | |k t'|k tk tv| | | |]; try discriminate; cbn [Spec.decl dlen].
    - unfold dbind at 1, dsized. rewrite Hfits0. unfold dunsure, dread. change (0 =? 0) with true. cbv iota.
      destruct k; try discriminate; reflexivity.
    - unfold dmap, dbind, dsized. rewrite Hfits0. reflexivity.
    - cbn [drepeat N.to_nat]. unfold dbind, dret. destruct k; try discriminate; reflexivity.
    - cbn [drepeat N.to_nat]. unfold dbind, dret. destruct k; try discriminate; reflexivity.
  Qed.

  (** A length that is not there counts as 0. *)
  Lemma lenient_eof b t bs : is_container t = true -> dprefix lim e b (Some bs) = DEof ->
    decl (LenPrefix b true) t (Some bs)
    = DOk (empty_of t) (match bs with [] => Some [] | _ => None end).
  Proof.
    intros Hc Hd. rewrite <- counted_zero by exact Hc.
    destruct t as [| k | k t'| | | | | | |k t'|k tk tv| | | |]; try discriminate; cbn [Spec.decl dlen];
      unfold dmap, dbind, dcatch; rewrite Hd; destruct bs; reflexivity.
  Qed.

  (** A length that is there counts. *)
  Lemma lenient_same b t bs : is_container t = true -> dprefix lim e b (Some bs) <> DEof ->
    decl (LenPrefix b true) t (Some bs) = decl (LenPrefix b false) t (Some bs).
  Proof.
    intros Hc Hd.
    assert (Hs : forall er s, dprefix lim e b (Some bs) = DBad er s -> s = true).
    { intros er s. unfold dprefix, dbind. pose proof (dbasic_number b bs) as E.
      destruct (dbasic e b (Some bs)) as [n o| | | |]; try discriminate; try contradiction.
      destruct (n <=? _); [discriminate|]. intros H. injection H as _ <-. reflexivity. }
    assert (Hp : forall f s, dprefix lim e b (Some bs) <> DPanic f s).
    { intros f s. unfold dprefix, dbind. pose proof (dbasic_number b bs) as E.
      destruct (dbasic e b (Some bs)) as [n o| | | |]; try discriminate; try contradiction.
      destruct (n <=? _); discriminate. }
    assert (E : dcatch 0 (dprefix lim e b) (Some bs) = dprefix lim e b (Some bs)).
    { unfold dcatch. destruct (dprefix lim e b (Some bs)) as [n o| |er s|f s|] eqn:E; try reflexivity.
      - contradiction.
      - rewrite (Hs er s eq_refl). reflexivity.
      - destruct (Hp f s eq_refl). }
    destruct t as [| k | k t'| | | | | | |k t'|k tk tv| | | |]; try discriminate; cbn [Spec.decl dlen];
      unfold dmap, dbind; rewrite E; reflexivity.
  Qed.

  Lemma falls_back_field prev a t : f_eof a = true -> falls_back prev a t ->
    dfield lim e e6 decl prev a t (Some []) = DOk (f_default a) (Some []).
  Proof.
    intros Hf H. unfold dfield. rewrite Hf. unfold dcatch.
    destruct (f_prefix a) as [|c cs] eqn:Ep.
    2: { unfold dbind. rewrite dconst_nothing by discriminate. reflexivity. }
    unfold dbind. change (dconst [] (Some [])) with (DOk tt (Some (@nil byte))). cbv iota.
    destruct (f_varint a) eqn:Ev; [rewrite scalar_nothing by reflexivity; reflexivity|].
    destruct H as [H|[H|[[Hs Hh]|[[Hs [t' ->]]|(Hs & Hd & Hl)]]]]; try congruence.
    - unfold field_len. rewrite Hs. rewrite hungry_nothing; [reflexivity|exact Hh|left; eexists; reflexivity].
    - rewrite hungry_nothing; [reflexivity|reflexivity|right; exact I].
    - assert (Hco : (exists t', t = TOption t') \/ is_container t = true).
      { unfold sized_field in Hs. apply andb_true_iff in Hs as [_ Hs]. destruct t; eauto. }
      destruct Hco as [[t' ->]|Hc]; [rewrite hungry_nothing; [reflexivity|reflexivity|right; exact I]|].
      unfold field_len. rewrite Hs, Hd. destruct (f_len a) as [|b|f|]; cbn [resolve].
      + rewrite lenient_eof by (exact Hc || apply dprefix_nothing). reflexivity.
      + rewrite lenient_eof by (exact Hc || apply dprefix_nothing). reflexivity.
      + destruct Hl as (n & -> & [->|Hn]); [rewrite counted_zero by exact Hc; reflexivity|].
        destruct (N.eq_dec n 0) as [->|Hn0]; [rewrite counted_zero by exact Hc; reflexivity|].
        destruct (N.to_nat n) as [|m] eqn:Em; [lia|].
        destruct t as [| k | k t'| | | | | | |k t'|k tk tv| | | |]; try contradiction; cbn [Spec.decl dlen];
          unfold dmap, dbind, dsized, dunsure.
        * rewrite Hn, dread_nothing by exact Hn0. reflexivity.
        * destruct Hn as [Hn Hh]. rewrite Hn, Em. cbn [drepeat]. unfold dbind.
          rewrite hungry_nothing; [reflexivity|exact Hh|left; eexists; reflexivity].
        * rewrite Em. cbn [drepeat]. unfold dbind.
          rewrite hungry_nothing; [reflexivity|exact Hn|left; eexists; reflexivity].
        * rewrite Em. cbn [drepeat]. unfold dpair, dbind.
          rewrite hungry_nothing; [reflexivity|exact Hn|left; eexists; reflexivity].
      + destruct t as [| k | k t'| | | | | | |k t'|k tk tv| | | |]; try contradiction; cbn [Spec.decl dlen elements_hungry] in *;
          unfold dmap, dbind.
        * destruct k; try discriminate; reflexivity.
        * unfold duntil. cbn [length duntil_loop]. rewrite hungry_nothing; [reflexivity|exact Hl|left; eexists; reflexivity].
        * unfold duntil. cbn [length duntil_loop]. rewrite hungry_nothing; [|exact Hl|left; eexists; reflexivity].
          destruct k; reflexivity.
        * unfold duntil. cbn [length duntil_loop]. unfold dpair, dbind.
          rewrite hungry_nothing; [|exact Hl|left; eexists; reflexivity]. destruct k; reflexivity.
  Qed.

  Lemma all_fall_back_fields fs : forall prev, all_fall_back prev fs ->
    dfields lim e e6 decl prev fs (Some []) = DOk (map (fun f => f_default (fst f)) fs) (Some []).
  Proof.
    induction fs as [|[a t] fs IH]; intros prev H; [reflexivity|].
    cbn [all_fall_back dfields fst snd map] in *. destruct (f_skip a).
    - unfold dmap, dbind. rewrite IH by exact H. reflexivity.
    - destruct H as (H1 & H2 & H3). unfold dbind at 1. rewrite falls_back_field by assumption.
      unfold dbind. rewrite IH by exact H3. reflexivity.
  Qed.
End Hungry.

(* ------------------------------------------------------------------ *)
(** * C30 *)

Definition defaults (fs : fields) : list val := map (fun f => f_default (fst f)) fs.

(** The field without `default_on_eof`. *)
Definition strictly (a : fattrs) : fattrs :=
  {| f_eof := false; f_skip := f_skip a; f_varint := f_varint a; f_opaque := f_opaque a;
     f_len := f_len a; f_prefix := f_prefix a; f_default := f_default a |}.

Section Default.
  Context (h : host) (VH : valid_host h) (e : endian).
  Notation e6 := (ipv6_order h e).
  Notation decl := (decl (h_lim h) e e6).
  Notation decode := (decode (h_lim h) e e6).

  Lemma fits_nothing t : l_fits (h_lim h) t 0 = true.
  Proof. rewrite (vh_fits h VH). apply N.leb_le. lia. Qed.

  (** C30: when the input ends exactly before the fields of [fs2], they are all
      their defaults. *)
  Theorem C30_ends_before_partial d fs1 fs2 bs ws bw r :
    let T := TStruct d (fs1 ++ fs2) in
    supported h e bw true LDefault T -> reading h e T bs bw r ->
    decode (TStruct d fs1) bs = DOk (VSeq ws) (Some []) ->
    all_fall_back (h_lim h) (visible fs1 ws) fs2 ->
    too_small h T bs r \/ r = Ok (VSeq (ws ++ defaults fs2)).
  Proof.
    intros T Hs Hr Hd Hf. destruct (reading_agrees h VH e T bs bw r Hs Hr) as [H|H]; [left; exact H|right].
    unfold T in H. rewrite (decode_struct_app _ _ _ d fs1 fs2 bs ws _ Hd) in H.
    unfold dmap, dbind in H. rewrite all_fall_back_fields in H by (exact fits_nothing || exact Hf). exact H.
  Qed.

  Lemma visible_norm fs : forall vs, valid_fields (valid (h_lim h)) fs vs ->
    visible fs (norm_fields norm fs vs) = visible fs vs.
  Proof.
    induction fs as [|[a t] fs IH]; intros [|v vs]; try reflexivity. cbn [norm_fields visible valid_fields fst snd].
    intros [Hv Hvs]. rewrite IH by assumption. destruct (f_skip a); [reflexivity|]. rewrite (proj_norm _ _ _ Hv). reflexivity.
  Qed.

  Lemma eof_min fs : all_fields (fun a _ => f_skip a = true \/ f_eof a = true) fs ->
    nsum (map (field_min (min_bytes h)) fs) = 0.
  Proof.
    induction fs as [|[a t] fs IH]; intros H; [reflexivity|]. destruct H as [H1 H2]. cbn [map nsum fold_right].
    unfold nsum in IH. rewrite (IH H2). unfold field_min. cbn [fst snd] in *.
    destruct H1 as [-> | ->]; [rewrite orb_true_r|]; reflexivity.
  Qed.

  Lemma fall_back_eof fs : forall prev, all_fall_back (h_lim h) prev fs ->
    all_fields (fun a _ => f_skip a = true \/ f_eof a = true) fs.
  Proof.
    induction fs as [|[a t] fs IH]; intros prev H; [exact I|]. cbn [all_fall_back all_fields fst snd] in *.
    destruct (f_skip a); split; auto; try (eapply IH; eassumption).
    - right. apply H.
    - eapply IH, H.
  Qed.

  Lemma struct_min d fs1 fs2 : min_bytes h (TStruct d (fs1 ++ fs2))
    = min_bytes h (TStruct d fs1) + nsum (map (field_min (min_bytes h)) fs2).
  Proof.
    cbn [min_bytes]. rewrite map_app. unfold nsum.
    induction (map (field_min (min_bytes h)) fs1) as [|x xs IH]; cbn [app fold_right]; [lia|]. lia.
  Qed.

  Lemma struct_supported bw pk d fs1 fs2 : supported h e bw pk LDefault (TStruct d (fs1 ++ fs2)) ->
    supported h e bw pk LDefault (TStruct d fs1) /\ supported h e bw pk LDefault (TStruct d fs2).
  Proof. apply all_fields_app. Qed.

  Context (mem : N -> bytes) (Hmem : forall n, n <= nlen (mem n)).

  (** In particular behind what was written for the fields before. *)
  Theorem C30_written_partial d fs1 fs2 vs1 b bw r :
    let T := TStruct d (fs1 ++ fs2) in
    supported h e bw true LDefault T -> wsup h (TStruct d fs1) -> rtok (h_lim h) e e6 false (TStruct d fs1) ->
    value_of h e (TStruct d fs1) (VSeq vs1) ->
    all_fall_back (h_lim h) (visible fs1 vs1) fs2 ->
    write_to_vec h mem e (TStruct d fs1) (VSeq vs1) = Ok b ->
    reading h e T b bw r ->
    r = Ok (VSeq (norm_fields norm fs1 vs1 ++ defaults fs2)).
  Proof.
    intros T Hs Hw Hr Hv Hf Hb Hrd.
    assert (He : encode (h_iter h) e e6 (TStruct d fs1) (VSeq vs1) = Ok b)
      by (eapply write_to_vec_err; try eassumption; apply Hv).
    pose proof (host_round_trip h VH e _ _ b [] Hr Hv He (fun _ => eq_refl)) as Hd. rewrite app_nil_r in Hd.
    cbn [norm] in Hd.
    destruct (C30_ends_before_partial d fs1 fs2 b _ bw r Hs Hrd Hd) as [[H _]|H]; [rewrite visible_norm by apply Hv; exact Hf| |exact H].
    exfalso. rewrite struct_min, (eof_min fs2) in H by (eapply fall_back_eof, Hf).
    assert (min_bytes h (TStruct d fs1) <= nlen b); [|lia].
    destruct (struct_supported bw true d fs1 fs2 Hs) as [Hs1 _]. eapply host_min; eassumption.
  Qed.

  (** When it ends inside the last field, which is neither an optional container
      with a length nor one that reaches to the end of the input, that field is its
      default. *)
  Definition cut_ok (a : fattrs) (t : ty) : Prop :=
    field_eof a t = false
    /\ (sized_field a t = true -> prefixed a = true ->
        match t with TOption _ => False | _ => f_default a = empty_of t end).

  Lemma closed_before (fs1 fs2 : fields) a t : rt_fields (rtok (h_lim h) e e6) (fs1 ++ (a, t) :: fs2) -> f_skip a = false ->
    rt_fields (rtok (h_lim h) e e6) fs1 /\ fields_open opens fs1 = false.
  Proof.
    intros H Hk. induction fs1 as [|[a1 t1] fs1 IH]; [split; [exact I|reflexivity]|].
    cbn [app rt_fields fst snd] in H. destruct H as [H1 H2]. destruct (IH H2) as [H3 H4]. cbn [rt_fields fields_open fst snd].
    assert (Ho : opens (field_eof a1 t1) t1 = true -> f_skip a1 = true \/ False).
    { intros E. destruct H1 as [H1|(_ & _ & H1)]; [left; exact H1|right]. specialize (H1 E).
      apply all_fields_app in H1 as [_ [H1 _]]. cbn in H1. congruence. }
    split.
    - split; [|exact H3]. destruct H1 as [H1|(Ha & Hb & Hc)]; [left; exact H1|right]. split; [exact Ha|].
      split; [exact Hb|]. intros E. destruct (Ho E) as [E'|[]]. specialize (Hc E).
      apply all_fields_app in Hc as [_ [Hc _]]. cbn in Hc. congruence.
    - rewrite H4, orb_false_r. destruct (opens (field_eof a1 t1) t1) eqn:E; [|rewrite andb_false_r; reflexivity].
      destruct (Ho eq_refl) as [-> |[]]. reflexivity.
  Qed.

  Lemma tagged_fields_app (P : ty -> val -> Prop) fs1 fs2 : forall vs1 vs2, length fs1 = length vs1 ->
    tagged_fields P (fs1 ++ fs2) (vs1 ++ vs2) -> tagged_fields P fs1 vs1 /\ tagged_fields P fs2 vs2.
  Proof.
    induction fs1 as [|f fs1 IH]; intros [|v vs1] vs2 Hl H; try discriminate; [split; [exact I|exact H]|].
    injection Hl as Hl. destruct H as [H1 H2]. destruct (IH _ _ Hl H2). split; [split|]; assumption.
  Qed.

  Lemma skipped_default fs : all_fields (fun a _ => f_skip a = true) fs -> forall prev o,
    dfields (h_lim h) e e6 decl prev fs o = DOk (defaults fs) o.
  Proof.
    induction fs as [|[a t] fs IH]; intros H prev o; [reflexivity|]. destruct H as [H1 H2]. cbn [fst] in H1.
    cbn [dfields fst snd defaults map]. rewrite H1. unfold dmap, dbind. rewrite (IH H2). reflexivity.
  Qed.

  Theorem C30_ends_inside_partial d fs1 a t fs2 vs1 v vs2 b1 p q bw r :
    let T := TStruct d (fs1 ++ (a, t) :: fs2) in
    length fs1 = length vs1 -> f_skip a = false -> f_eof a = true ->
    all_fields (fun a _ => f_skip a = true) fs2 -> cut_ok a t -> no_eof false t ->
    covered h e bw true T -> value_of h e T (VSeq (vs1 ++ v :: vs2)) ->
    write_to_vec h mem e (TStruct d fs1) (VSeq vs1) = Ok b1 ->
    write_to_vec h mem e T (VSeq (vs1 ++ v :: vs2)) = Ok (b1 ++ p ++ q) -> q <> [] ->
    reading h e T (b1 ++ p) bw r ->
    r = Ok (VSeq (norm_fields norm fs1 vs1 ++ f_default a :: defaults fs2)).
  Proof.
    intros T Hlen Hk Hf Hsk Hcut Hno [Hw Hs Hr] [Hv Ht] Hb1 Hb Hq Hrd.
    destruct (struct_wsup h d fs1 _ Hw) as [Hw1 [Hwa _]].
    destruct (struct_valid h d fs1 _ vs1 _ Hlen Hv) as [Hv1 [Hva _]].
    destruct (tagged_fields_app _ fs1 _ vs1 _ Hlen Ht) as [Ht1 [Hta _]].
    destruct (closed_before fs1 fs2 a t Hr Hk) as [Hr1 Hop].
    assert (Hra : (f_varint a = true -> t = TP U64) /\ rtok (h_lim h) e e6 (field_eof a t) t).
    { clear - Hr Hk. cbn [rtok] in Hr. unfold T in Hr. induction fs1 as [|f fs1 IH]; cbn [app rt_fields] in Hr.
      - destruct Hr as [[H|(H1 & H2 & _)] _]; [cbn in H; congruence|]. auto.
      - apply IH, Hr. }
    destruct Hra as [Hvi Hra].
    apply (write_to_vec_err h VH) in Hb1; try assumption. apply (write_to_vec_err h VH) in Hb; try assumption.
    apply (struct_split h e d fs1 a t fs2 vs1 v vs2 _ Hlen Hk) in Hb as (b1' & bf & b2 & Eb & E1 & E2 & E3).
    unfold encode in E1. rewrite Hb1 in E1. injection E1 as <-.
    destruct (skipped_rt (h_lim h) (h_iter h) e e6 fs2 Hsk _ _ _ [] E3) as [_ ->]. rewrite app_nil_r in Eb.
    apply app_inv_head in Eb.
    (* the fields before *)
    pose proof (host_round_trip h VH e (TStruct d fs1) (VSeq vs1) b1 p Hr1 (conj Hv1 Ht1) Hb1) as Hd.
    specialize (Hd ltac:(cbn [opens]; congruence)). cbn [norm] in Hd.
    (* the field, without leniency *)
    destruct Hcut as [Hfe Hcut].
    destruct Hta as [Hta|Hta]; [cbn in Hta; congruence|]. cbn [fst snd] in Hta.
    set (prev := visible fs1 vs1) in *.
    set (strict := fun o : option bytes =>
      (_ <-- dconst (f_prefix a) ;;
       (if f_varint a then dec_scalar (h_lim h) e e6 SVarint else decl (field_len false prev a t) t)) o).
    assert (Hstrict : strict (Some p) = DEof).
    { assert (Hm : mono strict).
      { apply mono_bind; [apply mono_const|]. intros _. destruct (f_varint a); [apply mono_scalar|].
        apply decode_mono.
        - rewrite leof_field, Hfe. exact Hno.
        - left. unfold field_len. unfold field_eof in Hfe.
          destruct (sized_field a t); [|reflexivity]. destruct (f_len a); try discriminate; cbn; auto; try congruence. }
      assert (Hfull : strict (Some (bf ++ [])) = DOk (norm t v) (Some [])).
      { pose proof (field_rt (h_lim h) (h_iter h) e e6 (vh_usize_hi h VH) (vh_systime h VH) prev (strictly a) t v bf []) as G.
        apply G; clear G; try assumption.
        - intros l v0 b0 rest. apply round_trip; [apply VH|apply VH|apply VH].
        - rewrite Hfe in *. intros _. reflexivity. }
      rewrite app_nil_r, <- Eb in Hfull. destruct (Hm p) as [E|(M1 & M2 & M3)]; [exact E|exfalso].
      rewrite M1 in Hfull. destruct (strict (Some p)) as [w o| | | |]; try discriminate.
      destruct (M3 w o eq_refl) as (c & rr & -> & _). cbn in Hfull. injection Hfull as _ Hfull.
      apply app_eq_nil in Hfull as [_ ->]. contradiction. }
    (* with it *)
    assert (Hfield : exists o, dfield (h_lim h) e e6 decl prev a t (Some p) = DOk (f_default a) o).
    { unfold dfield. rewrite Hf. unfold dcatch.
      unfold strict in Hstrict. unfold dbind in Hstrict |- *.
      destruct (dconst (f_prefix a) (Some p)) as [u o| | | |] eqn:Ec; try discriminate; [|eexists; reflexivity].
      destruct (f_varint a); [rewrite Hstrict; eexists; reflexivity|].
      unfold field_len in *. destruct (sized_field a t) eqn:Es; [|rewrite Hstrict; eexists; reflexivity].
      destruct (prefixed a) eqn:Ep.
      - specialize (Hcut eq_refl eq_refl).
        assert (Hc : is_container t = true).
        { unfold sized_field in Es. apply andb_true_iff in Es as [_ Es]. destruct t; try exact Es; contradiction. }
        assert (Hdef : f_default a = empty_of t) by (destruct t; try exact Hcut; contradiction).
        assert (El : exists b, resolve true prev (f_len a) = LenPrefix b true /\ resolve false prev (f_len a) = LenPrefix b false)
          by (unfold prefixed in Ep; destruct (f_len a); try discriminate; eexists; split; reflexivity).
        destruct El as (b & -> & Eb'). rewrite Eb' in Hstrict.
        assert (Eo : exists bs, o = Some bs).
        { destruct (mono_const (f_prefix a) p) as [E|(_ & _ & E)]; [congruence|].
          destruct (E u o Ec) as (c & rr & -> & _). eauto. }
        destruct Eo as [bs ->].
        destruct (dprefix (h_lim h) e b (Some bs)) eqn:Ed.
        2: { rewrite (lenient_eof _ e e6 fits_nothing) by assumption. rewrite <- Hdef. eexists; reflexivity. }
        all: rewrite lenient_same by (try assumption; rewrite Ed; discriminate); rewrite Hstrict; eexists; reflexivity.
      - assert (El : resolve true prev (f_len a) = resolve false prev (f_len a))
          by (unfold prefixed in Ep; destruct (f_len a); try discriminate; reflexivity).
        rewrite El, Hstrict. eexists; reflexivity. }
    destruct Hfield as [o Hfield].
    assert (HdT : decode T (b1 ++ p) = DOk (VSeq (norm_fields norm fs1 vs1 ++ f_default a :: defaults fs2)) o).
    { unfold T. rewrite (decode_struct_app _ _ _ d fs1 _ _ _ _ Hd), visible_norm by exact Hv1. fold prev.
      unfold dmap, dbind. cbn [dfields fst snd]. rewrite Hk. unfold dbind. rewrite Hfield, skipped_default by exact Hsk.
      reflexivity. }
    eapply reading_ok; try eassumption.
    unfold T. rewrite struct_min, eof_min.
    - assert (min_bytes h (TStruct d fs1) <= nlen b1); [|rewrite nlen_app; lia].
      destruct (struct_supported bw true d fs1 _ Hs) as [Hs1 _].
      eapply host_min; [exact VH|exact Hs1|split; [exact Hv1|exact Ht1]|exact Hb1].
    - split; [right; exact Hf|]. clear - Hsk. induction fs2 as [|f fs2 IH]; [exact I|].
      destruct Hsk as [H1 H2]. split; [left; exact H1|apply IH, H2].
  Qed.
End Default.

(** C30: every other outcome is as without `default_on_eof`, for every reader. *)
Section OtherErrors.
  Context (h : host) {St : Type} (R : reader St).

  (** [m] does what [m'] does, except where that meets the end of the input. *)
  Definition follows {A} (m m' : M St A) : Prop := forall s r s', m' s = (r, s') ->
    (forall er, r = Err er -> is_eof er = false) -> m s = (r, s').

  Lemma follows_refl {A} (m : M St A) : follows m m.
  Proof. intros s r s' H _. exact H. Qed.

  Lemma follows_catch {A} (x : A) m m' : follows m m' -> follows (catch_eof x m) m'.
  Proof.
    intros H s r s' E Hr. unfold catch_eof. rewrite (H s r s' E Hr).
    destruct r as [v|er|f]; try reflexivity. rewrite (Hr er eq_refl). reflexivity.
  Qed.

  Lemma follows_bind {A B} (m m' : M St A) (k k' : A -> M St B) : follows m m' -> (forall a, follows (k a) (k' a)) ->
    follows (bind m k) (bind m' k').
  Proof.
    intros Hm Hk s r s' E Hr. unfold bind in *. destruct (m' s) as [[v|er|f] s1] eqn:Em.
    - rewrite (Hm s (Ok v) s1 Em) by discriminate. apply Hk; assumption.
    - injection E as <- <-. rewrite (Hm s (Err er) s1 Em); [reflexivity|]. intros er' E. injection E as <-. apply Hr. reflexivity.
    - injection E as <- <-. rewrite (Hm s (Fault f) s1 Em) by discriminate. reflexivity.
  Qed.

  Lemma follows_length prev a k u : follows (with_length h R prev a k u) (with_length h R prev (strictly a) k u).
  Proof.
    unfold with_length. change (f_len (strictly a)) with (f_len a). change (f_eof (strictly a)) with false.
    destruct (f_len a); try apply follows_refl; apply follows_bind; try (intros; apply follows_refl);
      (destruct (f_eof a); [apply follows_catch|]; apply follows_refl).
  Qed.

  Lemma follows_inner rd prev a vi t :
    follows (read_field_inner h R rd prev a vi t) (read_field_inner h R rd prev (strictly a) vi t).
  Proof.
    destruct t as [s|k|k t'| | | | | | |k t'|k tk tv| | | |]; cbn [read_field_inner]; try apply follows_refl;
      try (destruct k; try apply follows_refl; try apply follows_length;
           try (apply follows_bind; [apply follows_refl|intros; apply follows_length])).
  Qed.

  Theorem C30_other_outcomes rd prev a t s r s' :
    read_field h R rd prev (strictly a) t s = (r, s') -> (forall er, r = Err er -> is_eof er = false) ->
    read_field h R rd prev a t s = (r, s').
  Proof.
    revert s r s'. change (follows (read_field h R rd prev a t) (read_field h R rd prev (strictly a) t)).
    unfold read_field. change (f_eof (strictly a)) with false.
    change (f_prefix (strictly a)) with (f_prefix a). change (f_opaque (strictly a)) with (f_opaque a).
    change (f_varint (strictly a)) with (f_varint a).
    match goal with |- follows (if _ then catch_eof _ ?m else _) ?m' => assert (H : follows m m') end.
    { apply follows_bind; [apply follows_refl|]. intros _. destruct (f_opaque a); [apply follows_refl|].
      destruct t; try apply follows_inner. apply follows_bind; [apply follows_refl|]. intros n. destruct (n =? 0); [apply follows_refl|].
      apply follows_bind; [apply follows_inner|]. intros. apply follows_refl. }
    destruct (f_eof a); [apply follows_catch, H|exact H].
  Qed.
End OtherErrors.

Print Assumptions C30_ends_before_partial.
Print Assumptions C30_written_partial.
Print Assumptions C30_ends_inside_partial.
Print Assumptions C30_other_outcomes.

(* ------------------------------------------------------------------ *)
(** * The hypotheses are met *)

(* struct Config {
     version: u16,
     #[speedy(default_on_eof)] name: String,
     #[speedy(skip)] cache: u8,
     #[speedy(default_on_eof)] level: u32,
     #[speedy(default_on_eof, length_type = u16)] tags: Vec<u16>,
     #[speedy(default_on_eof)] extra: Option<Vec<u8>> } *)
Definition config_head : fields := [(plain, TP U16)].
Definition config_tail : fields :=
  [(with_default (VBytes []), TStr KString); (with_skip (VInt 0), TP U8); (with_default (VInt 0), TP U32);
   ({| f_eof := true; f_skip := false; f_varint := false; f_opaque := false; f_len := LType BU16;
       f_prefix := []; f_default := VSeq [] |}, TSeq KVec (TP U16));
   (with_default VNone, TOption (TSeq KVec (TP U8)))].
Definition config : ty := TStruct (sd 40 RRust) (config_head ++ config_tail).

Lemma config_supported bw : supported host64 BE bw true LDefault config.
Proof. destruct bw; [apply supported_borrow|]; apply supportedb_sound; vm_compute; reflexivity. Qed.

Example C30_config bw r : reading host64 BE config [x00; x02] bw r ->
  r = Ok (VSeq [VInt 2; VBytes []; VInt 0; VInt 0; VSeq []; VNone]).
Proof.
  refine (C30_written_partial host64 host64_valid BE dirty dirty_enough (sd 40 RRust) config_head config_tail
    [VInt 2] [x00; x02] bw r (config_supported bw) _ _ _ _ _).
  - apply wsupb_sound. vm_compute. reflexivity.
  - apply rtokb_sound. vm_compute. reflexivity.
  - apply value_ofb_sound. vm_compute. reflexivity.
  - cbn. repeat split; unfold falls_back, sized_field; cbn; tauto || eauto 10.
  - vm_compute. reflexivity.
Qed.

(* struct Pair { a: u16, #[speedy(default_on_eof)] b: (u16, String) } *)
Definition pair_attr : fattrs := with_default (VSeq [VInt 7; VBytes []]).
Definition pair_ty : ty := TTuple [TP U16; TStr KString].
Definition pair_t : ty := TStruct (sd 41 RRust) ([(plain, TP U16)] ++ [(pair_attr, pair_ty)]).
Definition pair_v : val := VSeq ([VInt 1] ++ [VSeq [VInt 2; VBytes [x61; x62]]]).

Example C30_pair : write_to_vec host64 dirty BE pair_t pair_v
  = Ok ([x00; x01] ++ [x00; x02; x00; x00] ++ [x00; x02; x61; x62]).
Proof. vm_compute. reflexivity. Qed.

Example C30_pair_cut bw r : reading host64 BE pair_t [x00; x01; x00; x02; x00; x00] bw r ->
  r = Ok (VSeq [VInt 1; VSeq [VInt 7; VBytes []]]).
Proof.
  assert (Hc : covered host64 BE bw true pair_t).
  { apply (covered_weaken _ _ false bw true true); auto; [discriminate|]. apply coveredb_sound. vm_compute. reflexivity. }
  assert (Hv : value_of host64 BE pair_t pair_v) by (apply value_ofb_sound; vm_compute; reflexivity).
  assert (Hq : [x00; x02; x61; x62] <> []) by discriminate.
  refine (C30_ends_inside_partial host64 host64_valid BE dirty dirty_enough (sd 41 RRust) [(plain, TP U16)]
    pair_attr pair_ty [] [VInt 1] _ [] [x00; x01] [x00; x02; x00; x00] _ bw r _ _ _ _ _ _ Hc Hv _ C30_pair Hq);
    try reflexivity.
  - split; [reflexivity|discriminate].
  - cbn. auto.
Qed.

(** ** Where C30 fails *)

(* #[derive(Readable)] struct Inner { #[speedy(default_on_eof)] x: u8 }
   impl Default for Inner { fn default() -> Self { Inner { x: 7 } } }
   struct Outer { #[speedy(default_on_eof)] inner: Inner } *)
Definition inner : ty := TStruct (sd 42 RRust) [(with_default (VInt 0), TP U8)].
Definition outer : ty := TStruct (sd 43 RRust) [(with_default (VSeq [VInt 7]), inner)].

(** A field whose type can be read from nothing is not its default. *)
Theorem C30_own_default_refuted : exists h, valid_host h
  /\ read_from_buffer h LE outer 0 [] = Ok (VSeq [VSeq [VInt 0]]).
Proof. exists host64. split; [apply host64_valid|]. vm_compute. reflexivity. Qed.

(* struct Maybe { #[speedy(default_on_eof)] x: Option<Vec<u8>> } *)
Definition maybe : ty := TStruct (sd 44 RRust) [(with_default VNone, TOption (TSeq KVec (TP U8)))].

(** An input that ends behind the flag of an optional container gives an empty
    container instead of `None`. *)
Theorem C30_option_refuted : exists h p q, valid_host h
  /\ write_to_vec h dirty LE maybe (VSeq [VSome (VSeq [VInt 5])]) = Ok (p ++ q) /\ q <> []
  /\ read_from_buffer h LE maybe 0 p = Ok (VSeq [VSome (VSeq [])]).
Proof.
  exists host64, [x01], [x01; x00; x00; x00; x05]. split; [apply host64_valid|]. split; [vm_compute; reflexivity|].
  split; [discriminate|]. vm_compute. reflexivity.
Qed.

(* struct Rest { #[speedy(default_on_eof, length = ..)] x: Vec<u16> } *)
Definition rest_ty : ty :=
  TStruct (sd 45 RRust)
    [({| f_eof := true; f_skip := false; f_varint := false; f_opaque := false; f_len := LEof;
         f_prefix := []; f_default := VSeq [] |}, TSeq KVec (TP U16))].

(** An input that ends inside an element of a container without length gives the
    elements before it. *)
Theorem C30_until_refuted : exists h p q, valid_host h
  /\ write_to_vec h dirty LE rest_ty (VSeq [VSeq [VInt 1; VInt 2]]) = Ok (p ++ q) /\ q <> []
  /\ read_from_buffer h LE rest_ty 0 p = Ok (VSeq [VSeq [VInt 1]]).
Proof.
  exists host64, [x01; x00; x02], [x00]. split; [apply host64_valid|]. split; [vm_compute; reflexivity|].
  split; [discriminate|]. vm_compute. reflexivity.
Qed.

Print Assumptions C30_own_default_refuted.
Print Assumptions C30_option_refuted.
Print Assumptions C30_until_refuted.

(* ------------------------------------------------------------------ *)
(** * C31: what the readers see afterwards *)

Definition scalar_clean (s : scalar) : bool :=
  match s with
  | SPrim _ | SAtomic _ | SBool | SUnit | SVarint | SIpv4 | SIpv6 | SUuid | SGlam _ _ | SBVec _ => true
  | _ => false
  end.

(** The type of a length that is read. *)
Definition length_prefix (lm : lenmode) : option basic :=
  match lm with LDefault => Some BU32 | LType b => Some b | _ => None end.

Section Tidy.
  Context (h : host) (VH : valid_host h) (e : endian).
  Notation lim := (h_lim h).
  Notation e6 := (ipv6_order h e).
  Notation decl := (decl lim e e6).
  Notation decode := (decode lim e e6).

  (** Every length that can be read can be allocated. *)
  Definition roomy (lm : lenmode) (t : ty) : Prop :=
    match length_prefix lm with
    | Some b => forall n, n <= l_usize_max lim -> n <= basic_max b -> l_fits lim t n = true
    | None => False
    end.

  (** [q = true]: a reader that knows how much input is left cannot see another
      error than one that does not; [q = false]: there is none but the end of the
      input. *)
  Fixpoint tidy (q : bool) (lm : lenmode) (t : ty) : Prop :=
    match t with
    | TScalar s => q = true \/ scalar_clean s = true
    | TStr _ => q = true /\ roomy lm (TP U8)
    | TSeq _ t' =>
      roomy lm t' /\ (q = true \/ lm = LDefault) /\ tidy false LDefault t'
    | TSet _ t' =>
      length_prefix lm <> None /\ (q = true \/ lm = LDefault) /\ tidy q LDefault t'
    | TMap _ tk tv =>
      length_prefix lm <> None /\ (q = true \/ lm = LDefault) /\ tidy q LDefault tk /\ tidy q LDefault tv
    | TArr t' _ | TRefArr t' _ | TRange _ t' | TBox t' => tidy q LDefault t'
    | TOption t' => tidy q lm t'
    | TResult t1 t2 => tidy q LDefault t1 /\ tidy q LDefault t2
    | TTuple ts => all_tys (tidy q LDefault) ts
    | TStruct _ fs => all_fields (fun a t' =>
        f_skip a = true
        \/ (f_eof a = false /\ (q = true \/ f_prefix a = [])
            /\ (f_varint a = true \/ tidy q (if sized_field a t' then f_len a else LDefault) t'))) fs
    | TEnum _ vs => q = true /\ all_variants (all_fields (fun a t' =>
        f_skip a = true
        \/ (f_eof a = false /\ (q = true \/ f_prefix a = [])
            /\ (f_varint a = true \/ tidy q (if sized_field a t' then f_len a else LDefault) t')))) vs
    | TBot => q = true
    end.

  Definition tidyd {A} (q : bool) (d : dec A) : Prop := forall p,
    match d (Some p) with
    | DOk _ (Some _) | DEof => True
    | DBad _ s | DPanic _ s => q = true /\ s = true
    | _ => False
    end.

  Lemma tidyd_ret {A} q (a : A) : tidyd q (dret a).
  Proof. intros p. exact I. Qed.
  Lemma tidyd_bad {A} er : tidyd true (dbad (A := A) er).
  Proof. intros p. split; reflexivity. Qed.
  Lemma tidyd_panic {A} f : tidyd true (dpanic (A := A) f).
  Proof. intros p. split; reflexivity. Qed.
  Lemma tidyd_bind {A B} q (d : dec A) (k : A -> dec B) : tidyd q d -> (forall a, tidyd q (k a)) -> tidyd q (dbind d k).
  Proof.
    intros Hd Hk p. unfold dbind. specialize (Hd p). destruct (d (Some p)) as [a [o|]| | | |]; try exact Hd; try contradiction.
    apply Hk.
  Qed.
  Lemma tidyd_map {A B} q (f : A -> B) d : tidyd q d -> tidyd q (dmap f d).
  Proof. intros H. apply tidyd_bind; [exact H|]. intros. apply tidyd_ret. Qed.
  Lemma tidyd_read q n : tidyd q (dread n).
  Proof. intros p. unfold dread. destruct (n =? 0); [exact I|]. destruct (n <=? nlen p); exact I. Qed.
  Lemma tidyd_word q w : tidyd q (dword e w).
  Proof. apply tidyd_map, tidyd_read. Qed.
  Lemma tidyd_prim q p : tidyd q (dprim e p).
  Proof. apply tidyd_map, tidyd_word. Qed.
  Lemma tidyd_varint q : tidyd q (dvarint e).
  Proof. apply tidyd_bind; [apply tidyd_word|]. intros. apply tidyd_bind; [apply tidyd_read|]. intros. apply tidyd_ret. Qed.
  Lemma tidyd_basic q b : tidyd q (dbasic e b).
  Proof. destruct b; cbn [dbasic]; first [apply tidyd_word|apply tidyd_varint]. Qed.
  Lemma tidyd_peek {A} q (d : dec A) : tidyd q d -> tidyd q (dpeek d).
  Proof. intros H p. unfold dpeek. specialize (H p). destruct (d (Some p)) as [a [o|]| | | |]; try exact H. exact I. Qed.
  Lemma tidyd_repeat {A} q (d : dec A) n : tidyd q d -> tidyd q (drepeat d n).
  Proof.
    intros H. induction n; cbn [drepeat]; [apply tidyd_ret|]. apply tidyd_bind; [exact H|]. intros.
    apply tidyd_bind; [exact IHn|]. intros. apply tidyd_ret.
  Qed.
  Lemma tidyd_if {A} q (b : bool) (d d' : dec A) : tidyd q d -> tidyd q d' -> tidyd q (if b then d else d').
  Proof. destruct b; auto. Qed.
  Lemma tidyd_weaken {A} q (d : dec A) : tidyd false d -> tidyd q d.
  Proof.
    intros H p. specialize (H p). destruct (d (Some p)) as [a [o|]| | | |]; try exact H; destruct H; discriminate.
  Qed.
  Lemma tidyd_sized {A} q t n (d : dec A) : l_fits lim t n = true -> tidyd false d -> tidyd q (dsized lim t n d).
  Proof.
    intros Hf H p. unfold dsized. rewrite Hf. unfold dunsure. specialize (H p).
    destruct (d (Some p)) as [a [o|]| | | |]; try exact H; destruct H; discriminate.
  Qed.
  Lemma tidyd_const c : tidyd true (dconst c).
  Proof. apply tidyd_bind; [apply tidyd_read|]. intros. destruct list_eq_dec; [apply tidyd_ret|apply tidyd_bad]. Qed.
  Lemma tidyd_no_const q : tidyd q (dconst []).
  Proof. intros p. exact I. Qed.
  Lemma tidyd_duration : tidyd true (dduration e).
  Proof.
    apply tidyd_bind; [apply tidyd_word|]. intros. apply tidyd_bind; [apply tidyd_word|]. intros.
    apply tidyd_if; [apply tidyd_ret|apply tidyd_panic].
  Qed.
  Lemma tidyd_str k b : tidyd true (dstr lim k b).
  Proof.
    unfold dstr. apply tidyd_if; [|apply tidyd_bad]. destruct k; try apply tidyd_ret.
    apply tidyd_if; [apply tidyd_ret|apply tidyd_bad].
  Qed.

  Lemma tidyd_scalar q s : q = true \/ scalar_clean s = true -> tidyd q (dec_scalar lim e e6 s).
  Proof.
    intros H. destruct s; cbn [dec_scalar scalar_clean] in *;
      try (destruct H as [->|H]; [|try discriminate H]);
      repeat first
        [ apply tidyd_ret | apply tidyd_bad | apply tidyd_panic | apply tidyd_read | apply tidyd_word
        | apply tidyd_prim | apply tidyd_varint | apply tidyd_duration | apply tidyd_if | apply tidyd_map
        | apply tidyd_repeat | apply tidyd_bind; [|intros]
        | match goal with |- tidyd _ (match ?x with _ => _ end) => destruct x end ].
  Qed.

  (** The lengths that are read. *)
  Lemma prefix_bounds b o n o' : dprefix lim e b o = DOk n o' -> n <= basic_max b /\ n <= l_usize_max lim.
  Proof. exact (dprefix_le h (BufferReader e) (vh_usize_lo h VH) b o n o'). Qed.

  Lemma tidyd_len {A} q lm prev (c : N -> dec A) u b : length_prefix lm = Some b -> (q = true \/ lm = LDefault) ->
    (forall n, n <= l_usize_max lim -> n <= basic_max b -> tidyd q (c n)) ->
    tidyd q (dlen lim e (resolve false prev lm) c u).
  Proof.
    intros Hb Hq Hc.
    assert (El : resolve false prev lm = LenPrefix b false) by (destruct lm; try discriminate; injection Hb as <-; reflexivity).
    rewrite El. cbn [dlen]. intros p. unfold dbind.
    pose proof (tidyd_basic q b p) as Hp. pose proof (prefix_bounds b (Some p)) as Hn.
    unfold dprefix, dbind in *. destruct (dbasic e b (Some p)) as [n [o|]| | | |] eqn:Ed; try contradiction; try exact Hp.
    destruct (N.leb_spec n (match b with BU7 => 127 | _ => l_usize_max lim end)) as [Hle|Hgt].
    - cbn [dret] in *. destruct (Hn n (Some o) eq_refl) as [H1 H2]. apply Hc; assumption.
    - cbn. destruct Hq as [-> | ->]; [split; reflexivity|]. exfalso. injection Hb as <-.
      pose proof (vh_usize_lo h VH) as Hlo. cbn [dbasic] in Ed.
      apply (dword_lt (BufferReader e)) in Ed. revert Ed Hlo Hgt. cbn [N.of_nat Pos.of_succ_nat Pos.succ]. num_pow. lia.
  Qed.

  Definition tidy_ok (t : ty) : Prop := forall q lm prev, tidy q lm t -> tidyd q (decl (resolve false prev lm) t).

  Lemma tidyd_fields q fs : Forall (fun f => tidy_ok (snd f)) fs ->
    all_fields (fun a t' =>
        f_skip a = true
        \/ (f_eof a = false /\ (q = true \/ f_prefix a = [])
            /\ (f_varint a = true \/ tidy q (if sized_field a t' then f_len a else LDefault) t'))) fs ->
    forall prev, tidyd q (dfields lim e e6 decl prev fs).
  Proof.
    induction 1 as [|[a t] fs Hf _ IH]; intros Ha prev; cbn [dfields fst snd]; [apply tidyd_ret|].
    destruct Ha as [Ha Hs]. specialize (IH Hs). cbn [fst snd] in *. destruct (f_skip a).
    - apply tidyd_map, IH.
    - destruct Ha as [?|(He & Hp & Ht)]; [discriminate|].
      apply tidyd_bind; [|intros v; apply tidyd_bind; [apply IH|intros; apply tidyd_ret]].
      unfold dfield. rewrite He. apply tidyd_bind.
      + destruct Hp as [-> | ->]; [apply tidyd_const|apply tidyd_no_const].
      + intros _. destruct (f_varint a); [apply tidyd_scalar; right; reflexivity|].
        destruct Ht as [?|Ht]; [discriminate|]. unfold field_len.
        destruct (sized_field a t); [apply Hf, Ht|]. exact (Hf q LDefault [] Ht).
  Qed.

  Theorem tidy_decl t : tidy_ok t.
  Proof.
    induction t as [s|k|k t IH|t n IH|t n IH|t IH|t1 t2 IH1 IH2|ts IH|i t IH|k t IH|k tk tv IHk IHv|t IH|d fs IH|d vs IH|]
      using ty_ind'; intros q lm prev Ht; cbn [tidy] in Ht; cbn [Spec.decl].
    - apply tidyd_scalar, Ht.
    - destruct Ht as [-> Hr]. unfold roomy in Hr. destruct (length_prefix lm) as [b|] eqn:Eb; [|contradiction].
      eapply tidyd_len; [exact Eb|left; reflexivity|]. intros n H1 H2.
      apply tidyd_bind; [|intros; apply tidyd_str]. apply tidyd_sized; [auto|apply tidyd_read].
    - destruct Ht as (Hr & Hq & Ht). unfold roomy in Hr. destruct (length_prefix lm) as [b|] eqn:Eb; [|contradiction].
      apply tidyd_map. eapply tidyd_len; [exact Eb|exact Hq|]. intros n H1 H2.
      apply tidyd_sized; [auto|]. apply tidyd_repeat, (IH false LDefault []), Ht.
    - apply tidyd_map, tidyd_repeat, (IH q LDefault []), Ht.
    - apply tidyd_map, tidyd_repeat, (IH q LDefault []), Ht.
    - apply tidyd_bind; [apply tidyd_word|]. intros n. apply tidyd_if; [apply tidyd_ret|]. apply tidyd_map, IH, Ht.
    - apply tidyd_bind; [apply tidyd_word|]. intros n.
      apply tidyd_if; apply tidyd_map; [apply (IH2 q LDefault [])|apply (IH1 q LDefault [])]; apply Ht.
    - apply tidyd_map. induction IH as [|t ts Hf _ IHts]; cbn [dtuple]; [apply tidyd_ret|]. destruct Ht as [Ht Hts].
      apply tidyd_bind; [exact (Hf q LDefault [] Ht)|]. intros. apply tidyd_bind; [apply IHts, Hts|]. intros. apply tidyd_ret.
    - apply tidyd_bind; [exact (IH q LDefault [] Ht)|]. intros. apply tidyd_bind; [exact (IH q LDefault [] Ht)|]. intros. apply tidyd_ret.
    - destruct Ht as (Hl & Hq & Ht). destruct (length_prefix lm) as [b|] eqn:Eb; [|contradiction].
      apply tidyd_bind; [|intros; apply tidyd_ret]. eapply tidyd_len; [exact Eb|exact Hq|]. intros n _ _.
      apply tidyd_repeat. exact (IH q LDefault [] Ht).
    - destruct Ht as (Hl & Hq & Htk & Htv). destruct (length_prefix lm) as [b|] eqn:Eb; [|contradiction].
      apply tidyd_bind; [|intros; apply tidyd_ret]. eapply tidyd_len; [exact Eb|exact Hq|]. intros n _ _.
      apply tidyd_repeat. apply tidyd_bind; [exact (IHk q LDefault [] Htk)|]. intros.
      apply tidyd_bind; [exact (IHv q LDefault [] Htv)|]. intros. apply tidyd_ret.
    - exact (IH q LDefault [] Ht).
    - apply tidyd_map, tidyd_fields; assumption.
    - destruct Ht as [-> Ht]. apply tidyd_bind; [destruct (e_peek d); [apply tidyd_peek|]; apply tidyd_basic|].
      intros tag. generalize 0%nat as i. induction IH as [|[g fs] vs Hf _ IHvs]; intros i; cbn [dvariant fst snd]; [apply tidyd_bad|].
      destruct Ht as [Ht Hts]. apply tidyd_if; [|apply IHvs, Hts]. apply tidyd_map, tidyd_fields; assumption.
    - subst. apply tidyd_panic.
  Qed.

  (** With `default_on_eof` the outcome of such a field is the same for all
      readers. *)
  Lemma tidy_caught prev a t p : f_eof a = true ->
    f_varint a = true \/ tidy true (if sized_field a t then f_len a else LDefault) t ->
    match dfield lim e e6 decl prev a t (Some p) with
    | DOk _ _ => True
    | DBad _ s | DPanic _ s => s = true
    | _ => False
    end.
  Proof.
    intros Hf Ht. unfold dfield. rewrite Hf.
    assert (Hb : match (_ <-- dconst (f_prefix a) ;;
       (if f_varint a then dec_scalar lim e e6 SVarint else decl (field_len true prev a t) t)) (Some p) with
       | DOk _ _ | DEof => True | DBad _ s | DPanic _ s => s = true | DUnspec => False end).
    { unfold dbind. pose proof (tidyd_const (f_prefix a) p) as Hc.
      destruct (dconst (f_prefix a) (Some p)) as [u [o|]| | | |]; try contradiction; try apply Hc; try exact I.
      destruct (f_varint a).
      { pose proof (tidyd_scalar true SVarint (or_introl eq_refl) o) as H.
        destruct (dec_scalar lim e e6 SVarint (Some o)) as [v [o'|]| | | |]; try apply H; exact I. }
      destruct Ht as [?|Ht]; [discriminate|]. unfold field_len. destruct (sized_field a t) eqn:Es.
      2: { pose proof (tidy_decl t true LDefault [] Ht o) as H. change (resolve false [] LDefault) with len0 in H.
           destruct (decl len0 t (Some o)) as [v [o'|]| | | |]; try apply H; exact I. }
      assert (Hcont : forall t' o, is_container t' = true -> tidy true (f_len a) t' ->
        match decl (resolve true prev (f_len a)) t' (Some o) with
        | DOk _ _ | DEof => True | DBad _ s | DPanic _ s => s = true | DUnspec => False end).
      { intros t' o' Hc' Ht'. pose proof (tidy_decl t' true (f_len a) prev Ht' o') as H.
        destruct (prefixed a) eqn:Ep.
        - assert (El : exists b, resolve true prev (f_len a) = LenPrefix b true /\ resolve false prev (f_len a) = LenPrefix b false)
            by (unfold prefixed in Ep; destruct (f_len a); try discriminate; eexists; split; reflexivity).
          destruct El as (b & -> & Eb). rewrite Eb in H.
          destruct (dprefix lim e b (Some o')) eqn:Ed.
          2: { rewrite (lenient_eof _ e e6 (fits_nothing h VH)) by assumption. exact I. }
          all: rewrite lenient_same by (try assumption; rewrite Ed; discriminate);
            destruct (decl (LenPrefix b false) t' (Some o')) as [v [o''|]| | | |]; try apply H; exact I.
        - assert (El : resolve true prev (f_len a) = resolve false prev (f_len a))
            by (unfold prefixed in Ep; destruct (f_len a); try discriminate; reflexivity).
          rewrite El. destruct (decl _ t' (Some o')) as [v [o''|]| | | |]; try apply H; exact I. }
      unfold sized_field in Es. apply andb_true_iff in Es as [_ Es].
      destruct t; try discriminate; try (apply Hcont; assumption).
      cbn [Spec.decl]. unfold dbind. pose proof (tidyd_word true 1 o) as Hw.
      destruct (dword e 1 (Some o)) as [n [o'|]| | | |]; try contradiction; try apply Hw; try exact I.
      destruct (n =? 0); [exact I|]. specialize (Hcont t o' Es Ht). unfold dmap, dbind.
      destruct (decl _ t (Some o')); exact Hcont. }
    unfold dcatch.
    destruct (dbind (dconst (f_prefix a)) _ (Some p)) as [v o| |er s|f s|]; try exact I; try contradiction;
      subst s; reflexivity.
  Qed.

  Lemma tidy_last d fs1 a t fs2 bs : no_eof false (TStruct d fs1) -> f_skip a = false -> f_eof a = true ->
    all_fields (fun a _ => f_skip a = true) fs2 ->
    f_varint a = true \/ tidy true (if sized_field a t then f_len a else LDefault) t ->
    decode (TStruct d (fs1 ++ (a, t) :: fs2)) bs <> DUnspec.
  Proof.
    intros Hno Hk Hf Hs Ht.
    pose proof (decode_spec lim e e6 (TStruct d fs1) bs Hno) as Hu.
    pose proof (decode_ok_rest lim e e6 (TStruct d fs1) bs) as Hok.
    destruct (decode (TStruct d fs1) bs) as [v o| | | |] eqn:Hd.
    - destruct (decode_struct_seq _ _ _ d fs1 bs v o Hd) as [ws ->].
      destruct (Hok _ _ Hno eq_refl) as (c & rest & -> & _).
      rewrite (decode_struct_app _ _ _ d fs1 _ _ _ _ Hd). unfold dmap, dbind. cbn [dfields fst snd]. rewrite Hk. unfold dbind.
      pose proof (tidy_caught (visible fs1 ws) a t rest Hf Ht) as H.
      destruct (dfield lim e e6 decl (visible fs1 ws) a t (Some rest)) as [v o| | | |]; try discriminate; try contradiction.
      rewrite skipped_default by exact Hs. discriminate.
    - rewrite decode_struct_bad by (rewrite Hd; discriminate). rewrite Hd. discriminate.
    - rewrite decode_struct_bad by (rewrite Hd; discriminate). rewrite Hd. discriminate.
    - rewrite decode_struct_bad by (rewrite Hd; discriminate). rewrite Hd. discriminate.
    - contradiction.
  Qed.

  Lemma readings_same t bs bw1 bw2 r1 r2 : supported h e false true LDefault t -> minok h t ->
    decode t bs <> DUnspec -> reading h e t bs bw1 r1 -> reading h e t bs bw2 r2 -> same_value r1 r2.
  Proof.
    intros Hs Hm Hu H1 H2.
    assert (Hsb : forall bw, supported h e bw true LDefault t) by (intros []; [apply supported_borrow|]; exact Hs).
    assert (Hsmall : forall r r', too_small h t bs r -> agrees (decode t bs) r' -> same_value r r').
    { intros r r' [Hl ->] Ha v. split; [discriminate|]. intros ->.
      pose proof (small_undecodable h VH e t bs v) as Hsm.
      destruct (decode t bs) as [w o| |er sure|f sure|]; cbn in Ha.
      - injection Ha as <-. destruct (Hsm o Hm Hl eq_refl).
      - destruct Ha as (er & E & _). discriminate.
      - destruct Ha as [[E _]|[_ (er' & E & _)]]; discriminate.
      - destruct Ha as [E|[_ (er' & E & _)]]; discriminate.
      - contradiction. }
    destruct (reading_agrees h VH e t bs bw1 r1 (Hsb _) H1) as [A1|A1], (reading_agrees h VH e t bs bw2 r2 (Hsb _) H2) as [A2|A2].
    - destruct A1 as [_ ->], A2 as [_ ->]. intros v. split; discriminate.
    - apply Hsmall; assumption.
    - intros v. symmetry. apply Hsmall; assumption.
    - intros v. destruct (decode t bs) as [w o| |er sure|f sure|]; cbn in *; try contradiction.
      + subst. reflexivity.
      + destruct A1 as (e1 & -> & _), A2 as (e2 & -> & _). split; discriminate.
      + destruct A1 as [[-> _]|[_ (e1 & -> & _)]], A2 as [[-> _]|[_ (e2 & -> & _)]]; split; discriminate.
      + destruct A1 as [->|[_ (e1 & -> & _)]], A2 as [->|[_ (e2 & -> & _)]]; split; discriminate.
  Qed.

  (** C31: if only the last field (apart from skipped ones) is `default_on_eof`, all
      readers produce the same value from every input, wherever it ends.  [tidy]:
      the field has no vector or string whose length or elements a stream reader
      would refuse where a buffer reader already notices the end of the input. *)
  Theorem C31_last_partial d fs1 a t fs2 bs bw1 bw2 r1 r2 :
    let T := TStruct d (fs1 ++ (a, t) :: fs2) in
    supported h e false true LDefault T -> minok h T ->
    no_eof false (TStruct d fs1) -> f_skip a = false -> f_eof a = true ->
    all_fields (fun a _ => f_skip a = true) fs2 ->
    f_varint a = true \/ tidy true (if sized_field a t then f_len a else LDefault) t ->
    reading h e T bs bw1 r1 -> reading h e T bs bw2 r2 -> same_value r1 r2.
  Proof.
    intros T Hs Hm Hno Hk Hf Hsk Ht. apply readings_same; try assumption. apply tidy_last; assumption.
  Qed.

  (** And if the input ends exactly before the first of several such fields. *)
  Theorem C31_nothing_left_partial d fs1 fs2 bs ws bw1 bw2 r1 r2 :
    let T := TStruct d (fs1 ++ fs2) in
    supported h e false true LDefault T -> minok h T ->
    decode (TStruct d fs1) bs = DOk (VSeq ws) (Some []) -> all_fall_back lim (visible fs1 ws) fs2 ->
    reading h e T bs bw1 r1 -> reading h e T bs bw2 r2 -> same_value r1 r2.
  Proof.
    intros T Hs Hm Hd Hf. apply readings_same; try assumption.
    unfold T. rewrite (decode_struct_app _ _ _ d fs1 fs2 bs ws _ Hd). unfold dmap, dbind.
    rewrite all_fall_back_fields by (exact (fits_nothing h VH) || exact Hf). discriminate.
  Qed.
End Tidy.

Print Assumptions C31_last_partial.
Print Assumptions C31_nothing_left_partial.

(* struct Msg { id: u8, #[speedy(default_on_eof)] data: Vec<(u16, bool)> } *)
Definition msg : ty := TStruct (sd 46 RRust) ([(plain, TP U8)] ++ [(with_default (VSeq []), TSeq KVec (TTuple [TP U16; TScalar SBool]))]).

Example C31_msg bs bw1 bw2 r1 r2 :
  reading host64 LE msg bs bw1 r1 -> reading host64 LE msg bs bw2 r2 -> same_value r1 r2.
Proof.
  apply (C31_last_partial host64 host64_valid LE (sd 46 RRust) [(plain, TP U8)]); try reflexivity.
  - apply supportedb_sound. vm_compute. reflexivity.
  - apply minokb_sound. vm_compute. reflexivity.
  - cbn. auto.
  - right. cbn [tidy]. split; [|split; [left; reflexivity|]].
    + unfold roomy. cbn [length_prefix with_default f_len sized_field]. intros n _ Hn. cbn [basic_max] in Hn. rewrite (vh_fits host64 host64_valid). apply N.leb_le.
      replace (h_size host64 (TTuple [TP U16; TScalar SBool])) with 4 by (vm_compute; reflexivity).
      replace (h_alloc_max host64) with 9223372036854775807 by (vm_compute; reflexivity). revert Hn. num_pow. lia.
    + cbn. auto.
Qed.

(** ** Where C31 fails *)

(* struct Two { #[speedy(default_on_eof)] a: u32, #[speedy(default_on_eof)] b: u8 } *)
Definition two : ty := TStruct (sd 47 RRust) [(with_default (VInt 0), TP U32); (with_default (VInt 0), TP U8)].

(** The second field sees the bytes the first one ran out of when reading from a
    buffer, but not when reading from a stream. *)
Theorem C31_next_field_refuted : exists h bs v w, valid_host h /\ v <> w
  /\ read_from_buffer h LE two 0 bs = Ok v
  /\ fst (read_from_stream_unbuffered h dirty LE two {| is_rest := bs; is_sched := [] |}) = Ok w.
Proof.
  exists host64, [x05; x06], (VSeq [VInt 0; VInt 5]), (VSeq [VInt 0; VInt 0]). split; [apply host64_valid|].
  split; [discriminate|]. split; vm_compute; reflexivity.
Qed.

(* struct Chars { #[speedy(default_on_eof)] a: Vec<char> } *)
Definition chars : ty := TStruct (sd 48 RRust) [(with_default (VSeq []), TSeq KVec (TScalar SChar))].

(** The buffer reader notices first that the input is too short, the stream reader
    that a character is invalid. *)
Theorem C31_same_field_refuted : exists h bs v, valid_host h
  /\ read_from_buffer h LE chars 0 bs = Ok v
  /\ fst (read_from_stream_buffered h dirty LE chars {| is_rest := bs; is_sched := [] |}) = Err InvalidChar.
Proof.
  exists host64, [x02; x00; x00; x00; x00; xd8; x00; x00], (VSeq [VSeq []]). split; [apply host64_valid|].
  split; vm_compute; reflexivity.
Qed.

Print Assumptions C31_next_field_refuted.
Print Assumptions C31_same_field_refuted.
