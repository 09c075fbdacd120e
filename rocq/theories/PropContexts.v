(* Property C114: contexts with an error type of the user's. *)
From Verif Require Import Samples Contexts TyInd.

(** Whether the derived code of a type asks about the end of the input: it does for fields
    with `default_on_eof` and for fields that are read until the input ends. *)
Definition asks_field (asks : ty -> bool) (f : fattrs * ty) : bool :=
  negb (f_skip (fst f))
  && (f_eof (fst f) || match f_len (fst f) with LEof => true | _ => false end || asks (snd f)).
Fixpoint asks (t : ty) : bool :=
  match t with
  | TScalar _ | TStr _ | TBot => false
  | TSeq _ t' | TArr t' _ | TRefArr t' _ | TOption t' | TRange _ t' | TSet _ t' | TBox t' => asks t'
  | TResult t1 t2 | TMap _ t1 t2 => asks t1 || asks t2
  | TTuple ts => existsb asks ts
  | TStruct _ fs => existsb (asks_field asks) fs
  | TEnum _ vs => existsb (fun v => existsb (asks_field asks) (snd v)) vs
  end.

Section Same.
  Context {St : Type} (h : host) (R : reader St) (p q : error -> bool).

  Definition eqm {A} (m1 m2 : M St A) : Prop := forall s, m1 s = m2 s.

  Lemma eqm_refl {A} (m : M St A) : eqm m m.
  Proof. intros s. reflexivity. Qed.
  Lemma eqm_bind {A B} (m1 m2 : M St A) (k1 k2 : A -> M St B) :
    eqm m1 m2 -> (forall a, eqm (k1 a) (k2 a)) -> eqm (bind m1 k1) (bind m2 k2).
  Proof. intros Hm Hk s. unfold bind. rewrite (Hm s). destruct (m2 s) as [[a|er|f] s']; auto. apply Hk. Qed.
  Lemma eqm_then {A B} (m : M St A) (k1 k2 : A -> M St B) : (forall a, eqm (k1 a) (k2 a)) -> eqm (bind m k1) (bind m k2).
  Proof. apply eqm_bind, eqm_refl. Qed.
  Lemma eqm_map {A B} (f : A -> B) (m1 m2 : M St A) : eqm m1 m2 -> eqm (mmap f m1) (mmap f m2).
  Proof. intros H. apply eqm_bind; [exact H|]. intros. apply eqm_refl. Qed.
  Lemma eqm_repeat {A} (m1 m2 : M St A) n : eqm m1 m2 -> eqm (repeatM m1 n) (repeatM m2 n).
  Proof.
    intros H. induction n; cbn [repeatM]; [apply eqm_refl|].
    apply eqm_bind; [exact H|]. intros. apply eqm_bind; [exact IHn|]. intros. apply eqm_refl.
  Qed.
  Lemma eqm_vec t rd1 rd2 n : eqm rd1 rd2 -> eqm (read_vec h R t rd1 n) (read_vec h R t rd2 n).
  Proof.
    intros H. unfold read_vec. apply eqm_then. intros _. apply eqm_then. intros _.
    destruct (is_prim h t); [apply eqm_refl|]. destruct (_ =? _); [apply eqm_refl|apply eqm_repeat, H].
  Qed.
  Lemma eqm_cow t rd1 rd2 n : eqm rd1 rd2 -> eqm (read_cow h R t rd1 n) (read_cow h R t rd2 n).
  Proof.
    intros H. unfold read_cow. destruct (if _ : bool then rd_borrow R else None); [apply eqm_refl|apply eqm_vec, H].
  Qed.
  Lemma eqm_slow {A B} (f : list A -> B) (m1 m2 : M St A) n : eqm m1 m2 ->
    eqm (xs <- repeatM m1 n ;; ret (f xs)) (xs <- repeatM m2 n ;; ret (f xs)).
  Proof. intros H. apply eqm_bind; [apply eqm_repeat, H|]. intros. apply eqm_refl. Qed.
  Lemma eqm_collection k key t rd1 rd2 n : eqm rd1 rd2 ->
    eqm (read_collection h R k key t rd1 n) (read_collection h R k key t rd2 n).
  Proof.
    intros H. unfold read_collection. destruct (_ && _)%bool; [|apply (eqm_slow (fun xs => VSeq (collect k key xs))), H].
    destruct (_ <? _); [apply eqm_refl|].
    destruct (rd_borrow_r R); [apply eqm_refl|apply (eqm_slow (fun xs => VSeq (collect k key xs))), H].
  Qed.
  Lemma eqm_pair k1 k2 v1 v2 : eqm k1 k2 -> eqm v1 v2 -> eqm (read_pair k1 v1) (read_pair k2 v2).
  Proof. intros Hk Hv. apply eqm_bind; [exact Hk|]. intros a. apply eqm_bind; [exact Hv|]. intros b. apply eqm_refl. Qed.
  Lemma eqm_kv k tk tv k1 k2 v1 v2 n : eqm k1 k2 -> eqm v1 v2 ->
    eqm (read_kv h R k tk tv k1 v1 n) (read_kv h R k tk tv k2 v2 n).
  Proof.
    intros Hk Hv. unfold read_kv.
    destruct (_ && _)%bool; [|apply (eqm_slow (fun xs => VSeq (collect k pair_key xs))), eqm_pair; assumption].
    destruct (_ <? _); [apply eqm_refl|].
    destruct (rd_borrow_r R); [apply eqm_refl|apply (eqm_slow (fun xs => VSeq (collect k pair_key xs))), eqm_pair; assumption].
  Qed.
  Lemma eqm_maps k tk tv k1 k2 v1 v2 n : eqm k1 k2 -> eqm v1 v2 ->
    eqm (read_map h R k tk tv k1 v1 n) (read_map h R k tk tv k2 v2 n).
  Proof.
    intros Hk Hv. destruct k; cbn [read_map]; try (apply eqm_kv; assumption).
    apply (eqm_slow (fun xs => VSeq (collect CIndex pair_key xs))), eqm_pair; assumption.
  Qed.
  Lemma eqm_seq k t rd1 rd2 : eqm rd1 rd2 -> eqm (read_seq h R k t rd1) (read_seq h R k t rd2).
  Proof.
    intros H. destruct k; cbn [read_seq]; apply eqm_then; intros n; try apply eqm_refl; apply eqm_map;
      first [apply eqm_vec, H | apply eqm_cow, H].
  Qed.

  (** The three places, when the answers agree. *)
  Section Agree.
    Context (Hpq : forall er, p er = q er).

    Lemma eqm_until rd1 rd2 : eqm rd1 rd2 -> eqm (read_until_eof_with R p rd1) (read_until_eof_with R q rd2).
    Proof.
      intros H s. unfold read_until_eof_with.
      enough (E : forall k, eqm (until_eof_loop_with p rd1 k) (until_eof_loop_with q rd2 k)) by apply E. clear s.
      induction k as [|k IH]; cbn [until_eof_loop_with]; [apply eqm_refl|]. intros s. rewrite (H s), <- ?Hpq.
      destruct (rd2 s) as [[v|er|f] s']; [apply (eqm_map (cons v) _ _ IH)|rewrite Hpq; reflexivity|reflexivity].
    Qed.
    Lemma eqm_catch {A} (d : A) m1 m2 : eqm m1 m2 -> eqm (catch_eof_with p d m1) (catch_eof_with q d m2).
    Proof. intros H s. unfold catch_eof_with. rewrite (H s). destruct (m2 s) as [[v|er|f] s']; rewrite ?Hpq; reflexivity. Qed.
  End Agree.

  Definition field_agrees (a : fattrs) : Prop :=
    f_eof a || match f_len a with LEof => true | _ => false end = true -> forall er, p er = q er.

  Lemma eqm_with_length prev a k1 k2 u1 u2 : field_agrees a -> (forall n, eqm (k1 n) (k2 n)) ->
    ((forall er, p er = q er) -> eqm u1 u2) ->
    eqm (with_length_with h R p prev a k1 u1) (with_length_with h R q prev a k2 u2).
  Proof.
    unfold field_agrees, with_length_with. intros Ha Hk Hu.
    destruct (f_len a) eqn:El; try (apply Hu, Ha, orb_true_r);
      try (destruct (f_eof a); [apply eqm_bind; [apply eqm_catch; [apply Ha; reflexivity|apply eqm_refl]|exact Hk]|apply eqm_then, Hk]).
    destruct (_ prev) as [n|]; [apply Hk|apply eqm_refl].
  Qed.

  Lemma eqm_inner rd1 rd2 prev a varint t : field_agrees a ->
    match t with
    | TSeq _ t' | TSet _ t' | TArr t' _ => eqm (rd1 t') (rd2 t')
    | TMap _ tk tv => eqm (rd1 tk) (rd2 tk) /\ eqm (rd1 tv) (rd2 tv)
    | _ => True
    end -> eqm (rd1 t) (rd2 t) ->
    eqm (read_field_inner_with h R p rd1 prev a varint t) (read_field_inner_with h R q rd2 prev a varint t).
  Proof.
    intros Ha Hin Ht. destruct t; cbn [read_field_inner_with]; try exact Ht.
    - destruct s; [|exact Ht..]. destruct varint; [apply eqm_refl|exact Ht].
    - destruct k; try exact Ht; apply eqm_with_length; try exact Ha; intros; try apply eqm_refl;
        (apply eqm_bind; [apply eqm_until; [assumption|apply eqm_refl]|intros; apply eqm_refl]).
    - destruct k; try exact Ht.
      + apply eqm_with_length; [exact Ha| |]; intros; apply eqm_map; [apply eqm_vec, Hin|apply eqm_until; assumption].
      + apply eqm_with_length; [exact Ha| |]; intros; apply eqm_map; [apply eqm_cow, Hin|apply eqm_until; assumption].
      + apply eqm_then. intros _. apply eqm_with_length; [exact Ha| |]; intros; apply eqm_refl.
    - apply eqm_map, eqm_repeat, Hin.
    - destruct k; try exact Ht; (apply eqm_with_length; [exact Ha| |]; intros;
        [apply eqm_collection, Hin|apply eqm_bind; [apply eqm_until; assumption|intros; apply eqm_refl]]).
    - destruct Hin as (Hk & Hv). destruct k; try exact Ht; (apply eqm_with_length; [exact Ha| |]; intros;
        [apply eqm_kv; assumption|apply eqm_bind; [apply eqm_until; [assumption|apply eqm_pair; assumption]|intros; apply eqm_refl]]).
  Qed.

  Notation rp := (read_with h R p).
  Notation rq := (read_with h R q).
  Definition as_type (t : ty) : Prop := eqm (rp t) (rq t).
  Definition as_inner (t : ty) : Prop := forall prev a varint, field_agrees a ->
    eqm (read_field_inner_with h R p rp prev a varint t) (read_field_inner_with h R q rq prev a varint t).
  Definition as_field (t : ty) : Prop := forall prev a, field_agrees a ->
    eqm (read_field_with h R p rp prev a t) (read_field_with h R q rq prev a t).

  Lemma as_field_of t : as_type t -> as_inner t -> match t with TOption t' => as_inner t' | _ => True end -> as_field t.
  Proof.
    intros H1 H2 H3 prev a Ha. unfold read_field_with.
    assert (Hb : forall c : M St unit, eqm
      (c ;;; if f_opaque a then rp t else
             match t with
             | TOption t' => flag <- read_u8 R ;;
                 if flag =? 0 then ret VNone else mmap VSome (read_field_inner_with h R p rp prev a false t')
             | _ => read_field_inner_with h R p rp prev a (f_varint a) t
             end)
      (c ;;; if f_opaque a then rq t else
             match t with
             | TOption t' => flag <- read_u8 R ;;
                 if flag =? 0 then ret VNone else mmap VSome (read_field_inner_with h R q rq prev a false t')
             | _ => read_field_inner_with h R q rq prev a (f_varint a) t
             end)).
    { intros c. apply eqm_then. intros _. destruct (f_opaque a); [exact H1|]. destruct t; try (apply H2, Ha).
      apply eqm_then. intros n. destruct (_ =? _); [apply eqm_refl|]. apply eqm_map, H3, Ha. }
    destruct (f_eof a) eqn:Ee; [apply eqm_catch; [apply Ha; rewrite Ee; reflexivity|apply Hb]|apply Hb].
  Qed.

  Lemma eqm_fields fs :
    Forall (fun f => (asks (snd f) = true -> forall er, p er = q er) -> (as_type (snd f) /\ as_inner (snd f)) /\ as_field (snd f)) fs ->
    (existsb (asks_field asks) fs = true -> forall er, p er = q er) ->
    forall prev, eqm (read_fields_with h R p rp prev fs) (read_fields_with h R q rq prev fs).
  Proof.
    induction 1 as [|f fs Hf _ IH]; intros Ha prev; [apply eqm_refl|]. cbn [existsb] in Ha.
    assert (Hr : existsb (asks_field asks) fs = true -> forall er, p er = q er) by (intros E; apply Ha; rewrite E; apply orb_true_r).
    specialize (IH Hr). change (eqm (if f_skip (fst f) then mmap (cons (f_default (fst f))) (read_fields_with h R p rp prev fs)
        else v <- read_field_with h R p rp prev (fst f) (snd f) ;; vs <- read_fields_with h R p rp (prev ++ [proj v]) fs ;; ret (v :: vs))
      (if f_skip (fst f) then mmap (cons (f_default (fst f))) (read_fields_with h R q rq prev fs)
        else v <- read_field_with h R q rq prev (fst f) (snd f) ;; vs <- read_fields_with h R q rq (prev ++ [proj v]) fs ;; ret (v :: vs))).
    unfold asks_field in Ha. destruct (f_skip (fst f)); [apply eqm_map, IH|]. cbn [negb andb] in Ha.
    apply eqm_bind.
    - apply (proj2 (Hf (fun E => Ha ltac:(rewrite E, orb_true_r; reflexivity)))). intros E. apply Ha. rewrite E. reflexivity.
    - intros v. apply eqm_bind; [apply IH|]. intros. apply eqm_refl.
  Qed.

  Lemma read_with_same t : (asks t = true -> forall er, p er = q er) -> (as_type t /\ as_inner t) /\ as_field t.
  Proof.
    assert (Hall : forall t, as_type t ->
      match t with
      | TSeq _ t' | TSet _ t' | TArr t' _ => as_type t'
      | TMap _ tk tv => as_type tk /\ as_type tv
      | _ => True
      end -> match t with TOption t' => as_inner t' | _ => True end -> (as_type t /\ as_inner t) /\ as_field t).
    { intros t0 H1 H2 H3.
      assert (Hi : as_inner t0) by (intros prev a varint Ha; apply eqm_inner; assumption).
      split; [split; assumption|]. apply as_field_of; assumption. }
    induction t as [s|k|k t IH|t n IH|t n IH|t IH|t1 t2 IH1 IH2|ts IH|i t IH|k t IH|k tk tv IHk IHv|t IH|d fs IH|d vs IH|] using ty_ind';
      intros Hask; cbn [asks] in Hask; try specialize (IH Hask); apply Hall; try exact I; try apply IH; unfold as_type; cbn [read_with];
      try apply eqm_refl.
    - apply eqm_seq, IH.
    - unfold read_array. destruct (is_prim h t); [apply eqm_refl|apply eqm_map, eqm_repeat, IH].
    - apply eqm_then. intros n. destruct (_ =? _); [apply eqm_refl|apply eqm_map, IH].
    - apply eqm_then. intros n. destruct (_ =? _); apply eqm_map;
        [apply IH2; intros E; apply Hask; rewrite E; apply orb_true_r|apply IH1; intros E; apply Hask; rewrite E; reflexivity].
    - apply eqm_map. induction IH as [|t ts Ht _ IHts]; [apply eqm_refl|]. cbn [existsb] in Hask.
      change (eqm (v <- rp t ;; vs <- read_tuple rp ts ;; ret (v :: vs)) (v <- rq t ;; vs <- read_tuple rq ts ;; ret (v :: vs))).
      apply eqm_bind; [apply Ht; intros E; apply Hask; rewrite E; reflexivity|]. intros v.
      apply eqm_bind; [apply IHts; intros E; apply Hask; rewrite E; apply orb_true_r|]. intros. apply eqm_refl.
    - apply eqm_bind; [apply IH|]. intros a. apply eqm_bind; [apply IH|]. intros b. apply eqm_refl.
    - apply eqm_then. intros n. apply eqm_collection, IH.
    - apply eqm_then. intros n. apply eqm_maps; [apply IHk|apply IHv]; intros E; apply Hask; rewrite E; [reflexivity|apply orb_true_r].
    - split; [apply IHk|apply IHv]; intros E; apply Hask; rewrite E; [reflexivity|apply orb_true_r].
    - apply eqm_map, eqm_fields; assumption.
    - apply eqm_then. intros tag. generalize 0%nat. revert Hask. induction IH as [|v vs Hv _ IHvs]; intros Hask i; [apply eqm_refl|].
      change (eqm (if fst v =? tag then mmap (VVar i) (read_fields_with h R p rp [] (snd v)) else read_variant_with h R p rp tag (S i) vs)
                  (if fst v =? tag then mmap (VVar i) (read_fields_with h R q rq [] (snd v)) else read_variant_with h R q rq tag (S i) vs)).
      cbn [existsb] in Hask. destruct (_ =? _).
      + apply eqm_map, eqm_fields; [exact Hv|]. intros E. apply Hask. rewrite E. reflexivity.
      + apply IHvs. intros E. apply Hask. rewrite E. apply orb_true_r.
  Qed.
End Same.

(** The crate's own error type. *)
Lemma read_with_standard {St} (h : host) (R : reader St) t : read_with h R is_eof t = read h R t.
Proof. reflexivity. Qed.

Section Contexts.
  Context {St E : Type} (h : host) (R : reader St) (conv : error -> E) (eof : E -> bool).

  Notation ask := (fun er => eof (conv er)).

  (** An error type that tells the end of the input as the crate's own does gives the crate's
      results, each error converted. *)
  Theorem C114_standard t s : (forall er, eof (conv er) = is_eof er) ->
    read_in h R conv eof t s = (shown conv (fst (read h R t s)), snd (read h R t s)).
  Proof.
    intros Heof. unfold read_in. rewrite <- read_with_standard.
    rewrite (proj1 (proj1 (read_with_same h R ask is_eof t (fun _ => Heof))) s).
    destruct (read_with h R is_eof t s). reflexivity.
  Qed.

  (** Types without `default_on_eof` and without fields read until the end never ask, and any
      error type will do. *)
  Theorem C114_unasked t s : asks t = false ->
    read_in h R conv eof t s = (shown conv (fst (read h R t s)), snd (read h R t s)).
  Proof.
    intros Ht. unfold read_in. rewrite <- read_with_standard.
    rewrite (proj1 (proj1 (read_with_same h R ask is_eof t ltac:(intros Hx; congruence))) s).
    destruct (read_with h R is_eof t s). reflexivity.
  Qed.

  (** What a field read until the end of the input holds. *)
  Definition until_end (f : fattrs * ty) : bool :=
    negb (f_skip (fst f)) && negb (f_opaque (fst f)) && negb (f_eof (fst f))
    && match f_len (fst f) with LEof => true | _ => false end
    && match snd f with
       | TStr (KString | KCowStr) | TSeq (KVec | KCow) _ | TSet (CBTree | CHash) _ | TMap (CBTree | CHash) _ _ => true
       | _ => false
       end.

  (** An error type that never tells the end of the input: no field that is read until the
      input ends is ever read. *)
  Theorem C114_deaf d fs s : (forall er, eof (conv er) = false) -> existsb until_end fs = true ->
    forall v, fst (read_in h R conv eof (TStruct d fs) s) <> SOk v.
  Proof.
    intros Hdeaf.
    assert (Hloop : forall rd s1 vs, fst (read_until_eof_with R ask rd s1) <> Ok vs).
    { intros rd s1. unfold read_until_eof_with. generalize (rd_fuel R s1). intros k. revert s1.
      induction k as [|k IH]; intros s1 vs; cbn [until_eof_loop_with]; [discriminate|].
      destruct (rd s1) as [[v|er|f] s2]; [|rewrite Hdeaf; discriminate|discriminate].
      unfold mmap, bind. specialize (IH s2). destruct (until_eof_loop_with _ rd k s2) as [[ws|er|f] s3]; try discriminate.
      destruct (IH ws). reflexivity. }
    assert (Hbind : forall A B (m : M St A) (k : A -> M St B) s1 b,
              (forall a, fst (m s1) <> Ok a) -> fst (bind m k s1) <> Ok b).
    { intros A B m k s1 b Hm. unfold bind. destruct (m s1) as [[a|er|f] s2]; try discriminate. destruct (Hm a). reflexivity. }
    assert (Hthen : forall A B (m : M St A) (k : A -> M St B) s1 b,
              (forall a s2, fst (k a s2) <> Ok b) -> fst (bind m k s1) <> Ok b).
    { intros A B m k s1 b Hk. unfold bind. destruct (m s1) as [[a|er|f] s2]; try discriminate. apply Hk. }
    assert (Hfield : forall f prev s1 v, until_end f = true ->
              fst (read_field_with h R ask (read_with h R ask) prev (fst f) (snd f) s1) <> Ok v).
    { intros (a & t) prev s1 v. unfold until_end. cbn [fst snd]. rewrite !andb_true_iff, !negb_true_iff.
      intros ((((_ & Ho) & He) & Hl) & Ht). unfold read_field_with. rewrite Ho, He.
      apply Hthen. intros _ s2. destruct t; try discriminate Ht;
        (destruct k; try discriminate Ht; cbn [read_field_inner_with]; unfold with_length_with; destruct (f_len a); try discriminate Hl;
         apply Hbind; intros; apply Hloop). }
    intros Hex v. unfold read_in. cbn [read_with].
    enough (Hfs : forall prev s1 vs, fst (read_fields_with h R ask (read_with h R ask) prev fs s1) <> Ok vs).
    { unfold mmap, bind. destruct (read_fields_with _ _ _ _ _ _ s) as [[vs|er|f] s'] eqn:Ef; try discriminate.
      destruct (Hfs [] s vs). rewrite Ef. reflexivity. }
    induction fs as [|f fs IH]; [discriminate|]. cbn [existsb] in Hex. intros prev s1 vs.
    change (fst ((if f_skip (fst f)
        then mmap (cons (f_default (fst f))) (read_fields_with h R ask (read_with h R ask) prev fs)
        else v <- read_field_with h R ask (read_with h R ask) prev (fst f) (snd f) ;;
             vs <- read_fields_with h R ask (read_with h R ask) (prev ++ [proj v]) fs ;; ret (v :: vs)) s1) <> Ok vs).
    destruct (until_end f) eqn:Ef.
    - assert (Hs : f_skip (fst f) = false) by (unfold until_end in Ef; destruct (f_skip (fst f)); [discriminate Ef|reflexivity]).
      rewrite Hs. apply Hbind. intros w. apply Hfield, Ef.
    - specialize (IH Hex). destruct (f_skip (fst f)); [apply Hbind; intros; apply IH|].
      apply Hthen. intros w s2. apply Hbind. intros. apply IH.
  Qed.

  (** ... and `default_on_eof` on the fields of a struct says nothing. *)
  Definition ignore_eof (f : fattrs * ty) : fattrs * ty :=
    ({| f_eof := false; f_skip := f_skip (fst f); f_varint := f_varint (fst f); f_opaque := f_opaque (fst f);
        f_len := f_len (fst f); f_prefix := f_prefix (fst f); f_default := f_default (fst f) |}, snd f).

  Theorem C114_deaf_default d fs s : (forall er, eof (conv er) = false) ->
    read_in h R conv eof (TStruct d fs) s = read_in h R conv eof (TStruct d (map ignore_eof fs)) s.
  Proof.
    intros Hdeaf. unfold read_in. cbn [read_with].
    assert (Hcatch : forall A (x : A) (m : M St A), eqm (catch_eof_with ask x m) m).
    { intros A x m s1. unfold catch_eof_with. destruct (m s1) as [[v|er|f] s2]; rewrite ?Hdeaf; reflexivity. }
    assert (Hlen : forall prev f k u, eqm (with_length_with h R ask prev (fst f) k u)
                                         (with_length_with h R ask prev (fst (ignore_eof f)) k u)).
    { intros prev f k u. unfold with_length_with, ignore_eof. cbn [fst f_len f_eof].
      destruct (f_len (fst f)); try apply eqm_refl; (destruct (f_eof (fst f)); [|apply eqm_refl]; apply eqm_bind; [apply Hcatch|intros; apply eqm_refl]). }
    assert (Hinner : forall rd prev f varint t,
              eqm (read_field_inner_with h R ask rd prev (fst f) varint t)
                  (read_field_inner_with h R ask rd prev (fst (ignore_eof f)) varint t)).
    { intros rd prev f varint t. destruct t; cbn [read_field_inner_with]; try apply eqm_refl; destruct k; try apply eqm_refl; try apply Hlen.
      apply eqm_then. intros _. apply Hlen. }
    enough (Hfs : forall rd prev, eqm (read_fields_with h R ask rd prev fs)
                                     (read_fields_with h R ask rd prev (map ignore_eof fs))).
    { rewrite (eqm_map VSeq _ _ (Hfs _ []) s). reflexivity. }
    intros rd. induction fs as [|f r IH]; intros prev; [apply eqm_refl|]. cbn [map].
    change (eqm (if f_skip (fst f) then mmap (cons (f_default (fst f))) (read_fields_with h R ask rd prev r)
        else v <- read_field_with h R ask rd prev (fst f) (snd f) ;;
             vs <- read_fields_with h R ask rd (prev ++ [proj v]) r ;; ret (v :: vs))
      (if f_skip (fst f) then mmap (cons (f_default (fst f))) (read_fields_with h R ask rd prev (map ignore_eof r))
        else v <- read_field_with h R ask rd prev (fst (ignore_eof f)) (snd f) ;;
             vs <- read_fields_with h R ask rd (prev ++ [proj v]) (map ignore_eof r) ;; ret (v :: vs))).
    destruct (f_skip (fst f)); [apply eqm_map, IH|]. apply eqm_bind; [|intros v; apply eqm_bind; [apply IH|intros; apply eqm_refl]].
    assert (Hb : forall c : M St unit, eqm
      (c ;;; if f_opaque (fst f) then rd (snd f) else
             match snd f with
             | TOption t' => flag <- read_u8 R ;;
                 if flag =? 0 then ret VNone else mmap VSome (read_field_inner_with h R ask rd prev (fst f) false t')
             | _ => read_field_inner_with h R ask rd prev (fst f) (f_varint (fst f)) (snd f)
             end)
      (c ;;; if f_opaque (fst f) then rd (snd f) else
             match snd f with
             | TOption t' => flag <- read_u8 R ;;
                 if flag =? 0 then ret VNone else mmap VSome (read_field_inner_with h R ask rd prev (fst (ignore_eof f)) false t')
             | _ => read_field_inner_with h R ask rd prev (fst (ignore_eof f)) (f_varint (fst f)) (snd f)
             end)).
    { intros c. apply eqm_then. intros _. destruct (f_opaque (fst f)); [apply eqm_refl|].
      destruct (snd f); try apply Hinner. apply eqm_then. intros n. destruct (_ =? _); [apply eqm_refl|apply eqm_map, Hinner]. }
    unfold read_field_with. cbn [ignore_eof fst f_eof f_prefix f_opaque f_default f_varint].
    destruct (f_eof (fst f)); [|apply Hb]. intros s1. rewrite (Hcatch _ _ _ s1). apply Hb.
  Qed.

  (** An error type that takes every error for the end of the input: a struct whose fields all
      have `default_on_eof` is read without an error from any input at all. *)
  Theorem C114_eager d fs s : (forall er, eof (conv er) = true) ->
    forallb (fun f => f_skip (fst f) || f_eof (fst f)) fs = true ->
    forall x, fst (read_in h R conv eof (TStruct d fs) s) <> SErr x.
  Proof.
    intros Heager Hall x. unfold read_in. cbn [read_with].
    enough (Hfs : forall prev s1 er, fst (read_fields_with h R ask (read_with h R ask) prev fs s1) <> Err er).
    { unfold mmap, bind. destruct (read_fields_with _ _ _ _ _ _ s) as [[vs|er|f] s'] eqn:Ef; try discriminate.
      destruct (Hfs [] s er). rewrite Ef. reflexivity. }
    assert (Hmap : forall A B (k : A -> B) m s1, (forall er, fst (m s1) <> Err er) -> forall er, fst (mmap (S := St) k m s1) <> Err er).
    { intros A B k m s1 Hm er. unfold mmap, bind. destruct (m s1) as [[a|er'|f] s2]; try discriminate. destruct (Hm er'). reflexivity. }
    assert (Hbind : forall A B (m : M St A) (k : A -> M St B) s1, (forall er, fst (m s1) <> Err er) ->
              (forall a s2 er, fst (k a s2) <> Err er) -> forall er, fst (bind m k s1) <> Err er).
    { intros A B m k s1 Hm Hk er. unfold bind. destruct (m s1) as [[a|er'|f] s2]; try discriminate; [apply Hk|]. destruct (Hm er'). reflexivity. }
    induction fs as [|f r IH]; intros prev s1; [discriminate|]. cbn [forallb] in Hall. apply andb_true_iff in Hall as (Hf & Hr). specialize (IH Hr).
    change (forall er, fst ((if f_skip (fst f)
        then mmap (cons (f_default (fst f))) (read_fields_with h R ask (read_with h R ask) prev r)
        else v <- read_field_with h R ask (read_with h R ask) prev (fst f) (snd f) ;;
             vs <- read_fields_with h R ask (read_with h R ask) (prev ++ [proj v]) r ;; ret (v :: vs)) s1) <> Err er).
    destruct (f_skip (fst f)); [apply Hmap; intros; apply IH|]. cbn [orb] in Hf.
    apply Hbind; [|intros v s2; apply Hbind; [intros; apply IH|discriminate]].
    unfold read_field_with. rewrite Hf. intros er. unfold catch_eof_with.
    match goal with |- fst (match ?m with _ => _ end) <> _ => destruct m as [[v|er'|f'] s2] end; rewrite ?Heager; discriminate.
  Qed.
End Contexts.

(** The same at the entry points: buffers and streams. *)
Theorem C114_entry {E} h (conv : error -> E) eof e t :
  (asks t = true -> forall er, eof (conv er) = is_eof er) ->
  (forall addr bs, read_from_buffer_in h conv eof e t addr bs = shown conv (read_from_buffer h e t addr bs))
  /\ (forall mem buffering i, read_from_stream_in h conv eof mem buffering e t i
        = (shown conv (fst (deserialize h mem buffering e t i)), sr_stream (snd (deserialize h mem buffering e t i)))).
Proof.
  intros Hask.
  assert (H : forall St (R : reader St) s, read_in h R conv eof t s = (shown conv (fst (read h R t s)), snd (read h R t s))).
  { intros St R s. destruct (asks t) eqn:Et; [apply C114_standard, Hask; reflexivity|apply C114_unasked, Et]. }
  split.
  - intros addr bs. unfold read_from_buffer_in, read_from_buffer, read_with_length_from_buffer, with_min.
    destruct (_ <? _); [reflexivity|]. rewrite H. cbn [fst]. destruct (read _ _ _ _). reflexivity.
  - intros mem buffering i. unfold read_from_stream_in, deserialize. rewrite H. reflexivity.
Qed.
Print Assumptions C114_standard.
Print Assumptions C114_unasked.
Print Assumptions C114_deaf.
Print Assumptions C114_deaf_default.
Print Assumptions C114_eager.
Print Assumptions C114_entry.

(** ** Cases *)

(* struct Log { id: u8, #[speedy(length = ..)] lines: Vec<char> }, and #[speedy(default_on_eof)] id: u8 *)
Definition log : ty := TStruct (sd 94 RRust) [(plain, TP U8); (with_len LEof, TSeq KVec (TScalar SChar))].
Definition versioned : ty := TStruct (sd 95 RRust) [(plain, TP U8); (with_default (VInt 7), TP U16)].

(** enum MyError { Codec(speedy::Error), NotFound }, with the three ways to write `is_eof`. *)
Inductive my_error := Codec (er : error) | NotFound.
Definition forwards (x : my_error) : bool := match x with Codec er => is_eof er | NotFound => false end.
Definition never (_ : my_error) : bool := false.
Definition always (_ : my_error) : bool := true.

Definition log_bytes : bytes := [x01; x41; x00; x00; x00; x42; x00; x00; x00].
Definition bad_bytes : bytes := [x01; x41; x00; x00; x00; xff; xff; xff; xff].

Example C114_standard_case : (forall er, forwards (Codec er) = is_eof er)
  /\ asks log = true
  /\ read_from_buffer_in host64 Codec forwards LE log 0 log_bytes = SOk (VSeq [VInt 1; VSeq [VInt 65; VInt 66]])
  /\ read_from_buffer_in host64 Codec forwards LE log 0 bad_bytes = SErr (Codec InvalidChar).
Proof. repeat split; vm_compute; reflexivity. Qed.

Example C114_unasked_case : asks sample = false /\ asks point = false /\ asks (TSeq KVec point) = false.
Proof. vm_compute. auto. Qed.

(** Not every error type will do: one that never tells the end cannot read what the crate
    wrote, and one that always tells it loses the rest of a damaged file without an error. *)
Theorem C114_any_refuted :
  (exists bs, read_from_buffer host64 LE log 0 bs = Ok (VSeq [VInt 1; VSeq [VInt 65; VInt 66]])
     /\ write_to_vec host64 dirty LE log (VSeq [VInt 1; VSeq [VInt 65; VInt 66]]) = Ok bs
     /\ read_from_buffer_in host64 Codec never LE log 0 bs = SErr (Codec UnexpectedEndOfInput))
  /\ (exists bs, read_from_buffer host64 LE versioned 0 bs = Ok (VSeq [VInt 1; VInt 7])
     /\ read_from_buffer_in host64 Codec never LE versioned 0 bs = SErr (Codec UnexpectedEndOfInput))
  /\ exists bs, read_from_buffer host64 LE log 0 bs = Err InvalidChar
     /\ read_from_buffer_in host64 Codec always LE log 0 bs = SOk (VSeq [VInt 1; VSeq [VInt 65]]).
Proof.
  split; [exists log_bytes|split; [exists [x01]|exists bad_bytes]]; repeat split; vm_compute; reflexivity.
Qed.
Print Assumptions C114_any_refuted.

Example C114_deaf_case : existsb until_end [(plain, TP U8); (with_len LEof, TSeq KVec (TScalar SChar))] = true
  /\ forallb (fun f => f_skip (fst f) || f_eof (fst f)) [(with_default (VInt 7), TP U16)] = true.
Proof. vm_compute. auto. Qed.
