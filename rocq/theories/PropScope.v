(* C134: the names in generated code.  What the code the derive macro generates means,
   with its variables and the length expressions that mention them, is what the model
   says by positions; and where names make a difference. *)
From Coq Require Import String Decimal DecimalString DecimalNat.
From Verif Require Import Scope Samples Api Hosts Checker Entry ReadApi WriteApi RoundTrip Conditions PropWrite.

(* ------------------------------------------------------------------ *)
(** * Specification: length expressions by position *)

(** What a name in a length expression refers to: an earlier field (its position among
    those that are not skipped), or a fixed number. *)
Inductive source := Field (k : nat) | Fixed (z : option Z).

Definition refers (pre : list (string * source)) (prev : list (option Z)) (n : string) : option Z :=
  match lookup n pre with Some (Field k) => nth k prev None | Some (Fixed z) => z | None => None end.

Definition by_position (h : host) (pre : list (string * source)) (f : nfield) : fattrs :=
  match nf_length f with
  | None => nf_attrs f
  | Some x => set_len (nf_attrs f) (LExpr (fun prev => option_map (as_usize h) (eval (refers pre prev) x)))
  end.

(** The fields as the model has them; [k] fields that are not skipped came before. *)
Fixpoint meaning (h : host) (i k : nat) (pre : list (string * source)) (fs : list nfield) : fields :=
  match fs with
  | [] => []
  | f :: r =>
    (by_position h pre f, nf_ty f) ::
    (if f_skip (nf_attrs f)
     then meaning h (S i) k ((var_name i f, Fixed (proj (f_default (nf_attrs f)))) :: pre) r
     else meaning h (S i) (S k) ((var_name i f, Field k) :: pre) r)
  end.

Definition fixed (consts : list (string * Z)) : list (string * source) :=
  map (fun c => (fst c, Fixed (Some (snd c)))) consts.

Definition struct_fields (h : host) (consts : list (string * Z)) (fs : list nfield) : fields :=
  meaning h 0 0 (fixed consts) fs.

(** The length expression of a field is in [nf_length]. *)
Definition no_expr (f : nfield) : Prop :=
  nf_length f = None -> match f_len (nf_attrs f) with LExpr _ => False | _ => True end.

(** No variable of a field hides the parameter from the code of a later field. *)
Fixpoint reader_kept (i : nat) (fs : list nfield) : Prop :=
  match fs with
  | [] => True
  | f :: r => (var_name i f <> "_reader_"%string \/ Forall (fun g => f_skip (nf_attrs g) = true) r) /\ reader_kept (S i) r
  end.

Fixpoint names (i : nat) (fs : list nfield) : list string :=
  match fs with [] => [] | f :: r => var_name i f :: names (S i) r end.

(** For the reader: length expressions mention earlier fields and what is [outer]. *)
Fixpoint closed (i : nat) (before : list string) (fs : list nfield) : Prop :=
  match fs with
  | [] => True
  | f :: r =>
    (f_skip (nf_attrs f) = false -> forall x, nf_length f = Some x -> Forall (fun n => In n before) (mentions x))
    /\ closed (S i) (var_name i f :: before) r
  end.

(** For the writer too: they mention earlier fields that are not skipped, and what is
    [outer] and not called like any field. *)
Fixpoint looks_back (outer all : list string) (i : nat) (before : list string) (fs : list nfield) : Prop :=
  match fs with
  | [] => True
  | f :: r =>
    (f_skip (nf_attrs f) = false -> forall x, nf_length f = Some x ->
       Forall (fun n => In n before \/ (In n outer /\ ~ In n all)) (mentions x))
    /\ looks_back outer all (S i) (if f_skip (nf_attrs f) then before else var_name i f :: before) r
  end.

(* ------------------------------------------------------------------ *)
(** * Proofs *)

Lemma eval_ext see see' x : (forall n, In n (mentions x) -> see n = see' n) -> eval see x = eval see' x.
Proof.
  induction x as [z|n|f a IHa b IHb]; intros H; cbn [eval]; [reflexivity|apply H; left; reflexivity|].
  rewrite IHa, IHb by (intros n Hn; apply H; cbn [mentions]; apply in_or_app; auto). reflexivity.
Qed.

Lemma lookup_in {A} n (sc : list (string * A)) : lookup n sc <> None <-> In n (map fst sc).
Proof.
  induction sc as [|[m x] sc IH]; cbn [lookup map fst In]; [tauto|].
  destruct (String.eqb_spec n m) as [->|Hn]; [split; [auto|discriminate]|]. rewrite IH. intuition congruence.
Qed.

Section Reading.
  Context (h : host) {St : Type} (R : reader St) (rd : ty -> M St val).

  Lemma read_field_plain prev a t s : (match f_len a with LExpr _ => False | _ => True end) ->
    read_field h R rd [] a t s = read_field h R rd prev a t s.
  Proof.
    intros E.
    assert (Hi : forall v u, read_field_inner h R rd [] a v u = read_field_inner h R rd prev a v u).
    { intros v u. destruct u as [| [] | [] ? | | | | | | | [] ? | [] ? ? | | | |]; cbn [read_field_inner];
        unfold with_length; destruct (f_len a); try contradiction; reflexivity. }
    unfold read_field. destruct t; rewrite ?Hi; reflexivity.
  Qed.

  Lemma read_field_at prev a t f g s : f [] = g prev ->
    read_field h R rd [] (set_len a (LExpr f)) t s = read_field h R rd prev (set_len a (LExpr g)) t s.
  Proof.
    intros E.
    assert (Hi : forall v u, read_field_inner h R rd [] (set_len a (LExpr f)) v u = read_field_inner h R rd prev (set_len a (LExpr g)) v u).
    { intros v u. destruct u as [| [] | [] ? | | | | | | | [] ? | [] ? ? | | | |]; cbn [read_field_inner with_length set_len f_len];
        unfold with_length; cbn [set_len f_len]; rewrite ?E; reflexivity. }
    unfold read_field. cbn [set_len f_eof f_skip f_varint f_opaque f_prefix f_default].
    destruct t; rewrite ?Hi; reflexivity.
  Qed.

  Lemma here_reads prev sc pre f s : no_expr f ->
    (forall x, nf_length f = Some x -> forall n, In n (mentions x) -> sees sc n = refers pre prev n) ->
    read_field h R rd [] (here h sc f) (nf_ty f) s = read_field h R rd prev (by_position h pre f) (nf_ty f) s.
  Proof.
    intros Hn H. unfold here, by_position. destruct (nf_length f) as [x|] eqn:Ex.
    - apply read_field_at. f_equal. apply eval_ext. intros n. apply H. reflexivity.
    - apply read_field_plain, Hn, Ex.
  Qed.

  Definition known (k : nat) (pre : list (string * source)) : Prop :=
    Forall (fun p => match snd p with Field j => (j < k)%nat | Fixed _ => True end) pre.

  Lemma refers_more pre k prev p n : known k pre -> length prev = k -> refers pre (prev ++ p) n = refers pre prev n.
  Proof.
    intros Hk Hl. unfold refers. destruct (lookup n pre) as [[j|z]|] eqn:E; try reflexivity.
    apply app_nth1. rewrite Hl. revert E. induction Hk as [|[m y] pre Hy _ IH]; cbn [lookup]; [discriminate|].
    destruct (n =? m)%string; [|apply IH]. intros [= ->]. exact Hy.
  Qed.

  Lemma named_reads fs : forall i k before sc pre prev s,
    Forall no_expr fs -> reader_kept i fs -> closed i before fs ->
    (forall n, In n before -> exists v, lookup n sc = Some (Value v)) ->
    lookup "_reader_" sc = Some Parameter_ \/ Forall (fun g => f_skip (nf_attrs g) = true) fs ->
    (forall n, sees sc n = refers pre prev n) -> known k pre -> length prev = k ->
    read_named h R rd i sc fs s = read_fields h R rd prev (meaning h i k pre fs) s.
  Proof.
    induction fs as [|f fs IH]; intros i k before sc pre prev s Hn Hr Hc Hb Hs He Hk Hl; [reflexivity|].
    inversion_clear Hn as [|? ? Hf Hn']. destruct Hr as [Hr Hr'], Hc as [Hc Hc'].
    assert (Hb' : forall v n, In n (var_name i f :: before) -> exists u, lookup n ((var_name i f, Value v) :: sc) = Some (Value u)).
    { intros v n Hi. cbn [lookup]. destruct (String.eqb_spec n (var_name i f)); [eauto|]. destruct Hi as [Hi|Hi]; [congruence|auto]. }
    assert (Hs' : forall x, lookup "_reader_" ((var_name i f, x) :: sc) = Some Parameter_
                            \/ Forall (fun g => f_skip (nf_attrs g) = true) fs).
    { intros x. destruct Hr as [Hr|Hr]; [|right; exact Hr]. destruct Hs as [Hs|Hs]; [left|right; inversion_clear Hs; assumption].
      cbn [lookup]. destruct (String.eqb_spec "_reader_" (var_name i f)) as [E|_]; [congruence|exact Hs]. }
    cbn [read_named meaning read_fields fst snd].
    assert (Esk : f_skip (by_position h pre f) = f_skip (nf_attrs f)) by (unfold by_position; destruct (nf_length f); reflexivity).
    assert (Ed : f_default (by_position h pre f) = f_default (nf_attrs f)) by (unfold by_position; destruct (nf_length f); reflexivity).
    rewrite Esk, Ed. destruct (f_skip (nf_attrs f)) eqn:Ek.
    - unfold mmap, bind. rewrite (IH (S i) k (var_name i f :: before) _ ((var_name i f, Fixed (proj (f_default (nf_attrs f)))) :: pre) prev); auto.
      + intros n. unfold sees, refers. cbn [lookup]. destruct (n =? var_name i f)%string; [reflexivity|apply He].
      + constructor; [exact Logic.I|exact Hk].
    - assert (Hres : resolves sc f = true).
      { unfold resolves. destruct (nf_length f) as [x|] eqn:Ex; [|reflexivity]. apply forallb_forall. intros n Hi.
        specialize (Hc eq_refl x eq_refl). rewrite Forall_forall in Hc. destruct (Hb n (Hc n Hi)) as [u ->]. reflexivity. }
      rewrite Hres. cbn [negb].
      destruct Hs as [Hs|Hs]; [|inversion_clear Hs; congruence]. rewrite Hs. unfold bind.
      rewrite (here_reads prev sc pre f s Hf (fun _ _ n _ => He n)).
      destruct (read_field h R rd prev (by_position h pre f) (nf_ty f) s) as [[v|er|q] s']; try reflexivity.
      rewrite (IH (S i) (S k) (var_name i f :: before) _ ((var_name i f, Field k) :: pre) (prev ++ [proj v])); auto.
      + intros n. unfold sees, refers. cbn [lookup]. destruct (n =? var_name i f)%string.
        * rewrite app_nth2 by lia. rewrite Hl, Nat.sub_diag. reflexivity.
        * pose proof (refers_more pre k prev [proj v] n Hk Hl) as E. unfold refers in E. rewrite E. apply He.
      + constructor; [cbn; lia|]. eapply Forall_impl; [|exact Hk]. intros [m [j|z]]; cbn; lia.
      + rewrite app_length. cbn [length]. lia.
  Qed.
End Reading.

Lemma fixed_known consts : known 0 (fixed consts).
Proof. induction consts as [|c l IH]; constructor; [exact Logic.I|exact IH]. Qed.

Lemma fixed_refers consts n : sees (outside consts) n = refers (fixed consts) [] n.
Proof.
  unfold sees, refers, outside, fixed. induction consts as [|[m z] l IH]; [reflexivity|]. cbn [map lookup fst snd].
  destruct (n =? m)%string; [reflexivity|exact IH].
Qed.

Lemma lookup_fixed consts n : ~ In n (map fst consts) -> lookup n (fixed consts) = None.
Proof.
  intros H. destruct (lookup n (fixed consts)) eqn:E; [|reflexivity]. exfalso. apply H.
  assert (Hi : In n (map fst (fixed consts))) by (apply lookup_in; congruence).
  unfold fixed in Hi. rewrite map_map in Hi. exact Hi.
Qed.

Lemma outside_value consts n : In n (map fst consts) -> exists v, lookup n (outside consts) = Some (Value v).
Proof.
  unfold outside. induction consts as [|[m z] l IH]; cbn [map lookup fst snd In]; [contradiction|].
  intros [->|Hn]; [rewrite String.eqb_refl; eauto|]. destruct (n =? m)%string; eauto.
Qed.

(** C134: the generated reader of a struct, with its variables, reads what the model
    reads. *)
Theorem C134_read h {St} (R : reader St) d consts fs s :
  Forall no_expr fs -> ~ In "_reader_"%string (map fst consts) -> reader_kept 0 fs -> closed 0 (map fst consts) fs ->
  read_struct h consts R (read h R) fs s = read h R (TStruct d (struct_fields h consts fs)) s.
Proof.
  intros Hn Hc Hr Hcl. cbn [read]. unfold read_struct, mmap, bind.
  rewrite (named_reads h R _ fs 0 0 (map fst consts) _ (fixed consts) []); auto.
  - intros n Hi. cbn [lookup]. destruct (String.eqb_spec n "_reader_") as [->|_]; [contradiction|apply outside_value, Hi].
  - intros n. unfold sees. cbn [lookup]. destruct (String.eqb_spec n "_reader_") as [->|_]; [|apply fixed_refers].
    unfold refers. rewrite lookup_fixed by exact Hc. reflexivity.
  - apply fixed_known.
Qed.
(** What expressions are worth: literals are themselves, names what they refer to,
    operations are applied to what their operands are worth, left and right. *)
Inductive worth (see : string -> option Z) : lexp -> Z -> Prop :=
| worth_int z : worth see (XInt z) z
| worth_name n z : see n = Some z -> worth see (XName n) z
| worth_op f a b y z x : worth see a y -> worth see b z -> f y z = Some x -> worth see (XOp f a b) x.

Theorem C134_worth see x z : eval see x = Some z <-> worth see x z.
Proof.
  split.
  - revert z. induction x as [y|n|f a IHa b IHb]; cbn [eval]; intros z H.
    + injection H as <-. constructor.
    + constructor. exact H.
    + destruct (eval see a) as [y|]; [|discriminate]. destruct (eval see b) as [w|]; [|discriminate].
      econstructor; [apply IHa|apply IHb|]; eauto.
  - induction 1 as [y|n y H|f a b y w x _ IHa _ IHb H]; cbn [eval]; [reflexivity|exact H|]. rewrite IHa, IHb. exact H.
Qed.

(** Conversion to `usize` is modulo its size. *)
Theorem C134_as_usize h z : as_usize h z <= l_usize_max (h_lim h)
  /\ exists k, (z = Z.of_N (as_usize h z) + k * (Z.of_N (l_usize_max (h_lim h)) + 1))%Z.
Proof.
  unfold as_usize. set (m := (Z.of_N (l_usize_max (h_lim h)) + 1)%Z). assert (Hm : (0 < m)%Z) by (unfold m; lia).
  pose proof (Z.mod_pos_bound z m Hm) as B. pose proof (Z.div_mod z m ltac:(lia)) as E. split; [unfold m in *; lia|].
  exists (z / m)%Z. rewrite Z2N.id by lia. lia.
Qed.

(** The other attributes of a field stay as they are; its length is what its expression is
    worth, or none if it has no value. *)
Theorem C134_attributes h pre f x : nf_length f = Some x ->
  let a := by_position h pre f in let b := nf_attrs f in
  (f_eof a, f_skip a, f_varint a, f_opaque a, f_prefix a, f_default a)
  = (f_eof b, f_skip b, f_varint b, f_opaque b, f_prefix b, f_default b)
  /\ exists g, f_len a = LExpr g
     /\ forall prev n, g prev = Some n <-> exists z, worth (refers pre prev) x z /\ n = as_usize h z.
Proof.
  intros Hx a b. unfold a, b, by_position. rewrite Hx. split; [reflexivity|]. eexists. split; [reflexivity|]. intros prev n.
  cbv beta. destruct (eval (refers pre prev) x) as [z|] eqn:E; cbn [option_map]; split.
  - intros H. injection H as <-. exists z. split; [apply C134_worth, E|reflexivity].
  - intros (w & Hw & ->). apply C134_worth in Hw. congruence.
  - discriminate.
  - intros (w & Hw & _). apply C134_worth in Hw. congruence.
Qed.

Print Assumptions C134_worth.
Print Assumptions C134_as_usize.
Print Assumptions C134_attributes.
Print Assumptions C134_read.

(** The same for the variant of an enum; its length expressions can see the tag, as
    `kind_`. *)
Theorem C134_read_variant h {St} (R : reader St) consts tag fs s :
  Forall no_expr fs -> ~ In "_reader_"%string (map fst consts) -> reader_kept 0 fs ->
  closed 0 ("kind_"%string :: map fst consts) fs ->
  read_arm h consts R (read h R) tag fs s
  = read_fields h R (read h R) [] (struct_fields h (("kind_"%string, Z.of_N tag) :: consts) fs) s.
Proof.
  intros Hn Hc Hr Hcl. unfold read_arm, struct_fields.
  apply named_reads with (before := "kind_"%string :: map fst consts); auto.
  - intros n Hi. cbn [lookup]. destruct (String.eqb_spec n "kind_") as [->|Hne]; [eauto|].
    destruct Hi as [Hi|Hi]; [congruence|].
    destruct (String.eqb_spec n "_reader_") as [->|_]; [contradiction|apply outside_value, Hi].
  - intros n. unfold sees, refers, fixed. cbn [lookup map fst snd].
    destruct (String.eqb_spec n "kind_") as [->|_]; [reflexivity|].
    destruct (String.eqb_spec n "_reader_") as [->|_].
    + fold (fixed consts). rewrite lookup_fixed by exact Hc. reflexivity.
    + apply fixed_refers.
  - apply (fixed_known (("kind_"%string, Z.of_N tag) :: consts)).
Qed.
Print Assumptions C134_read_variant.

Lemma assign_other n fs : forall i vs sc, ~ In n (names i fs) -> lookup n (assign i fs vs sc) = lookup n sc.
Proof.
  induction fs as [|f fs IH]; intros i [|v vs] sc H; try reflexivity. cbn [assign]. cbn [names In] in H.
  rewrite IH by tauto. destruct (f_skip (nf_attrs f)); [reflexivity|].
  cbn [lookup]. destruct (String.eqb_spec n (var_name i f)) as [->|_]; [tauto|reflexivity].
Qed.

Fixpoint bound (i : nat) (fs : list nfield) (vs : list val) (sc : scope) : Prop :=
  match fs, vs with
  | f :: fr, v :: vr =>
    (f_skip (nf_attrs f) = false -> lookup (var_name i f) sc = Some (Value v)) /\ bound (S i) fr vr sc
  | [], [] => True
  | _, _ => False
  end.

Lemma assign_bound fs : forall i vs sc, NoDup (names i fs) -> length fs = length vs -> bound i fs vs (assign i fs vs sc).
Proof.
  induction fs as [|f fs IH]; intros i [|v vs] sc Hn Hl; try discriminate; [exact Logic.I|].
  cbn [names] in Hn. inversion_clear Hn as [|? ? Hi Hn']. cbn [assign bound]. split.
  - intros ->. rewrite assign_other by exact Hi. cbn [lookup]. rewrite String.eqb_refl. reflexivity.
  - apply IH; [exact Hn'|]. cbn in Hl. lia.
Qed.

Section Writing.
  Context (h : host) {St : Type} (W : writer St) (wr : ty -> val -> M St unit).

  Lemma write_field_plain prev a t v s : (match f_len a with LExpr _ => False | _ => True end) ->
    write_field h W wr [] a t v s = write_field h W wr prev a t v s.
  Proof.
    intros E.
    assert (Hi : forall b u x, write_field_inner h W wr [] (f_len a) b u x = write_field_inner h W wr prev (f_len a) b u x).
    { intros b u x. destruct (f_len a); try contradiction; reflexivity. }
    unfold write_field. destruct t; rewrite ?Hi; try reflexivity. destruct v; rewrite ?Hi; reflexivity.
  Qed.

  Lemma write_field_at prev a t v f g s : f [] = g prev ->
    write_field h W wr [] (set_len a (LExpr f)) t v s = write_field h W wr prev (set_len a (LExpr g)) t v s.
  Proof.
    intros E.
    assert (Hi : forall b u x, write_field_inner h W wr [] (LExpr f) b u x = write_field_inner h W wr prev (LExpr g) b u x).
    { intros b u x. unfold write_field_inner, write_length_body. rewrite E. reflexivity. }
    unfold write_field. cbn [set_len f_eof f_skip f_varint f_opaque f_prefix f_default f_len].
    destruct t; rewrite ?Hi; try reflexivity. destruct v; rewrite ?Hi; reflexivity.
  Qed.

  Lemma here_writes prev sc pre f v s : no_expr f ->
    (forall x, nf_length f = Some x -> forall n, In n (mentions x) -> sees sc n = refers pre prev n) ->
    write_field h W wr [] (here h sc f) (nf_ty f) v s = write_field h W wr prev (by_position h pre f) (nf_ty f) v s.
  Proof.
    intros Hn H. unfold here, by_position. destruct (nf_length f) as [x|] eqn:Ex.
    - apply write_field_at. f_equal. apply eval_ext. intros n. apply H. reflexivity.
    - apply write_field_plain, Hn, Ex.
  Qed.

  Context (outer all : list string) (sc : scope) (Hw : lookup "_writer_" sc = Some Parameter_).

  Lemma named_writes fs : forall i k pre prev before vs s,
    Forall no_expr fs -> bound i fs vs sc -> looks_back outer all i before fs ->
    (forall n, In n before \/ (In n outer /\ ~ In n all) ->
       (exists v, lookup n sc = Some (Value v)) /\ sees sc n = refers pre prev n) ->
    NoDup (names i fs) -> (forall n, In n (names i fs) -> In n all /\ ~ In n before) ->
    known k pre -> length prev = k ->
    write_named h W wr sc i fs s = write_fields h W wr prev (meaning h i k pre fs) vs s.
  Proof.
    induction fs as [|f fs IH]; intros i k pre prev before [|v vs] s Hn Hb Hl He Hnd Ha Hk Hlen; try contradiction; [reflexivity|].
    inversion_clear Hn as [|? ? Hf Hn']. destruct Hb as [Hb Hb'], Hl as [Hl Hl'].
    cbn [names] in Hnd. inversion_clear Hnd as [|? ? Hi Hnd'].
    destruct (Ha (var_name i f) (or_introl eq_refl)) as [Ha1 Ha2].
    cbn [write_named meaning write_fields fst snd].
    assert (Esk : f_skip (by_position h pre f) = f_skip (nf_attrs f)) by (unfold by_position; destruct (nf_length f); reflexivity).
    rewrite Esk. destruct (f_skip (nf_attrs f)) eqn:Ek.
    - apply (IH (S i) k _ prev before); auto.
      + intros n Hc. destruct (He n Hc) as [H1 H2]. split; [exact H1|]. unfold refers. cbn [lookup].
        destruct (String.eqb_spec n (var_name i f)) as [->|Hne]; [tauto|exact H2].
      + intros n Hin. apply Ha. right. exact Hin.
      + constructor; [exact Logic.I|exact Hk].
    - specialize (Hb eq_refl).
      assert (Hsee : forall x, nf_length f = Some x -> forall n, In n (mentions x) ->
        (exists v, lookup n sc = Some (Value v)) /\ sees sc n = refers pre prev n).
      { intros x Ex n Hin. apply He. specialize (Hl eq_refl x Ex). rewrite Forall_forall in Hl. apply Hl, Hin. }
      assert (Hres : resolves sc f = true).
      { unfold resolves. destruct (nf_length f) as [x|] eqn:Ex; [|reflexivity]. apply forallb_forall. intros n Hin.
        destruct (Hsee x eq_refl n Hin) as [[u ->] _]. reflexivity. }
      rewrite Hres, Hw, Hb. cbn [negb]. unfold bind.
      rewrite (here_writes prev sc pre f v s Hf (fun x Ex n Hin => proj2 (Hsee x Ex n Hin))).
      destruct (write_field h W wr prev (by_position h pre f) (nf_ty f) v s) as [[u|er|q] s']; try reflexivity.
      apply (IH (S i) (S k) _ (prev ++ [proj v]) (var_name i f :: before)); auto.
      + intros n Hc. unfold refers. cbn [lookup]. destruct (String.eqb_spec n (var_name i f)) as [->|Hne].
        * split; [eauto|]. unfold sees. rewrite Hb, app_nth2, Hlen, Nat.sub_diag by lia. reflexivity.
        * assert (Hc' : In n before \/ (In n outer /\ ~ In n all)) by (cbn [In] in Hc; intuition congruence).
          destruct (He n Hc') as [H1 H2]. split; [exact H1|].
          pose proof (refers_more pre k prev [proj v] n Hk Hlen) as E. unfold refers in E. rewrite E. exact H2.
      + intros n Hin. destruct (Ha n (or_intror Hin)) as [H1 H2]. split; [exact H1|]. intros [<-|H]; tauto.
      + constructor; [cbn; lia|]. eapply Forall_impl; [|exact Hk]. intros [m [j|z]]; cbn; lia.
      + rewrite app_length. cbn [length]. lia.
  Qed.
End Writing.

(** C134: the generated writer of a struct writes what the model writes, if its length
    expressions look back only, to fields that are not skipped. *)
Theorem C134_write h {St} (W : writer St) d consts fs vs s :
  Forall no_expr fs -> NoDup (names 0 fs) -> ~ In "_writer_"%string (names 0 fs ++ map fst consts) ->
  looks_back (map fst consts) (names 0 fs) 0 [] fs -> length fs = length vs ->
  write_struct h consts W (write h W) fs vs s = write h W (TStruct d (struct_fields h consts fs)) (VSeq vs) s.
Proof.
  intros Hn Hnd Hw Hl Hlen. cbn [write]. unfold write_struct. rewrite Hlen, Nat.eqb_refl.
  assert (Hw1 : ~ In "_writer_"%string (names 0 fs)) by (intros H; apply Hw, in_or_app; auto).
  assert (Hw2 : ~ In "_writer_"%string (map fst consts)) by (intros H; apply Hw, in_or_app; auto).
  apply named_writes with (outer := map fst consts) (all := names 0 fs) (before := []); auto.
  - rewrite assign_other by exact Hw1. reflexivity.
  - apply assign_bound; assumption.
  - intros n [[]|[Ho Hc]]. unfold sees. rewrite assign_other by exact Hc. cbn [lookup].
    destruct (String.eqb_spec n "_writer_") as [->|_]; [contradiction|]. split; [apply outside_value, Ho|apply fixed_refers].
  - apply fixed_known.
Qed.
Print Assumptions C134_write.

(** The same for the variant of an enum: nothing may be skipped, and the tag must not be
    mentioned as `kind_`, which the writer does not have. *)
Theorem C134_write_variant h {St} (W : writer St) consts tag fs vs s :
  Forall no_expr fs -> NoDup (names 0 fs) -> ~ In "_writer_"%string (names 0 fs ++ map fst consts) ->
  ~ In "kind_"%string (map fst consts) ->
  looks_back (map fst consts) (names 0 fs) 0 [] fs -> length fs = length vs ->
  Forall (fun f => f_skip (nf_attrs f) = false) fs ->
  write_arm h consts W (write h W) fs vs s
  = write_fields h W (write h W) [] (struct_fields h (("kind_"%string, Z.of_N tag) :: consts) fs) vs s.
Proof.
  intros Hn Hnd Hw Hkind Hl Hlen Hsk. unfold write_arm, write_struct, struct_fields. rewrite Hlen, Nat.eqb_refl.
  assert (E : existsb (fun f => f_skip (nf_attrs f)) fs = false).
  { clear - Hsk. induction Hsk as [|f fs Hf _ IH]; [reflexivity|]. cbn [existsb]. rewrite Hf. exact IH. }
  rewrite E.
  assert (Hw1 : ~ In "_writer_"%string (names 0 fs)) by (intros H; apply Hw, in_or_app; auto).
  assert (Hw2 : ~ In "_writer_"%string (map fst consts)) by (intros H; apply Hw, in_or_app; auto).
  apply named_writes with (outer := map fst consts) (all := names 0 fs) (before := []); auto.
  - rewrite assign_other by exact Hw1. reflexivity.
  - apply assign_bound; assumption.
  - intros n [[]|[Ho Hc]]. unfold sees. rewrite assign_other by exact Hc. cbn [lookup].
    unfold fixed, refers. cbn [map lookup fst snd].
    destruct (String.eqb_spec n "kind_") as [->|_]; [contradiction|].
    destruct (String.eqb_spec n "_writer_") as [->|_]; [contradiction|]. split; [apply outside_value, Ho|apply fixed_refers].
  - apply (fixed_known (("kind_"%string, Z.of_N tag) :: consts)).
Qed.
Print Assumptions C134_write_variant.

(* ------------------------------------------------------------------ *)
(** * Fields without names *)

Lemma to_uint_digits i : Nat.to_uint i <> Nil.
Proof. intros H. pose proof (Unsigned.of_to i) as E. rewrite H in E. cbn in E. subst i. discriminate H. Qed.

Lemma to_string_inj i j : NilZero.string_of_uint (Nat.to_uint i) = NilZero.string_of_uint (Nat.to_uint j) -> i = j.
Proof.
  intros E. pose proof (f_equal NilZero.uint_of_string E) as F.
  rewrite !NilZero.usu in F by apply to_uint_digits. injection F as F. apply Unsigned.to_uint_inj. exact F.
Qed.

Definition unnamed (f : nfield) : Prop := nf_ident f = None.

Lemma unnamed_names fs : forall i n, Forall unnamed fs -> In n (names i fs) ->
  exists j, (i <= j)%nat /\ n = ("t" ++ NilZero.string_of_uint (Nat.to_uint j))%string.
Proof.
  induction fs as [|f fs IH]; intros i n Hu; cbn [names In]; [contradiction|]. inversion_clear Hu as [|? ? Hf Hu'].
  intros [<-|Hn].
  - exists i. split; [lia|]. unfold var_name. rewrite Hf. reflexivity.
  - destruct (IH (S i) n Hu' Hn) as (j & Hj & ->). exists j. split; [lia|reflexivity].
Qed.

(** C134: in tuple structs the names the macro makes up are distinct, and hide nothing. *)
Theorem C134_tuple fs : Forall unnamed fs ->
  NoDup (names 0 fs) /\ ~ In "_writer_"%string (names 0 fs) /\ ~ In "kind_"%string (names 0 fs) /\ reader_kept 0 fs.
Proof.
  intros Hu. assert (Hd : forall i, NoDup (names i fs)).
  { induction Hu as [|f fs Hf Hu IH]; intros i; [constructor|]. cbn [names]. constructor; [|apply IH].
    intros Hi. destruct (unnamed_names fs (S i) _ Hu Hi) as (j & Hj & E). unfold var_name in E. rewrite Hf in E.
    cbn in E. injection E as E. apply to_string_inj in E. lia. }
  split; [apply Hd|]. split; [|split].
  - intros Hi. destruct (unnamed_names fs 0 _ Hu Hi) as (j & _ & E). discriminate E.
  - intros Hi. destruct (unnamed_names fs 0 _ Hu Hi) as (j & _ & E). discriminate E.
  - generalize 0%nat. clear Hd. induction Hu as [|f fs Hf Hu IH]; intros i; [exact Logic.I|]. cbn [reader_kept]. split; [|apply IH].
    left. unfold var_name. rewrite Hf. discriminate.
Qed.
Print Assumptions C134_tuple.

(* ------------------------------------------------------------------ *)
(** * There and back *)

Definition hygienic (consts : list (string * Z)) (fs : list nfield) : Prop :=
  Forall no_expr fs /\ NoDup (names 0 fs)
  /\ ~ In "_writer_"%string (names 0 fs ++ map fst consts) /\ ~ In "_reader_"%string (map fst consts)
  /\ looks_back (map fst consts) (names 0 fs) 0 [] fs /\ reader_kept 0 fs.

Lemma looks_back_closed outer all fs : forall i before seen,
  looks_back outer all i before fs -> incl before seen -> incl outer seen -> closed i seen fs.
Proof.
  induction fs as [|f fs IH]; intros i before seen H Hb Ho; [exact Logic.I|]. destruct H as [H H']. split.
  - intros Hs x Ex. eapply Forall_impl; [|exact (H Hs x Ex)]. cbn. intros n [Hn|[Hn _]]; auto.
  - apply (IH _ _ _ H'); [|apply incl_tl, Ho]. destruct (f_skip (nf_attrs f)); [apply incl_tl, Hb|].
    apply incl_cons; [left; reflexivity|apply incl_tl, Hb].
Qed.

Lemma struct_fields_length h consts fs : length (struct_fields h consts fs) = length fs.
Proof.
  unfold struct_fields. assert (G : forall i k pre, length (meaning h i k pre fs) = length fs); [|apply G].
  induction fs as [|f fs IH]; intros i k pre; [reflexivity|]. cbn [meaning length].
  destruct (f_skip (nf_attrs f)); rewrite IH; reflexivity.
Qed.

(** C134: what the generated writer puts on a stream, the generated reader makes the same
    value of. *)
Theorem C134_round_trip h (VH : valid_host h) e mem (Hmem : forall n, n <= nlen (mem n)) d consts fs vs b buffering :
  let T := TStruct d (struct_fields h consts fs) in
  hygienic consts fs ->
  covered h e false true T -> value_of h e T (VSeq vs) ->
  write_to_vec h mem e T (VSeq vs) = Ok b -> nlen b <= h_alloc_max h ->
  exists o s,
    write_struct h consts (WritingCollector h e) (write h (WritingCollector h e)) fs vs {| os_out := []; os_sched := [] |} = (Ok tt, o)
    /\ os_out o = b
    /\ read_struct h consts (StreamReader mem e) (read h (StreamReader mem e)) fs
         (sr_start mem buffering {| is_rest := os_out o; is_sched := [] |}) = (Ok (norm T (VSeq vs)), s).
Proof.
  intros T (Hn & Hnd & Hw & Hrc & Hl & Hr) [Cw Cs Cr] Hv Hb Hlen.
  assert (Hvl : length fs = length vs).
  { rewrite <- (struct_fields_length h consts fs). destruct Hv as [Hv _]. unfold T in Hv. cbn [valid] in Hv. revert Hv.
    generalize (struct_fields h consts fs) as gs. clear. intros gs. revert vs.
    induction gs as [|g gs IH]; intros [|v vs]; cbn; try contradiction; auto. intros [_ H]. f_equal. auto. }
  destruct (C06_writers_agree h VH e mem T (VSeq vs) b {| os_out := []; os_sched := [] |} b Hmem Cw (proj1 Hv)) as [_ (o & Ho & Eo)];
    [intros ev []|exact Hb|lia|].
  exists o.
  assert (He : encode (h_iter h) e (ipv6_order h e) T (VSeq vs) = Ok b) by (eapply write_to_vec_err; try eassumption; apply Hv).
  pose proof (host_round_trip h VH e T _ b [] Cr Hv He (fun _ => eq_refl)) as Hde. rewrite app_nil_r in Hde.
  pose proof (vh_alloc h VH) as Ha. cbn [os_out app] in Eo.
  pose proof (stream_agrees h VH e mem Hmem buffering true {| is_rest := b; is_sched := [] |} (fun H => H) ltac:(cbn; lia) T Cs) as H.
  rewrite Eo. unfold deserialize in H.
  destruct (read h (StreamReader mem e) T (sr_start mem buffering {| is_rest := b; is_sched := [] |})) as [r s] eqn:Er.
  exists s. split; [|split; [reflexivity|]].
  - rewrite (C134_write h _ d) by assumption. exact Ho.
  - assert (Hcl : closed 0 (map fst consts) fs)
      by (eapply looks_back_closed; [exact Hl|intros n []|apply incl_refl]).
    rewrite (C134_read h _ d) by assumption. fold T. rewrite Er. f_equal. cbn [is_rest] in H.
    destruct H as [(k & -> & Hk & _)|[H _]]; [destruct Hk|]. rewrite Hde in H. exact H.
Qed.
Print Assumptions C134_round_trip.

(* ------------------------------------------------------------------ *)
(** * The hypotheses are met *)

Definition field_named (n : string) (a : fattrs) (l : option lexp) (t : ty) : nfield :=
  {| nf_ident := Some n; nf_attrs := a; nf_length := l; nf_ty := t |}.
Definition left_out (v : val) : fattrs :=
  {| f_eof := false; f_skip := true; f_varint := false; f_opaque := false; f_len := LDefault; f_prefix := []; f_default := v |}.
Definition times : Z -> Z -> option Z := fun a b => Some (a * b)%Z.

(* const WIDTH: usize = 2;
   struct Table {
     keys: Vec<u8>,
     #[speedy(skip)] hits: u32,
     rows: u8,
     #[speedy(length = keys.len())] kinds: Vec<u8>,
     #[speedy(length = rows * WIDTH)] cells: Vec<u16> } *)
Definition table : list nfield :=
  [ field_named "keys" plain None (TSeq KVec (TP U8));
    field_named "hits" (left_out (VInt 0)) None (TP U32);
    field_named "rows" plain None (TP U8);
    field_named "kinds" plain (Some (XName "keys")) (TSeq KVec (TP U8));
    field_named "cells" plain (Some (XOp times (XName "rows") (XName "WIDTH"))) (TSeq KVec (TP U16)) ].
Definition width : list (string * Z) := [("WIDTH"%string, 2%Z)].
Definition table_value : list val :=
  [VSeq [VInt 7; VInt 8; VInt 9]; VInt 41; VInt 1; VSeq [VInt 1; VInt 1; VInt 2]; VSeq [VInt 258; VInt 3]].
Definition table_ty : ty := TStruct (sd 103 RRust) (struct_fields host64 width table).

Example table_hygienic : hygienic width table.
Proof.
  unfold hygienic. cbn [names table var_name nf_ident field_named map fst width app].
  split; [|split; [|split; [|split; [|split]]]].
  - repeat constructor; intros H; try discriminate H; exact Logic.I.
  - repeat constructor; cbn [In]; intuition discriminate.
  - cbn [In]. intuition discriminate.
  - cbn [In]. intuition discriminate.
  - cbn [looks_back nf_length nf_attrs f_skip plain left_out field_named var_name nf_ident].
    repeat split; intros _ x; try discriminate; intros [= <-]; cbn [mentions app];
      repeat (apply Forall_cons; [cbn; intuition discriminate|]); apply Forall_nil.
  - cbn [reader_kept var_name nf_ident field_named]. repeat split; left; discriminate.
Qed.

Example table_covered : covered host64 BE false true table_ty.
Proof. apply coveredb_sound. vm_compute. reflexivity. Qed.

Example table_written : write_to_vec host64 dirty BE table_ty (VSeq table_value)
  = Ok (map n2b [0; 0; 0; 3; 7; 8; 9; 1; 1; 1; 2; 1; 2; 0; 3]).
Proof. vm_compute. reflexivity. Qed.

Example table_round_trip : exists o s,
  write_struct host64 width (WritingCollector host64 BE) (write host64 (WritingCollector host64 BE)) table table_value
    {| os_out := []; os_sched := [] |} = (Ok tt, o)
  /\ os_out o = map n2b [0; 0; 0; 3; 7; 8; 9; 1; 1; 1; 2; 1; 2; 0; 3]
  /\ read_struct host64 width (StreamReader dirty BE) (read host64 (StreamReader dirty BE)) table
       (sr_start dirty true {| is_rest := os_out o; is_sched := [] |})
     = (Ok (VSeq [VSeq [VInt 7; VInt 8; VInt 9]; VInt 0; VInt 1; VSeq [VInt 1; VInt 1; VInt 2]; VSeq [VInt 258; VInt 3]]), s).
Proof.
  apply (C134_round_trip host64 host64_valid BE dirty dirty_enough (sd 103 RRust) width table table_value _ true
           table_hygienic table_covered); [|exact table_written|vm_compute; discriminate].
  apply value_ofb_sound. vm_compute. reflexivity.
Qed.

(* A tuple struct: struct Pair( u8, #[speedy(length = t0)] Vec<u8> ) *)
Definition pair_fields : list nfield :=
  [ {| nf_ident := None; nf_attrs := plain; nf_length := None; nf_ty := TP U8 |};
    {| nf_ident := None; nf_attrs := plain; nf_length := Some (XName "t0"); nf_ty := TSeq KVec (TP U8) |} ].
Example pair_names : names 0 pair_fields = ["t0"; "t1"]%string.
Proof. reflexivity. Qed.
Example pair_reads :
  fst (read_struct host64 [] (BufferReader LE) (read host64 (BufferReader LE)) pair_fields (br_start 0 (map n2b [2; 5; 6; 7])))
  = Ok (VSeq [VInt 2; VSeq [VInt 5; VInt 6]]).
Proof. vm_compute. reflexivity. Qed.

(* ------------------------------------------------------------------ *)
(** * Where names make a difference *)

(* struct Frame { #[speedy(skip)] n: u8, #[speedy(length = n)] data: Vec<u8> } *)
Definition frame : list nfield :=
  [ field_named "n" (left_out (VInt 0)) None (TP U8); field_named "data" plain (Some (XName "n")) (TSeq KVec (TP U8)) ].

(** C134: a length expression may mention a skipped field when only `Readable` is derived:
    the reader takes its default.  The writer does not have it and does not compile. *)
Theorem C134_skipped_length_refuted :
  fst (read_struct host64 [] (BufferReader LE) (read host64 (BufferReader LE)) frame (br_start 0 (map n2b [1; 2; 3])))
  = Ok (VSeq [VInt 0; VSeq []])
  /\ forall vs o, length vs = 2%nat ->
     fst (write_struct host64 [] (WritingCollector host64 LE) (write host64 (WritingCollector host64 LE)) frame vs o) = Fault IllTyped.
Proof.
  split; [vm_compute; reflexivity|]. intros [|v [|u [|]]] o H; try discriminate H. reflexivity.
Qed.
Print Assumptions C134_skipped_length_refuted.

(** C134: fields called like the macro's own variables hide them: what follows does not
    compile. *)
Theorem C134_hidden_refuted :
  let fs := [field_named "_reader_" plain None (TP U8); field_named "b" plain None (TP U8)] in
  let gs := [field_named "_writer_" plain None (TP U8)] in
  fst (read_struct host64 [] (BufferReader LE) (read host64 (BufferReader LE)) fs (br_start 0 (map n2b [1; 2]))) = Fault IllTyped
  /\ fst (read host64 (BufferReader LE) (TStruct (sd 105 RRust) (struct_fields host64 [] fs)) (br_start 0 (map n2b [1; 2])))
     = Ok (VSeq [VInt 1; VInt 2])
  /\ fst (write_struct host64 [] (WritingCollector host64 LE) (write host64 (WritingCollector host64 LE)) gs [VInt 1]
            {| os_out := []; os_sched := [] |}) = Fault IllTyped
  /\ fst (write_to_stream host64 LE (TStruct (sd 105 RRust) (struct_fields host64 [] gs)) (VSeq [VInt 1])
            {| os_out := []; os_sched := [] |}) = Ok tt.
Proof. vm_compute. auto. Qed.
Print Assumptions C134_hidden_refuted.

(** An empty array is read without the reader, so that a field may hide it before one;
    with another field between them it may not. *)
Theorem C134_hidden_harmless x :
  let hides := field_named "_reader_" plain None (TP U8) in
  let empty := field_named "b" plain None (TArr (TP U16) 0) in
  let read_all fs bs := fst (read_struct host64 [] (BufferReader LE) (read host64 (BufferReader LE)) fs (br_start 0 bs)) in
  read_all [hides; empty] [x] = Ok (VSeq [VInt (Z.of_N (b2n x)); VSeq []])
  /\ read_all [hides; empty; empty] [x] = Ok (VSeq [VInt (Z.of_N (b2n x)); VSeq []; VSeq []])
  /\ read_all [hides; field_named "b" plain None (TArr (TP U8) 1)] [x; x] = Fault IllTyped.
Proof. destruct x; vm_compute; auto. Qed.
Print Assumptions C134_hidden_harmless.
