(* Property C27: the tags of derived enums, and what the derive macro accepts. *)
From Verif Require Import Derive Samples.

(** The number written at a variant: in its `tag` attribute, or else behind `=`. *)
Definition given (v : rvariant) : option N :=
  match rv_tags v, rv_disc v with
  | n :: _, _ => Some n
  | [], DiscLit n => Some n
  | [], _ => None
  end.

(** The tags Rust's own rule for discriminants gives: a number that is written
    down counts, otherwise one more than the variant before, 0 for the first. *)
Inductive numbered : option N -> list rvariant -> list N -> Prop :=
| numbered_nil p : numbered p [] []
| numbered_given p v r n ns : given v = Some n -> numbered (Some n) r ns -> numbered p (v :: r) (n :: ns)
| numbered_first v r ns : given v = None -> numbered (Some 0) r ns -> numbered None (v :: r) (0 :: ns)
| numbered_next p v r ns : given v = None -> numbered (Some (p + 1)) r ns ->
    numbered (Some p) (v :: r) (p + 1 :: ns).

Lemma tag_max_basic b : tag_max b = basic_max b.
Proof. destruct b; reflexivity. Qed.

Lemma tag_expr_id b n : n <= tag_max b -> tag_expr b n = n.
Proof. intros H. destruct b; cbn [tag_expr tag_max] in *; apply N.mod_small; num_pow; lia. Qed.

Lemma assign_given max p v n : assign_tag max p v = Some n ->
  n <= max /\ (given v = Some n \/ given v = None /\ n = match p with Some q => q + 1 | None => 0 end).
Proof.
  unfold assign_tag, given, variant_tag, parse_u64. destruct (rv_tags v) as [|m [|? ?]]; [| |discriminate].
  - destruct (rv_disc v) as [|m|]; [| |discriminate].
    + destruct p as [q|].
      * destruct (N.leb_spec max q); [discriminate|]. intros E. injection E as <-. split; [lia|auto].
      * intros E. injection E as <-. split; [lia|auto].
    + destruct (N.ltb_spec m (2 ^ 64)); [|discriminate]. destruct (N.ltb_spec max m); [discriminate|].
      intros E. injection E as <-. auto.
  - destruct (N.ltb_spec m (2 ^ 64)); [|discriminate]. destruct (N.ltb_spec max m); [discriminate|].
    intros E. injection E as <-. auto.
Qed.

Lemma existsb_in n l : existsb (N.eqb n) l = true <-> In n l.
Proof.
  rewrite existsb_exists. split.
  - intros (x & Hx & E). apply N.eqb_eq in E. subst. assumption.
  - intros H. exists n. split; [assumption|apply N.eqb_refl].
Qed.

Lemma enum_variants_tags b l : forall p seen vs, enum_variants b p seen l = Some vs ->
  numbered p l (map fst vs) /\ NoDup (map fst vs) /\ (forall n, In n seen -> ~ In n (map fst vs))
  /\ Forall (fun v => fst v <= basic_max b) vs
  /\ Forall2 (fun v w => get_fields (rv_fields v) = Some (snd w)) l vs.
Proof.
  induction l as [|v l IH]; intros p seen vs E; cbn [enum_variants] in E.
  - injection E as <-. cbn. repeat split; try constructor. auto.
  - destruct (assign_tag (tag_max b) p v) as [tag|] eqn:Ea; [|discriminate].
    destruct (existsb (N.eqb tag) seen) eqn:Es; [discriminate|].
    destruct (get_fields (rv_fields v)) as [fs|] eqn:Ef; [|discriminate].
    destruct (enum_variants b (Some tag) (tag :: seen) l) as [ws|] eqn:Er; [|discriminate].
    injection E as <-. apply assign_given in Ea as [Hm Hg]. rewrite (tag_expr_id _ _ Hm).
    destruct (IH _ _ _ Er) as (H1 & H2 & H3 & H4 & H5).
    cbn [map fst]. split; [|split; [|split; [|split]]].
    + destruct Hg as [Hg|[Hg ->]]; [apply numbered_given; assumption|].
      destruct p; [apply numbered_next|apply numbered_first]; assumption.
    + constructor; [|assumption]. apply H3. left. reflexivity.
    + intros n Hn [<-|C]; [|apply (H3 n); [right; assumption|assumption]].
      apply existsb_in in Hn. congruence.
    + constructor; [cbn; rewrite <- tag_max_basic; assumption|assumption].
    + constructor; assumption.
Qed.

(** C27: the tags of an accepted enum are the written ones, the implicit ones
    follow the variant before; they are unique and fit the tag type. *)
Theorem C27_tags attrs l d vs : enum_new attrs l = Some (d, vs) ->
  numbered None l (map fst vs)
  /\ NoDup (map fst vs)
  /\ Forall (fun v => fst v <= basic_max (e_tag d)) vs.
Proof.
  unfold enum_new. destruct (collect_enum_attrs attrs None false) as [d'|]; [|discriminate].
  destruct (enum_variants (e_tag d') None [] l) as [ws|] eqn:E; [|discriminate].
  intros H. injection H as <- <-. apply enum_variants_tags in E as (H1 & H2 & _ & H4 & _). auto.
Qed.

(** What the attributes of an enum say. *)
Definition tag_types (l : list enum_attr) : list basic :=
  flat_map (fun a => match a with ATagType b => [b] | APeekTag => [] end) l.
Definition peeks (l : list enum_attr) : list unit :=
  flat_map (fun a => match a with ATagType _ => [] | APeekTag => [tt] end) l.

(** Each may be given once, in any order; without `tag_type` it is `u32`, and tags
    are peeked at only where `peek_tag` is given. *)
Theorem C27_attributes attrs d : collect_enum_attrs attrs None false = Some d <->
  match tag_types attrs with [] => e_tag d = BU32 | [b] => e_tag d = b | _ => False end
  /\ match peeks attrs with [] => e_peek d = false | [_] => e_peek d = true | _ => False end.
Proof.
  assert (H : forall l tag peek, collect_enum_attrs l tag peek = Some d <->
    match (match tag with Some b => [b] | None => [] end) ++ tag_types l with
    | [] => e_tag d = BU32 | [b] => e_tag d = b | _ => False end
    /\ match (if peek then [tt] else []) ++ peeks l with
       | [] => e_peek d = false | [_] => e_peek d = true | _ => False end).
  { induction l as [|[b|] r IH]; intros tag peek; cbn [collect_enum_attrs tag_types peeks flat_map app].
    - destruct d as [t p], tag, peek; cbn; split; try (intros [= -> ->]; auto); intros [-> ->]; reflexivity.
    - fold (tag_types r) (peeks r). destruct tag as [b'|]; [|apply IH]. split; [discriminate|]. intros [[] _].
    - fold (tag_types r) (peeks r). destruct peek; [|apply IH]. split; [discriminate|]. intros [_ []]. }
  exact (H attrs None false).
Qed.

(** A variant the macro can number, with fields it accepts. *)
Definition legal_variant (v : rvariant) : Prop :=
  (length (rv_tags v) <= 1)%nat /\ (rv_tags v = [] -> rv_disc v <> DiscExpr)
  /\ exists fs, get_fields (rv_fields v) = Some fs.

Lemma enum_variants_accepts b l ns : forall p seen, numbered p l ns -> Forall legal_variant l ->
  NoDup ns -> (forall n, In n seen -> ~ In n ns) -> Forall (fun n => n <= basic_max b) ns ->
  exists vs, enum_variants b p seen l = Some vs.
Proof.
  revert ns. induction l as [|v l IH]; intros ns p seen Hn Hl Hd Hs Hm; cbn [enum_variants]; [eauto|].
  inversion Hl as [|? ? (Ht & Hx & fs & Hf) Hl']; subst.
  assert (Hmax : basic_max b < 2 ^ 64) by (destruct b; vm_compute; reflexivity).
  assert (Ha : exists n ms, ns = n :: ms /\ assign_tag (tag_max b) p v = Some n /\ numbered (Some n) l ms).
  { rewrite tag_max_basic. unfold assign_tag, variant_tag, parse_u64. unfold given in Hn.
    inversion Hn as [|? ? ? n ms Hg Hr|? ? ms Hg Hr|q ? ? ms Hg Hr]; subst; unfold given in Hg;
      inversion Hm as [|? ? Hm1 _]; subst.
    - exists n, ms. split; [reflexivity|]. split; [|assumption].
      destruct (rv_tags v) as [|m [|? ?]]; [| |cbn in Ht; lia].
      + destruct (rv_disc v) as [|m|]; try discriminate. injection Hg as ->.
        destruct (N.ltb_spec n (2 ^ 64)); [|lia]. destruct (N.ltb_spec (basic_max b) n); [lia|reflexivity].
      + injection Hg as ->.
        destruct (N.ltb_spec n (2 ^ 64)); [|lia]. destruct (N.ltb_spec (basic_max b) n); [lia|reflexivity].
    - exists 0, ms. split; [reflexivity|]. split; [|assumption].
      destruct (rv_tags v) as [|m [|? ?]]; try discriminate. specialize (Hx eq_refl).
      destruct (rv_disc v) as [|m|]; try discriminate; [reflexivity|congruence].
    - exists (q + 1), ms. split; [reflexivity|]. split; [|assumption].
      destruct (rv_tags v) as [|m [|? ?]]; try discriminate. specialize (Hx eq_refl).
      destruct (rv_disc v) as [|m|]; try discriminate; [|congruence].
      destruct (N.leb_spec (basic_max b) q); [lia|reflexivity]. }
  destruct Ha as (n & ms & -> & -> & Hr). inversion Hd as [|? ? Hd1 Hd2]; subst. inversion Hm as [|? ? _ Hm2]; subst.
  destruct (existsb (N.eqb n) seen) eqn:Es.
  - exfalso. apply existsb_in in Es. apply (Hs n Es). left. reflexivity.
  - rewrite Hf. destruct (IH ms (Some n) (n :: seen) Hr Hl' Hd2) as [vs ->]; [|assumption|eauto].
    intros m [<-|H] C; [contradiction|]. apply (Hs m H). right. assumption.
Qed.

(** Nothing else is rejected: if the tags are unique and fit, the enum is
    accepted. *)
Theorem C27_accepts attrs l d ns : collect_enum_attrs attrs None false = Some d ->
  Forall legal_variant l -> numbered None l ns -> NoDup ns ->
  Forall (fun n => n <= basic_max (e_tag d)) ns ->
  exists vs, enum_new attrs l = Some (d, vs) /\ map fst vs = ns.
Proof.
  intros Ha Hl Hn Hd Hm. unfold enum_new. rewrite Ha.
  destruct (enum_variants_accepts (e_tag d) l ns None [] Hn Hl Hd (fun _ H => False_ind _ H) Hm) as [vs E].
  rewrite E. exists vs. split; [reflexivity|].
  apply enum_variants_tags in E as (H1 & _).
  revert H1 Hn. generalize (map fst vs) as ms. generalize (@None N). clear.
  intros p ms H. revert ns. induction H as [p|p v r n ms Hg Hr IH|v r ms Hg Hr IH|p v r ms Hg Hr IH];
    intros ns Hn; inversion Hn; subst; try congruence; f_equal; try congruence; apply IH; try assumption; congruence.
Qed.

(** Reading a tag selects at most one variant: the one whose number it is.  For
    every reader, in every state. *)
Lemma read_variant_selects {St} h (R : reader St) tag vs : forall i s v s',
  read_variant h R (read h R) tag i vs s = (Ok v, s') ->
  exists j us fs, v = VVar (i + j) us /\ nth_error vs j = Some (tag, fs)
    /\ forall m fs', (m < j)%nat -> nth_error vs m <> Some (tag, fs').
Proof.
  intros i s v s'. revert i. induction vs as [|[g fs] vs IH]; intros i E; cbn [read_variant fst snd] in E; [discriminate|].
  destruct (N.eqb_spec g tag) as [->|Hne].
  - unfold mmap, bind in E. destruct (read_fields _ _ _ _ _ _) as [[us| |] s1]; try discriminate.
    injection E as <- _. exists 0%nat, us, fs. rewrite Nat.add_0_r. split; [reflexivity|]. split; [reflexivity|].
    intros m fs' Hm. lia.
  - apply IH in E as (j & us & fs' & -> & Hn & Hm). exists (S j), us, fs'. split; [f_equal; lia|].
    split; [assumption|]. intros [|m] fs'' Hlt; [cbn; congruence|]. apply Hm. lia.
Qed.

Theorem C27_selects {St} h (R : reader St) attrs l d vs s v s' :
  enum_new attrs l = Some (d, vs) ->
  read h R (TEnum d vs) s = (Ok v, s') ->
  exists tag s1 i us fs, read_tag h R d s = (Ok tag, s1) /\ v = VVar i us
    /\ nth_error vs i = Some (tag, fs)
    /\ forall j fs', nth_error vs j = Some (tag, fs') -> j = i.
Proof.
  intros Ha E. apply C27_tags in Ha as (_ & Hd & _). cbn [read] in E. unfold bind in E.
  destruct (read_tag h R d s) as [[tag|er|f] s1] eqn:Et; try discriminate.
  apply read_variant_selects in E as (i & us & fs & -> & Hn & _).
  exists tag, s1, i, us, fs. split; [reflexivity|]. split; [reflexivity|]. split; [assumption|].
  intros j fs' Hj. apply (map_nth_error fst) in Hn, Hj. cbn in Hn, Hj.
  rewrite NoDup_nth_error in Hd. apply Hd; [|congruence]. apply nth_error_Some. congruence.
Qed.

Print Assumptions C27_attributes.
Print Assumptions C27_tags.
Print Assumptions C27_accepts.
Print Assumptions C27_selects.

(* #[speedy(tag_type = u7)]
   enum Op { Nop, #[speedy(tag = 0x40)] Jump(u16), Call(u16), Halt = 0x7f } *)
Definition raw_field (t : ty) : rfield :=
  {| rf_attrs := []; rf_opaque := false; rf_ty := t; rf_default := VUnit |}.
Definition raw_op : list rvariant :=
  [ {| rv_tags := []; rv_disc := DiscNone; rv_fields := [] |};
    {| rv_tags := [64]; rv_disc := DiscNone; rv_fields := [raw_field (TP U16)] |};
    {| rv_tags := []; rv_disc := DiscNone; rv_fields := [raw_field (TP U16)] |};
    {| rv_tags := []; rv_disc := DiscLit 127; rv_fields := [] |} ].

Example C27_accepted : exists vs, enum_new [ATagType BU7] raw_op = Some ({| e_tag := BU7; e_peek := false |}, vs)
  /\ map fst vs = [0; 64; 65; 127].
Proof. eexists. split; [vm_compute; reflexivity|]. vm_compute. reflexivity. Qed.

(** One more variant would need the tag 128. *)
Example C27_overflow :
  enum_new [ATagType BU7] (raw_op ++ [{| rv_tags := []; rv_disc := DiscNone; rv_fields := [] |}]) = None.
Proof. vm_compute. reflexivity. Qed.

(** An implicit tag that hits an earlier explicit one. *)
Example C27_collision :
  enum_new [] [ {| rv_tags := [1]; rv_disc := DiscNone; rv_fields := [] |};
                {| rv_tags := [0]; rv_disc := DiscNone; rv_fields := [] |};
                {| rv_tags := []; rv_disc := DiscNone; rv_fields := [] |} ] = None.
Proof. vm_compute. reflexivity. Qed.

Example C27_selects_holds : exists d vs, enum_new [ATagType BU7] raw_op = Some (d, vs)
  /\ read_from_buffer host64 LE (TEnum d vs) 0 [x41; x05; x00] = Ok (VVar 2 [VInt 5]).
Proof. do 2 eexists. split; [vm_compute; reflexivity|]. vm_compute. reflexivity. Qed.

(* ------------------------------------------------------------------ *)
(** * What acceptance says about fields *)

(** Attributes stand only where they have a meaning: `varint` on a `u64`, lengths
    on containers, and nothing follows a field that is read to the end. *)
Definition well_attributed (a : fattrs) (t : ty) : Prop :=
  (f_varint a = true -> f_opaque a = false /\ t = TP U64)
  /\ match f_len a with
     | LDefault => True
     | LType _ => sized_field a t = true
     | LExpr _ | LEof => f_opaque a = false /\ is_container t = true
     end.

Lemma add_attr_varint f a s s' : add_attr f a s = Some s' ->
  (as_varint s = true -> negb (rf_opaque f) && is_u64 (rf_ty f) = true) ->
  as_varint s' = true -> negb (rf_opaque f) && is_u64 (rf_ty f) = true.
Proof.
  intros E H Hv. destruct a; cbn [add_attr] in E;
    repeat match type of E with
           | match ?x with _ => _ end = _ => destruct x eqn:?
           end; try discriminate; injection E as <-; cbn in Hv; auto.
Qed.

Lemma add_attrs_varint f l : forall s s', add_attrs f l s = Some s' ->
  (as_varint s = true -> negb (rf_opaque f) && is_u64 (rf_ty f) = true) ->
  as_varint s' = true -> negb (rf_opaque f) && is_u64 (rf_ty f) = true.
Proof.
  induction l as [|a l IH]; intros s s' E; cbn [add_attrs] in E; [injection E as <-; auto|].
  destruct (add_attr f a s) as [s1|] eqn:Ea; [|discriminate]. intros H. apply (IH s1 s' E).
  apply (add_attr_varint f a s s1 Ea H).
Qed.

Lemma add_attr_len f a s s' : add_attr f a s = Some s' ->
  (forall lm, as_length s = Some lm -> match lm with LExpr _ | LEof => True | _ => False end) ->
  (forall lm, as_length s' = Some lm -> match lm with LExpr _ | LEof => True | _ => False end).
Proof.
  intros E H lm Hv. destruct a; cbn [add_attr] in E;
    repeat match type of E with
           | match ?x with _ => _ end = _ => destruct x eqn:?
           end; try discriminate; injection E as <-; cbn in Hv;
    first [exact (H lm Hv) | injection Hv as <-; exact I].
Qed.

Lemma add_attrs_len f l : forall s s', add_attrs f l s = Some s' ->
  (forall lm, as_length s = Some lm -> match lm with LExpr _ | LEof => True | _ => False end) ->
  (forall lm, as_length s' = Some lm -> match lm with LExpr _ | LEof => True | _ => False end).
Proof.
  induction l as [|a l IH]; intros s s' E; cbn [add_attrs] in E; [injection E as <-; auto|].
  destruct (add_attr f a s) as [s1|] eqn:Ea; [|discriminate]. intros H. apply (IH s1 s' E).
  apply (add_attr_len f a s s1 Ea H).
Qed.

Lemma get_field_attributed f a t : get_field f = Some (a, t) -> well_attributed a t /\ t = rf_ty f.
Proof.
  unfold get_field. destruct (add_attrs f (rf_attrs f) no_attrs) as [s|] eqn:Es; [|discriminate].
  pose proof (add_attrs_varint f _ _ _ Es ltac:(discriminate)) as Hv.
  pose proof (add_attrs_len f _ _ _ Es ltac:(discriminate)) as Hl.
  assert (Hu : as_varint s = true -> rf_opaque f = false /\ rf_ty f = TP U64).
  { intros H. apply Hv, andb_prop in H as [H1 H2]. apply negb_true_iff in H1. split; [assumption|].
    unfold is_u64 in H2. destruct (rf_ty f) as [[[]| | | | | | | | | | | | | | | | |]| | | | | | | | | | | | | |];
      try discriminate; reflexivity. }
  destruct (as_length s) as [lm|] eqn:E1, (as_type s) as [b|] eqn:E2; try discriminate.
  - destruct (length_allowed f) eqn:Ea; [|discriminate]. intros E. injection E as <- <-. split; [|reflexivity].
    split; [exact Hu|]. cbn. unfold length_allowed in Ea. apply andb_prop in Ea as [H1 H2]. apply negb_true_iff in H1.
    specialize (Hl lm eq_refl). destruct lm; try contradiction; auto.
  - destruct (length_type_allowed f) eqn:Ea; [|discriminate]. intros E. injection E as <- <-. split; [|reflexivity].
    split; [exact Hu|]. cbn. unfold sized_field. cbn.
    unfold length_type_allowed in Ea. destruct (rf_ty f); exact Ea.
  - intros E. injection E as <- <-. split; [|reflexivity]. split; [exact Hu|]. exact I.
Qed.

Lemma get_fields_from_last b l : forall fs, get_fields_from b l = Some fs ->
  all_fields well_attributed fs
  /\ (b = true -> fs = [])
  /\ (forall i f, nth_error fs i = Some f -> is_until_eof (fst f) = true -> (S i = length fs)%nat).
Proof.
  revert b. induction l as [|f l IH]; intros b fs E; cbn [get_fields_from] in E.
  - injection E as <-. split; [exact I|]. split; [reflexivity|]. intros [|i]; discriminate.
  - destruct b; [discriminate|]. destruct (get_field f) as [[a t]|] eqn:Ef; [|discriminate].
    destruct (get_fields_from (is_until_eof a) l) as [r|] eqn:Er; [|discriminate]. injection E as <-.
    destruct (IH _ _ Er) as (H1 & H2 & H3). cbn. split; [|split; [discriminate|]].
    + split; [apply (get_field_attributed f a t Ef)|assumption].
    + intros [|i] g Hg He.
      * cbn in Hg. injection Hg as <-. cbn in He. rewrite (H2 He). reflexivity.
      * cbn in Hg. rewrite (H3 i g Hg He). reflexivity.
Qed.

(** What `get_fields` accepts: the premises about attributes the other theorems
    make hold for every accepted declaration. *)
Theorem accepted_fields l fs : get_fields l = Some fs ->
  all_fields well_attributed fs
  /\ forall i f, nth_error fs i = Some f -> is_until_eof (fst f) = true -> (S i = length fs)%nat.
Proof. intros E. apply get_fields_from_last in E as (H1 & _ & H3). auto. Qed.

Theorem accepted_enum attrs l d vs : enum_new attrs l = Some (d, vs) ->
  Forall (fun v => all_fields well_attributed (snd v)
    /\ forall i f, nth_error (snd v) i = Some f -> is_until_eof (fst f) = true -> (S i = length (snd v))%nat) vs.
Proof.
  unfold enum_new. destruct (collect_enum_attrs attrs None false) as [d'|]; [|discriminate].
  destruct (enum_variants (e_tag d') None [] l) as [ws|] eqn:E; [|discriminate].
  intros H. injection H as <- <-. apply enum_variants_tags in E as (_ & _ & _ & _ & H5).
  induction H5 as [|v w l ws Hw _ IH]; constructor; [|assumption]. apply (accepted_fields _ _ Hw).
Qed.

Print Assumptions accepted_fields.
Print Assumptions accepted_enum.

(** The fields of [sample] as they are declared. *)
Definition sample_raw : list rfield :=
  [ raw_field (TP U8);
    {| rf_attrs := [AVarint]; rf_opaque := false; rf_ty := TP U64; rf_default := VInt 0 |};
    {| rf_attrs := [ASkip]; rf_opaque := false; rf_ty := TP U32; rf_default := VInt 0 |};
    {| rf_attrs := [ALengthType BU8]; rf_opaque := false; rf_ty := TSeq KVec (TP U16); rf_default := VUnit |};
    {| rf_attrs := [ALengthExpr count_plus_one]; rf_opaque := false; rf_ty := TSeq KVec (TP U8); rf_default := VUnit |};
    raw_field (TMap CHash (TP U8) (TStr KString));
    raw_field (TSeq KVec point);
    {| rf_attrs := [AConstantPrefix [x53; x48]]; rf_opaque := false; rf_ty := TOption shape; rf_default := VUnit |};
    raw_field (TBox (TTuple [TScalar SChar; TP I64]));
    raw_field (TResult (TArr (TP U16) 2) (TScalar SBool)) ].
Example sample_accepted : derive_struct 2 RRust false [] sample_raw = Some sample.
Proof. reflexivity. Qed.

(** Rejected: two lengths, a length on a number, a field behind `length = ..`,
    `varint` on a `u32`. *)
Definition raw_vec (l : list field_attr) : rfield :=
  {| rf_attrs := l; rf_opaque := false; rf_ty := TSeq KVec (TP U16); rf_default := VSeq [] |}.
Example rejected_both : get_fields [raw_vec [ALengthType BU8; ALengthExpr count_plus_one]] = None.
Proof. reflexivity. Qed.
Example rejected_number :
  get_fields [{| rf_attrs := [ALengthType BU8]; rf_opaque := false; rf_ty := TP U16; rf_default := VInt 0 |}] = None.
Proof. reflexivity. Qed.
Example rejected_not_last : get_fields [raw_vec [ALengthEof]; raw_field (TP U8)] = None.
Proof. reflexivity. Qed.
Example rejected_varint :
  get_fields [{| rf_attrs := [AVarint]; rf_opaque := false; rf_ty := TP U32; rf_default := VInt 0 |}] = None.
Proof. reflexivity. Qed.
