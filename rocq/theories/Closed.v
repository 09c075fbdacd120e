(* Reading by two readers that never lend and never look ahead at the length of
   their input (those of streams), related by any relation between computations
   that is closed under the ways computations are put together. *)
From Verif Require Export Lock.

Section Closed.
  Context {S1 S2 : Type} (h : host) (R1 : reader S1) (R2 : reader S2) (catching : Prop).
  (** The relation. *)
  Context (lk : forall A, M S1 A -> M S2 A -> Prop).
  Notation both := (lk _).

  Record closed : Prop := {
    cl_lift : forall A (r : res A), both (lift r) (lift r);
    cl_bind : forall A B (m1 : M S1 A) (m2 : M S2 A) (k1 : A -> M S1 B) k2,
      both m1 m2 -> (forall a, both (k1 a) (k2 a)) -> both (bind m1 k1) (bind m2 k2);
    cl_catch : forall A (dflt : A) (m1 : M S1 A) (m2 : M S2 A),
      catching -> both m1 m2 -> both (catch_eof dflt m1) (catch_eof dflt m2);
    cl_until : forall (m1 : M S1 val) (m2 : M S2 val),
      catching -> both m1 m2 -> both (read_until_eof R1 m1) (read_until_eof R2 m2);
    cl_endian : rd_endian R1 = rd_endian R2;
    cl_read : forall n, both (rd_read R1 n) (rd_read R2 n);
    cl_read_ptr : forall n, both (rd_read_ptr R1 n) (rd_read_ptr R2 n);
    cl_peek : forall n, n <= 16 -> both (rd_peek R1 n) (rd_peek R2 n);
    cl_peek_ptr : forall n, n <= 16 -> both (rd_peek_ptr R1 n) (rd_peek_ptr R2 n);
    cl_can1 : forall n s, rd_can R1 n s = None;
    cl_can2 : forall n s, rd_can R2 n s = None;
    cl_lend1 : rd_borrow R1 = None /\ rd_borrow_r R1 = None /\ rd_borrow_eof R1 = None;
    cl_lend2 : rd_borrow R2 = None /\ rd_borrow_r R2 = None /\ rd_borrow_eof R2 = None;
    cl_alloc : forall n size min, both (rd_alloc R1 n size min) (rd_alloc R2 n size min);
    cl_ext : forall A (m1 m1' : M S1 A) (m2 m2' : M S2 A),
      (forall s, m1 s = m1' s) -> (forall s, m2 s = m2' s) -> both m1 m2 -> both m1' m2'
  }.

  Context (LK : closed).

  Lemma both_lift {A} (r : res A) : both (lift r) (lift r).
  Proof. apply LK. Qed.
  Lemma both_ret {A} (a : A) : both (ret a) (ret a).
  Proof. apply (both_lift (Ok a)). Qed.
  Lemma both_fail {A} er : lk A (fail er) (fail er).
  Proof. apply (both_lift (Err er)). Qed.
  Lemma both_crash {A} f : lk A (crash f) (crash f).
  Proof. apply (both_lift (Fault f)). Qed.
  Lemma both_bind {A B} (m1 : M S1 A) (m2 : M S2 A) (k1 : A -> M S1 B) k2 :
    both m1 m2 -> (forall a, both (k1 a) (k2 a)) -> both (bind m1 k1) (bind m2 k2).
  Proof. apply LK. Qed.
  Lemma both_catch {A} (dflt : A) (m1 : M S1 A) (m2 : M S2 A) :
    catching -> both m1 m2 -> both (catch_eof dflt m1) (catch_eof dflt m2).
  Proof. apply LK. Qed.
  Lemma both_map {A B} (f : A -> B) (m1 : M S1 A) (m2 : M S2 A) :
    both m1 m2 -> both (mmap f m1) (mmap f m2).
  Proof. intros H. apply both_bind; [exact H|]. intros. apply both_ret. Qed.
  Lemma both_repeat {A} (m1 : M S1 A) (m2 : M S2 A) n :
    both m1 m2 -> both (repeatM m1 n) (repeatM m2 n).
  Proof.
    intros H. induction n; cbn [repeatM]; [apply both_ret|].
    apply both_bind; [exact H|]. intros. apply both_bind; [exact IHn|]. intros. apply both_ret.
  Qed.

  Lemma both_require n : both (require R1 n) (require R2 n).
  Proof.
    apply (cl_ext LK) with (3 := both_ret tt); intros s; unfold require;
      [rewrite (cl_can1 LK)|rewrite (cl_can2 LK)]; reflexivity.
  Qed.

  Lemma both_u8 : both (read_u8 R1) (read_u8 R2).
  Proof.
    apply both_bind; [apply both_require|]. intros _. apply both_bind; [apply LK|]. intros. apply both_ret.
  Qed.

  Lemma both_peek_u8 : both (peek_u8 R1) (peek_u8 R2).
  Proof.
    apply both_bind; [apply both_require|]. intros _. apply both_bind; [apply LK; discriminate|].
    intros. apply both_ret.
  Qed.

  Lemma both_uint w : both (read_uint h R1 w) (read_uint h R2 w).
  Proof.
    apply both_bind; [apply both_require|]. intros _. apply both_bind; [apply LK|]. intros.
    rewrite (cl_endian LK). apply both_ret.
  Qed.

  Lemma both_peek_uint w : (w <= 16)%nat -> both (peek_uint h R1 w) (peek_uint h R2 w).
  Proof.
    intros Hw. apply both_bind; [apply both_require|]. intros _. apply both_bind; [apply LK; lia|]. intros.
    rewrite (cl_endian LK). apply both_ret.
  Qed.

  Lemma both_prim p : both (read_prim h R1 p) (read_prim h R2 p).
  Proof.
    apply both_bind; [|intros; apply both_ret]. destruct p; try apply both_u8; apply both_uint.
  Qed.

  Lemma both_varint : both (read_varint h R1) (read_varint h R2).
  Proof.
    apply both_bind; [apply both_u8|]. intros. apply both_bind; [apply LK|]. intros. apply both_ret.
  Qed.

  Lemma both_peek_varint : both (peek_varint h R1) (peek_varint h R2).
  Proof.
    apply both_bind; [apply both_peek_u8|]. intros b. apply both_bind; [apply LK|].
    - unfold vi_length, leading_zeros. lia.
    - intros. apply both_ret.
  Qed.

  Lemma both_length b : both (read_length h R1 b) (read_length h R2 b).
  Proof.
    destruct b; cbn [read_length]; first [apply both_u8 | apply both_uint | idtac].
    - apply both_bind; [apply both_u8|]. intros n. destruct (_ <? _); [apply both_fail|apply both_ret].
    - apply both_bind; [apply both_uint|]. intros n. destruct (_ <? _); [apply both_fail|apply both_ret].
    - apply both_bind; [apply both_varint|]. intros n. destruct (_ <? _); [apply both_fail|apply both_ret].
  Qed.

  Lemma both_alloc n size min : both (alloc h R1 n size min) (alloc h R2 n size min).
  Proof. unfold alloc. destruct (_ <? _); [apply both_crash|apply LK]. Qed.

  Lemma both_vec t rd1 rd2 n : both rd1 rd2 -> both (read_vec h R1 t rd1 n) (read_vec h R2 t rd2 n).
  Proof.
    intros Hrd. unfold read_vec. rewrite (cl_endian LK).
    apply both_bind; [destruct (_ <? _); [apply both_fail|apply both_require]|]. intros _.
    apply both_bind; [apply both_alloc|]. intros _. destruct (is_prim h t).
    - apply both_bind; [apply LK|]. intros. apply both_lift.
    - destruct (_ =? _); [apply both_ret|apply both_repeat, Hrd].
  Qed.

  Lemma both_until_eof rd1 rd2 : catching -> both rd1 rd2 -> both (read_until_eof R1 rd1) (read_until_eof R2 rd2).
  Proof. apply LK. Qed.

  Lemma both_raw k key t n bs : both (raw_collect h k key t n bs) (raw_collect h k key t n bs).
  Proof.
    unfold raw_collect. destruct (_ =? _); [destruct k; [apply both_ret|apply both_crash..]|apply both_ret].
  Qed.

  Lemma both_slow {k key n} rd1 rd2 : both rd1 rd2 ->
    both (xs <- repeatM rd1 n ;; ret (VSeq (collect k key xs)))
         (xs <- repeatM rd2 n ;; ret (VSeq (collect k key xs))).
  Proof. intros H. apply both_bind; [apply both_repeat, H|]. intros. apply both_ret. Qed.

  Lemma both_borrow_r {A} n (k : bytes -> forall S, M S A) (slow1 : M S1 A) (slow2 : M S2 A) :
    (forall bs, both (k bs S1) (k bs S2)) -> both slow1 slow2 ->
    both (match rd_borrow_r R1 with Some b => bs <- b n ;; k bs S1 | None => slow1 end)
         (match rd_borrow_r R2 with Some b => bs <- b n ;; k bs S2 | None => slow2 end).
  Proof.
    intros Hk Hs. destruct (cl_lend1 LK) as (_ & -> & _). destruct (cl_lend2 LK) as (_ & -> & _). exact Hs.
  Qed.

  Lemma both_collection k key t rd1 rd2 n : both rd1 rd2 ->
    both (read_collection h R1 k key t rd1 n) (read_collection h R2 k key t rd2 n).
  Proof.
    intros Hrd. unfold read_collection, no_conv. rewrite (cl_endian LK).
    destruct (_ && _)%bool; [|apply both_slow, Hrd]. destruct (_ <? _); [apply both_fail|].
    apply (both_borrow_r _ (fun bs S => raw_collect h k key t n bs)); [intros; apply both_raw|apply both_slow, Hrd].
  Qed.

  Lemma both_pair rk1 rk2 rv1 rv2 : both rk1 rk2 -> both rv1 rv2 -> both (read_pair rk1 rv1) (read_pair rk2 rv2).
  Proof.
    intros Hk Hv. apply both_bind; [exact Hk|]. intros. apply both_bind; [exact Hv|]. intros. apply both_ret.
  Qed.

  Lemma both_kv k tk tv rk1 rk2 rv1 rv2 n : both rk1 rk2 -> both rv1 rv2 ->
    both (read_kv h R1 k tk tv rk1 rv1 n) (read_kv h R2 k tk tv rk2 rv2 n).
  Proof.
    intros Hk Hv. unfold read_kv. rewrite (cl_endian LK).
    destruct (_ && _)%bool; [|apply both_slow, both_pair; assumption]. destruct (_ <? _); [apply both_fail|].
    apply (both_borrow_r _ (fun bs S => raw_collect h k pair_key (pair_ty tk tv) n bs));
      [intros; apply both_raw|apply both_slow, both_pair; assumption].
  Qed.

  Lemma both_map_impl k tk tv rk1 rk2 rv1 rv2 n : both rk1 rk2 -> both rv1 rv2 ->
    both (read_map h R1 k tk tv rk1 rv1 n) (read_map h R2 k tk tv rk2 rv2 n).
  Proof.
    intros Hk Hv. destruct k; cbn [read_map];
      first [apply both_kv; assumption | apply both_slow, both_pair; assumption].
  Qed.

  Lemma both_ipv4 : both (read_ipv4 h R1) (read_ipv4 h R2).
  Proof. apply both_bind; [apply both_uint|]. intros. apply both_ret. Qed.

  Lemma both_ipv6 : both (read_ipv6 h R1) (read_ipv6 h R2).
  Proof.
    apply both_bind; [apply LK|]. intros. rewrite (cl_endian LK). apply both_ret.
  Qed.

  Lemma both_duration : both (read_duration h R1) (read_duration h R2).
  Proof.
    apply both_bind; [apply both_uint|]. intros. apply both_bind; [apply both_uint|]. intros. apply both_lift.
  Qed.

  Lemma both_scalar s : both (read_scalar h R1 s) (read_scalar h R2 s).
  Proof.
    destruct s; cbn [read_scalar];
      first [ apply both_ret | apply both_ipv4 | apply both_ipv6 | apply both_duration | idtac ];
      apply both_bind;
      first [ apply both_prim | apply both_u8 | apply both_uint | apply both_varint | apply both_duration
            | apply LK | apply both_repeat | idtac ]; intros;
      repeat match goal with
             | |- both (if ?b then _ else _) _ => destruct b
             | |- both (ret _) _ => apply both_ret
             | |- both (fail _) _ => apply both_fail
             | |- both (crash _) _ => apply both_crash
             | |- both (bind (read_ipv4 _ _) _) _ => apply both_bind; [apply both_ipv4|intros]
             | |- both (bind (read_ipv6 _ _) _) _ => apply both_bind; [apply both_ipv6|intros]
             | |- both (bind (read_uint _ _ _) _) _ => apply both_bind; [apply both_uint|intros]
             | |- both (bind (read_prim _ _ _) _) _ => apply both_bind; [apply both_prim|intros]
             end.
    destruct a as [| | | |[|[] ]| | | | |]; try apply both_crash.
    destruct (_ <? _)%Z; [apply both_fail|apply both_ret].
  Qed.

  Lemma both_str b : both (to_str b) (to_str b).
  Proof. unfold to_str. destruct (utf8_valid b); [apply both_ret|apply both_fail]. Qed.

  Lemma both_elem_u8 : both (read_elem_u8 h R1) (read_elem_u8 h R2).
  Proof. apply both_bind; [apply both_prim|]. intros. apply both_ret. Qed.

  Lemma both_vec_u8 n : both (read_vec_u8 h R1 n) (read_vec_u8 h R2 n).
  Proof. apply both_map, both_vec, both_elem_u8. Qed.

  Lemma both_guard t : both (endianness_guard h R1 t) (endianness_guard h R2 t).
  Proof.
    unfold endianness_guard. rewrite (cl_endian LK). destruct (_ && _)%bool; [apply both_fail|apply both_ret].
  Qed.

  Lemma both_array t rd1 rd2 n : both rd1 rd2 -> both (read_array h R1 t rd1 n) (read_array h R2 t rd2 n).
  Proof.
    intros Hrd. unfold read_array. rewrite (cl_endian LK). destruct (is_prim h t).
    - apply both_bind; [apply LK|]. intros. apply both_map, both_lift.
    - apply both_map, both_repeat, Hrd.
  Qed.

  Lemma both_tag d : both (read_tag h R1 d) (read_tag h R2 d).
  Proof.
    unfold read_tag. destruct (e_peek d); destruct (e_tag d);
      first [ apply both_u8 | apply both_peek_u8 | apply both_uint | apply both_peek_uint; lia
            | apply both_varint | apply both_peek_varint ].
  Qed.

  Lemma both_with_length prev a k1 k2 ue1 ue2 :
    (f_eof a = true -> catching) -> (forall n, both (k1 n) (k2 n)) -> (f_len a = LEof -> both ue1 ue2) ->
    both (with_length h R1 prev a k1 ue1) (with_length h R2 prev a k2 ue2).
  Proof.
    intros Hc Hk Hue. unfold with_length.
    assert (Hpre : forall b,
      both (n <- (if f_eof a then catch_eof 0 (read_length h R1 b) else read_length h R1 b) ;; k1 n)
           (n <- (if f_eof a then catch_eof 0 (read_length h R2 b) else read_length h R2 b) ;; k2 n)).
    { intros b. apply both_bind; [|exact Hk]. destruct (f_eof a); [apply both_catch; auto|]; apply both_length. }
    destruct (f_len a) as [|b|f|] eqn:El; auto. destruct (f prev) as [n|]; [apply Hk|apply both_crash].
  Qed.

  (* ---------------------------------------------------------------- *)
  (** ** Every type *)

  (** Catching the end of the input only where that is allowed. *)
  Notation cow := (fun (_ : lenmode) (_ : ty) => True).
  Notation consts := (fun _ : bytes => True).
  Notation lendable := (lendable catching True cow True consts).
  Notation lendable_field := (lendable_field catching consts).

  Lemma both_borrowed n : both (borrowed R1 n) (borrowed R2 n).
  Proof. unfold borrowed. destruct (cl_lend1 LK) as (-> & _). destruct (cl_lend2 LK) as (-> & _). apply both_fail. Qed.

  Lemma both_cast t n b : both (cast_slice h t n b) (cast_slice h t n b).
  Proof. unfold cast_slice. destruct (_ =? _); [destruct (forallb _ _); [apply both_ret|apply both_crash]|apply both_crash]. Qed.

  Lemma both_ref_slice t n : both (read_ref_slice h R1 t n) (read_ref_slice h R2 t n).
  Proof.
    unfold read_ref_slice. destruct (_ <? _); [apply both_fail|].
    apply both_bind; [apply both_borrowed|]. intros. apply both_cast.
  Qed.

  Lemma both_borrow_eof {A} (k1 : N * bytes -> M S1 A) k2 : (forall b, both (k1 b) (k2 b)) ->
    both (b <- match rd_borrow_eof R1 with Some b => b | None => fail Unsized end ;; k1 b)
         (b <- match rd_borrow_eof R2 with Some b => b | None => fail Unsized end ;; k2 b).
  Proof.
    intros Hk. destruct (cl_lend1 LK) as (_ & _ & ->). destruct (cl_lend2 LK) as (_ & _ & ->).
    apply both_bind; [apply both_fail|exact Hk].
  Qed.

  Lemma both_cow t rd1 rd2 n : both rd1 rd2 -> both (read_cow h R1 t rd1 n) (read_cow h R2 t rd2 n).
  Proof.
    intros Hrd. unfold read_cow. destruct (cl_lend1 LK) as (-> & _). destruct (cl_lend2 LK) as (-> & _).
    replace (if is_prim h t && no_conv h R1 t then None else None)%bool with (@None (N -> M S1 (N * bytes)))
      by (destruct (_ && _)%bool; reflexivity).
    replace (if is_prim h t && no_conv h R2 t then None else None)%bool with (@None (N -> M S2 (N * bytes)))
      by (destruct (_ && _)%bool; reflexivity).
    apply both_vec, Hrd.
  Qed.

  Lemma both_cow_u8 n : both (read_cow_u8 h R1 n) (read_cow_u8 h R2 n).
  Proof. apply both_map, both_cow, both_elem_u8. Qed.

  Lemma both_constant c : both (read_constant h R1 c) (read_constant h R2 c).
  Proof.
    unfold read_constant. destruct (cl_lend1 LK) as (-> & _). destruct (cl_lend2 LK) as (-> & _).
    apply both_bind; [apply both_vec_u8|]. intros b. destruct (list_eq_dec _ _ _); [apply both_ret|apply both_fail].
  Qed.

  Notation rd1 := (read h R1).
  Notation rd2 := (read h R2).

  Definition inner_both (t : ty) : Prop := forall a prev vi, (f_eof a = true -> catching) ->
    lendable (if is_container t then f_len a else LDefault) t ->
    both (read_field_inner h R1 rd1 prev a vi t) (read_field_inner h R2 rd2 prev a vi t).

  Definition type_both (t : ty) : Prop :=
    (lendable LDefault t -> both (rd1 t) (rd2 t)) /\ inner_both t
    /\ (forall t', t = TOption t' -> inner_both t').

  Lemma both_field prev a t : type_both t -> f_skip a = false -> lendable_field lendable a t ->
    both (read_field h R1 rd1 prev a t) (read_field h R2 rd2 prev a t).
  Proof.
    intros (Ht & Hi & Ho) Hs [Hs'|(Hc & Hcat & Hsup)]; [congruence|].
    unfold read_field.
    match goal with |- both (if _ then catch_eof _ ?m else _) (if _ then catch_eof _ ?d else _) =>
      assert (Hbody : both m d) end.
    { apply both_bind.
      - destruct (f_prefix a) eqn:Ep; [apply both_ret|]. apply both_constant.
      - intros _. unfold sized_field in *. destruct (f_opaque a) eqn:Eo; cbn [negb andb] in *; [auto|].
        specialize (Hi a prev). destruct t; try exact (Hi _ Hcat Hsup).
        apply both_bind; [apply both_u8|]. intros x.
        destruct (x =? 0); [apply both_ret|]. apply both_map.
        apply (Ho _ eq_refl a prev); assumption. }
    destruct (f_eof a); [|exact Hbody]. apply both_catch; auto.
  Qed.

  Lemma both_fields fs : Forall (fun f => type_both (snd f)) fs ->
    all_fields (lendable_field lendable) fs -> forall prev,
    both (read_fields h R1 rd1 prev fs) (read_fields h R2 rd2 prev fs).
  Proof.
    induction 1 as [|f r Hf Hr IH]; intros Hs prev; cbn [read_fields]; [apply both_ret|].
    destruct Hs as [Hs Hsr]. destruct (f_skip (fst f)) eqn:Ek; [apply both_map, IH, Hsr|].
    apply both_bind; [apply both_field; assumption|]. intros v.
    apply both_bind; [apply IH, Hsr|]. intros. apply both_ret.
  Qed.

  Lemma both_variant tag vs : Forall (fun v => Forall (fun f => type_both (snd f)) (snd v)) vs ->
    all_variants (all_fields (lendable_field lendable)) vs -> forall i,
    both (read_variant h R1 rd1 tag i vs) (read_variant h R2 rd2 tag i vs).
  Proof.
    induction 1 as [|v r Hv Hr IH]; intros Hs i; cbn [read_variant]; [apply both_fail|].
    destruct Hs as [Hs Hsr]. destruct (fst v =? tag); [|apply IH, Hsr].
    apply both_map, both_fields; assumption.
  Qed.

  Lemma both_inner_plain t : is_container t = false -> (forall t' n, t <> TArr t' n) ->
    (lendable LDefault t -> both (rd1 t) (rd2 t)) -> inner_both t.
  Proof.
    intros Hc Ha H a prev vi _. rewrite Hc. intros Hs.
    destruct t as [[]|[]|[]| | | | | | |[]|[]| | | |]; try discriminate; try exact (H Hs).
    - cbn [read_field_inner]. destruct vi; [|exact (H Hs)].
      apply both_bind; [apply both_varint|]. intros. apply both_ret.
    - exfalso. eapply Ha. reflexivity.
  Qed.

  Lemma both_prefix (k1 : N -> M S1 val) k2 : (forall n, both (k1 n) (k2 n)) ->
    both (n <- read_length h R1 BU32 ;; k1 n) (n <- read_length h R2 BU32 ;; k2 n).
  Proof. intros Hk. apply both_bind; [apply both_length|exact Hk]. Qed.

  Theorem both_all t : type_both t.
  Proof.
    induction t as [s|k|k t IH|t n IH|t n IH|t IH|t1 t2 IH1 IH2|ts IH|i t IH|k t IH|k tk tv IHk IHv|t IH|d fs IH|d vs IH|]
      using ty_ind'.
    - assert (H : lendable LDefault (TScalar s) -> both (rd1 (TScalar s)) (rd2 (TScalar s)))
        by (intros _; apply both_scalar).
      split; [exact H|split; [|intros; discriminate]]. apply both_inner_plain; [reflexivity|discriminate|exact H].
    - assert (H : lendable LDefault (TStr k) -> both (rd1 (TStr k)) (rd2 (TStr k))).
      { intros [Hs _]. cbn [read read_str]. apply both_prefix. intros n.
        destruct k; cbn [lendable] in Hs.
        - apply both_bind; [apply both_vec_u8|]. intros. apply both_str.
        - apply both_bind; [apply both_vec_u8|]. intros. apply both_str.
        - apply both_bind; [apply both_cow_u8|]. intros. apply both_str.
        - apply both_bind; [apply both_borrowed|]. intros. apply both_str.
        - apply both_bind; [apply both_cow_u8|]. intros.
          apply both_bind; [apply both_str|]. intros. destruct (l_regex_ok _ _); [apply both_ret|apply both_fail]. }
      split; [exact H|split; [|intros; discriminate]].
      destruct k; try (apply both_inner_plain; [reflexivity|discriminate|exact H]);
        intros a prev vi Hcat [Hs He]; cbn [is_container] in *;
        cbn [read_field_inner]; (apply both_with_length; [exact Hcat| |]).
      + intros n. apply both_bind; [apply both_vec_u8|]. intros. apply both_str.
      + intros El. apply both_bind; [apply both_until_eof; [exact (He El)|apply both_elem_u8]|]. intros. apply both_str.
      + intros n. apply both_bind; [apply both_cow_u8|]. intros. apply both_str.
      + intros El. apply both_bind; [apply both_until_eof; [exact (He El)|apply both_elem_u8]|]. intros. apply both_str.
      + intros n. apply both_bind; [apply both_borrowed|]. intros. apply both_str.
      + intros _. apply both_borrow_eof. intros. apply both_str.
    - destruct IH as (IH & _ & _).
      assert (Hcnt : forall k n, lendable LDefault t ->
         match k with
         | KVec | KBoxSlice | KSmallVec => both (read_vec h R1 t (rd1 t) n) (read_vec h R2 t (rd2 t) n)
         | KCow => both (read_cow h R1 t (rd1 t) n) (read_cow h R2 t (rd2 t) n)
         | KRef => both (read_ref_slice h R1 t n) (read_ref_slice h R2 t n)
         end).
      { intros k0 n Hs. destruct k0; first [apply both_vec; auto | apply both_cow; auto | apply both_ref_slice]. }
      assert (H : lendable LDefault (TSeq k t) -> both (rd1 (TSeq k t)) (rd2 (TSeq k t))).
      { intros (He & Hs & _). cbn [read]. pose proof (fun n => Hcnt k n Hs) as Hc.
        destruct k; cbn [read_seq]; try (apply both_prefix; intros n; apply both_map, Hc).
        apply both_bind; [apply both_guard|]. intros _. apply both_prefix. exact Hc. }
      split; [exact H|split; [|intros; discriminate]].
      destruct k; try (apply both_inner_plain; [reflexivity|discriminate|exact H]);
        intros a prev vi Hcat Hs; cbn [is_container] in *; destruct Hs as (He & Hs & Hu);
        cbn [read_field_inner].
      + pose proof (fun n => Hcnt KVec n Hs) as Hc. apply both_with_length; [exact Hcat| |].
        * intros n. apply both_map, Hc.
        * intros El. apply both_map, both_until_eof; auto.
      + pose proof (fun n => Hcnt KCow n Hs) as Hc. apply both_with_length; [exact Hcat| |].
        * intros n. apply both_map, Hc.
        * intros El. apply both_map, both_until_eof; auto.
      + pose proof (fun n => Hcnt KRef n Hs) as Hc.
        apply both_bind; [apply both_guard|]. intros _. apply both_with_length; [exact Hcat| |].
        * intros n. apply Hc.
        * intros _. apply both_borrow_eof. intros.
          destruct (_ =? _); [apply both_crash|apply both_cast].
    - destruct IH as (IH & _ & _).
      split; [|split; [|intros; discriminate]].
      + intros Hs. apply both_array, IH, Hs.
      + intros a prev vi _ Hs. cbn [is_container] in *. cbn [read_field_inner].
        apply both_map, both_repeat, IH, Hs.
    - assert (H : lendable LDefault (TRefArr t n) -> both (rd1 (TRefArr t n)) (rd2 (TRefArr t n))).
      { intros Hb. cbn [read]. unfold read_ref_array. apply both_bind; [apply both_guard|]. intros _.
        apply both_bind; [apply both_borrowed|]. intros. apply both_cast. }
      split; [exact H|split; [|intros; discriminate]]. apply both_inner_plain; [reflexivity|discriminate|exact H].
    - destruct IH as (IH & Hi & _).
      assert (H : lendable LDefault (TOption t) -> both (rd1 (TOption t)) (rd2 (TOption t))).
      { intros Hs. cbn [read]. apply both_bind; [apply both_u8|]. intros x.
        destruct (x =? 0); [apply both_ret|]. apply both_map, IH, Hs. }
      split; [exact H|split].
      + apply both_inner_plain; [reflexivity|discriminate|exact H].
      + intros t' E. injection E as <-. exact Hi.
    - destruct IH1 as (IH1 & _). destruct IH2 as (IH2 & _).
      assert (H : lendable LDefault (TResult t1 t2) -> both (rd1 (TResult t1 t2)) (rd2 (TResult t1 t2))).
      { intros [Hs1 Hs2]. cbn [read]. apply both_bind; [apply both_u8|]. intros x.
        destruct (x =? 0); apply both_map; auto. }
      split; [exact H|split; [|intros; discriminate]]. apply both_inner_plain; [reflexivity|discriminate|exact H].
    - assert (H : lendable LDefault (TTuple ts) -> both (rd1 (TTuple ts)) (rd2 (TTuple ts))).
      { intros Hs. cbn [read]. apply both_map. cbn [lendable] in Hs.
        induction IH as [|t r IHt IHr IHl]; cbn [read_tuple]; [apply both_ret|].
        destruct Hs as [Hs Hsr]. apply both_bind; [apply IHt, Hs|]. intros v.
        apply both_bind; [apply IHl, Hsr|]. intros. apply both_ret. }
      split; [exact H|split; [|intros; discriminate]]. apply both_inner_plain; [reflexivity|discriminate|exact H].
    - destruct IH as (IH & _).
      assert (H : lendable LDefault (TRange i t) -> both (rd1 (TRange i t)) (rd2 (TRange i t))).
      { intros Hs. cbn [read]. apply both_bind; [apply IH, Hs|]. intros x.
        apply both_bind; [apply IH, Hs|]. intros. apply both_ret. }
      split; [exact H|split; [|intros; discriminate]]. apply both_inner_plain; [reflexivity|discriminate|exact H].
    - destruct IH as (IH & _).
      assert (H : lendable LDefault (TSet k t) -> both (rd1 (TSet k t)) (rd2 (TSet k t))).
      { intros [Hs _]. cbn [read]. apply both_prefix. intros n. apply both_collection; auto. }
      split; [exact H|split; [|intros; discriminate]].
      destruct k; try (apply both_inner_plain; [reflexivity|discriminate|exact H]);
        intros a prev vi Hcat [Hs He]; cbn [is_container] in *; cbn [read_field_inner];
        (apply both_with_length; [exact Hcat| |]);
        try (intros n; apply both_collection; auto; fail);
        intros El; (apply both_bind; [apply both_until_eof; auto|]); intros; apply both_ret.
    - destruct IHk as (IHk & _). destruct IHv as (IHv & _).
      assert (H : lendable LDefault (TMap k tk tv) -> both (rd1 (TMap k tk tv)) (rd2 (TMap k tk tv))).
      { intros (Hs1 & Hs2 & _). cbn [read]. apply both_prefix. intros n. apply both_map_impl; auto. }
      split; [exact H|split; [|intros; discriminate]].
      destruct k; try (apply both_inner_plain; [reflexivity|discriminate|exact H]);
        intros a prev vi Hcat (Hs1 & Hs2 & He); cbn [is_container] in *; cbn [read_field_inner];
        (apply both_with_length; [exact Hcat| |]);
        try (intros n; apply both_kv; auto; fail);
        intros El; (apply both_bind; [apply both_until_eof; [auto|apply both_pair; auto]|]); intros; apply both_ret.
    - destruct IH as (IH & _).
      assert (H : lendable LDefault (TBox t) -> both (rd1 (TBox t)) (rd2 (TBox t))) by exact IH.
      split; [exact H|split; [|intros; discriminate]]. apply both_inner_plain; [reflexivity|discriminate|exact H].
    - assert (H : lendable LDefault (TStruct d fs) -> both (rd1 (TStruct d fs)) (rd2 (TStruct d fs))).
      { intros Hs. apply both_map, both_fields; assumption. }
      split; [exact H|split; [|intros; discriminate]]. apply both_inner_plain; [reflexivity|discriminate|exact H].
    - assert (H : lendable LDefault (TEnum d vs) -> both (rd1 (TEnum d vs)) (rd2 (TEnum d vs))).
      { intros [Hp Hs]. cbn [read]. apply both_bind; [apply both_tag|]. intros tag. apply both_variant; assumption. }
      split; [exact H|split; [|intros; discriminate]]. apply both_inner_plain; [reflexivity|discriminate|exact H].
    - assert (H : lendable LDefault TBot -> both (rd1 TBot) (rd2 TBot)) by (intros _; apply both_crash).
      split; [exact H|split; [|intros; discriminate]]. apply both_inner_plain; [reflexivity|discriminate|exact H].
  Qed.

  Theorem both_read t : lendable LDefault t -> both (rd1 t) (rd2 t).
  Proof. apply both_all. Qed.
End Closed.
