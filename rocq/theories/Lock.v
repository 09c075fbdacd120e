(* Two readers in lock step: they give the same results for every type, whatever
   the input, including inputs that end in the middle of a field. *)
From Verif Require Export ReadApi.

(** A failure with an error and in a state of which [io] holds. *)
Definition escape_at {St A} (io : error -> St -> Prop) (r : res A) (s : St) : Prop :=
  exists er, r = Err er /\ io er s.

Section Lock.
  Context {S1 S2 : Type} (rel : S1 -> S2 -> Prop) (io1 : error -> S1 -> Prop) (io2 : error -> S2 -> Prop).

  (** Unless one of the underlying streams fails, the results are equal and the
      readers stay related. *)
  Definition lock {A} (m1 : M S1 A) (m2 : M S2 A) : Prop :=
    forall s1 s2, rel s1 s2 ->
      escape_at io1 (fst (m1 s1)) (snd (m1 s1)) \/ escape_at io2 (fst (m2 s2)) (snd (m2 s2))
      \/ (fst (m1 s1) = fst (m2 s2) /\ rel (snd (m1 s1)) (snd (m2 s2))).

  Lemma lock_ext {A} (m1 m1' : M S1 A) (m2 m2' : M S2 A) :
    (forall s, m1 s = m1' s) -> (forall s, m2 s = m2' s) -> lock m1 m2 -> lock m1' m2'.
  Proof. intros H1 H2 H s1 s2 Hr. rewrite <- H1, <- H2. auto. Qed.

  Lemma lock_lift {A} (r : res A) : lock (lift r) (lift r).
  Proof. intros s1 s2 Hr. right. right. auto. Qed.
  Lemma lock_ret {A} (a : A) : lock (ret a) (ret a).
  Proof. apply (lock_lift (Ok a)). Qed.
  Lemma lock_fail {A} er : lock (A := A) (fail er) (fail er).
  Proof. apply (lock_lift (Err er)). Qed.
  Lemma lock_crash {A} f : lock (A := A) (crash f) (crash f).
  Proof. apply (lock_lift (Fault f)). Qed.

  Lemma lock_bind {A B} (m1 : M S1 A) (m2 : M S2 A) (k1 : A -> M S1 B) k2 :
    lock m1 m2 -> (forall a, lock (k1 a) (k2 a)) -> lock (bind m1 k1) (bind m2 k2).
  Proof.
    intros Hm Hk s1 s2 Hr. unfold bind. specialize (Hm s1 s2 Hr).
    destruct (m1 s1) as [r1 s1'], (m2 s2) as [r2 s2']. cbn [fst snd] in Hm.
    destruct Hm as [(er & -> & Hio)|[(er & -> & Hio)|(-> & Hr')]].
    - left. exists er. auto.
    - right. left. exists er. auto.
    - destruct r2 as [a|er|f]; [apply Hk, Hr'| |]; right; right; auto.
  Qed.

  Lemma lock_map {A B} (f : A -> B) (m1 : M S1 A) (m2 : M S2 A) :
    lock m1 m2 -> lock (mmap f m1) (mmap f m2).
  Proof. intros H. apply lock_bind; [exact H|]. intros. apply lock_ret. Qed.

  Lemma lock_repeat {A} (m1 : M S1 A) (m2 : M S2 A) n :
    lock m1 m2 -> lock (repeatM m1 n) (repeatM m2 n).
  Proof.
    intros H. induction n; cbn [repeatM]; [apply lock_ret|].
    apply lock_bind; [exact H|]. intros. apply lock_bind; [exact IHn|]. intros. apply lock_ret.
  Qed.

  (** [catching]: errors may be caught. *)
  Context (catching : Prop).
  Context (Hio1 : catching -> forall er s, io1 er s -> is_eof er = false).
  Context (Hio2 : catching -> forall er s, io2 er s -> is_eof er = false).

  Lemma lock_catch {A} (dflt : A) (m1 : M S1 A) (m2 : M S2 A) :
    catching -> lock m1 m2 -> lock (catch_eof dflt m1) (catch_eof dflt m2).
  Proof.
    intros Hc Hm s1 s2 Hr. unfold catch_eof. specialize (Hm s1 s2 Hr).
    destruct (m1 s1) as [r1 s1'], (m2 s2) as [r2 s2']. cbn [fst snd] in Hm.
    destruct Hm as [(er & -> & Hio)|[(er & -> & Hio)|(-> & Hr')]].
    - left. rewrite (Hio1 Hc er _ Hio). exists er. auto.
    - right. left. rewrite (Hio2 Hc er _ Hio). exists er. auto.
    - destruct r2 as [a|er|f]; [| destruct (is_eof er)|]; right; right; auto.
  Qed.

  Lemma lock_until (m1 : M S1 val) (m2 : M S2 val) k :
    catching -> lock m1 m2 -> lock (until_eof_loop m1 k) (until_eof_loop m2 k).
  Proof.
    intros Hc Hm. induction k as [|k IH]; cbn [until_eof_loop]; [apply lock_crash|].
    intros s1 s2 Hr. specialize (Hm s1 s2 Hr).
    destruct (m1 s1) as [r1 s1'], (m2 s2) as [r2 s2']. cbn [fst snd] in Hm.
    destruct Hm as [(er & -> & Hio)|[(er & -> & Hio)|(-> & Hr')]].
    - left. rewrite (Hio1 Hc er _ Hio). exists er. auto.
    - right. left. rewrite (Hio2 Hc er _ Hio). exists er. auto.
    - destruct r2 as [a|er|f].
      + apply (lock_map (cons a) _ _ IH). exact Hr'.
      + destruct (is_eof er); right; right; auto.
      + right. right. auto.
  Qed.

  (* ---------------------------------------------------------------- *)
  (** ** Readers *)

  (** [peeks]: the readers may be asked to peek. *)
  Context (h : host) (R1 : reader S1) (R2 : reader S2) (peeks : Prop).

  Record locked : Prop := {
    lk_endian : rd_endian R1 = rd_endian R2;
    lk_read : forall n, lock (rd_read R1 n) (rd_read R2 n);
    lk_read_ptr : forall n, lock (rd_read_ptr R1 n) (rd_read_ptr R2 n);
    lk_peek : forall n, peeks -> n <= 16 -> lock (rd_peek R1 n) (rd_peek R2 n);
    lk_peek_ptr : forall n, peeks -> n <= 16 -> lock (rd_peek_ptr R1 n) (rd_peek_ptr R2 n);
    lk_can : forall n s1 s2, rel s1 s2 -> rd_can R1 n s1 = rd_can R2 n s2;
    lk_borrow_r : match rd_borrow_r R1, rd_borrow_r R2 with
                  | None, None => True
                  | Some b1, Some b2 => forall n, lock (b1 n) (b2 n)
                  | _, _ => False
                  end;
    lk_alloc : forall n size min, lock (rd_alloc R1 n size min) (rd_alloc R2 n size min);
    lk_fuel : catching -> forall s1 s2, rel s1 s2 -> rd_fuel R1 s1 = rd_fuel R2 s2
  }.

  Context (LK : locked).
  Notation e := (rd_endian R2).

  Lemma lock_require n : lock (require R1 n) (require R2 n).
  Proof.
    intros s1 s2 Hr. unfold require. rewrite (lk_can LK n s1 s2 Hr).
    right. right. destruct (rd_can R2 n s2) as [[]|]; auto.
  Qed.

  Lemma lock_u8 : lock (read_u8 R1) (read_u8 R2).
  Proof.
    apply lock_bind; [apply lock_require|]. intros _. apply lock_bind; [apply LK|]. intros. apply lock_ret.
  Qed.

  Lemma lock_peek_u8 : peeks -> lock (peek_u8 R1) (peek_u8 R2).
  Proof.
    intros Hp. apply lock_bind; [apply lock_require|]. intros _. apply lock_bind; [apply LK; [exact Hp|discriminate]|].
    intros. apply lock_ret.
  Qed.

  Lemma lock_uint w : lock (read_uint h R1 w) (read_uint h R2 w).
  Proof.
    apply lock_bind; [apply lock_require|]. intros _. apply lock_bind; [apply LK|]. intros.
    rewrite (lk_endian LK). apply lock_ret.
  Qed.

  Lemma lock_peek_uint w : peeks -> (w <= 16)%nat -> lock (peek_uint h R1 w) (peek_uint h R2 w).
  Proof.
    intros Hp Hw. apply lock_bind; [apply lock_require|]. intros _. apply lock_bind; [apply LK; [exact Hp|lia]|]. intros.
    rewrite (lk_endian LK). apply lock_ret.
  Qed.

  Lemma lock_prim p : lock (read_prim h R1 p) (read_prim h R2 p).
  Proof.
    apply lock_bind; [|intros; apply lock_ret]. destruct p; try apply lock_u8; apply lock_uint.
  Qed.

  Lemma lock_varint : lock (read_varint h R1) (read_varint h R2).
  Proof.
    apply lock_bind; [apply lock_u8|]. intros. apply lock_bind; [apply LK|]. intros. apply lock_ret.
  Qed.

  Lemma lock_peek_varint : peeks -> lock (peek_varint h R1) (peek_varint h R2).
  Proof.
    intros Hp. apply lock_bind; [apply lock_peek_u8, Hp|]. intros b. apply lock_bind; [apply LK; [exact Hp|]|].
    - unfold vi_length, leading_zeros. lia.
    - intros. apply lock_ret.
  Qed.

  Lemma lock_length b : lock (read_length h R1 b) (read_length h R2 b).
  Proof.
    destruct b; cbn [read_length]; first [apply lock_u8 | apply lock_uint | idtac].
    - apply lock_bind; [apply lock_u8|]. intros n. destruct (_ <? _); [apply lock_fail|apply lock_ret].
    - apply lock_bind; [apply lock_uint|]. intros n. destruct (_ <? _); [apply lock_fail|apply lock_ret].
    - apply lock_bind; [apply lock_varint|]. intros n. destruct (_ <? _); [apply lock_fail|apply lock_ret].
  Qed.

  Lemma lock_alloc n size min : lock (alloc h R1 n size min) (alloc h R2 n size min).
  Proof. unfold alloc. destruct (_ <? _); [apply lock_crash|apply LK]. Qed.

  Lemma lock_vec t rd1 rd2 n : lock rd1 rd2 -> lock (read_vec h R1 t rd1 n) (read_vec h R2 t rd2 n).
  Proof.
    intros Hrd. unfold read_vec. rewrite (lk_endian LK).
    apply lock_bind; [destruct (_ <? _); [apply lock_fail|apply lock_require]|]. intros _.
    apply lock_bind; [apply lock_alloc|]. intros _. destruct (is_prim h t).
    - apply lock_bind; [apply LK|]. intros. apply lock_lift.
    - destruct (_ =? _); [apply lock_ret|apply lock_repeat, Hrd].
  Qed.

  Lemma lock_until_eof rd1 rd2 : catching -> lock rd1 rd2 -> lock (read_until_eof R1 rd1) (read_until_eof R2 rd2).
  Proof.
    intros Hc Hrd s1 s2 Hr. unfold read_until_eof. rewrite (lk_fuel LK Hc s1 s2 Hr). apply lock_until; assumption.
  Qed.

  Lemma lock_raw k key t n bs : lock (raw_collect h k key t n bs) (raw_collect h k key t n bs).
  Proof.
    unfold raw_collect. destruct (_ =? _); [destruct k; [apply lock_ret|apply lock_crash..]|apply lock_ret].
  Qed.

  Lemma lock_slow {k key n} rd1 rd2 : lock rd1 rd2 ->
    lock (xs <- repeatM rd1 n ;; ret (VSeq (collect k key xs)))
         (xs <- repeatM rd2 n ;; ret (VSeq (collect k key xs))).
  Proof. intros H. apply lock_bind; [apply lock_repeat, H|]. intros. apply lock_ret. Qed.

  Lemma lock_borrow_r {A} n (k : bytes -> forall S, M S A) (slow1 : M S1 A) (slow2 : M S2 A) :
    (forall bs, lock (k bs S1) (k bs S2)) -> lock slow1 slow2 ->
    lock (match rd_borrow_r R1 with Some b => bs <- b n ;; k bs S1 | None => slow1 end)
         (match rd_borrow_r R2 with Some b => bs <- b n ;; k bs S2 | None => slow2 end).
  Proof.
    intros Hk Hs. pose proof (lk_borrow_r LK) as H.
    destruct (rd_borrow_r R1), (rd_borrow_r R2); try contradiction; [|exact Hs].
    apply lock_bind; [apply H|exact Hk].
  Qed.

  Lemma lock_collection k key t rd1 rd2 n : lock rd1 rd2 ->
    lock (read_collection h R1 k key t rd1 n) (read_collection h R2 k key t rd2 n).
  Proof.
    intros Hrd. unfold read_collection, no_conv. rewrite (lk_endian LK).
    destruct (_ && _)%bool; [|apply lock_slow, Hrd]. destruct (_ <? _); [apply lock_fail|].
    apply (lock_borrow_r _ (fun bs S => raw_collect h k key t n bs)); [intros; apply lock_raw|apply lock_slow, Hrd].
  Qed.

  Lemma lock_pair rk1 rk2 rv1 rv2 : lock rk1 rk2 -> lock rv1 rv2 -> lock (read_pair rk1 rv1) (read_pair rk2 rv2).
  Proof.
    intros Hk Hv. apply lock_bind; [exact Hk|]. intros. apply lock_bind; [exact Hv|]. intros. apply lock_ret.
  Qed.

  Lemma lock_kv k tk tv rk1 rk2 rv1 rv2 n : lock rk1 rk2 -> lock rv1 rv2 ->
    lock (read_kv h R1 k tk tv rk1 rv1 n) (read_kv h R2 k tk tv rk2 rv2 n).
  Proof.
    intros Hk Hv. unfold read_kv. rewrite (lk_endian LK).
    destruct (_ && _)%bool; [|apply lock_slow, lock_pair; assumption]. destruct (_ <? _); [apply lock_fail|].
    apply (lock_borrow_r _ (fun bs S => raw_collect h k pair_key (pair_ty tk tv) n bs));
      [intros; apply lock_raw|apply lock_slow, lock_pair; assumption].
  Qed.

  Lemma lock_map_impl k tk tv rk1 rk2 rv1 rv2 n : lock rk1 rk2 -> lock rv1 rv2 ->
    lock (read_map h R1 k tk tv rk1 rv1 n) (read_map h R2 k tk tv rk2 rv2 n).
  Proof.
    intros Hk Hv. destruct k; cbn [read_map];
      first [apply lock_kv; assumption | apply lock_slow, lock_pair; assumption].
  Qed.

  Lemma lock_ipv4 : lock (read_ipv4 h R1) (read_ipv4 h R2).
  Proof. apply lock_bind; [apply lock_uint|]. intros. apply lock_ret. Qed.

  Lemma lock_ipv6 : lock (read_ipv6 h R1) (read_ipv6 h R2).
  Proof.
    apply lock_bind; [apply LK|]. intros. rewrite (lk_endian LK). apply lock_ret.
  Qed.

  Lemma lock_duration : lock (read_duration h R1) (read_duration h R2).
  Proof.
    apply lock_bind; [apply lock_uint|]. intros. apply lock_bind; [apply lock_uint|]. intros. apply lock_lift.
  Qed.

  Lemma lock_scalar s : lock (read_scalar h R1 s) (read_scalar h R2 s).
  Proof.
    destruct s; cbn [read_scalar];
      first [ apply lock_ret | apply lock_ipv4 | apply lock_ipv6 | apply lock_duration | idtac ];
      apply lock_bind;
      first [ apply lock_prim | apply lock_u8 | apply lock_uint | apply lock_varint | apply lock_duration
            | apply LK | apply lock_repeat | idtac ]; intros;
      repeat match goal with
             | |- lock (if ?b then _ else _) _ => destruct b
             | |- lock (ret _) _ => apply lock_ret
             | |- lock (fail _) _ => apply lock_fail
             | |- lock (crash _) _ => apply lock_crash
             | |- lock (bind (read_ipv4 _ _) _) _ => apply lock_bind; [apply lock_ipv4|intros]
             | |- lock (bind (read_ipv6 _ _) _) _ => apply lock_bind; [apply lock_ipv6|intros]
             | |- lock (bind (read_uint _ _ _) _) _ => apply lock_bind; [apply lock_uint|intros]
             | |- lock (bind (read_prim _ _ _) _) _ => apply lock_bind; [apply lock_prim|intros]
             end.
    destruct a as [| | | |[|[] ]| | | | |]; try apply lock_crash.
    destruct (_ <? _)%Z; [apply lock_fail|apply lock_ret].
  Qed.

  Lemma lock_str b : lock (to_str b) (to_str b).
  Proof. unfold to_str. destruct (utf8_valid b); [apply lock_ret|apply lock_fail]. Qed.

  Lemma lock_elem_u8 : lock (read_elem_u8 h R1) (read_elem_u8 h R2).
  Proof. apply lock_bind; [apply lock_prim|]. intros. apply lock_ret. Qed.

  Lemma lock_vec_u8 n : lock (read_vec_u8 h R1 n) (read_vec_u8 h R2 n).
  Proof. apply lock_map, lock_vec, lock_elem_u8. Qed.

  Lemma lock_guard t : lock (endianness_guard h R1 t) (endianness_guard h R2 t).
  Proof.
    unfold endianness_guard. rewrite (lk_endian LK). destruct (_ && _)%bool; [apply lock_fail|apply lock_ret].
  Qed.

  Lemma lock_array t rd1 rd2 n : lock rd1 rd2 -> lock (read_array h R1 t rd1 n) (read_array h R2 t rd2 n).
  Proof.
    intros Hrd. unfold read_array. rewrite (lk_endian LK). destruct (is_prim h t).
    - apply lock_bind; [apply LK|]. intros. apply lock_map, lock_lift.
    - apply lock_map, lock_repeat, Hrd.
  Qed.

  Lemma lock_tag d : (e_peek d = true -> peeks) -> lock (read_tag h R1 d) (read_tag h R2 d).
  Proof.
    intros Hp. unfold read_tag. destruct (e_peek d); [specialize (Hp eq_refl)|]; destruct (e_tag d);
      first [ apply lock_u8 | apply lock_peek_u8, Hp | apply lock_uint | apply lock_peek_uint; [exact Hp|lia]
            | apply lock_varint | apply lock_peek_varint, Hp ].
  Qed.

  Lemma lock_with_length prev a k1 k2 ue1 ue2 :
    (f_eof a = true -> catching) ->
    (forall n, possible_length h (f_len a) n -> lock (k1 n) (k2 n)) -> (f_len a = LEof -> lock ue1 ue2) ->
    (forall b n s1 s2, rel s1 s2 -> fst (read_length h R2 b s2) = Ok n -> possible_length h (LType b) n) ->
    lock (with_length h R1 prev a k1 ue1) (with_length h R2 prev a k2 ue2).
  Proof.
    intros Hc Hk Hue Hlen. unfold with_length.
    assert (Hpre : forall b, (forall n, possible_length h (LType b) n -> possible_length h (f_len a) n) ->
      lock (n <- (if f_eof a then catch_eof 0 (read_length h R1 b) else read_length h R1 b) ;; k1 n)
           (n <- (if f_eof a then catch_eof 0 (read_length h R2 b) else read_length h R2 b) ;; k2 n)).
    { intros b Hb s1 s2 Hr. pose proof (lock_length b) as Hl.
      assert (Hl' : lock (if f_eof a then catch_eof 0 (read_length h R1 b) else read_length h R1 b)
                         (if f_eof a then catch_eof 0 (read_length h R2 b) else read_length h R2 b))
        by (destruct (f_eof a); [apply lock_catch; auto|exact Hl]).
      assert (Hp : forall n, fst ((if f_eof a then catch_eof 0 (read_length h R2 b) else read_length h R2 b) s2) = Ok n ->
        possible_length h (LType b) n).
      { intros n. specialize (Hlen b). destruct (f_eof a); [|apply (Hlen _ s1 s2 Hr)]. unfold catch_eof.
        specialize (Hlen n s1 s2 Hr). destruct (read_length h R2 b s2) as [[x|er|f] s]; cbn [fst] in *; auto.
        - destruct (is_eof er); cbn [fst]; [|discriminate]. intros E. injection E as <-. split; lia. }
      clear Hl. specialize (Hl' s1 s2 Hr). unfold bind.
      set (l1 := if f_eof a then catch_eof 0 (read_length h R1 b) else _) in *.
      set (l2 := if f_eof a then catch_eof 0 (read_length h R2 b) else _) in *.
      destruct (l1 s1) as [r1 s1'], (l2 s2) as [r2 s2'].
      cbn [fst snd] in *. destruct Hl' as [(er & -> & Hio)|[(er & -> & Hio)|(-> & Hr')]].
      - left. exists er. auto.
      - right. left. exists er. auto.
      - destruct r2 as [n|er|f]; [|right; right; auto..]. apply Hk; [|exact Hr']. auto. }
    destruct (f_len a) as [|b|f|] eqn:El.
    - apply Hpre. intros n [H _]. exact H.
    - apply Hpre. auto.
    - destruct (f prev) as [n|] eqn:Ef; [|apply lock_crash]. apply Hk. exists prev. exact Ef.
    - auto.
  Qed.

  (* ---------------------------------------------------------------- *)
  (** ** Every type *)

  (** Where lending matters: [cow lm t]: borrowed slices of [t] are the same as
      copied ones; [refs]: references can be read; [consts c]: a constant can be
      compared. *)
  Context (cow : lenmode -> ty -> Prop) (refs : Prop) (consts : bytes -> Prop).

  Definition lendable_field (len : lenmode -> ty -> Prop) (a : fattrs) (t : ty) : Prop :=
    f_skip a = true
    \/ (consts (f_prefix a) /\ (f_eof a = true -> catching) /\ len (if sized_field a t then f_len a else LDefault) t).

  Fixpoint lendable (lm : lenmode) (t : ty) {struct t} : Prop :=
    match t with
    | TScalar _ | TBot => True
    | TStr k =>
      match k with
      | KRefStr => refs
      | KCowStr | KRegex => cow lm TU8
      | _ => True
      end /\ (lm = LEof -> catching)
    | TSeq k t' =>
      match k with KRef => refs | KCow => cow lm t' | _ => True end /\ lendable LDefault t' /\ (lm = LEof -> catching)
    | TArr t' _ => lendable LDefault t'
    | TRefArr t' _ => refs
    | TOption t' => lendable lm t'
    | TResult t1 t2 => lendable LDefault t1 /\ lendable LDefault t2
    | TTuple ts => all_tys (lendable LDefault) ts
    | TRange _ t' => lendable LDefault t'
    | TSet _ t' => lendable LDefault t' /\ (lm = LEof -> catching)
    | TMap _ tk tv => lendable LDefault tk /\ lendable LDefault tv /\ (lm = LEof -> catching)
    | TBox t' => lendable LDefault t'
    | TStruct _ fs => all_fields (lendable_field lendable) fs
    | TEnum d vs => (e_peek d = true -> peeks) /\ all_variants (all_fields (lendable_field lendable)) vs
    end.

  Context (Hcow : forall lm t rd1 rd2 n, cow lm t -> possible_length h lm n -> lock rd1 rd2 ->
             lock (read_cow h R1 t rd1 n) (read_cow h R2 t rd2 n)).
  Context (Hrefs : refs -> rd_borrow R1 = None /\ rd_borrow R2 = None
                           /\ rd_borrow_eof R1 = None /\ rd_borrow_eof R2 = None).
  Context (Hconsts : forall c, consts c -> c <> [] -> lock (read_constant h R1 c) (read_constant h R2 c)).
  Context (Hlen : forall b n s1 s2, rel s1 s2 -> fst (read_length h R2 b s2) = Ok n -> possible_length h (LType b) n).

  Lemma lock_borrowed n : refs -> lock (borrowed R1 n) (borrowed R2 n).
  Proof. intros H. destruct (Hrefs H) as (E1 & E2 & _). unfold borrowed. rewrite E1, E2. apply lock_fail. Qed.

  Lemma lock_cast t n b : lock (cast_slice h t n b) (cast_slice h t n b).
  Proof. unfold cast_slice. destruct (_ =? _); [destruct (forallb _ _); [apply lock_ret|apply lock_crash]|apply lock_crash]. Qed.

  Lemma lock_ref_slice t n : refs -> lock (read_ref_slice h R1 t n) (read_ref_slice h R2 t n).
  Proof.
    intros H. unfold read_ref_slice. destruct (_ <? _); [apply lock_fail|].
    apply lock_bind; [apply lock_borrowed, H|]. intros. apply lock_cast.
  Qed.

  Lemma lock_borrow_eof {A} (k1 : N * bytes -> M S1 A) k2 : refs -> (forall b, lock (k1 b) (k2 b)) ->
    lock (b <- match rd_borrow_eof R1 with Some b => b | None => fail Unsized end ;; k1 b)
         (b <- match rd_borrow_eof R2 with Some b => b | None => fail Unsized end ;; k2 b).
  Proof.
    intros H Hk. destruct (Hrefs H) as (_ & _ & E1 & E2). rewrite E1, E2.
    apply lock_bind; [apply lock_fail|exact Hk].
  Qed.

  Lemma lock_cow_u8 lm n : cow lm TU8 -> possible_length h lm n ->
    lock (read_cow_u8 h R1 n) (read_cow_u8 h R2 n).
  Proof. intros H Hn. apply lock_map. eapply Hcow; [exact H|exact Hn|apply lock_elem_u8]. Qed.

  Notation rd1 := (read h R1).
  Notation rd2 := (read h R2).

  Definition inner_lock (t : ty) : Prop := forall a prev vi, (f_eof a = true -> catching) ->
    lendable (if is_container t then f_len a else LDefault) t ->
    lock (read_field_inner h R1 rd1 prev a vi t) (read_field_inner h R2 rd2 prev a vi t).

  Definition type_lock (t : ty) : Prop :=
    (lendable LDefault t -> lock (rd1 t) (rd2 t)) /\ inner_lock t
    /\ (forall t', t = TOption t' -> inner_lock t').

  Lemma lock_field prev a t : type_lock t -> f_skip a = false -> lendable_field lendable a t ->
    lock (read_field h R1 rd1 prev a t) (read_field h R2 rd2 prev a t).
  Proof.
    intros (Ht & Hi & Ho) Hs [Hs'|(Hc & Hcat & Hsup)]; [congruence|].
    unfold read_field.
    match goal with |- lock (if _ then catch_eof _ ?m else _) (if _ then catch_eof _ ?d else _) =>
      assert (Hbody : lock m d) end.
    { apply lock_bind.
      - destruct (f_prefix a) eqn:Ep; [apply lock_ret|]. apply Hconsts; [exact Hc|discriminate].
      - intros _. unfold sized_field in *. destruct (f_opaque a) eqn:Eo; cbn [negb andb] in *; [auto|].
        specialize (Hi a prev). destruct t; try exact (Hi _ Hcat Hsup).
        apply lock_bind; [apply lock_u8|]. intros x.
        destruct (x =? 0); [apply lock_ret|]. apply lock_map.
        apply (Ho _ eq_refl a prev); assumption. }
    destruct (f_eof a); [|exact Hbody]. apply lock_catch; auto.
  Qed.

  Lemma lock_fields fs : Forall (fun f => type_lock (snd f)) fs ->
    all_fields (lendable_field lendable) fs -> forall prev,
    lock (read_fields h R1 rd1 prev fs) (read_fields h R2 rd2 prev fs).
  Proof.
    induction 1 as [|f r Hf Hr IH]; intros Hs prev; cbn [read_fields]; [apply lock_ret|].
    destruct Hs as [Hs Hsr]. destruct (f_skip (fst f)) eqn:Ek; [apply lock_map, IH, Hsr|].
    apply lock_bind; [apply lock_field; assumption|]. intros v.
    apply lock_bind; [apply IH, Hsr|]. intros. apply lock_ret.
  Qed.

  Lemma lock_variant tag vs : Forall (fun v => Forall (fun f => type_lock (snd f)) (snd v)) vs ->
    all_variants (all_fields (lendable_field lendable)) vs -> forall i,
    lock (read_variant h R1 rd1 tag i vs) (read_variant h R2 rd2 tag i vs).
  Proof.
    induction 1 as [|v r Hv Hr IH]; intros Hs i; cbn [read_variant]; [apply lock_fail|].
    destruct Hs as [Hs Hsr]. destruct (fst v =? tag); [|apply IH, Hsr].
    apply lock_map, lock_fields; assumption.
  Qed.

  Lemma lock_inner_plain t : is_container t = false -> (forall t' n, t <> TArr t' n) ->
    (lendable LDefault t -> lock (rd1 t) (rd2 t)) -> inner_lock t.
  Proof.
    intros Hc Ha H a prev vi _. rewrite Hc. intros Hs.
    destruct t as [[]|[]|[]| | | | | | |[]|[]| | | |]; try discriminate; try exact (H Hs).
    - cbn [read_field_inner]. destruct vi; [|exact (H Hs)].
      apply lock_bind; [apply lock_varint|]. intros. apply lock_ret.
    - exfalso. eapply Ha. reflexivity.
  Qed.

  Lemma lock_prefix (k1 : N -> M S1 val) k2 : (forall n, possible_length h LDefault n -> lock (k1 n) (k2 n)) ->
    lock (n <- read_length h R1 BU32 ;; k1 n) (n <- read_length h R2 BU32 ;; k2 n).
  Proof.
    intros Hk. apply (lock_with_length [] plain k1 k2 (fail Unsized) (fail Unsized)).
    - discriminate.
    - exact Hk.
    - discriminate.
    - exact Hlen.
  Qed.

  Theorem lock_all t : type_lock t.
  Proof.
    induction t as [s|k|k t IH|t n IH|t n IH|t IH|t1 t2 IH1 IH2|ts IH|i t IH|k t IH|k tk tv IHk IHv|t IH|d fs IH|d vs IH|]
      using ty_ind'.
    - assert (H : lendable LDefault (TScalar s) -> lock (rd1 (TScalar s)) (rd2 (TScalar s)))
        by (intros _; apply lock_scalar).
      split; [exact H|split; [|intros; discriminate]]. apply lock_inner_plain; [reflexivity|discriminate|exact H].
    - assert (H : lendable LDefault (TStr k) -> lock (rd1 (TStr k)) (rd2 (TStr k))).
      { intros [Hs _]. cbn [read read_str]. apply lock_prefix. intros n Hn.
        destruct k; cbn [lendable] in Hs.
        - apply lock_bind; [apply lock_vec_u8|]. intros. apply lock_str.
        - apply lock_bind; [apply lock_vec_u8|]. intros. apply lock_str.
        - apply lock_bind; [eapply lock_cow_u8; eassumption|]. intros. apply lock_str.
        - apply lock_bind; [apply lock_borrowed, Hs|]. intros. apply lock_str.
        - apply lock_bind; [eapply lock_cow_u8; eassumption|]. intros.
          apply lock_bind; [apply lock_str|]. intros. destruct (l_regex_ok _ _); [apply lock_ret|apply lock_fail]. }
      split; [exact H|split; [|intros; discriminate]].
      destruct k; try (apply lock_inner_plain; [reflexivity|discriminate|exact H]);
        intros a prev vi Hcat [Hs He]; cbn [is_container] in *;
        cbn [read_field_inner]; (apply lock_with_length; [exact Hcat| | |exact Hlen]).
      + intros n Hn. apply lock_bind; [apply lock_vec_u8|]. intros. apply lock_str.
      + intros El. apply lock_bind; [apply lock_until_eof; [exact (He El)|apply lock_elem_u8]|]. intros. apply lock_str.
      + intros n Hn. apply lock_bind; [eapply lock_cow_u8; eassumption|]. intros. apply lock_str.
      + intros El. apply lock_bind; [apply lock_until_eof; [exact (He El)|apply lock_elem_u8]|]. intros. apply lock_str.
      + intros n Hn. apply lock_bind; [apply lock_borrowed, Hs|]. intros. apply lock_str.
      + intros _. apply lock_borrow_eof; [exact Hs|]. intros. apply lock_str.
    - destruct IH as (IH & _ & _).
      assert (Hcnt : forall lm k n, match k with KRef => refs | KCow => cow lm t | _ => True end ->
         lendable LDefault t -> possible_length h lm n ->
         match k with
         | KVec | KBoxSlice | KSmallVec => lock (read_vec h R1 t (rd1 t) n) (read_vec h R2 t (rd2 t) n)
         | KCow => lock (read_cow h R1 t (rd1 t) n) (read_cow h R2 t (rd2 t) n)
         | KRef => lock (read_ref_slice h R1 t n) (read_ref_slice h R2 t n)
         end).
      { intros lm k0 n He Hs Hn.
        destruct k0; first [apply lock_vec; auto | eapply Hcow; eauto | apply lock_ref_slice; assumption]. }
      assert (H : lendable LDefault (TSeq k t) -> lock (rd1 (TSeq k t)) (rd2 (TSeq k t))).
      { intros (He & Hs & _). cbn [read]. pose proof (fun n => Hcnt LDefault k n He Hs) as Hc.
        destruct k; cbn [read_seq]; try (apply lock_prefix; intros n Hn; apply lock_map, Hc, Hn).
        apply lock_bind; [apply lock_guard|]. intros _. apply lock_prefix. exact Hc. }
      split; [exact H|split; [|intros; discriminate]].
      destruct k; try (apply lock_inner_plain; [reflexivity|discriminate|exact H]);
        intros a prev vi Hcat Hs; cbn [is_container] in *; destruct Hs as (He & Hs & Hu);
        cbn [read_field_inner].
      + pose proof (fun n => Hcnt (f_len a) KVec n He Hs) as Hc. apply lock_with_length; [exact Hcat| | |exact Hlen].
        * intros n Hn. apply lock_map, Hc, Hn.
        * intros El. apply lock_map, lock_until_eof; auto.
      + pose proof (fun n => Hcnt (f_len a) KCow n He Hs) as Hc. apply lock_with_length; [exact Hcat| | |exact Hlen].
        * intros n Hn. apply lock_map, Hc, Hn.
        * intros El. apply lock_map, lock_until_eof; auto.
      + pose proof (fun n => Hcnt (f_len a) KRef n He Hs) as Hc.
        apply lock_bind; [apply lock_guard|]. intros _. apply lock_with_length; [exact Hcat| | |exact Hlen].
        * intros n Hn. apply Hc, Hn.
        * intros _. apply lock_borrow_eof; [exact He|]. intros.
          destruct (_ =? _); [apply lock_crash|apply lock_cast].
    - destruct IH as (IH & _ & _).
      split; [|split; [|intros; discriminate]].
      + intros Hs. apply lock_array, IH, Hs.
      + intros a prev vi _ Hs. cbn [is_container] in *. cbn [read_field_inner].
        apply lock_map, lock_repeat, IH, Hs.
    - assert (H : lendable LDefault (TRefArr t n) -> lock (rd1 (TRefArr t n)) (rd2 (TRefArr t n))).
      { intros Hb. cbn [read]. unfold read_ref_array. apply lock_bind; [apply lock_guard|]. intros _.
        apply lock_bind; [apply lock_borrowed, Hb|]. intros. apply lock_cast. }
      split; [exact H|split; [|intros; discriminate]]. apply lock_inner_plain; [reflexivity|discriminate|exact H].
    - destruct IH as (IH & Hi & _).
      assert (H : lendable LDefault (TOption t) -> lock (rd1 (TOption t)) (rd2 (TOption t))).
      { intros Hs. cbn [read]. apply lock_bind; [apply lock_u8|]. intros x.
        destruct (x =? 0); [apply lock_ret|]. apply lock_map, IH, Hs. }
      split; [exact H|split].
      + apply lock_inner_plain; [reflexivity|discriminate|exact H].
      + intros t' E. injection E as <-. exact Hi.
    - destruct IH1 as (IH1 & _). destruct IH2 as (IH2 & _).
      assert (H : lendable LDefault (TResult t1 t2) -> lock (rd1 (TResult t1 t2)) (rd2 (TResult t1 t2))).
      { intros [Hs1 Hs2]. cbn [read]. apply lock_bind; [apply lock_u8|]. intros x.
        destruct (x =? 0); apply lock_map; auto. }
      split; [exact H|split; [|intros; discriminate]]. apply lock_inner_plain; [reflexivity|discriminate|exact H].
    - assert (H : lendable LDefault (TTuple ts) -> lock (rd1 (TTuple ts)) (rd2 (TTuple ts))).
      { intros Hs. cbn [read]. apply lock_map. cbn [lendable] in Hs.
        induction IH as [|t r IHt IHr IHl]; cbn [read_tuple]; [apply lock_ret|].
        destruct Hs as [Hs Hsr]. apply lock_bind; [apply IHt, Hs|]. intros v.
        apply lock_bind; [apply IHl, Hsr|]. intros. apply lock_ret. }
      split; [exact H|split; [|intros; discriminate]]. apply lock_inner_plain; [reflexivity|discriminate|exact H].
    - destruct IH as (IH & _).
      assert (H : lendable LDefault (TRange i t) -> lock (rd1 (TRange i t)) (rd2 (TRange i t))).
      { intros Hs. cbn [read]. apply lock_bind; [apply IH, Hs|]. intros x.
        apply lock_bind; [apply IH, Hs|]. intros. apply lock_ret. }
      split; [exact H|split; [|intros; discriminate]]. apply lock_inner_plain; [reflexivity|discriminate|exact H].
    - destruct IH as (IH & _).
      assert (H : lendable LDefault (TSet k t) -> lock (rd1 (TSet k t)) (rd2 (TSet k t))).
      { intros [Hs _]. cbn [read]. apply lock_prefix. intros n Hn. apply lock_collection; auto. }
      split; [exact H|split; [|intros; discriminate]].
      destruct k; try (apply lock_inner_plain; [reflexivity|discriminate|exact H]);
        intros a prev vi Hcat [Hs He]; cbn [is_container] in *; cbn [read_field_inner];
        (apply lock_with_length; [exact Hcat| | |exact Hlen]);
        try (intros n Hn; apply lock_collection; auto; fail);
        intros El; (apply lock_bind; [apply lock_until_eof; auto|]); intros; apply lock_ret.
    - destruct IHk as (IHk & _). destruct IHv as (IHv & _).
      assert (H : lendable LDefault (TMap k tk tv) -> lock (rd1 (TMap k tk tv)) (rd2 (TMap k tk tv))).
      { intros (Hs1 & Hs2 & _). cbn [read]. apply lock_prefix. intros n Hn. apply lock_map_impl; auto. }
      split; [exact H|split; [|intros; discriminate]].
      destruct k; try (apply lock_inner_plain; [reflexivity|discriminate|exact H]);
        intros a prev vi Hcat (Hs1 & Hs2 & He); cbn [is_container] in *; cbn [read_field_inner];
        (apply lock_with_length; [exact Hcat| | |exact Hlen]);
        try (intros n Hn; apply lock_kv; auto; fail);
        intros El; (apply lock_bind; [apply lock_until_eof; [auto|apply lock_pair; auto]|]); intros; apply lock_ret.
    - destruct IH as (IH & _).
      assert (H : lendable LDefault (TBox t) -> lock (rd1 (TBox t)) (rd2 (TBox t))) by exact IH.
      split; [exact H|split; [|intros; discriminate]]. apply lock_inner_plain; [reflexivity|discriminate|exact H].
    - assert (H : lendable LDefault (TStruct d fs) -> lock (rd1 (TStruct d fs)) (rd2 (TStruct d fs))).
      { intros Hs. apply lock_map, lock_fields; assumption. }
      split; [exact H|split; [|intros; discriminate]]. apply lock_inner_plain; [reflexivity|discriminate|exact H].
    - assert (H : lendable LDefault (TEnum d vs) -> lock (rd1 (TEnum d vs)) (rd2 (TEnum d vs))).
      { intros [Hp Hs]. cbn [read]. apply lock_bind; [apply lock_tag, Hp|]. intros tag. apply lock_variant; assumption. }
      split; [exact H|split; [|intros; discriminate]]. apply lock_inner_plain; [reflexivity|discriminate|exact H].
    - assert (H : lendable LDefault TBot -> lock (rd1 TBot) (rd2 TBot)) by (intros _; apply lock_crash).
      split; [exact H|split; [|intros; discriminate]]. apply lock_inner_plain; [reflexivity|discriminate|exact H].
  Qed.

  Theorem lock_read t : lendable LDefault t -> lock (rd1 t) (rd2 t).
  Proof. apply lock_all. Qed.
End Lock.
