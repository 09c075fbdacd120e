(* Replaying what a reader saw: a run of the reader of Changing.v is a run of the
   CopyingBufferReader over the bytes it saw, for types that never peek. *)
From Verif Require Export Changing LockReaders Wellformed.

(** Bytes seen from offset [p] on, in the order of their offsets: byte [x] was there
    at moment [w]; the moments do not go back, and lie between [t0] and [t1]. *)
Fixpoint seen (content : nat -> N -> byte) (t0 : nat) (p : N) (ws : list nat) (b : bytes) (t1 : nat) : Prop :=
  match ws, b with
  | [], [] => (t0 <= t1)%nat
  | w :: ws', x :: b' => (t0 <= w)%nat /\ x = content w p /\ seen content w (p + 1) ws' b' t1
  | _, _ => False
  end.

Lemma seen_earlier content ws : forall t0 t0' p b t1, (t0' <= t0)%nat ->
  seen content t0 p ws b t1 -> seen content t0' p ws b t1.
Proof. destruct ws, b; cbn [seen]; auto; intros; [lia|]. intuition lia. Qed.

Lemma seen_app content ws2 b2 t2 : forall ws1 t0 p b1 t1, seen content t0 p ws1 b1 t1 ->
  seen content t1 (p + nlen b1) ws2 b2 t2 -> seen content t0 p (ws1 ++ ws2) (b1 ++ b2) t2.
Proof.
  induction ws1 as [|w ws1 IH]; intros t0 p [|x b1] t1 H1 H2; cbn [seen app] in *; try contradiction.
  - rewrite nlen_nil, N.add_0_r in H2. eapply seen_earlier; eassumption.
  - destruct H1 as (Hw & Hx & H1). split; [exact Hw|]. split; [exact Hx|].
    eapply IH; [exact H1|]. rewrite nlen_cons in H2. replace (p + 1 + nlen b1) with (p + (nlen b1 + 1)) by lia. exact H2.
Qed.

Lemma seen_once content t : forall k p t1, (t <= t1)%nat ->
  seen content t p (repeat t k) (map (fun i => content t (p + N.of_nat i)) (seq 0 k)) t1.
Proof.
  induction k as [|k IH]; intros p t1 Ht; cbn [repeat seq map seen]; [exact Ht|].
  split; [apply le_n|]. split; [f_equal; lia|].
  rewrite <- seq_shift, map_map.
  replace (map (fun x => content t (p + N.of_nat (S x))) (seq 0 k))
    with (map (fun i => content t (p + 1 + N.of_nat i)) (seq 0 k)).
  - apply IH, Ht.
  - apply map_ext. intros i. f_equal. lia.
Qed.

Lemma seen_length content ws : forall t0 p b t1, seen content t0 p ws b t1 -> length ws = length b.
Proof.
  induction ws as [|w ws IH]; intros t0 p [|x b] t1 H; cbn [seen] in H; try contradiction; [reflexivity|].
  cbn [length]. f_equal. eapply IH, H.
Qed.

Lemma seen_le content ws : forall t0 p b t1, seen content t0 p ws b t1 -> (t0 <= t1)%nat.
Proof.
  induction ws as [|w ws IH]; intros t0 p [|x b] t1 H; cbn [seen] in H; try contradiction; [exact H|].
  destruct H as (H1 & _ & H2). apply IH in H2. lia.
Qed.

Section Replay.
  Context (size : N) (content : nat -> N -> byte) (h : host) (e : endian).
  Notation R1 := (ChangingReader size content e).
  Notation R2 := (CopyingBufferReader e).
  Notation left := (ch_left size).

  (** What [m1] does is what [m2] does with the bytes [m1] saw, whatever comes after
      them. *)
  Definition replay {A} (m1 : M looker A) (m2 : M breader A) : Prop :=
    forall s1, ch_pos s1 <= size ->
      let s1' := snd (m1 s1) in
      exists ws b, seen content (ch_time s1) (ch_pos s1) ws b (ch_time s1')
        /\ ch_pos s1' = ch_pos s1 + nlen b /\ ch_pos s1' <= size
        /\ forall s2 tail, br_rest s2 = b ++ tail -> nlen tail = left s1' ->
             fst (m2 s2) = fst (m1 s1) /\ br_rest (snd (m2 s2)) = tail.

  Lemma replay_lift {A} (r : res A) : replay (lift r) (lift r).
  Proof.
    intros s1 Hs. exists [], []. cbn [seen snd fst lift]. split; [apply le_n|]. split; [rewrite nlen_nil; lia|].
    split; [exact Hs|]. intros s2 tail H _. split; [reflexivity|exact H].
  Qed.
  Lemma replay_ret {A} (a : A) : replay (ret a) (ret a).
  Proof. apply (replay_lift (Ok a)). Qed.
  Lemma replay_fail {A} er : replay (A := A) (fail er) (fail er).
  Proof. apply (replay_lift (Err er)). Qed.
  Lemma replay_crash {A} f : replay (A := A) (crash f) (crash f).
  Proof. apply (replay_lift (Fault f)). Qed.

  (** One after the other. *)
  Lemma replay_then {A B} (m1 : M looker A) (m2 : M breader A) (k1 : res A -> M looker B) k2 :
    replay m1 m2 -> (forall r, replay (k1 r) (k2 r)) ->
    replay (fun s => k1 (fst (m1 s)) (snd (m1 s))) (fun s => k2 (fst (m2 s)) (snd (m2 s))).
  Proof.
    intros Hm Hk s1 Hs. destruct (Hm s1 Hs) as (ws & b & Hw & Hp & Hs' & H2).
    destruct (Hk (fst (m1 s1)) _ Hs') as (ws' & b' & Hw' & Hp' & Hs'' & H2').
    exists (ws ++ ws'), (b ++ b'). split; [eapply seen_app; [exact Hw|rewrite <- Hp; exact Hw']|].
    split; [rewrite nlen_app; lia|]. split; [exact Hs''|]. intros s2 tail E Hl.
    rewrite <- app_assoc in E. destruct (H2 s2 (b' ++ tail) E) as [E1 E2].
    { rewrite nlen_app. unfold ch_left in *. lia. }
    rewrite E1. apply H2'; [exact E2|exact Hl].
  Qed.

  Lemma replay_ext {A} (m1 m1' : M looker A) (m2 m2' : M breader A) :
    (forall s, m1 s = m1' s) -> (forall s, m2 s = m2' s) -> replay m1 m2 -> replay m1' m2'.
  Proof.
    intros H1 H2 H s1 Hs. destruct (H s1 Hs) as (ws & b & H'). exists ws, b. rewrite <- H1.
    destruct H' as (Ha & Hb & Hc & Hd). split; [exact Ha|]. split; [exact Hb|]. split; [exact Hc|].
    intros s2 tail. rewrite <- H2. apply Hd.
  Qed.

  Lemma replay_bind {A B} (m1 : M looker A) (m2 : M breader A) (k1 : A -> M looker B) k2 :
    replay m1 m2 -> (forall a, replay (k1 a) (k2 a)) -> replay (bind m1 k1) (bind m2 k2).
  Proof.
    intros Hm Hk.
    set (j1 := fun r : res A => match r with Ok a => k1 a | Err er => fail er | Fault f => crash f end).
    set (j2 := fun r : res A => match r with Ok a => k2 a | Err er => fail er | Fault f => crash f end).
    apply (replay_ext (fun s => j1 (fst (m1 s)) (snd (m1 s))) _ (fun s => j2 (fst (m2 s)) (snd (m2 s))) _).
    - intros s. unfold bind, j1. destruct (m1 s) as [[a|er|f] s']; reflexivity.
    - intros s. unfold bind, j2. destruct (m2 s) as [[a|er|f] s']; reflexivity.
    - apply replay_then; [exact Hm|]. intros [a|er|f]; cbn [j1 j2]; [apply Hk|apply replay_fail|apply replay_crash].
  Qed.

  Lemma replay_map {A B} (f : A -> B) (m1 : M looker A) (m2 : M breader A) :
    replay m1 m2 -> replay (mmap f m1) (mmap f m2).
  Proof. intros H. apply replay_bind; [exact H|]. intros. apply replay_ret. Qed.

  Lemma replay_repeat {A} (m1 : M looker A) (m2 : M breader A) n :
    replay m1 m2 -> replay (repeatM m1 n) (repeatM m2 n).
  Proof.
    intros H. induction n; cbn [repeatM]; [apply replay_ret|].
    apply replay_bind; [exact H|]. intros. apply replay_bind; [exact IHn|]. intros. apply replay_ret.
  Qed.

  Lemma replay_catch {A} (dflt : A) (m1 : M looker A) (m2 : M breader A) :
    replay m1 m2 -> replay (catch_eof dflt m1) (catch_eof dflt m2).
  Proof.
    intros Hm.
    set (j := fun St (r : res A) => match r with
              | Err er => if is_eof er then ret dflt else fail er
              | r => lift (S := St) r end).
    apply (replay_ext (fun s => j _ (fst (m1 s)) (snd (m1 s))) _ (fun s => j _ (fst (m2 s)) (snd (m2 s))) _).
    - intros s. unfold catch_eof, j. destruct (m1 s) as [[a|er|f] s']; try reflexivity. cbn. destruct (is_eof er); reflexivity.
    - intros s. unfold catch_eof, j. destruct (m2 s) as [[a|er|f] s']; try reflexivity. cbn. destruct (is_eof er); reflexivity.
    - apply replay_then; [exact Hm|]. intros [a|er|f]; cbn [j]; try apply replay_lift.
      destruct (is_eof er); [apply replay_ret|apply replay_fail].
  Qed.

  Lemma replay_until (m1 : M looker val) (m2 : M breader val) k :
    replay m1 m2 -> replay (until_eof_loop m1 k) (until_eof_loop m2 k).
  Proof.
    intros Hm. induction k as [|k IH]; cbn [until_eof_loop]; [apply replay_crash|].
    set (j := fun St (l : M St (list val)) (r : res val) => match r with
              | Ok v => mmap (cons v) l
              | Err er => if is_eof er then ret [] else fail er
              | Fault f => crash f end).
    apply (replay_ext (fun s => j _ (until_eof_loop m1 k) (fst (m1 s)) (snd (m1 s))) _
                      (fun s => j _ (until_eof_loop m2 k) (fst (m2 s)) (snd (m2 s))) _).
    - intros s. unfold j. destruct (m1 s) as [[a|er|f] s']; try reflexivity. cbn. destruct (is_eof er); reflexivity.
    - intros s. unfold j. destruct (m2 s) as [[a|er|f] s']; try reflexivity. cbn. destruct (is_eof er); reflexivity.
    - apply replay_then; [exact Hm|]. intros [a|er|f]; cbn [j]; [apply replay_map, IH| |apply replay_crash].
      destruct (is_eof er); [apply replay_ret|apply replay_fail].
  Qed.

  (* ---------------------------------------------------------------- *)
  (** ** The readers *)

  Lemma replay_rd n : replay (ch_read size content n) (br_read n).
  Proof.
    intros s1 Hs. unfold ch_read. destruct (N.leb_spec n (left s1)) as [Hn|Hn]; cbn [fst snd].
    - exists (repeat (ch_time s1) (N.to_nat n)), (ch_look content n s1).
      assert (Hl : nlen (ch_look content n s1) = n) by (unfold ch_look; rewrite nlen_map; unfold nlen; rewrite seq_length; lia).
      split; [apply seen_once; cbn; lia|]. rewrite Hl. split; [reflexivity|]. unfold ch_left in *.
      split; [cbn; lia|]. intros s2 tail E Ht. unfold br_read, br_advance. rewrite E, nlen_app, Hl.
      destruct (N.leb_spec n (n + nlen tail)); [|lia]. cbn [fst snd br_rest].
      rewrite take_app_exact, drop_app_exact by exact Hl. auto.
    - exists [], []. cbn [seen]. split; [apply le_n|]. rewrite nlen_nil. split; [lia|]. split; [exact Hs|].
      intros s2 tail E Ht. unfold br_read. rewrite E. cbn [app]. rewrite Ht.
      destruct (N.leb_spec n (left s1)); [lia|]. auto.
  Qed.

  Lemma replay_require n : replay (require R1 n) (require R2 n).
  Proof.
    intros s1 Hs. exists [], []. unfold require. cbn [ChangingReader rd_can]. unfold ch_can.
    destruct (n <=? left s1) eqn:En; cbn [fst snd ret fail lift seen]; rewrite nlen_nil;
      (split; [apply le_n|]); (split; [lia|]); (split; [exact Hs|]); intros s2 tail E Ht; cbn [app] in E;
      unfold require; cbn [CopyingBufferReader rd_can]; unfold br_can; rewrite E, Ht, En; auto.
  Qed.

  Lemma replay_rd_alloc n esize min : replay (ch_alloc size n esize min) (br_alloc n esize min).
  Proof.
    intros s1 Hs. exists [], []. cbn [ch_alloc fst snd ch_time ch_pos seen]. rewrite nlen_nil.
    split; [apply le_n|]. split; [lia|]. split; [exact Hs|]. intros s2 tail E _. cbn. auto.
  Qed.

  Lemma replay_until_eof rd1 rd2 : replay rd1 rd2 -> replay (read_until_eof R1 rd1) (read_until_eof R2 rd2).
  Proof.
    intros Hrd s1 Hs. pose proof (replay_until rd1 rd2 (ch_fuel size s1) Hrd s1 Hs) as (ws & b & Hw & Hp & Hs' & H2).
    exists ws, b. unfold read_until_eof. cbn [ChangingReader rd_fuel]. split; [exact Hw|]. split; [exact Hp|].
    split; [exact Hs'|]. intros s2 tail E Ht. cbn [CopyingBufferReader rd_fuel].
    replace (br_fuel s2) with (ch_fuel size s1); [apply H2; assumption|].
    unfold ch_fuel, br_fuel. f_equal. rewrite E, app_length. unfold ch_left, nlen in *.
    match goal with |- N.to_nat ?x = ?y => enough (x = N.of_nat y) by lia end.
    cbv zeta in *. cbn [ChangingReader rd_fuel] in *. lia.
  Qed.

  Lemma replay_u8 : replay (read_u8 R1) (read_u8 R2).
  Proof.
    apply replay_bind; [apply replay_require|]. intros _. apply replay_bind; [apply replay_rd|]. intros. apply replay_ret.
  Qed.

  Lemma replay_uint w : replay (read_uint h R1 w) (read_uint h R2 w).
  Proof.
    apply replay_bind; [apply replay_require|]. intros _. apply replay_bind; [apply replay_rd|]. intros.
    apply replay_ret.
  Qed.

  Lemma replay_prim p : replay (read_prim h R1 p) (read_prim h R2 p).
  Proof.
    apply replay_bind; [|intros; apply replay_ret]. destruct p; try apply replay_u8; apply replay_uint.
  Qed.

  Lemma replay_varint : replay (read_varint h R1) (read_varint h R2).
  Proof.
    apply replay_bind; [apply replay_u8|]. intros. apply replay_bind; [apply replay_rd|]. intros. apply replay_ret.
  Qed.

  Lemma replay_length b : replay (read_length h R1 b) (read_length h R2 b).
  Proof.
    destruct b; cbn [read_length]; first [apply replay_u8 | apply replay_uint | idtac].
    - apply replay_bind; [apply replay_u8|]. intros n. destruct (_ <? _); [apply replay_fail|apply replay_ret].
    - apply replay_bind; [apply replay_uint|]. intros n. destruct (_ <? _); [apply replay_fail|apply replay_ret].
    - apply replay_bind; [apply replay_varint|]. intros n. destruct (_ <? _); [apply replay_fail|apply replay_ret].
  Qed.

  Lemma replay_alloc n esize min : replay (alloc h R1 n esize min) (alloc h R2 n esize min).
  Proof. unfold alloc. destruct (_ <? _); [apply replay_crash|apply replay_rd_alloc]. Qed.

  Lemma replay_vec t rd1 rd2 n : replay rd1 rd2 -> replay (read_vec h R1 t rd1 n) (read_vec h R2 t rd2 n).
  Proof.
    intros Hrd. unfold read_vec.
    apply replay_bind; [destruct (_ <? _); [apply replay_fail|apply replay_require]|]. intros _.
    apply replay_bind; [apply replay_alloc|]. intros _. destruct (is_prim h t).
    - apply replay_bind; [apply replay_rd|]. intros. apply replay_lift.
    - destruct (_ =? _); [apply replay_ret|apply replay_repeat, Hrd].
  Qed.

  Lemma replay_raw k key t n bs : replay (raw_collect h k key t n bs) (raw_collect h k key t n bs).
  Proof.
    unfold raw_collect. destruct (_ =? _); [destruct k; [apply replay_ret|apply replay_crash..]|apply replay_ret].
  Qed.

  Lemma replay_slow {k key n} rd1 rd2 : replay rd1 rd2 ->
    replay (xs <- repeatM rd1 n ;; ret (VSeq (collect k key xs)))
         (xs <- repeatM rd2 n ;; ret (VSeq (collect k key xs))).
  Proof. intros H. apply replay_bind; [apply replay_repeat, H|]. intros. apply replay_ret. Qed.

  Lemma replay_collection k key t rd1 rd2 n : replay rd1 rd2 ->
    replay (read_collection h R1 k key t rd1 n) (read_collection h R2 k key t rd2 n).
  Proof.
    intros Hrd. unfold read_collection, no_conv.
    destruct (_ && _)%bool; [|apply replay_slow, Hrd]. destruct (_ <? _); [apply replay_fail|].
    cbn [ChangingReader CopyingBufferReader rd_borrow_r]. apply replay_bind; [apply replay_rd|]. intros. apply replay_raw.
  Qed.

  Lemma replay_pair rk1 rk2 rv1 rv2 : replay rk1 rk2 -> replay rv1 rv2 -> replay (read_pair rk1 rv1) (read_pair rk2 rv2).
  Proof.
    intros Hk Hv. apply replay_bind; [exact Hk|]. intros. apply replay_bind; [exact Hv|]. intros. apply replay_ret.
  Qed.

  Lemma replay_kv k tk tv rk1 rk2 rv1 rv2 n : replay rk1 rk2 -> replay rv1 rv2 ->
    replay (read_kv h R1 k tk tv rk1 rv1 n) (read_kv h R2 k tk tv rk2 rv2 n).
  Proof.
    intros Hk Hv. unfold read_kv.
    destruct (_ && _)%bool; [|apply replay_slow, replay_pair; assumption]. destruct (_ <? _); [apply replay_fail|].
    cbn [ChangingReader CopyingBufferReader rd_borrow_r]. apply replay_bind; [apply replay_rd|]. intros. apply replay_raw.
  Qed.

  Lemma replay_map_impl k tk tv rk1 rk2 rv1 rv2 n : replay rk1 rk2 -> replay rv1 rv2 ->
    replay (read_map h R1 k tk tv rk1 rv1 n) (read_map h R2 k tk tv rk2 rv2 n).
  Proof.
    intros Hk Hv. destruct k; cbn [read_map];
      first [apply replay_kv; assumption | apply replay_slow, replay_pair; assumption].
  Qed.

  Lemma replay_ipv4 : replay (read_ipv4 h R1) (read_ipv4 h R2).
  Proof. apply replay_bind; [apply replay_uint|]. intros. apply replay_ret. Qed.

  Lemma replay_ipv6 : replay (read_ipv6 h R1) (read_ipv6 h R2).
  Proof.
    apply replay_bind; [apply replay_rd|]. intros. apply replay_ret.
  Qed.

  Lemma replay_duration : replay (read_duration h R1) (read_duration h R2).
  Proof.
    apply replay_bind; [apply replay_uint|]. intros. apply replay_bind; [apply replay_uint|]. intros. apply replay_lift.
  Qed.

  Lemma replay_scalar s : replay (read_scalar h R1 s) (read_scalar h R2 s).
  Proof.
    destruct s; cbn [read_scalar];
      first [ apply replay_ret | apply replay_ipv4 | apply replay_ipv6 | apply replay_duration | idtac ];
      apply replay_bind;
      first [ apply replay_prim | apply replay_u8 | apply replay_uint | apply replay_varint | apply replay_duration
            | apply replay_rd | apply replay_repeat | idtac ]; intros;
      repeat match goal with
             | |- replay (if ?b then _ else _) _ => destruct b
             | |- replay (ret _) _ => apply replay_ret
             | |- replay (fail _) _ => apply replay_fail
             | |- replay (crash _) _ => apply replay_crash
             | |- replay (bind (read_ipv4 _ _) _) _ => apply replay_bind; [apply replay_ipv4|intros]
             | |- replay (bind (read_ipv6 _ _) _) _ => apply replay_bind; [apply replay_ipv6|intros]
             | |- replay (bind (read_uint _ _ _) _) _ => apply replay_bind; [apply replay_uint|intros]
             | |- replay (bind (read_prim _ _ _) _) _ => apply replay_bind; [apply replay_prim|intros]
             end.
    destruct a as [| | | |[|[] ]| | | | |]; try apply replay_crash.
    destruct (_ <? _)%Z; [apply replay_fail|apply replay_ret].
  Qed.

  Lemma replay_str b : replay (to_str b) (to_str b).
  Proof. unfold to_str. destruct (utf8_valid b); [apply replay_ret|apply replay_fail]. Qed.

  Lemma replay_elem_u8 : replay (read_elem_u8 h R1) (read_elem_u8 h R2).
  Proof. apply replay_bind; [apply replay_prim|]. intros. apply replay_ret. Qed.

  Lemma replay_vec_u8 n : replay (read_vec_u8 h R1 n) (read_vec_u8 h R2 n).
  Proof. apply replay_map, replay_vec, replay_elem_u8. Qed.

  Lemma replay_guard t : replay (endianness_guard h R1 t) (endianness_guard h R2 t).
  Proof.
    unfold endianness_guard. destruct (_ && _)%bool; [apply replay_fail|apply replay_ret].
  Qed.

  Lemma replay_array t rd1 rd2 n : replay rd1 rd2 -> replay (read_array h R1 t rd1 n) (read_array h R2 t rd2 n).
  Proof.
    intros Hrd. unfold read_array. destruct (is_prim h t).
    - apply replay_bind; [apply replay_rd|]. intros. apply replay_map, replay_lift.
    - apply replay_map, replay_repeat, Hrd.
  Qed.

  Lemma replay_tag d : e_peek d = false -> replay (read_tag h R1 d) (read_tag h R2 d).
  Proof.
    intros Hp. unfold read_tag. rewrite Hp. destruct (e_tag d); first [apply replay_u8 | apply replay_uint | apply replay_varint].
  Qed.

  Lemma replay_with_length prev a k1 k2 ue1 ue2 : (forall n, replay (k1 n) (k2 n)) -> replay ue1 ue2 ->
    replay (with_length h R1 prev a k1 ue1) (with_length h R2 prev a k2 ue2).
  Proof.
    intros Hk Hue. unfold with_length.
    assert (Hpre : forall b,
      replay (n <- (if f_eof a then catch_eof 0 (read_length h R1 b) else read_length h R1 b) ;; k1 n)
             (n <- (if f_eof a then catch_eof 0 (read_length h R2 b) else read_length h R2 b) ;; k2 n)).
    { intros b. apply replay_bind; [|exact Hk]. destruct (f_eof a); [apply replay_catch|]; apply replay_length. }
    destruct (f_len a) as [|b|f|]; [apply Hpre|apply Hpre| |exact Hue].
    destruct (f prev); [apply Hk|apply replay_crash].
  Qed.

  (* ---------------------------------------------------------------- *)
  (** ** Every type *)

  Lemma replay_borrowed n : replay (borrowed R1 n) (borrowed R2 n).
  Proof. apply replay_fail. Qed.

  Lemma replay_cast t n b : replay (cast_slice h t n b) (cast_slice h t n b).
  Proof. unfold cast_slice. destruct (_ =? _); [destruct (forallb _ _); [apply replay_ret|apply replay_crash]|apply replay_crash]. Qed.

  Lemma replay_ref_slice t n : replay (read_ref_slice h R1 t n) (read_ref_slice h R2 t n).
  Proof.
    unfold read_ref_slice. destruct (_ <? _); [apply replay_fail|].
    apply replay_bind; [apply replay_borrowed|]. intros. apply replay_cast.
  Qed.

  Lemma replay_cow t rd1 rd2 n : replay rd1 rd2 -> replay (read_cow h R1 t rd1 n) (read_cow h R2 t rd2 n).
  Proof.
    intros Hrd. unfold read_cow. cbn [ChangingReader CopyingBufferReader rd_borrow].
    change (no_conv h R1 t) with (no_conv h R2 t). destruct (is_prim h t && no_conv h R2 t)%bool; apply replay_vec, Hrd.
  Qed.

  Lemma replay_cow_u8 n : replay (read_cow_u8 h R1 n) (read_cow_u8 h R2 n).
  Proof. apply replay_map, replay_cow, replay_elem_u8. Qed.

  Lemma replay_constant c : replay (read_constant h R1 c) (read_constant h R2 c).
  Proof.
    unfold read_constant. apply replay_bind; [|intros b; destruct (list_eq_dec _ _ _); [apply replay_ret|apply replay_fail]].
    apply replay_vec_u8.
  Qed.

  Lemma replay_prefix (k1 : N -> M looker val) k2 : (forall n, replay (k1 n) (k2 n)) ->
    replay (n <- read_length h R1 BU32 ;; k1 n) (n <- read_length h R2 BU32 ;; k2 n).
  Proof. intros Hk. apply replay_bind; [apply replay_length|exact Hk]. Qed.

  Notation rd1 := (read h R1).
  Notation rd2 := (read h R2).

  Notation field_quiet := (fun a t => f_skip a = true \/ no_peek t).

  Definition inner_replay (t : ty) : Prop := forall a prev vi, no_peek t ->
    replay (read_field_inner h R1 rd1 prev a vi t) (read_field_inner h R2 rd2 prev a vi t).

  Definition type_replay (t : ty) : Prop :=
    (no_peek t -> replay (rd1 t) (rd2 t)) /\ inner_replay t
    /\ (forall t', t = TOption t' -> inner_replay t').

  Lemma replay_field prev a t : type_replay t -> no_peek t ->
    replay (read_field h R1 rd1 prev a t) (read_field h R2 rd2 prev a t).
  Proof.
    intros (Ht & Hi & Ho) Hsup.
    unfold read_field.
    match goal with |- replay (if _ then catch_eof _ ?m else _) (if _ then catch_eof _ ?d else _) =>
      assert (Hbody : replay m d) end.
    { apply replay_bind.
      - destruct (f_prefix a) eqn:Ep; [apply replay_ret|]. apply replay_constant.
      - intros _. destruct (f_opaque a) eqn:Eo; [auto|].
        specialize (Hi a prev). destruct t; try exact (Hi _ Hsup).
        apply replay_bind; [apply replay_u8|]. intros x.
        destruct (x =? 0); [apply replay_ret|]. apply replay_map.
        apply (Ho _ eq_refl a prev); assumption. }
    destruct (f_eof a); [|exact Hbody]. apply replay_catch; auto.
  Qed.

  Lemma replay_fields fs : Forall (fun f => type_replay (snd f)) fs ->
    all_fields field_quiet fs -> forall prev,
    replay (read_fields h R1 rd1 prev fs) (read_fields h R2 rd2 prev fs).
  Proof.
    induction 1 as [|f r Hf Hr IH]; intros Hs prev; cbn [read_fields]; [apply replay_ret|].
    destruct Hs as [Hs Hsr]. destruct (f_skip (fst f)) eqn:Ek; [apply replay_map, IH, Hsr|].
    destruct Hs as [Hs|Hs]; [discriminate|].
    apply replay_bind; [exact (replay_field prev _ _ Hf Hs)|]. intros v.
    apply replay_bind; [apply IH, Hsr|]. intros. apply replay_ret.
  Qed.

  Lemma replay_variant tag vs : Forall (fun v => Forall (fun f => type_replay (snd f)) (snd v)) vs ->
    all_variants (all_fields field_quiet) vs -> forall i,
    replay (read_variant h R1 rd1 tag i vs) (read_variant h R2 rd2 tag i vs).
  Proof.
    induction 1 as [|v r Hv Hr IH]; intros Hs i; cbn [read_variant]; [apply replay_fail|].
    destruct Hs as [Hs Hsr]. destruct (fst v =? tag); [|apply IH, Hsr].
    apply replay_map, replay_fields; assumption.
  Qed.

  Lemma replay_inner_plain t : is_container t = false -> (forall t' n, t <> TArr t' n) ->
    (no_peek t -> replay (rd1 t) (rd2 t)) -> inner_replay t.
  Proof.
    intros Hc Ha H a prev vi Hs.
    destruct t as [[]|[]|[]| | | | | | |[]|[]| | | |]; try discriminate; try exact (H Hs).
    - cbn [read_field_inner]. destruct vi; [|exact (H Hs)].
      apply replay_bind; [apply replay_varint|]. intros. apply replay_ret.
    - exfalso. eapply Ha. reflexivity.
  Qed.

  Theorem replay_all t : type_replay t.
  Proof.
    induction t as [s|k|k t IH|t n IH|t n IH|t IH|t1 t2 IH1 IH2|ts IH|i t IH|k t IH|k tk tv IHk IHv|t IH|d fs IH|d vs IH|]
      using ty_ind'.
    - assert (H : no_peek (TScalar s) -> replay (rd1 (TScalar s)) (rd2 (TScalar s)))
        by (intros _; apply replay_scalar).
      split; [exact H|split; [|intros; discriminate]]. apply replay_inner_plain; [reflexivity|discriminate|exact H].
    - assert (H : no_peek (TStr k) -> replay (rd1 (TStr k)) (rd2 (TStr k))).
      { intros _. cbn [read read_str]. apply replay_prefix. intros n.
        destruct k; (apply replay_bind; [first [apply replay_vec_u8 | apply replay_cow_u8 | apply replay_borrowed]|]);
          intros; try apply replay_str.
        apply replay_bind; [apply replay_str|]. intros. destruct (l_regex_ok _ _); [apply replay_ret|apply replay_fail]. }
      split; [exact H|split; [|intros; discriminate]].
      destruct k; try (apply replay_inner_plain; [reflexivity|discriminate|exact H]);
        intros a prev vi _; cbn [read_field_inner]; apply replay_with_length; intros;
        (apply replay_bind; [first [apply replay_vec_u8 | apply replay_cow_u8 | apply replay_borrowed | apply replay_fail
                                   | apply replay_until_eof, replay_elem_u8]|]); intros; apply replay_str.
    - destruct IH as (IH & _ & _).
      assert (H : no_peek (TSeq k t) -> replay (rd1 (TSeq k t)) (rd2 (TSeq k t))).
      { intros Hs. specialize (IH Hs). cbn [read].
        destruct k; cbn [read_seq]; try (apply replay_prefix; intros n; apply replay_map;
          first [apply replay_vec, IH | apply replay_cow, IH]).
        apply replay_bind; [apply replay_guard|]. intros _. apply replay_prefix. intros. apply replay_ref_slice. }
      split; [exact H|split; [|intros; discriminate]].
      destruct k; try (apply replay_inner_plain; [reflexivity|discriminate|exact H]);
        intros a prev vi Hs; specialize (IH Hs); cbn [read_field_inner].
      + apply replay_with_length; [intros; apply replay_map, replay_vec, IH|apply replay_map, replay_until_eof, IH].
      + apply replay_with_length; [intros; apply replay_map, replay_cow, IH|apply replay_map, replay_until_eof, IH].
      + apply replay_bind; [apply replay_guard|]. intros _. apply replay_with_length; [intros; apply replay_ref_slice|].
        apply replay_bind; [apply replay_fail|]. intros. destruct (_ =? _); [apply replay_crash|apply replay_cast].
    - destruct IH as (IH & _ & _).
      split; [|split; [|intros; discriminate]].
      + intros Hs. apply replay_array, IH, Hs.
      + intros a prev vi Hs. cbn [read_field_inner]. apply replay_map, replay_repeat, IH, Hs.
    - assert (H : no_peek (TRefArr t n) -> replay (rd1 (TRefArr t n)) (rd2 (TRefArr t n))).
      { intros _. cbn [read]. unfold read_ref_array. apply replay_bind; [apply replay_guard|]. intros _.
        apply replay_bind; [apply replay_borrowed|]. intros. apply replay_cast. }
      split; [exact H|split; [|intros; discriminate]]. apply replay_inner_plain; [reflexivity|discriminate|exact H].
    - destruct IH as (IH & Hi & _).
      assert (H : no_peek (TOption t) -> replay (rd1 (TOption t)) (rd2 (TOption t))).
      { intros Hs. cbn [read]. apply replay_bind; [apply replay_u8|]. intros x.
        destruct (x =? 0); [apply replay_ret|]. apply replay_map, IH, Hs. }
      split; [exact H|split].
      + apply replay_inner_plain; [reflexivity|discriminate|exact H].
      + intros t' E. injection E as <-. exact Hi.
    - destruct IH1 as (IH1 & _). destruct IH2 as (IH2 & _).
      assert (H : no_peek (TResult t1 t2) -> replay (rd1 (TResult t1 t2)) (rd2 (TResult t1 t2))).
      { intros [Hs1 Hs2]. cbn [read]. apply replay_bind; [apply replay_u8|]. intros x.
        destruct (x =? 0); apply replay_map; auto. }
      split; [exact H|split; [|intros; discriminate]]. apply replay_inner_plain; [reflexivity|discriminate|exact H].
    - assert (H : no_peek (TTuple ts) -> replay (rd1 (TTuple ts)) (rd2 (TTuple ts))).
      { intros Hs. cbn [read]. apply replay_map. cbn [no_peek] in Hs.
        induction IH as [|t r IHt IHr IHl]; cbn [read_tuple]; [apply replay_ret|].
        destruct Hs as [Hs Hsr]. apply replay_bind; [apply IHt, Hs|]. intros v.
        apply replay_bind; [apply IHl, Hsr|]. intros. apply replay_ret. }
      split; [exact H|split; [|intros; discriminate]]. apply replay_inner_plain; [reflexivity|discriminate|exact H].
    - destruct IH as (IH & _).
      assert (H : no_peek (TRange i t) -> replay (rd1 (TRange i t)) (rd2 (TRange i t))).
      { intros Hs. cbn [read]. apply replay_bind; [apply IH, Hs|]. intros x.
        apply replay_bind; [apply IH, Hs|]. intros. apply replay_ret. }
      split; [exact H|split; [|intros; discriminate]]. apply replay_inner_plain; [reflexivity|discriminate|exact H].
    - destruct IH as (IH & _).
      assert (H : no_peek (TSet k t) -> replay (rd1 (TSet k t)) (rd2 (TSet k t))).
      { intros Hs. cbn [read]. apply replay_prefix. intros n. apply replay_collection; auto. }
      split; [exact H|split; [|intros; discriminate]].
      destruct k; try (apply replay_inner_plain; [reflexivity|discriminate|exact H]);
        intros a prev vi Hs; specialize (IH Hs); cbn [read_field_inner]; apply replay_with_length; intros;
        try (apply replay_collection, IH); (apply replay_bind; [apply replay_until_eof, IH|]); intros; apply replay_ret.
    - destruct IHk as (IHk & _). destruct IHv as (IHv & _).
      assert (H : no_peek (TMap k tk tv) -> replay (rd1 (TMap k tk tv)) (rd2 (TMap k tk tv))).
      { intros (Hs1 & Hs2). cbn [read]. apply replay_prefix. intros n. apply replay_map_impl; auto. }
      split; [exact H|split; [|intros; discriminate]].
      destruct k; try (apply replay_inner_plain; [reflexivity|discriminate|exact H]);
        intros a prev vi [Hs1 Hs2]; specialize (IHk Hs1); specialize (IHv Hs2); cbn [read_field_inner];
        apply replay_with_length; intros; try (apply replay_kv; assumption);
        (apply replay_bind; [apply replay_until_eof, replay_pair; assumption|]); intros; apply replay_ret.
    - destruct IH as (IH & _).
      assert (H : no_peek (TBox t) -> replay (rd1 (TBox t)) (rd2 (TBox t))) by exact IH.
      split; [exact H|split; [|intros; discriminate]]. apply replay_inner_plain; [reflexivity|discriminate|exact H].
    - assert (H : no_peek (TStruct d fs) -> replay (rd1 (TStruct d fs)) (rd2 (TStruct d fs))).
      { intros Hs. apply replay_map, replay_fields; assumption. }
      split; [exact H|split; [|intros; discriminate]]. apply replay_inner_plain; [reflexivity|discriminate|exact H].
    - assert (H : no_peek (TEnum d vs) -> replay (rd1 (TEnum d vs)) (rd2 (TEnum d vs))).
      { intros [Hp Hs]. cbn [read]. apply replay_bind; [apply replay_tag, Hp|]. intros tag. apply replay_variant; assumption. }
      split; [exact H|split; [|intros; discriminate]]. apply replay_inner_plain; [reflexivity|discriminate|exact H].
    - assert (H : no_peek TBot -> replay (rd1 TBot) (rd2 TBot)) by (intros _; apply replay_crash).
      split; [exact H|split; [|intros; discriminate]]. apply replay_inner_plain; [reflexivity|discriminate|exact H].
  Qed.

  Theorem replay_read t : no_peek t -> replay (rd1 t) (rd2 t).
  Proof. apply replay_all. Qed.
End Replay.
