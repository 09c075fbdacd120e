(* Property C102: what the memory held before does not matter, if the stream keeps
   to the rules. *)
From Verif Require Import AnyRead RingFacts LockReaders Hosts Samples PropErrors.

(** A `Read` that stores as many bytes as it claims, and does not look at what
    was in the slice. *)
Definition fills {S} (read : any_read S) : Prop :=
  forall s slice slice', nlen slice = nlen slice' ->
    let '(r, out, s1) := read s slice in
    let '(r', out', s1') := read s slice' in
    r = r' /\ s1 = s1' /\ nlen out = nlen slice
    /\ forall n, r = Ok n -> n <= nlen slice /\ ntake n out = ntake n out'.

(* ------------------------------------------------------------------ *)
(** * The ring buffer *)

(** Two ring buffers that differ at most in bytes that are not theirs. *)
Record same_ring (c c' : cbuf) : Prop := {
  sg_inv : cb_inv c;
  sg_inv' : cb_inv c';
  sg_position : cb_position c = cb_position c';
  sg_capacity : nlen (cb_buffer c) = nlen (cb_buffer c');
  sg_content : content c = content c'
}.

Lemma same_length c c' : same_ring c c' -> cb_length c = cb_length c'.
Proof. intros H. rewrite <- !nlen_content, (sg_content _ _ H). reflexivity. Qed.

Lemma copy_into_length buf r src out : copy_into buf r src = Ok out -> nlen out = nlen buf.
Proof.
  unfold copy_into. destruct (N.leb_spec (r_start r) (r_end r)); [|discriminate].
  destruct (N.leb_spec (r_end r) (nlen buf)); [|discriminate].
  destruct (N.eqb_spec (r_len r) (nlen src)) as [E|]; [|discriminate]. intros [= <-]. apply nlen_overlay.
  unfold r_len in E. lia.
Qed.

Lemma reserve_shape mem size c c' : reserve mem size c = Ok c' ->
  (c' = c /\ cb_length c + size <= nlen (cb_buffer c))
  \/ (nlen (cb_buffer c) < cb_length c + size /\ cb_position c' = 0 /\ nlen (cb_buffer c') = nlen (mem (cb_length c + size))).
Proof.
  unfold reserve, reallocate. destruct (N.leb_spec (cb_length c + size) (nlen (cb_buffer c))) as [H|H].
  - intros [= <-]. left. auto.
  - intros E. right. split; [exact H|].
    destruct (occupied _ _ _) as [[a b]| |]; try discriminate. cbn [rbind] in E.
    destruct (index (cb_buffer c) a) as [sa| |]; try discriminate. cbn [rbind] in E.
    destruct (copy_into (mem _) _ sa) as [nb| |] eqn:E1; try discriminate. cbn [rbind] in E.
    apply copy_into_length in E1. destruct b as [b|].
    + destruct (index (cb_buffer c) b) as [sb| |]; try discriminate. cbn [rbind] in E.
      destruct (copy_into nb _ sb) as [nb'| |] eqn:E2; try discriminate. cbn [rbind] in E.
      apply copy_into_length in E2. injection E as <-. cbn. split; [reflexivity|congruence].
    + cbn [rbind] in E. injection E as <-. cbn. auto.
Qed.

Lemma append_slot_shape mem size c r c' : append_slot mem size c = Ok (r, c') ->
  reserve mem size c = Ok c' /\ exists b, empty (cb_position c') (cb_length c') (nlen (cb_buffer c')) size = Ok (r, b).
Proof.
  unfold append_slot. destruct (reserve mem size c) as [c1| |]; try discriminate. cbn [rbind].
  destruct (empty _ _ _ _) as [[r1 b]| |] eqn:E; try discriminate. cbn [rbind fst].
  destruct (index _ r1); try discriminate. cbn [rbind]. intros [= <- <-]. eauto.
Qed.

Section Memories.
  Context (mem mem' : N -> bytes) (Hm : forall n, n <= nlen (mem n)) (Hsame : forall n, nlen (mem n) = nlen (mem' n)).

  Lemma Hm' n : n <= nlen (mem' n).
  Proof. rewrite <- Hsame. apply Hm. Qed.

  Lemma same_slot size c c' : same_ring c c' ->
    exists r d d', append_slot mem size c = Ok (r, d) /\ append_slot mem' size c' = Ok (r, d') /\ same_ring d d'
      /\ (forall data, nlen data <= r_len r -> cb_inv (append_done r data d) /\ content (append_done r data d) = content d ++ data)
      /\ (forall data, nlen data <= r_len r -> cb_inv (append_done r data d') /\ content (append_done r data d') = content d' ++ data)
      /\ exists slice slice', index (cb_buffer d) r = Ok slice /\ index (cb_buffer d') r = Ok slice'
                              /\ nlen slice = nlen slice' /\ nlen slice = r_len r /\ r_end r <= nlen (cb_buffer d).
  Proof.
    intros H. pose proof (same_length _ _ H) as Hl.
    destruct (append_slot_ok mem Hm size c (sg_inv _ _ H)) as (r & d & E & Hi & Hc & _ & _ & _ & _ & Hd).
    destruct (append_slot_ok mem' Hm' size c' (sg_inv' _ _ H)) as (r' & d' & E' & Hi' & Hc' & _ & _ & _ & _ & Hd').
    destruct (append_slot_shape _ _ _ _ _ E) as (Er & b & Ee). destruct (append_slot_shape _ _ _ _ _ E') as (Er' & b' & Ee').
    assert (SD : same_ring d d').
    { constructor; auto; [| |rewrite Hc, Hc'; apply H];
        destruct (reserve_shape _ _ _ _ Er) as [(-> & Hle)|(Hlt & Hp & Hn)];
        destruct (reserve_shape _ _ _ _ Er') as [(-> & Hle')|(Hlt' & Hp' & Hn')];
        try (apply H); try (exfalso; rewrite (sg_capacity _ _ H) in *; lia); [congruence|].
      rewrite Hn, Hn', Hsame, Hl. reflexivity. }
    assert (r' = r) as ->.
    { rewrite (sg_position _ _ SD), (same_length _ _ SD), (sg_capacity _ _ SD) in Ee. congruence. }
    exists r, d, d'. split; [exact E|]. split; [exact E'|]. split; [exact SD|].
    split; [intros data Hdt; rewrite Hc; apply Hd, Hdt|]. split; [intros data Hdt; rewrite Hc'; apply Hd', Hdt|].
    revert E E'. unfold append_slot. rewrite Er, Er'. cbn [rbind]. rewrite Ee, Ee'. cbn [rbind fst].
    unfold index. rewrite <- (sg_capacity _ _ SD).
    destruct (N.leb_spec (r_start r) (r_end r)); [|discriminate]. destruct (N.leb_spec (r_end r) (nlen (cb_buffer d))); [|discriminate].
    cbn [andb]. intros _ _. do 2 eexists. split; [reflexivity|]. split; [reflexivity|].
    rewrite !nlen_slice by (rewrite <- ?(sg_capacity _ _ SD); lia). unfold r_len. auto.
  Qed.
End Memories.

(** Claiming fewer bytes than were stored. *)
Lemma content_shorter b p l l' : l' <= l ->
  content {| cb_buffer := b; cb_position := p; cb_length := l' |} = ntake l' (content {| cb_buffer := b; cb_position := p; cb_length := l |}).
Proof.
  intros H. unfold content, ntake. cbn [cb_buffer cb_position cb_length].
  rewrite firstn_map. f_equal. replace (N.to_nat l) with (N.to_nat l' + (N.to_nat l - N.to_nat l'))%nat by lia.
  rewrite seq_app, firstn_app, seq_length, Nat.sub_diag, firstn_O, app_nil_r, firstn_all2; [reflexivity|]. rewrite seq_length. lia.
Qed.

Lemma take_app_take {A} l n (a b : list A) : l <= nlen a + n -> ntake l (a ++ b) = ntake l (a ++ ntake n b).
Proof.
  intros H. unfold ntake, nlen in *. rewrite !firstn_app. f_equal. rewrite firstn_firstn. f_equal. lia.
Qed.

Section Same.
  Context {S : Type} (h : host) (read : any_read S) (F : fills read) (fuel : nat).
  Context (mem mem' : N -> bytes) (Hm : forall n, n <= nlen (mem n)) (Hsame : forall n, nlen (mem n) = nlen (mem' n)).

  Definition same_state (s s' : areader S) : Prop :=
    ar_stream s = ar_stream s' /\ ar_buffering s = ar_buffering s' /\ same_ring (ar_buffer s) (ar_buffer s').

  Notation never := (fun (_ : error) (_ : areader S) => False).
  Notation lk := (lock same_state never never).

  (** Without errors to excuse. *)
  Lemma lk_intro {A} (m m' : M (areader S) A) :
    (forall s s', same_state s s' -> fst (m s) = fst (m' s') /\ same_state (snd (m s)) (snd (m' s'))) -> lk m m'.
  Proof. intros H s s' Hs. right. right. auto. Qed.
  Lemma lk_elim {A} (m m' : M (areader S) A) s s' : lk m m' -> same_state s s' ->
    fst (m s) = fst (m' s') /\ same_state (snd (m s)) (snd (m' s')).
  Proof. intros H Hs. destruct (H s s' Hs) as [(er & _ & [])|[(er & _ & [])|?]]; assumption. Qed.

  Lemma same_claimed r out out' n d d' : same_ring d d' -> nlen out = r_len r -> nlen out' = r_len r -> n <= r_len r ->
    ntake n out = ntake n out' ->
    cb_inv (append_done r out d) -> content (append_done r out d) = content d ++ out ->
    cb_inv (append_done r out' d') -> content (append_done r out' d') = content d' ++ out' ->
    nlen (overlay (cb_buffer d) (r_start r) out) = nlen (overlay (cb_buffer d') (r_start r) out') ->
    (exists f, claimed h r out n d = Fault f /\ claimed h r out' n d' = Fault f)
    \/ exists c c', claimed h r out n d = Ok c /\ claimed h r out' n d' = Ok c' /\ same_ring c c'.
  Proof.
    intros SD Ho Ho' Hn Ht [Hi1 Hi2] Hc [Hi1' Hi2'] Hc' Hov. pose proof (same_length _ _ SD) as Hl.
    unfold append_done in *. cbn [cb_buffer cb_position cb_length] in *.
    assert (G : forall l, l <= cb_length d + n ->
      same_ring {| cb_buffer := overlay (cb_buffer d) (r_start r) out; cb_position := cb_position d; cb_length := l |}
                {| cb_buffer := overlay (cb_buffer d') (r_start r) out'; cb_position := cb_position d'; cb_length := l |}).
    { intros l Hle. constructor; cbn [cb_buffer cb_position cb_length].
      - split; cbn [cb_buffer cb_position cb_length]; [lia|exact Hi2].
      - split; cbn [cb_buffer cb_position cb_length]; [lia|exact Hi2'].
      - apply SD.
      - exact Hov.
      - rewrite (content_shorter (overlay (cb_buffer d) (r_start r) out) _ (cb_length d + nlen out)) by lia.
        rewrite (content_shorter (overlay (cb_buffer d') (r_start r) out') (cb_position d') (cb_length d' + nlen out')) by lia.
        rewrite Hc, Hc'. rewrite (take_app_take l n) by (rewrite nlen_content; lia).
        rewrite (take_app_take l n (content d')) by (rewrite nlen_content; lia). rewrite Ht, (sg_content _ _ SD). reflexivity. }
    unfold claimed. rewrite <- Hl. destruct (N.ltb_spec (l_usize_max (h_lim h)) (cb_length d + n)) as [Hov'|Hov'].
    - destruct (h_overflow_checks h); [left; eexists; split; reflexivity|]. right. do 2 eexists. split; [reflexivity|].
      split; [reflexivity|]. apply G. apply N.mod_le. lia.
    - right. do 2 eexists. split; [reflexivity|]. split; [reflexivity|]. apply G. lia.
  Qed.

  Lemma lk_append size : lk (ar_append h read mem size) (ar_append h read mem' size).
  Proof.
    apply lk_intro. intros s s' (Hs & Hb & Hc). unfold ar_append, ar_on, bind.
    destruct (same_slot mem mem' Hm Hsame size _ _ Hc) as (r & d & d' & -> & -> & SD & Hd & Hd' & sl & sl' & Ei & Ei' & Hsl & Hr & Hend).
    unfold ar_set. cbn [ar_buffer ar_stream ar_buffering]. rewrite Ei, Ei', <- Hs.
    pose proof (F (ar_stream s) sl sl' Hsl) as HF. pose proof (F (ar_stream s) sl' sl (eq_sym Hsl)) as HF'.
    destruct (read (ar_stream s) sl) as [[a out] i]. destruct (read (ar_stream s) sl') as [[a' out'] i'].
    destruct HF as (<- & <- & Ho & Hn). destruct HF' as (_ & _ & Ho' & _).
    assert (Ho1 : nlen out <= r_len r) by lia. assert (Ho2 : nlen out' <= r_len r) by lia.
    destruct (Hd out Ho1) as [Hi Hco]. destruct (Hd' out' Ho2) as [Hi' Hco'].
    assert (Hov : nlen (overlay (cb_buffer d) (r_start r) out) = nlen (overlay (cb_buffer d') (r_start r) out')).
    { unfold index in Ei, Ei'. destruct (N.leb_spec (r_start r) (r_end r)); [|discriminate].
      unfold r_len in *. pose proof (sg_capacity _ _ SD). rewrite !nlen_overlay by lia. assumption. }
    destruct a as [n|er|f]; unfold ar_set_stream; cbn [fst snd ar_stream ar_buffer ar_buffering].
    - destruct (Hn n eq_refl) as [Hle Ht].
      destruct (same_claimed r out out' n d d' SD ltac:(lia) ltac:(lia) ltac:(lia) Ht Hi Hco Hi' Hco' Hov)
        as [(f & -> & ->)|(c & c' & -> & -> & SC)]; cbn [rmap fst snd]; (split; [reflexivity|]); repeat split; auto; apply SC || apply SD.
    - split; [reflexivity|]. split; [reflexivity|]. split; [exact Hb|]. cbn [ar_buffer].
      destruct Hi as [Hi1 Hi2], Hi' as [Hi1' Hi2']. unfold append_done in *. cbn [cb_buffer cb_position cb_length] in *.
      pose proof (same_length _ _ SD) as Hl.
      constructor; cbn [cb_buffer cb_position cb_length]; auto.
      + split; cbn [cb_buffer cb_position cb_length]; [lia|exact Hi2].
      + split; cbn [cb_buffer cb_position cb_length]; [lia|exact Hi2'].
      + apply SD.
      + rewrite (content_shorter (overlay (cb_buffer d) (r_start r) out) _ (cb_length d + nlen out)) by lia.
        rewrite (content_shorter (overlay (cb_buffer d') (r_start r) out') (cb_position d') (cb_length d' + nlen out')) by lia.
        rewrite Hco, Hco', Hl. rewrite (take_app_take _ 0) by (rewrite nlen_content; lia).
        rewrite (take_app_take (cb_length d') 0 (content d')) by (rewrite nlen_content; lia).
        rewrite (sg_content _ _ SD). reflexivity.
    - split; [reflexivity|]. repeat split; auto; apply SD.
  Qed.

  Lemma consume_into_position n c out c' : n <= cb_length c -> consume_into n c = Ok (out, c') ->
    cb_position c' = if cb_position c + n <? nlen (cb_buffer c) then if cb_length c - n =? 0 then 0 else cb_position c + n
                     else if n =? 0 then cb_position c
                     else if cb_length c - n =? 0 then 0 else (cb_position c + n) mod nlen (cb_buffer c).
  Proof.
    intros Hn. unfold consume_into. replace (N.min (cb_length c) n) with n by lia.
    destruct (cb_position c + n <? nlen (cb_buffer c)).
    - destruct (index _ _); try discriminate. cbn [rbind]. intros [= <- <-]. reflexivity.
    - unfold consume_into_slow. destruct (N.eqb_spec n 0); [intros [= <- <-]; reflexivity|].
      destruct (n <=? cb_length c); [|discriminate]. destruct (as_slices_of_length n c) as [ab| |]; try discriminate. cbn [rbind].
      destruct (join n ab); try discriminate. cbn [rbind]. unfold consume. destruct (n <=? cb_length c); [|discriminate].
      destruct (nlen (cb_buffer c) =? 0); [discriminate|]. cbn [rbind]. intros [= <- <-]. reflexivity.
  Qed.

  Lemma same_consume n c c' : same_ring c c' -> n <= cb_length c ->
    exists out d d', consume_into n c = Ok (out, d) /\ consume_into n c' = Ok (out, d') /\ same_ring d d' /\ nlen out = n.
  Proof.
    intros H Hn. pose proof (same_length _ _ H) as Hl.
    destruct (consume_into_ok n c (sg_inv _ _ H) Hn) as (d & E & Hi & Hc & Hb).
    destruct (consume_into_ok n c' (sg_inv' _ _ H)) as (d' & E' & Hi' & Hc' & Hb'); [lia|].
    rewrite (sg_content _ _ H) in E. do 3 eexists. split; [exact E|]. split; [exact E'|].
    split; [|rewrite nlen_take, nlen_content; lia]. constructor; auto.
    - rewrite (consume_into_position _ _ _ _ Hn E), (consume_into_position n c' _ d') by (lia || exact E').
      rewrite (sg_position _ _ H), (sg_capacity _ _ H), Hl. reflexivity.
    - rewrite Hb, Hb'. apply H.
    - rewrite Hc, Hc', (sg_content _ _ H). reflexivity.
  Qed.

  Lemma exact_same k : forall s done todo todo', nlen todo = nlen todo' ->
    any_exact read k s done todo = any_exact read k s done todo'
    /\ forall b, fst (any_exact read k s done todo) = Ok b -> nlen b = nlen done + nlen todo.
  Proof.
    induction k as [|k IH]; intros s done todo todo' Ht.
    - destruct todo, todo'; try (unfold nlen in Ht; cbn in Ht; lia); cbn [any_exact].
      + split; [reflexivity|]. intros b [= <-]. unfold nlen. cbn. lia.
      + split; [reflexivity|]. discriminate.
    - destruct todo as [|x todo], todo' as [|x' todo']; try (unfold nlen in Ht; cbn in Ht; lia); cbn [any_exact].
      + split; [reflexivity|]. intros b [= <-]. unfold nlen. cbn. lia.
      + pose proof (F s (x :: todo) (x' :: todo') Ht) as HF. pose proof (F s (x' :: todo') (x :: todo) (eq_sym Ht)) as HF'.
        destruct (read s (x :: todo)) as [[a out] i]. destruct (read s (x' :: todo')) as [[a' out'] i'].
        destruct HF as (<- & <- & Ho & Hn). destruct HF' as (_ & _ & Ho' & _).
        destruct a as [n|er|f]; [|destruct er; try (split; [reflexivity|discriminate]); destruct k0; try (split; [reflexivity|discriminate])
          |split; [reflexivity|discriminate]].
        * destruct (n =? 0); [split; [reflexivity|discriminate]|]. destruct (Hn n eq_refl) as [Hle Htk].
          destruct (N.leb_spec n (nlen out)); [|lia]. destruct (N.leb_spec n (nlen out')); [|lia]. rewrite Htk.
          destruct (IH i (done ++ ntake n out') (ndrop n out) (ndrop n out')) as [E L].
          { unfold nlen, ndrop in *. rewrite !skipn_length. lia. }
          split; [exact E|]. intros b Hb. rewrite (L b Hb). unfold nlen, ntake, ndrop in *.
          rewrite app_length, firstn_length, skipn_length. lia.
        * destruct (IH i done out out') as [E L]; [lia|]. split; [exact E|]. intros b Hb. rewrite (L b Hb). lia.
  Qed.

  Lemma lk_fill k n : lk (ar_fill h read mem k n) (ar_fill h read mem' k n).
  Proof.
    induction k as [|k IH]; apply lk_intro; intros s s' Hs; pose proof Hs as (_ & _ & Hc);
      pose proof (same_length _ _ Hc) as Hl; pose proof (sg_capacity _ _ Hc) as Hcap; cbn [ar_fill]; unfold cb_len, cb_capacity;
      rewrite <- Hl, <- Hcap; (destruct (cb_length (ar_buffer s) <? nlen (cb_buffer (ar_buffer s))); [|split; [reflexivity|exact Hs]]).
    - split; [reflexivity|exact Hs].
    - apply lk_elim; [|exact Hs]. apply lock_bind; [apply lk_append|]. intros w. apply lk_intro. intros z z' Hz.
      pose proof Hz as (_ & _ & Hcz). rewrite <- (same_length _ _ Hcz).
      destruct (w =? 0); [destruct (_ <? n); (split; [reflexivity|exact Hz])|].
      destruct (n <=? _); [split; [reflexivity|exact Hz]|]. apply lk_elim; [exact IH|exact Hz].
  Qed.

  Lemma lk_consume n s s' : same_state s s' -> n <= cb_length (ar_buffer s) ->
    exists out z z', ar_on (consume_into n) s = (Ok out, z) /\ ar_on (consume_into n) s' = (Ok out, z') /\ same_state z z' /\ nlen out = n.
  Proof.
    intros (Hs & Hb & Hc) Hn. destruct (same_consume n _ _ Hc Hn) as (out & d & d' & E & E' & SD & Ho).
    unfold ar_on. rewrite E, E'. do 3 eexists. split; [reflexivity|]. split; [reflexivity|]. split; [|exact Ho]. repeat split; auto; apply SD.
  Qed.

  (** Reading: the same, and as many bytes as asked for. *)
  Definition alike (n : N) (m m' : M (areader S) bytes) : Prop :=
    forall s s', same_state s s' -> fst (m s) = fst (m' s') /\ same_state (snd (m s)) (snd (m' s'))
      /\ forall b, fst (m' s') = Ok b -> nlen b = n.

  Lemma same_drain n : alike n (ar_drain read mem fuel n) (ar_drain read mem' fuel n).
  Proof.
    intros s s' Hs. unfold ar_drain. pose proof Hs as (Hst & Hb & Hc). unfold cb_len. rewrite <- (same_length _ _ Hc).
    set (len := N.min (cb_length (ar_buffer s)) n).
    assert (G : exists out z z', (if 0 <? cb_length (ar_buffer s) then ar_on (consume_into len) else ret []) s = (Ok out, z)
      /\ (if 0 <? cb_length (ar_buffer s) then ar_on (consume_into len) else ret []) s' = (Ok out, z')
      /\ same_state z z' /\ nlen out = len).
    { destruct (N.ltb_spec 0 (cb_length (ar_buffer s))).
      - apply lk_consume; [exact Hs|unfold len; lia].
      - exists [], s, s'. split; [reflexivity|]. split; [reflexivity|]. split; [exact Hs|]. unfold len, nlen. cbn. lia. }
    destruct G as (out & z & z' & E & E' & Hz & Ho). unfold bind. rewrite E, E'.
    destruct (N.eqb_spec (n - len) 0) as [E0|E0].
    - split; [reflexivity|]. split; [exact Hz|]. intros b Hb'. injection Hb' as Hb'. rewrite <- Hb'. lia.
    - destruct Hz as (Hzs & Hzb & Hzc). unfold ret. rewrite <- Hzs.
      assert (Ht : nlen (ntake (n - len) (mem (n - len))) = nlen (ntake (n - len) (mem' (n - len)))) by (rewrite !nlen_take, Hsame; reflexivity).
      destruct (exact_same fuel (ar_stream z) [] _ _ Ht) as [Ee Hl]. rewrite <- Ee.
      destruct (any_exact read fuel (ar_stream z) [] _) as [[b|er|f] i]; cbn [fst snd];
        (split; [reflexivity|]); (split; [repeat split; auto; apply Hzc|]); try discriminate.
      intros b' Hb'. injection Hb' as Hb'. rewrite <- Hb'. specialize (Hl b eq_refl). rewrite nlen_take in Hl.
      pose proof (Hm (n - len)). unfold nlen in *. rewrite app_length. cbn [length N.of_nat] in Hl. lia.
  Qed.

  Lemma same_read n : alike n (ar_read h read mem fuel n) (ar_read h read mem' fuel n).
  Proof.
    intros s s' Hs. unfold ar_read. pose proof Hs as (_ & Hb & Hc). unfold cb_len. rewrite <- (same_length _ _ Hc).
    destruct (N.leb_spec n (cb_length (ar_buffer s))) as [Hn|Hn].
    - destruct (lk_consume n s s' Hs Hn) as (out & z & z' & -> & -> & Hz & Ho). cbn [fst snd].
      split; [reflexivity|]. split; [exact Hz|]. intros b Hb'. injection Hb' as <-. exact Ho.
    - unfold ar_read_slow, cb_capacity. rewrite <- Hb, <- (sg_capacity _ _ Hc).
      set (b := (ar_buffering s && (n <? nlen (cb_buffer (ar_buffer s))))%bool). set (k := N.to_nat (nlen (cb_buffer (ar_buffer s)))).
      set (m := if b then ar_fill h read mem k n else ret tt). set (m' := if b then ar_fill h read mem' k n else ret tt).
      assert (Hm2 : lk m m') by (unfold m, m'; destruct b; [apply lk_fill|apply lock_ret]).
      destruct (lk_elim m m' s s' Hm2 Hs) as [E Hz]. unfold bind. destruct (m s) as [r z], (m' s') as [r' z']. cbn [fst snd] in *. subst r'.
      destruct r as [[]|er|f]; cbn [fst snd]; [apply same_drain, Hz|..]; (split; [reflexivity|]); (split; [exact Hz|]); discriminate.
  Qed.

  Lemma lk_read n : lk (ar_read h read mem fuel n) (ar_read h read mem' fuel n).
  Proof. apply lk_intro. intros s s' Hs. destruct (same_read n s s' Hs) as (? & ? & _). auto. Qed.

  Lemma lk_peek_fill k n : lk (ar_peek_fill h read mem k n) (ar_peek_fill h read mem' k n).
  Proof.
    induction k as [|k IH]; apply lk_intro; intros s s' Hs; pose proof Hs as (_ & Hb & Hc);
      pose proof (same_length _ _ Hc) as Hl; pose proof (sg_capacity _ _ Hc) as Hcap; cbn [ar_peek_fill]; unfold cb_len, cb_capacity;
      rewrite <- Hl, <- ?Hcap; (destruct (cb_length (ar_buffer s) <? n); [|split; [reflexivity|exact Hs]]).
    - split; [reflexivity|exact Hs].
    - rewrite <- Hb. apply lk_elim; [|exact Hs]. apply lock_bind; [destruct (ar_buffering s); [apply lock_lift|apply lock_ret]|].
      intros more. apply lock_bind; [apply lk_append|]. intros w. destruct (w =? 0); [apply lock_fail|exact IH].
  Qed.

  Lemma lk_peek n : lk (ar_peek h read mem n) (ar_peek h read mem' n).
  Proof.
    apply lock_bind; [apply lk_peek_fill|]. intros _. apply lk_intro. intros s s' Hs. cbn [fst snd]. split; [|exact Hs].
    destruct Hs as (_ & _ & Hc). pose proof (same_length _ _ Hc) as Hl.
    destruct (N.leb_spec n (cb_length (ar_buffer s))) as [Hn|Hn].
    - destruct (as_slices_of_length_ok n _ (sg_inv _ _ Hc) Hn) as (ab & -> & Hj).
      destruct (as_slices_of_length_ok n (ar_buffer s') (sg_inv' _ _ Hc)) as (ab' & -> & Hj'); [lia|].
      cbn [rbind]. rewrite Hj, Hj', (sg_content _ _ Hc). reflexivity.
    - unfold as_slices_of_length. rewrite <- Hl. destruct (N.leb_spec n (cb_length (ar_buffer s))); [lia|]. reflexivity.
  Qed.

  Lemma any_locked e : locked same_state never never True (AnyReader h read mem fuel e) (AnyReader h read mem' fuel e) (true = true).
  Proof.
    constructor; cbn [AnyReader rd_endian rd_read rd_read_ptr rd_peek rd_peek_ptr rd_can rd_borrow_r rd_alloc rd_fuel];
      auto using lk_read, lk_peek. intros. apply lock_ret.
  Qed.

  Lemma any_length (VH : valid_host h) e b n s s' : same_state s s' ->
    fst (read_length h (AnyReader h read mem' fuel e) b s') = Ok n -> possible_length h (LType b) n.
  Proof.
    intros Hs. pose proof (vh_usize_lo h VH) as Hlo. pose proof (vh_usize_hi h VH) as Hhi. revert Hlo Hhi. num_pow. intros Hlo Hhi.
    set (R := AnyReader h read mem' fuel e).
    assert (Hu : forall w m, fst (read_uint h R w s') = Ok m -> m < 256 ^ N.of_nat w).
    { intros w m. unfold read_uint, bind, require. cbn [R AnyReader rd_can rd_read_ptr rd_endian].
      destruct (same_read (N.of_nat w) s s' Hs) as (_ & _ & Hl).
      destruct (ar_read h read mem' fuel (N.of_nat w) s') as [[d| |] s3]; try discriminate. unfold ret. cbn [fst] in *.
      intros H. injection H as <-. apply PropErrors.swap_if_lt. rewrite <- (Hl d eq_refl).
      destruct (h_native h); cbn [of_ne]; [apply le_num_lt|]. rewrite <- nlen_rev. apply le_num_lt. }
    assert (H8 : forall m, fst (read_u8 R s') = Ok m -> m < 256).
    { intros m. unfold read_u8, bind, require. cbn [R AnyReader rd_can rd_read_ptr].
      destruct (same_read 1 s s' Hs) as (_ & _ & Hl).
      destruct (ar_read h read mem' fuel 1 s') as [[d| |] s3]; try discriminate. unfold ret. cbn [fst] in *.
      intros H. injection H as <-. pose proof (le_num_lt d) as Hd. rewrite (Hl d eq_refl) in Hd. exact Hd. }
    assert (Hx : forall m : N, usize_max h <? m = false -> m <= l_usize_max (h_lim h)) by (intros m H; apply N.ltb_ge in H; exact H).
    unfold possible_length. destruct b; cbn [read_length basic_max].
    - unfold bind. destruct (read_u8 R s') as [[m| |] s1]; try discriminate. destruct (0x7F <? m) eqn:E7; [discriminate|].
      unfold ret. cbn [fst]. intros H. injection H as <-. apply N.ltb_ge in E7. lia.
    - intros H. specialize (H8 _ H). lia.
    - intros H. specialize (Hu _ _ H). change (256 ^ N.of_nat 2) with 65536 in Hu. lia.
    - intros H. specialize (Hu _ _ H). change (256 ^ N.of_nat 4) with 4294967296 in Hu. lia.
    - unfold bind. destruct (read_uint h R 8 s') as [[m| |] s1]; try discriminate. destruct (_ <? m) eqn:E7; [discriminate|].
      unfold ret. cbn [fst]. intros H. injection H as <-. apply Hx in E7. lia.
    - unfold bind. destruct (read_varint h R s') as [[m| |] s1]; try discriminate. destruct (_ <? m) eqn:E7; [discriminate|].
      unfold ret. cbn [fst]. intros H. injection H as <-. apply Hx in E7. lia.
  Qed.

  Lemma any_lock (VH : valid_host h) e t : lk (ReadImpl.read h (AnyReader h read mem fuel e) t) (ReadImpl.read h (AnyReader h read mem' fuel e) t).
  Proof.
    pose proof (peeks_anything t) as Ht. unfold may_peek in Ht.
    eapply (lock_read same_state never never); try exact Ht; try contradiction.
    - apply any_locked.
    - intros lm t0 rd1 rd2 n _ _ Hrd. unfold read_cow. cbn [AnyReader rd_borrow].
      replace (if is_prim h t0 && no_conv h (AnyReader h read mem fuel e) t0 then None else None)%bool
        with (@None (N -> M (areader S) (N * bytes))) by (destruct (_ && _)%bool; reflexivity).
      replace (if is_prim h t0 && no_conv h (AnyReader h read mem' fuel e) t0 then None else None)%bool
        with (@None (N -> M (areader S) (N * bytes))) by (destruct (_ && _)%bool; reflexivity).
      eapply lock_vec; [apply any_locked|exact Hrd].
    - intros _. repeat split.
    - intros c _ _. unfold read_constant. cbn [AnyReader rd_borrow]. apply lock_bind.
      + eapply lock_vec_u8, any_locked.
      + intros b. destruct (list_eq_dec _ _ _); [apply lock_ret|apply lock_fail].
    - intros b n s1 s2 Hs. apply (any_length VH e b n s1 s2 Hs).
  Qed.

  (** Reading any type from any stream that fills what it claims to fill: result
      and stream afterwards do not depend on what was in the memory. *)
  Theorem C102_memory (VH : valid_host h) e buffering t s :
    read_from_any h read mem fuel e buffering t s = read_from_any h read mem' fuel e buffering t s.
  Proof.
    unfold read_from_any.
    set (s0 := {| ar_stream := s; ar_buffer := with_capacity mem _; ar_buffering := buffering |}).
    set (s0' := {| ar_stream := s; ar_buffer := with_capacity mem' _; ar_buffering := buffering |}).
    assert (H0 : same_state s0 s0').
    { split; [reflexivity|]. split; [reflexivity|]. cbn [s0 s0' ar_buffer]. set (k := if buffering then _ else _).
      destruct (with_capacity_ok mem Hm k) as (Hi & Hc & Hk). destruct (with_capacity_ok mem' (Hm' mem mem' Hm Hsame) k) as (Hi' & Hc' & Hk').
      unfold cb_capacity in *. constructor; auto; congruence. }
    destruct (lk_elim _ _ _ _ (any_lock VH e t) H0) as [E (Hs & _)].
    destruct (ReadImpl.read _ _ t s0) as [r z], (ReadImpl.read _ _ t s0') as [r' z']. cbn [fst snd] in *. congruence.
  Qed.
End Same.

Print Assumptions C102_memory.

(* ------------------------------------------------------------------ *)
(** * Streams *)

(** The streams of [Readers] keep to the rules. *)
Definition obeying : any_read istream := fun s slice =>
  let (r, i) := is_read (nlen slice) s in
  match r with
  | Ok d => (Ok (nlen d), d ++ ndrop (nlen d) slice, i)
  | Err er => (Err er, slice, i)
  | Fault f => (Fault f, slice, i)
  end.

Lemma is_read_le n s d : fst (is_read n s) = Ok d -> nlen d <= n.
Proof.
  unfold is_read, is_take. destruct (is_sched s) as [|[c|k] r]; cbn [fst]; try discriminate;
    intros [= <-]; unfold nlen, ntake; rewrite firstn_length; lia.
Qed.

Theorem C102_obeying : fills obeying.
Proof.
  intros s slice slice' H. unfold obeying. rewrite <- H. pose proof (is_read_le (nlen slice) s) as Hd.
  destruct (is_read (nlen slice) s) as [[d|er|f] i]; cbn [fst] in Hd.
  - specialize (Hd d eq_refl). repeat split.
    + unfold nlen, ndrop in *. rewrite app_length, skipn_length. lia.
    + injection H0 as <-. exact Hd.
    + injection H0 as <-. unfold ntake, nlen. rewrite !firstn_app, !Nat2N.id, Nat.sub_diag, !firstn_O. reflexivity.
  - repeat split; discriminate.
  - repeat split; discriminate.
Qed.

(** A stream that claims to have filled the slice without having stored anything. *)
Definition idle : any_read unit := fun s slice => (Ok (nlen slice), slice, s).
(** A stream that fills the slice, with what it finds there, increased by one. *)
Definition looking : any_read unit := fun s slice => (Ok (nlen slice), map (fun b => n2b (b2n b + 1)) slice, s).

Definition memory_of (b : byte) : N -> bytes := fun n => repeat b (N.to_nat n).

Lemma memory_of_long b n : n <= nlen (memory_of b n).
Proof. unfold nlen, memory_of. rewrite repeat_length. lia. Qed.

(** Such streams, though safe code, show what was in the memory: the bytes that
    come out are those of the allocation. *)
Theorem C102_overstated_refuted : exists (read : any_read unit) (mem mem' : N -> bytes),
  keeps_length read /\ (forall n, n <= nlen (mem n)) /\ (forall n, nlen (mem n) = nlen (mem' n))
  /\ forall buffering, fst (read_from_any host64 read mem 10 LE buffering (TScalar (SPrim U32)) tt) = Ok (VInt 0x41414141)
               /\ fst (read_from_any host64 read mem' 10 LE buffering (TScalar (SPrim U32)) tt) = Ok (VInt 0x42424242).
Proof.
  exists idle, (memory_of x41), (memory_of x42). split; [intros s slice; reflexivity|]. split; [apply memory_of_long|].
  split; [intros n; unfold memory_of, nlen; rewrite !repeat_length; reflexivity|]. intros []; split; vm_compute; reflexivity.
Qed.

(** So does a stream that stores all it claims but reads the slice. *)
Theorem C102_looking_refuted : exists (read : any_read unit) (mem mem' : N -> bytes),
  keeps_length read /\ (forall n, n <= nlen (mem n)) /\ (forall n, nlen (mem n) = nlen (mem' n))
  /\ forall buffering, fst (read_from_any host64 read mem 10 LE buffering (TScalar (SPrim U32)) tt) = Ok (VInt 0x42424242)
               /\ fst (read_from_any host64 read mem' 10 LE buffering (TScalar (SPrim U32)) tt) = Ok (VInt 0x43434343).
Proof.
  exists looking, (memory_of x41), (memory_of x42).
  split; [intros s slice; unfold looking, nlen; cbn [fst snd]; rewrite map_length; reflexivity|]. split; [apply memory_of_long|].
  split; [intros n; unfold memory_of, nlen; rewrite !repeat_length; reflexivity|]. intros []; split; vm_compute; reflexivity.
Qed.

Print Assumptions C102_obeying.
Print Assumptions C102_overstated_refuted.
Print Assumptions C102_looking_refuted.

(** A string from a stream that delivers byte by byte, with an interruption; the
    memory holds two different things. *)
Example C102_case :
  let s := {| is_rest := [x03; x00; x00; x00; x61; x62; x63; x64]; is_sched := [RChunk 1; RErr IoInterrupted; RChunk 2] |} in
  fst (read_from_any host64 obeying (memory_of x41) 10 LE false (TStr KString) s) = Ok (VBytes [x61; x62; x63])
  /\ fst (read_from_any host64 obeying (memory_of x42) 10 LE false (TStr KString) s) = Ok (VBytes [x61; x62; x63]).
Proof. split; vm_compute; reflexivity. Qed.
