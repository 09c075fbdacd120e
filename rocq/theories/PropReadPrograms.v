(* Property C116: `Readable` implementations written by users. *)
From Verif Require Import Samples Checker Errors Programs ReadApi Entry WriteApi PropWrite PropReaders PropVarint PropPrograms.

Section Heard.
  Context {C : Type} (order : C -> endian) (h : host).

  (** What a body makes of plain bytes. *)
  Fixpoint heard (c : C) (p : rprog C) : dec val :=
    let e := order c in
    let d t := decl (h_lim h) e (ipv6_order h e) len0 t in
    match p with
    | RReturn v => dret v
    | RFail er => dbad er
    | RPanic f => dpanic f
    | RBytes n k => b <-- dread n ;; heard c (k b)
    | RPeekBytes n k => b <-- dpeek (dread n) ;; heard c (k b)
    | RSkip n k => _ <-- dread n ;; heard c k
    | RU8 k => n <-- dword e 1 ;; heard c (k n)
    | RPeekU8 k => n <-- dpeek (dword e 1) ;; heard c (k n)
    | RUint w k => n <-- dword e w ;; heard c (k n)
    | RPeekUint w k => n <-- dpeek (dword e w) ;; heard c (k n)
    | RPrim p k => z <-- dprim e p ;; heard c (k z)
    | RPeekPrim p k => z <-- dpeek (dprim e p) ;; heard c (k z)
    | RVarint k => n <-- dvarint e ;; heard c (k n)
    | RPeekVarint k =>                                    (* as in C21: the tail starts at the first byte *)
      b <-- dpeek (dword e 1) ;; tail <-- dpeek (dread (N.of_nat (vi_ones b))) ;;
      heard c (k ((b mod 2 ^ (7 - N.of_nat (vi_ones b))) * 2 ^ (8 * N.of_nat (vi_ones b)) + le_num tail))
    | RValue t k => v <-- d t ;; heard c (k v)
    | RTry t k => v <-- dcatch None (dmap Some (d t)) ;; heard c (k v)
    | RVec t n k | RCow t n k => vs <-- dsized (h_lim h) t n (drepeat (d t) (N.to_nat n)) ;; heard c (k vs)
    | RVecEof t k => vs <-- duntil (d t) ;; heard c (k vs)
    | RString n k => b <-- dsized (h_lim h) (TP U8) n (dread n) ;; v <-- dstr (h_lim h) KString b ;; heard c (k v)
    | RCollection col map t n k =>
      xs <-- drepeat (d t) (N.to_nat n) ;; heard c (k (VSeq (collect col (if map then pair_key else id) xs)))
    | RKeyValues col tk tv n k =>
      xs <-- drepeat (dpair (d tk) (d tv)) (N.to_nat n) ;; heard c (k (VSeq (collect col pair_key xs)))
    | RCollectionEof col map t k =>
      xs <-- duntil (d t) ;; heard c (k (VSeq (collect col (if map then pair_key else id) xs)))
    | RBorrow n k | RBorrowReader n k => b <-- dread n ;; heard c (k (Some b))
    | RBorrowEof k => b <-- drest ;; heard c (k (Some b))
    | REndian k => heard c (k e)
    | RContext k => heard c (k c)
    | RSetContext c' k => heard c' k
    | RRoom n k => heard c (k None)
    end.
End Heard.

Section Follow.
  Context {C : Type} (h : host).

  (** Just this length. *)
  Definition lexactly (n : N) : lenmode := LExpr (fun _ => Some n).

  (** It reads types that can be read from any reader, in either byte order, fails on its own
      with errors that are not the end of the input, and does not ask how much is left.  Having
      been told that a slice cannot be borrowed, it reads the same bytes in another way. *)
  Fixpoint readable (p : rprog C) : Prop :=
    match p with
    | RReturn _ | RPanic _ => True
    | RFail er => is_eof er = false
    | RBytes _ k | RPeekBytes _ k => forall b, readable (k b)
    | RSkip _ k | RSetContext _ k => readable k
    | RU8 k | RPeekU8 k => forall n, n < 256 -> readable (k n)
    | RUint w k | RPeekUint w k => forall n, n < 256 ^ N.of_nat w -> readable (k n)
    | RVarint k => forall n, n < 2 ^ 64 -> readable (k n)
    | RPeekVarint k => forall n, readable (k n)
    | RPrim _ k | RPeekPrim _ k => forall z, readable (k z)
    | RValue t k => (forall e, supported h e false true LDefault t) /\ forall v, readable (k v)
    | RTry t k => (forall e, supported h e false true LDefault t) /\ forall v, readable (k v)
    | RVec t _ k => (forall e, vec_elem h e t /\ supported h e false true LDefault t) /\ forall vs, readable (k vs)
    | RVecEof t k => (forall e, supported h e false true LDefault t) /\ forall vs, readable (k vs)
    | RCow t n k =>
      (forall e, vec_elem h e t /\ copy_elem h (lexactly n) t /\ supported h e false true LDefault t)
      /\ forall vs, readable (k vs)
    | RString _ k => forall v, readable (k v)
    | RCollection _ _ t n k =>
      (forall e, copy_elem h (lexactly n) t /\ supported h e false true LDefault t) /\ forall v, readable (k v)
    | RKeyValues _ tk tv n k =>
      (forall e, pair_elem h (lexactly n) tk tv /\ supported h e false true LDefault tk /\ supported h e false true LDefault tv)
      /\ forall v, readable (k v)
    | RCollectionEof _ _ t k => (forall e, supported h e false true LDefault t) /\ forall v, readable (k v)
    | RBorrow n k | RBorrowReader n k =>
      (forall o, readable (k o))
      /\ forall order c i, heard order h c (k None) i = (b <-- dread n ;; heard order h c (k (Some b))) i
    | RBorrowEof k =>
      (forall o, readable (k o))
      /\ forall order c i, heard order h c (k None) i = (b <-- drest ;; heard order h c (k (Some b))) i
    | REndian k => forall e, readable (k e)
    | RContext k => forall c, readable (k c)
    | RRoom _ _ => False
    end.

  Lemma possible_exactly n : possible_length h (lexactly n) n.
  Proof. exists []. reflexivity. Qed.

  Lemma word_lt e w o n o' : dword e w o = DOk n o' -> n < 256 ^ N.of_nat w.
  Proof. exact (dword_lt (BufferReader e) w o n o'). Qed.

  Lemma peeked_lt e w o n o' : dpeek (dword e w) o = DOk n o' -> n < 256 ^ N.of_nat w.
  Proof.
    unfold dpeek. destruct (dword e w o) as [m o1| | | |] eqn:E; try discriminate.
    intros H. injection H as <- _. exact (word_lt e w o m o1 E).
  Qed.

  Context (order : C -> endian).

  Lemma follow_sim (VH : valid_host h) {St} (mk : C -> reader St) rep io c p :
    (forall c, rd_endian (mk c) = order c) -> (forall c, reader_ok h (mk c) true rep io) -> readable p ->
    sim rep io (perform h mk c p) (heard order h c p).
  Proof.
    intros He OK. revert c.
    assert (Hrd : forall c t, supported h (order c) false true LDefault t ->
              sim rep io (read h (mk c) t) (decl (h_lim h) (order c) (ipv6_order h (order c)) len0 t)).
    { intros c t Hs. pose proof (read_sim h VH (mk c) false true rep io (OK c) ltac:(discriminate) t) as H.
      rewrite He in H. apply H, Hs. }
    induction p as [v|er|f|n k IH|n k IH|n p IH|k IH|k IH|w k IH|w k IH|pr k IH|pr k IH|k IH|k IH|t k IH|t k IH|t n k IH|t k IH
                   |t n k IH|n k IH|col map t n k IH|col tk tv n k IH|col map t k IH|n k IH|n k IH|k IH|k IH|k IH|c' p IH|n k IH];
      intros c Hp; cbn [perform heard readable] in *.
    - apply sim_ret.
    - apply sim_fail, Hp.
    - apply sim_crash.
    - apply sim_bind; [apply OK|]. intros b. apply IH, Hp.
    - apply sim_bind; [apply OK; reflexivity|]. intros b. apply IH, Hp.
    - apply (sim_ext rep io (rd_skip (mk c) n ;;; perform h mk c p)
               _ (dbind (dmap (fun _ => tt) (dread n)) (fun _ => heard order h c p))); [reflexivity| |].
      + intros o. unfold dmap, dbind. destruct (dread n o); reflexivity.
      + apply sim_bind; [apply OK|]. intros _. apply IH, Hp.
    - apply (sim_bind_where _ _ (fun n => n < 256)); [|intros o n o' E; exact (word_lt _ 1 o n o' E)|intros n Hn; apply IH, Hp, Hn].
      pose proof (read_u8_sim h (mk c) true rep io (OK _)) as H. rewrite He in H. exact H.
    - apply (sim_bind_where _ _ (fun n => n < 256)); [|intros o n o' E; exact (peeked_lt _ 1 o n o' E)|intros n Hn; apply IH, Hp, Hn].
      pose proof (peek_u8_sim h (mk c) true rep io (OK _) eq_refl) as H. rewrite He in H. exact H.
    - apply (sim_bind_where _ _ (fun n => n < 256 ^ N.of_nat w)); [|intros o n o' E; exact (word_lt _ w o n o' E)|intros n Hn; apply IH, Hp, Hn].
      pose proof (read_uint_sim h (mk c) true rep io (OK _) w) as H. rewrite He in H. exact H.
    - apply (sim_bind_where _ _ (fun n => n < 256 ^ N.of_nat w)); [|intros o n o' E; exact (peeked_lt _ w o n o' E)|intros n Hn; apply IH, Hp, Hn].
      pose proof (peek_uint_sim h (mk c) true rep io (OK _) w eq_refl) as H. rewrite He in H. exact H.
    - apply sim_bind; [|intros z; apply IH, Hp]. pose proof (read_prim_sim h (mk c) true rep io (OK _) pr) as H. rewrite He in H. exact H.
    - apply sim_bind; [|intros z; apply IH, Hp]. unfold peek_prim, dprim.
      eapply sim_ext; [reflexivity|intros o; symmetry; apply dpeek_bind|].
      apply sim_bind; [|intros; apply sim_ret].
      pose proof (peek_u8_sim h (mk c) true rep io (OK _) eq_refl) as H1.
      pose proof (fun w => peek_uint_sim h (mk c) true rep io (OK _) w eq_refl) as H2. rewrite He in H1. setoid_rewrite He in H2.
      destruct pr; first [exact H1|apply H2].
    - apply (sim_bind_where _ _ (fun n => n < 2 ^ 64)); [|intros o n o' E; exact (dvarint_lt h (BufferReader (order c)) (vh_usize_lo h VH) o n o' E)|intros n Hn; apply IH, Hp, Hn].
      pose proof (read_varint_sim h (mk c) true rep io (OK _)) as H. rewrite He in H. exact H.
    - pose proof (peek_varint_sim h (mk c) rep io (OK _)) as H. rewrite He in H.
      eapply sim_ext; [reflexivity| |apply sim_bind; [exact H|intros n; apply IH, Hp]].
      intros o. unfold dbind, dret. destruct (dpeek _ o) as [a o1| | | |]; try reflexivity. destruct (dpeek _ o1); reflexivity.
    - destruct Hp as (Ht & Hk). apply sim_bind; [apply Hrd, Ht|]. intros v. apply IH, Hk.
    - destruct Hp as (Ht & Hk). apply sim_bind; [|intros v; apply IH, Hk].
      apply sim_catch; [apply sim_map, Hrd, Ht|apply (ok_io _ _ _ _ _ (OK c))].
    - destruct Hp as (Ht & Hk). apply sim_bind; [|intros vs; apply IH, Hk].
      destruct (Ht (order c)) as (Hv & Hs).
      pose proof (read_vec_sim h VH (mk c) false true rep io (OK _) t (read h (mk c) t) n) as H. rewrite He in H.
      apply H; [exact Hv|]. intros _. apply Hrd, Hs.
    - destruct Hp as (Ht & Hk). apply sim_bind; [|intros vs; apply IH, Hk].
      apply (read_until_eof_sim h (mk c) true rep io (OK _)), Hrd, Ht.
    - destruct Hp as (Ht & Hk). apply sim_bind; [|intros vs; apply IH, Hk].
      destruct (Ht (order c)) as (Hv & Hc & Hs).
      pose proof (read_cow_sim h VH (mk c) false true rep io (OK _) (lexactly n) t (read h (mk c) t) n) as H. rewrite He in H.
      apply H; [exact Hv|exact Hc|apply possible_exactly|]. intros _. apply Hrd, Hs.
    - apply sim_bind.
      + pose proof (read_vec_u8_sim h VH (mk c) false true rep io (OK _) n) as H. exact H.
      + intros b. apply sim_bind; [|intros v; apply IH, Hp].
        apply to_str_sim. discriminate.
    - destruct Hp as (Ht & Hk). destruct (Ht (order c)) as (Hc & Hs).
      pose proof (read_collection_sim h VH (mk c) false true rep io (OK _) (lexactly n) col (if map then pair_key else id) t (read h (mk c) t) n) as H.
      rewrite He in H. eapply sim_ext; [reflexivity| |apply sim_bind; [apply H; [exact Hc|apply possible_exactly|apply Hrd, Hs]|intros v; apply IH, Hk]].
      intros o. unfold dbind, dret. destruct (drepeat _ _ o); reflexivity.
    - destruct Hp as (Ht & Hk). destruct (Ht (order c)) as (Hc & Hs1 & Hs2).
      pose proof (read_kv_sim h VH (mk c) false true rep io (OK _) (lexactly n) col tk tv (read h (mk c) tk) (read h (mk c) tv) n) as H.
      rewrite He in H. eapply sim_ext; [reflexivity| |apply sim_bind; [apply H; [exact Hc|apply possible_exactly|apply Hrd, Hs1|apply Hrd, Hs2]|intros v; apply IH, Hk]].
      intros o. unfold dbind, dret. destruct (drepeat _ _ o); reflexivity.
    - destruct Hp as (Ht & Hk). apply sim_bind; [|intros vs; apply IH, Hk].
      apply (read_until_eof_sim h (mk c) true rep io (OK _)), Hrd, Ht.
    - destruct Hp as (Hk & Hn). destruct (rd_borrow (mk c)) as [b|] eqn:Eb.
      + apply (sim_ext rep io (x <- mmap snd (b n) ;; perform h mk c (k (Some x))) _ (b <-- dread n ;; heard order h c (k (Some b))));
          [|reflexivity|].
        * intros s. unfold mmap, bind, ret. destruct (b n s) as [[[]| |]]; reflexivity.
        * apply sim_bind; [apply (ok_borrow _ _ _ _ _ (OK c) b Eb)|]. intros x. apply IH, Hk.
      + eapply sim_ext; [reflexivity|apply Hn|apply IH, Hk].
    - destruct Hp as (Hk & Hn). destruct (rd_borrow_r (mk c)) as [b|] eqn:Eb.
      + apply sim_bind; [apply (ok_borrow_r _ _ _ _ _ (OK c) b Eb)|]. intros x. apply IH, Hk.
      + eapply sim_ext; [reflexivity|apply Hn|apply IH, Hk].
    - destruct Hp as (Hk & Hn). destruct (rd_borrow_eof (mk c)) as [b|] eqn:Eb.
      + apply (sim_ext rep io (x <- mmap snd b ;; perform h mk c (k (Some x))) _ (b <-- drest ;; heard order h c (k (Some b))));
          [|reflexivity|].
        * intros s. unfold mmap, bind, ret. destruct (b s) as [[[]| |]]; reflexivity.
        * apply sim_bind; [apply (ok_borrow_eof _ _ _ _ _ (OK c) b Eb)|]. intros x. apply IH, Hk.
      + eapply sim_ext; [reflexivity|apply Hn|apply IH, Hk].
    - rewrite He. apply IH, Hp.
    - apply IH, Hp.
    - apply IH, Hp.
    - destruct Hp.
  Qed.

  Lemma perform_sim (VH : valid_host h) {St} (mk : endian -> reader St) rep io c p :
    (forall e, rd_endian (mk e) = e) -> (forall e, reader_ok h (mk e) true rep io) -> readable p ->
    sim rep io (perform h (fun c => mk (order c)) c p) (heard order h c p).
  Proof. intros He OK. apply (follow_sim VH (fun c => mk (order c))); auto. Qed.
End Follow.

Section Programs.
  Context {C : Type} (order : C -> endian) (h : host) (VH : valid_host h).

  Lemma from_agrees mk need c p addr bs : (forall e, rd_endian (mk e) = e) ->
    (forall e, reader_ok h (mk e) true (brep h) no_io) -> readable h p -> nlen bs <= h_alloc_max h -> need <= nlen bs ->
    agrees (heard order h c p (Some bs)) (fst (program_from order h mk need c p addr bs))
    /\ forall v rest, heard order h c p (Some bs) = DOk v (Some rest) ->
         program_from order h mk need c p addr bs = (Ok v, nlen bs - nlen rest).
  Proof.
    intros He OK Hp Hl Hn. unfold program_from. destruct (N.ltb_spec (nlen bs) need); [lia|].
    assert (Hr : repo (brep h) (br_start addr bs) (Some bs)) by (split; [reflexivity|exact Hl]).
    pose proof (perform_sim h order VH mk (brep h) no_io c p He OK Hp _ _ Hr) as H'.
    destruct (perform h _ c p (br_start addr bs)) as [r s]. cbn [fst snd] in *.
    destruct H' as [(er & _ & [])|Hpost]. split; [eapply post_agrees, Hpost|].
    intros v rest E. rewrite E in Hpost. destruct Hpost as (-> & (Hb & _) & _). rewrite Hb. reflexivity.
  Qed.

  (** Both kinds of buffers give what the body makes of the bytes, and say how many it used. *)
  Theorem C116_buffers need c p addr bs : readable h p -> nlen bs <= h_alloc_max h -> need <= nlen bs ->
    (agrees (heard order h c p (Some bs)) (fst (program_from_buffer order h need c p addr bs))
     /\ agrees (heard order h c p (Some bs)) (fst (program_from_copied order h need c p bs)))
    /\ forall v rest, heard order h c p (Some bs) = DOk v (Some rest) ->
         program_from_buffer order h need c p addr bs = (Ok v, nlen bs - nlen rest)
         /\ program_from_copied order h need c p bs = (Ok v, nlen bs - nlen rest).
  Proof.
    intros Hp Hl Hn.
    destruct (from_agrees BufferReader need c p addr bs ltac:(reflexivity) (fun e => buffer_ok h VH e true) Hp Hl Hn) as (A1 & B1).
    destruct (from_agrees CopyingBufferReader need c p 0 bs ltac:(reflexivity) (fun e => copying_ok h VH e true) Hp Hl Hn) as (A2 & B2).
    split; [split; assumption|]. intros v rest E. split; [apply B1, E|apply B2, E].
  Qed.

  (** So do streams, however they hand out their bytes, unless the stream itself fails. *)
  Theorem C116_streams mem buffering c p i : readable h p -> (forall n, n <= nlen (mem n)) ->
    ~ In (RErr IoUnexpectedEof) (is_sched i) -> nlen (is_rest i) <= l_usize_max (h_lim h) ->
    let (r, s) := program_from_stream order h mem buffering c p i in
    (exists k, r = Err (IoError k) /\ In (RErr k) (is_sched i))
    \/ (agrees (heard order h c p (Some (is_rest i))) r
        /\ forall v rest, heard order h c p (Some (is_rest i)) = DOk v (Some rest) ->
             content (sr_buffer s) ++ is_rest (sr_stream s) = rest).
  Proof.
    intros Hp Hmem Hclean Hlen. unfold program_from_stream.
    pose proof (sr_start_rep h mem Hmem buffering true (is_sched i) i eq_refl Hlen) as Hr.
    pose proof (perform_sim h order VH (StreamReader mem) _ _ c p ltac:(reflexivity)
                  (fun e => stream_ok h e mem Hmem buffering true (is_sched i) Hclean) Hp _ (Some (is_rest i)) Hr) as H.
    destruct (perform h _ c p (sr_start mem buffering i)) as [r s]. cbn [fst snd] in H.
    destruct H as [(er & -> & k & -> & Hk & _)|Hpost]; [left; eauto|right].
    split; [eapply post_agrees, Hpost|]. intros v rest E. rewrite E in Hpost. destruct Hpost as (_ & Hrep & _).
    exact (sp_bytes _ _ _ _ _ _ Hrep).
  Qed.

  (** Whoever overrides `minimum_bytes_needed` truthfully reads the same values from buffers and
      from streams. *)
  Definition truthful (need : N) (c : C) (p : rprog C) : Prop :=
    forall bs v o, heard order h c p (Some bs) = DOk v o -> need <= nlen bs.

  Theorem C116_same need c p bs addr mem buffering sched v : readable h p -> truthful need c p ->
    nlen bs <= h_alloc_max h -> (forall n, n <= nlen (mem n)) -> no_errors sched ->
    heard order h c p (Some bs) <> DUnspec ->
    (fst (program_from_buffer order h need c p addr bs) = Ok v
     <-> fst (program_from_stream order h mem buffering c p {| is_rest := bs; is_sched := sched |}) = Ok v).
  Proof.
    intros Hp Ht Hl Hmem Hsc Hu. pose proof (vh_alloc h VH) as Ha.
    pose proof (C116_streams mem buffering c p {| is_rest := bs; is_sched := sched |} Hp Hmem (Hsc _) ltac:(cbn [is_rest]; lia)) as H.
    destruct (program_from_stream order h mem buffering c p _) as [r s]. cbn [fst is_rest is_sched] in *.
    destruct H as [(k & _ & Hk)|(Hag & _)]; [destruct (Hsc k Hk)|].
    destruct (N.lt_ge_cases (nlen bs) need) as [Hn|Hn].
    - unfold program_from_buffer, program_from. destruct (N.ltb_spec (nlen bs) need); [|lia]. cbn [fst].
      split; [discriminate|]. intros ->. destruct (heard order h c p (Some bs)) as [w o| |er sure|f sure|] eqn:E; cbn in Hag.
      + specialize (Ht bs w o E). lia.
      + destruct Hag as (er & Hx & _). discriminate.
      + destruct Hag as [(Hx & _)|(_ & er' & Hx & _)]; discriminate.
      + destruct Hag as [Hx|(_ & er' & Hx & _)]; discriminate.
      + congruence.
    - destruct (C116_buffers need c p addr bs Hp Hl Hn) as ((Hb & _) & _). exact (agrees_same _ _ _ Hu Hb Hag v).
  Qed.

  (** Two bodies that are inverse on bytes round-trip through every entry point. *)
  Theorem C116_round_trip mem need c q p b rest v : (forall n, n <= nlen (mem n)) ->
    fit h q -> modest q -> readable h p -> truthful need c p ->
    meant order h c q = Ok b -> heard order h c p (Some (b ++ rest)) = DOk v (Some rest) ->
    nlen (b ++ rest) <= h_alloc_max h ->
    program_to_vec order h mem c q = Ok b
    /\ (forall addr, program_from_buffer order h need c p addr (b ++ rest) = (Ok v, nlen b))
    /\ program_from_copied order h need c p (b ++ rest) = (Ok v, nlen b)
    /\ forall mem' buffering sched, (forall n, n <= nlen (mem' n)) -> no_errors sched ->
         fst (program_from_stream order h mem' buffering c p {| is_rest := b ++ rest; is_sched := sched |}) = Ok v.
  Proof.
    intros Hm Hf Hmo Hp Ht Hb Hh Hl.
    destruct (C115_modest order h VH mem c q b Hm Hf Hmo Hb) as (_ & Hvec & _).
    split; [exact Hvec|]. pose proof (Ht _ _ _ Hh) as Hn.
    assert (El : nlen (b ++ rest) - nlen rest = nlen b) by (rewrite nlen_app; lia).
    assert (HB : forall addr, program_from_buffer order h need c p addr (b ++ rest) = (Ok v, nlen b)
                              /\ program_from_copied order h need c p (b ++ rest) = (Ok v, nlen b)).
    { intros addr. destruct (C116_buffers need c p addr (b ++ rest) Hp Hl Hn) as (_ & H). rewrite <- El. apply H, Hh. }
    split; [intros addr; apply HB|]. split; [apply (HB 0)|].
    intros mem' buffering sched Hm' Hsc.
    apply (C116_same need c p (b ++ rest) 0 mem' buffering sched v Hp Ht Hl Hm' Hsc); [rewrite Hh; discriminate|].
    destruct (HB 0) as (-> & _). reflexivity.
  Qed.
End Programs.
Print Assumptions C116_buffers.
Print Assumptions C116_streams.
Print Assumptions C116_same.
Print Assumptions C116_round_trip.

(** ** Cases *)

(** Reads what [header] wrote: a wrong magic number is an error of its own. *)
Definition magic_is (b : bytes) : bool := match lex_cmp byte_cmp b [x53; x50] with Eq => true | _ => false end.
Definition read_header : rprog versioned_context :=
  RBytes 2 (fun b =>
  if magic_is b then
    RValue names (fun ns => RUint 4 (fun crc => RVarint (fun n => RVec (TP U16) 2 (fun vs =>
    RReturn (VSeq [ns; VInt (Z.of_N crc); VInt (Z.of_N n); VSeq vs])))))
  else RFail custom).
Definition header_value : val := VSeq [name_list; VInt 7; VInt 300; VSeq [VInt 1; VInt 2]].

Lemma read_header_readable : readable host64 read_header.
Proof.
  intros b. destruct (magic_is b); [|reflexivity]. split.
  - intros []; apply supportedb_sound; vm_compute; reflexivity.
  - intros v n _ m _. split; [|intros vs; exact Logic.I].
    intros []; (split; [apply vec_elemb_sound|apply supportedb_sound]); vm_compute; reflexivity.
Qed.

(** The user says it takes two bytes at least. *)
Lemma read_header_truthful c : truthful vc_order host64 2 c read_header.
Proof.
  intros bs v o. cbn [heard read_header]. unfold dbind, dread at 1.
  destruct (N.leb_spec 2 (nlen bs)); [lia|discriminate].
Qed.

Definition header_bytes (e : endian) : bytes :=
  match e with
  | LE => [x53; x50; x02; x00; x00; x00; x02; x00; x00; x00; x61; x62; x00; x00; x00; x00; x07; x00; x00; x00; x81; x2c; x01; x00; x02; x00]
  | BE => [x53; x50; x00; x00; x00; x02; x00; x00; x00; x02; x61; x62; x00; x00; x00; x00; x00; x00; x00; x07; x81; x2c; x00; x01; x00; x02]
  end.

Example C116_round_trip_case e : fit host64 header /\ modest header /\ readable host64 read_header
  /\ truthful vc_order host64 2 (v2 e) read_header
  /\ meant vc_order host64 (v2 e) header = Ok (header_bytes e)
  /\ heard vc_order host64 (v2 e) read_header (Some (header_bytes e ++ [xaa; xbb])) = DOk header_value (Some [xaa; xbb])
  /\ nlen (header_bytes e ++ [xaa; xbb]) <= h_alloc_max host64.
Proof.
  split; [apply C115_modest_case|]. split; [exact I|]. split; [exact read_header_readable|].
  split; [apply read_header_truthful|]. destruct e; (split; [vm_compute; reflexivity|]; split; [vm_compute; reflexivity|vm_compute; discriminate]).
Qed.

(** A wrong magic number is told apart from a short file. *)
Example C116_wrong_magic : heard vc_order host64 (v2 LE) read_header (Some [x53; x51; x00]) = DBad custom true
  /\ heard vc_order host64 (v2 LE) read_header (Some [x53; x50; x00]) = DEof.
Proof. split; vm_compute; reflexivity. Qed.

(** Both conditions are needed: a minimum that is too large makes buffers refuse what streams
    deliver, and a body that asks whether so many bytes are left gets no answer from streams. *)
Definition curious : rprog versioned_context :=
  RRoom 4 (fun o => match o with Some true => RUint 4 (fun n => RReturn (VInt (Z.of_N n))) | _ => RReturn VNone end).

Theorem C116_any_refuted :
  (readable host64 read_header
   /\ fst (program_from_buffer vc_order host64 64 (v2 BE) read_header 0 (header_bytes BE)) = Err (InputBufferIsTooSmall 26 64)
   /\ fst (program_from_stream vc_order host64 dirty true (v2 BE) read_header {| is_rest := header_bytes BE; is_sched := [] |})
        = Ok header_value)
  /\ fst (program_from_buffer vc_order host64 0 (v2 LE) curious 0 [x07; x00; x00; x00]) = Ok (VInt 7)
  /\ fst (program_from_stream vc_order host64 dirty true (v2 LE) curious {| is_rest := [x07; x00; x00; x00]; is_sched := [] |}) = Ok VNone.
Proof. split; [split; [exact read_header_readable|]|]; split; vm_compute; reflexivity. Qed.
Print Assumptions C116_any_refuted.

(** A body that borrows where it can: a magic number, or else the same bytes copied; a map of a
    length it was told; a signed number it looks at first; a name; numbers to the end. *)
Definition after_magic (b : bytes) : rprog versioned_context :=
  if magic_is b then
    RUint 2 (fun n => RKeyValues CBTree (TP U8) (TP U16) n (fun m =>
    RPeekPrim I8 (fun z => RPrim I8 (fun z' =>
    RString 2 (fun s => RCow (TP U16) 1 (fun cow => RVecEof (TP U16) (fun vs =>
    RReturn (VSeq [m; VInt z; VInt z'; s; VSeq cow; VSeq vs]))))))))
  else RFail custom.
Definition read_archive : rprog versioned_context :=
  RBorrow 2 (fun o => match o with Some b => after_magic b | None => RBytes 2 after_magic end).
Definition archive_bytes : bytes :=
  [x53; x50; x00; x02; x07; x00; x09; x03; x01; x00; xfe; x68; x69; x00; x05; x00; x06; x00; x07].
Definition archive_value : val :=
  VSeq [VSeq [VSeq [VInt 3; VInt 256]; VSeq [VInt 7; VInt 9]]; VInt (-2); VInt (-2); VBytes [x68; x69];
        VSeq [VInt 5]; VSeq [VInt 6; VInt 7]].

Lemma after_magic_readable b : readable host64 (after_magic b).
Proof.
  unfold after_magic. destruct (magic_is b); [|reflexivity]. intros n Hn. cbn [readable]. split.
  - intros e. split; [|split; destruct e; apply supportedb_sound; vm_compute; reflexivity].
    intros _ _. destruct (pair_elemb_sound host64 LDefault (TP U8) (TP U16) ltac:(vm_compute; reflexivity) eq_refl eq_refl)
      as (H1 & H2 & H3 & H4 & H5 & _).
    split; [exact H1|]. split; [exact H2|]. split; [exact H3|]. split; [exact H4|]. split; [exact H5|].
    intros m (prev & [= <-]). change (h_size host64 (pair_ty (TP U8) (TP U16))) with 3.
    change (l_usize_max (h_lim host64)) with (2 ^ 64 - 1). change (256 ^ N.of_nat 2) with 65536 in Hn. lia.
  - intros _ z z' s. split; [|intros vs; split; [|intros vs'; exact Logic.I]].
    + intros e. split; [apply vec_elemb_sound; destruct e; vm_compute; reflexivity|].
      split; [|apply supportedb_sound; destruct e; vm_compute; reflexivity].
      intros _. destruct (copy_elemb_sound host64 LDefault (TP U16) ltac:(vm_compute; reflexivity) eq_refl) as (H1 & H2 & _).
      split; [exact H1|]. split; [exact H2|]. intros m (prev & [= <-]). vm_compute. discriminate.
    + intros e. apply supportedb_sound. destruct e; vm_compute; reflexivity.
Qed.

Lemma read_archive_readable : readable host64 read_archive.
Proof.
  split; [|reflexivity]. intros [b|]; [apply after_magic_readable|]. exact after_magic_readable.
Qed.

Example C116_archive_case :
  readable host64 read_archive
  /\ heard vc_order host64 (v2 BE) read_archive (Some archive_bytes) = DOk archive_value (Some [])
  /\ fst (program_from_buffer vc_order host64 0 (v2 BE) read_archive 4 archive_bytes) = Ok archive_value
  /\ fst (program_from_stream vc_order host64 dirty false (v2 BE) read_archive {| is_rest := archive_bytes; is_sched := [RChunk 3; RChunk 1] |})
       = Ok archive_value.
Proof. split; [exact read_archive_readable|]. split; [vm_compute; reflexivity|]. split; vm_compute; reflexivity. Qed.

(** One that takes the slice for granted works with `BufferReader` alone. *)
Definition spoiled : rprog versioned_context :=
  RBorrow 2 (fun o => match o with Some b => RReturn (VBytes b) | None => RPanic PanicExplicit end).
Theorem C116_borrow_refuted :
  fst (program_from_buffer vc_order host64 0 (v2 BE) spoiled 0 [x01; x02]) = Ok (VBytes [x01; x02])
  /\ fst (program_from_copied vc_order host64 0 (v2 BE) spoiled [x01; x02]) = Fault PanicExplicit
  /\ fst (program_from_stream vc_order host64 dirty true (v2 BE) spoiled {| is_rest := [x01; x02]; is_sched := [] |}) = Fault PanicExplicit.
Proof. split; [|split]; vm_compute; reflexivity. Qed.
Print Assumptions C116_borrow_refuted.
