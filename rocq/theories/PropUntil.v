(* Properties C35 and C40: reading to the end of the input; lengths that promise
   too much. *)
From Verif Require Import Sane Samples Entry Extend Keep PropSafe.

(* struct Rest { #[speedy(length = ..)] rest: T } *)
Definition rest_of (t : ty) : ty := TStruct (sd 1 RRust) [(with_len LEof, t)].

(** [elements d bs vs]: the elements [vs] stand in [bs] one after the other, up to
    the end or a rest in which no further element can be found. *)
Inductive elements (d : bytes -> dres val) : bytes -> list val -> Prop :=
| el_end bs : (forall v o, d bs <> DOk v o) -> elements d bs []
| el_more bs v rest vs : d bs = DOk v (Some rest) -> elements d rest vs -> elements d bs (v :: vs).

Section Until.
  Context (h : host) (VH : valid_host h) (e : endian).
  Notation e6 := (ipv6_order h e).
  Notation decode := (decode (h_lim h) e e6).

  Lemma until_elements {St} (rep : St -> bytes -> Prop) io rd (d : dec val) k :
    sim rep io rd d -> mono d -> (forall er, ~ io er) ->
    forall s bs vs s', rep s bs -> until_eof_loop rd k s = (Ok vs, s') -> elements (fun b => d (Some b)) bs vs.
  Proof.
    intros Hsim Hmono Hio. induction k as [|k IH]; intros s bs vs s' Hs E; [discriminate E|].
    cbn [until_eof_loop] in E. destruct (Hsim s (Some bs) Hs) as [(er & _ & Hi)|Hp]; [destruct (Hio er Hi)|].
    destruct (Hmono bs) as [Hd|(_ & Hu & Hrest)].
    - rewrite Hd in Hp. destruct Hp as (er & Er & He & _). destruct (rd s) as [r s1]. cbn [fst] in Er. subst r. rewrite He in E.
      injection E as <- _. apply el_end. rewrite Hd. discriminate.
    - destruct (d (Some bs)) as [v o| |er sure|f sure|] eqn:Hd; try congruence.
      + destruct Hp as (Er & Hr & _). destruct (Hrest v o eq_refl) as (c & r & -> & _).
        destruct (rd s) as [r0 s1]. cbn [fst snd] in *. subst r0. unfold mmap, bind, ret in E.
        destruct (until_eof_loop rd k s1) as [[ws|er|f] s2] eqn:E2; try discriminate E. injection E as <- _.
        eapply el_more; [exact Hd|]. eapply IH; [|exact E2]. exact Hr.
      + destruct Hp as (er & Er & He & _). destruct (rd s) as [r s1]. cbn [fst] in Er. subst r. rewrite He in E.
        injection E as <- _. apply el_end. rewrite Hd. discriminate.
      + destruct (rd s) as [r s1]. cbn [fst] in Hp. destruct Hp as [[-> Hne]|[_ (er' & -> & He & _)]].
        * rewrite Hne in E. discriminate E.
        * rewrite He in E. injection E as <- _. apply el_end. rewrite Hd. discriminate.
      + destruct (rd s) as [r s1]. cbn [fst] in Hp. destruct Hp as [->|[_ (er' & -> & He & _)]]; [discriminate E|].
        rewrite He in E. injection E as <- _. apply el_end. rewrite Hd. discriminate.
  Qed.

  (** What the reader of the field returns. *)
  Lemma rest_of_until t' bs bw (rd : forall St, reader St -> M St val) (d : dec val) (g : list val -> val) v :
    (forall St (R : reader St), read_field_inner h R (read h R) [] (with_len LEof) false t'
                                = (vs <- read_until_eof R (rd St R) ;; ret (g vs))) ->
    match t' with TOption _ => False | _ => True end ->
    mono d ->
    (forall St (R : reader St) rep io, reader_ok h R true rep io -> rd_endian R = e ->
       (bw = true -> rd_borrow R <> None /\ rd_borrow_eof R <> None) -> sim rep io (rd St R) d) ->
    reading h e (rest_of t') bs bw (Ok v) ->
    exists vs, v = VSeq [g vs] /\ elements (fun b => d (Some b)) bs vs.
  Proof.
    intros Hread Hopt Hmono Hsim Hr.
    destruct (reading_via h VH e _ _ _ _ Hr) as [[_ E]|(St & R & rep & io & s & HR & He & Hs & Hio & Hbw & E)]; [discriminate E|].
    cbn [rest_of read] in E. unfold mmap in E. cbn [read_fields fst snd with_len f_skip] in E.
    unfold read_field in E. cbn [f_prefix f_opaque f_eof f_varint] in E.
    assert (E' : Ok v = fst (bind (vs <- read_until_eof R (rd St R) ;; ret (g vs)) (fun w => ret (VSeq [w])) s)).
    { rewrite <- Hread. rewrite E. clear E. destruct t'; try contradiction Hopt; cbn -[read_field_inner];
        unfold bind, ret; destruct (read_field_inner _ _ _ _ _ _ _ s) as [[]]; reflexivity. }
    unfold bind, ret, read_until_eof in E'.
    destruct (until_eof_loop (rd St R) (rd_fuel R s) s) as [[vs|er|f] s'] eqn:Eu; try discriminate E'.
    cbn [fst] in E'. injection E' as ->. exists vs. split; [reflexivity|].
    eapply until_elements; [eapply Hsim; eassumption|exact Hmono|exact Hio|exact Hs|exact Eu].
  Qed.

  Lemma elem_sim t bw St (R : reader St) rep io : supported h e bw true LDefault t -> reader_ok h R true rep io ->
    rd_endian R = e -> (bw = true -> rd_borrow R <> None /\ rd_borrow_eof R <> None) ->
    sim rep io (read h R t) (decl (h_lim h) e e6 len0 t).
  Proof.
    intros Hs HR He Hbw. pose proof (read_sim h VH R bw true rep io HR Hbw t) as H. rewrite He in H. apply H, Hs.
  Qed.

  (** C35: `Vec<T>` and `Cow<[T]>`: the elements stand in the input one after the
      other, and nothing but an incomplete element is left. *)
  Theorem C35_vector_partial k t bs bw v : k = KVec \/ k = KCow ->
    supported h e bw true LDefault t -> no_eof false t ->
    reading h e (rest_of (TSeq k t)) bs bw (Ok v) ->
    exists vs, v = VSeq [VSeq vs] /\ elements (decode t) bs vs.
  Proof.
    intros Hk Hs Hn Hr.
    apply (rest_of_until (TSeq k t) bs bw (fun St R => read h R t) (decl (h_lim h) e e6 len0 t) VSeq v); auto.
    - intros St R. destruct Hk as [-> | ->]; reflexivity.
    - apply decode_strict, Hn.
    - intros. eapply elem_sim; eassumption.
  Qed.

  (** The same for sets, which then drop duplicates. *)
  Theorem C35_set_partial k t bs bw v : k = CBTree \/ k = CHash ->
    supported h e bw true LDefault t -> no_eof false t ->
    reading h e (rest_of (TSet k t)) bs bw (Ok v) ->
    exists vs, v = VSeq [VSeq (collect k id vs)] /\ elements (decode t) bs vs.
  Proof.
    intros Hk Hs Hn Hr.
    apply (rest_of_until (TSet k t) bs bw (fun St R => read h R t) (decl (h_lim h) e e6 len0 t) (fun vs => VSeq (collect k id vs)) v); auto.
    - intros St R. destruct Hk as [-> | ->]; reflexivity.
    - apply decode_strict, Hn.
    - intros. eapply elem_sim; eassumption.
  Qed.

  (** ... and for maps. *)
  Theorem C35_map_partial k tk tv bs bw v : k = CBTree \/ k = CHash ->
    supported h e bw true LDefault tk -> no_eof false tk -> supported h e bw true LDefault tv -> no_eof false tv ->
    reading h e (rest_of (TMap k tk tv)) bs bw (Ok v) ->
    exists vs, v = VSeq [VSeq (collect k pair_key vs)] /\ elements (decode (TTuple [tk; tv])) bs vs.
  Proof.
    intros Hk Hsk Hnk Hsv Hnv Hr.
    apply (rest_of_until (TMap k tk tv) bs bw (fun St R => read_pair (read h R tk) (read h R tv))
             (decl (h_lim h) e e6 len0 (TTuple [tk; tv])) (fun vs => VSeq (collect k pair_key vs)) v); auto.
    - intros St R. destruct Hk as [-> | ->]; reflexivity.
    - apply decode_strict. cbn. auto.
    - intros St R rep io HR He Hbw.
      apply (sim_ext rep io (read h R (TTuple [tk; tv])) _ (decl (h_lim h) e e6 len0 (TTuple [tk; tv])) _); [|reflexivity|].
      + intros s. cbn [read read_tuple]. unfold read_pair, mmap, bind, ret.
        destruct (read h R tk s) as [[a| |] s1]; auto. destruct (read h R tv s1) as [[b| |] s2]; reflexivity.
      + eapply elem_sim; try eassumption. cbn. auto.
  Qed.

  Lemma rest_of_decode t bs : sized_field (with_len LEof) t = true ->
    decode (rest_of t) bs = match decl (h_lim h) e e6 LenEof t (Some bs) with
                            | DOk v o => DOk (VSeq [v]) o | DEof => DEof | DBad er s => DBad er s | DPanic f s => DPanic f s
                            | DUnspec => DUnspec end.
  Proof.
    intros Ht. unfold Spec.decode, rest_of.
    assert (E : dfield (h_lim h) e e6 (decl (h_lim h) e e6) [] (with_len LEof) t (Some bs) = decl (h_lim h) e e6 LenEof t (Some bs)).
    { unfold dfield. change (f_eof (with_len LEof)) with false. change (f_prefix (with_len LEof)) with (@nil byte).
      change (f_varint (with_len LEof)) with false. unfold field_len. rewrite Ht. cbv iota. unfold dbind at 1.
      change (dconst [] (Some bs)) with (DOk tt (Some bs)). reflexivity. }
    cbn [decl dfields fst snd]. change (f_skip (with_len LEof)) with false. unfold dmap, dbind. rewrite E.
    destruct (decl (h_lim h) e e6 LenEof t (Some bs)); reflexivity.
  Qed.

  (** Strings take everything. *)
  Theorem C35_string k bs bw v : k = KString \/ k = KCowStr \/ (k = KRefStr /\ bw = true) ->
    reading h e (rest_of (TStr k)) bs bw (Ok v) -> v = VSeq [VBytes bs].
  Proof.
    intros Hk Hr.
    assert (Hs : supported h e bw true LDefault (rest_of (TStr k))).
    { cbn. split; [|exact I]. right. split; [discriminate|]. split; [apply N.le_0_l|].
      destruct Hk as [-> |[-> |[-> ->]]]; cbn; auto. intros n []. }
    assert (E : decode (rest_of (TStr k)) bs = if utf8_valid bs then DOk (VSeq [VBytes bs]) (Some []) else DBad InvalidUtf8 true).
    { rewrite rest_of_decode by (destruct Hk as [-> |[-> |[-> ->]]]; reflexivity).
      cbn [decl dlen]. unfold dbind, drest, dstr. destruct (utf8_valid bs); [|reflexivity].
      destruct Hk as [-> |[-> |[-> ->]]]; reflexivity. }
    destruct (reading_decodes h VH e _ _ _ _ Hs Hr) as [[o E']|E']; rewrite E in E'; destruct (utf8_valid bs); congruence.
  Qed.

  (** Plain data of a fixed size, also as `&[T]`: as many elements as there is
      room for. *)
  Theorem C35_plain_data_partial k t bs bw v : supported h e bw true LEof (TSeq k t) -> k <> KBoxSlice -> k <> KSmallVec ->
    is_prim h t = true -> honest h t -> h_size h t <> 0 ->
    reading h e (rest_of (TSeq k t)) bs bw (Ok v) ->
    exists vs, v = VSeq [VSeq vs] /\ nlen vs = nlen bs / h_size h t.
  Proof.
    intros Hsup Hk1 Hk2 Hp Hh Hz Hr.
    assert (Hs : supported h e bw true LDefault (rest_of (TSeq k t))).
    { split; [|exact I]. right. split; [discriminate|]. split; [apply N.le_0_l|].
      cbn [snd fst]. replace (sized_field (with_len LEof) (TSeq k t)) with true by (destruct k; try congruence; reflexivity).
      exact Hsup. }
    assert (E : decode (rest_of (TSeq k t)) bs
      = DOk (VSeq [VSeq (map (pval h e t) (chunks (N.to_nat (h_size h t)) (N.to_nat (nlen bs / h_size h t)) bs))])
            (if nlen bs mod h_size h t =? 0 then Some [] else None)).
    { rewrite rest_of_decode by (destruct k; try congruence; reflexivity).
      cbn [decl dlen]. unfold dmap, dbind, duntil.
      assert (Hx : forall n o, duntil_loop (decl (h_lim h) e e6 len0 t) n o
                 = duntil_loop (dmap (pval h e t) (dread (h_size h t))) n o).
      { pose proof (prim_plain h VH t Hh Hp) as Hpl. induction n as [|n IH]; intros o; [reflexivity|]. cbn [duntil_loop].
        rewrite (decl_plain h VH (h_lim h) e e6 t o Hpl). destruct (dmap _ _ o); auto. apply dmap_ext; [apply IH|reflexivity]. }
      rewrite Hx, duntil_loop_dread by (auto; lia). reflexivity. }
    destruct (reading_decodes h VH e _ _ _ _ Hs Hr) as [[o E']|E']; rewrite E in E'; [|discriminate E'].
    injection E' as <- _. eexists. split; [reflexivity|]. unfold nlen. rewrite map_length, chunks_length. lia.
  Qed.
End Until.

(** C35: reading ends.  See [calm] for the types; what is asked for here is that
    elements read to the end of the input are never empty. *)
Theorem C35_terminates_partial h (VH : valid_host h) e L t bs buf : nlen bs <= L -> L <= max_input h buf ->
  calm h e (fun f => f <> Diverges) L (room h L buf) LDefault t -> ~ outcome h e t bs buf (Fault Diverges).
Proof. intros Hl HL Hc Hr. exact (C25_faults_partial h VH e L _ t bs buf _ Hl HL Hc Hr eq_refl). Qed.

Print Assumptions C35_vector_partial.
Print Assumptions C35_set_partial.
Print Assumptions C35_map_partial.
Print Assumptions C35_string.
Print Assumptions C35_plain_data_partial.
Print Assumptions C35_terminates_partial.

(** C35 fails: the last byte of three is not part of the result. *)
Theorem C35_remainder_refuted : exists h t bs v, valid_host h /\
  read_with_length_from_buffer h LE t 0 bs = (Ok v, 2) /\ nlen bs = 3.
Proof.
  exists host64, (rest_of (TSeq KVec (TP U16))), [x05; x00; x07]. eexists. split; [apply host64_valid|].
  split; vm_compute; reflexivity.
Qed.

(** ... and reading `Vec<()>` to the end of the input does not end: however often
    the loop is run, it is not finished. *)
Theorem C35_unit_refuted : exists t, forall h St (R : reader St) s k,
  until_eof_loop (read h R t) k s = (Fault Diverges, s).
Proof.
  exists (TScalar SUnit). intros h St R s k. induction k as [|k IH]; [reflexivity|].
  cbn [until_eof_loop]. change (read h R (TScalar SUnit) s) with (Ok VUnit, s). cbv iota beta.
  unfold mmap, bind. rewrite IH. reflexivity.
Qed.

Print Assumptions C35_remainder_refuted.
Print Assumptions C35_unit_refuted.

(* ------------------------------------------------------------------ *)
(** * C40 *)

(** The input, of length [L], holds enough for the elements of type [t] that are
    allocated: enough of them, at the least, lie ahead, or as many bytes as are
    allocated lie behind. *)
Definition backed (h : host) (L : N) (a : allocation) : Prop := exists t,
  al_size a = h_size h t
  /\ (al_count a * min_bytes h t <= al_rest a \/ al_count a * al_size a + al_rest a <= L).

Section Allocations.
  Context (h : host) (VH : valid_host h).

  Lemma backed_keeps L (R : reader breader) :
    rd_read R = br_read -> rd_read_ptr R = br_read -> rd_peek R = br_peek -> rd_peek_ptr R = br_peek -> rd_can R = br_can ->
    (rd_borrow R = None \/ rd_borrow R = Some br_borrow) -> rd_borrow_r R = Some br_borrow_r ->
    (rd_borrow_eof R = None \/ rd_borrow_eof R = Some br_borrow_eof) -> rd_alloc R = br_alloc ->
    keep_reader (fun s => nlen (br_rest s) <= L /\ Forall (backed h L) (br_log s)) h R.
  Proof.
    intros E1 E2 E3 E4 E5 E6 E7 E8 E9.
    set (P := fun s : breader => nlen (br_rest s) <= L /\ Forall (backed h L) (br_log s)).
    assert (Hadv : forall n s, P s -> P (br_advance n s)).
    { intros n s [H1 H2]. split; cbn [br_advance br_rest br_log]; [rewrite nlen_drop; lia|exact H2]. }
    assert (Hread : forall n, keeps P (br_read n)).
    { intros n s Hs. unfold br_read. destruct (_ <=? _); [apply Hadv|]; exact Hs. }
    assert (Hpeek : forall n, keeps P (br_peek n)).
    { intros n s Hs. unfold br_peek. destruct (_ <=? _); exact Hs. }
    assert (Hborrow : forall n, keeps P (br_borrow n)).
    { intros n s Hs. unfold br_borrow. destruct (_ <=? _); [apply Hadv|]; exact Hs. }
    constructor; rewrite ?E1, ?E2, ?E3, ?E4; auto.
    - intros b Hb n. destruct E6 as [E|E]; rewrite E in Hb; [discriminate|]. injection Hb as <-. apply Hborrow.
    - intros b Hb n. rewrite E7 in Hb. injection Hb as <-. apply Hread.
    - intros b Hb. destruct E8 as [E|E]; rewrite E in Hb; [discriminate|]. injection Hb as <-.
      intros s Hs. apply Hadv, Hs.
    - intros n t s Hs. unfold bind, require, alloc, fail, crash. rewrite E5, E9.
      destruct (_ <? min_bytes h t * n); [exact Hs|]. unfold br_can. destruct (N.leb_spec (min_bytes h t * n) (nlen (br_rest s))) as [H|H]; [|exact Hs].
      destruct (_ <? n * h_size h t); [exact Hs|]. destruct Hs as [H1 H2]. split; [exact H1|]. cbn [br_alloc snd br_log].
      apply Forall_app. split; [exact H2|]. constructor; [|constructor]. exists t. split; [reflexivity|]. left. cbn [al_count al_rest]. lia.
    - intros b Hb n t s p s' Hs Eb. set (size := h_size h t) in *. destruct E6 as [E|E]; rewrite E in Hb; [discriminate|]. injection Hb as <-.
      unfold alloc, crash. rewrite E9. unfold br_borrow in Eb.
      destruct (N.leb_spec (n * size mod (usize_max h + 1)) (nlen (br_rest s))) as [H|H]; [|discriminate Eb].
      injection Eb as <- <-. destruct (N.ltb_spec (h_alloc_max h) (n * size)) as [Ha|Ha]; [apply Hadv, Hs|].
      pose proof (Hadv (n * size mod (usize_max h + 1)) s Hs) as [H1 H2]. split; [exact H1|]. cbn [br_alloc snd br_log].
      apply Forall_app. split; [exact H2|]. constructor; [|constructor]. exists t.
      split; [reflexivity|]. right. cbn [al_min al_size al_count al_rest]. pose proof (vh_alloc h VH) as Hmax. 
      assert (Em : n * size mod (usize_max h + 1) = n * size) by (apply N.mod_small; unfold usize_max; lia).
      rewrite Em in *. cbn [br_advance br_rest]. rewrite nlen_drop. destruct Hs as [Hs _]. lia.
  Qed.

  (** C40: for every type, input and length prefix. *)
  Theorem C40_allocations e t addr bs a :
    In a (br_log (snd (with_min h t (BufferReader e) addr bs)))
    \/ In a (br_log (snd (with_min h t (CopyingBufferReader e) addr bs))) ->
    backed h (nlen bs) a.
  Proof.
    assert (H : forall R, keep_reader (fun s => nlen (br_rest s) <= nlen bs /\ Forall (backed h (nlen bs)) (br_log s)) h R ->
      In a (br_log (snd (with_min h t R addr bs))) -> backed h (nlen bs) a).
    { intros R HR Hin. unfold with_min in Hin. destruct (_ <? _); [destruct Hin|].
      pose proof (proj1 (keeps_read _ h R HR t) (br_start addr bs)) as Hk.
      destruct (read h R t (br_start addr bs)) as [r s]. cbn [snd] in *.
      destruct Hk as [_ Hk]; [split; [cbn; lia|constructor]|]. exact (proj1 (Forall_forall _ _) Hk a Hin). }
    intros [Hin|Hin]; (eapply H; [|exact Hin]); apply backed_keeps; cbn; auto.
  Qed.

  (** In the words of the property: the allocation of [count] elements of [size]
      bytes, of which each takes at least [min] bytes of input, is not larger
      than size / min times the remaining input, or, where the bytes have been
      taken from the input already, not larger than what has been taken. *)
  Corollary C40_hostile_lengths e t addr bs a :
    In a (br_log (snd (with_min h t (BufferReader e) addr bs)))
    \/ In a (br_log (snd (with_min h t (CopyingBufferReader e) addr bs))) ->
    exists elem, al_size a = h_size h elem
    /\ ((al_count a * h_size h elem) * min_bytes h elem <= h_size h elem * al_rest a
        \/ al_count a * h_size h elem <= nlen bs - al_rest a).
  Proof.
    intros Hin. destruct (C40_allocations e t addr bs a Hin) as (elem & E & H). exists elem. split; [exact E|].
    rewrite <- E. destruct H as [H|H]; [left|right; lia].
    rewrite <- N.mul_assoc, (N.mul_comm (al_size a) (min_bytes h elem)), N.mul_assoc, (N.mul_comm (al_size a) (al_rest a)).
    apply N.mul_le_mono_r. exact H.
  Qed.
End Allocations.

Print Assumptions C40_allocations.
Print Assumptions C40_hostile_lengths.

(* ------------------------------------------------------------------ *)
(** * The hypotheses are met *)

Lemma shape_supported bw : supported host64 BE bw true LDefault shape.
Proof. destruct bw; apply supportedb_sound; vm_compute; reflexivity. Qed.
Lemma shape_no_eof : no_eof false shape.
Proof. apply no_eofb_sound. vm_compute. reflexivity. Qed.

(** Two shapes and the beginning of a third. *)
Definition shapes_bytes : bytes := [x00; x03; x00; x04; x07; x3f; x80; x00; x00; x00; x05; x00].

Example C35_shapes : exists vs, elements (decode (h_lim host64) BE (ipv6_order host64 BE) shape) shapes_bytes vs /\ nlen vs = 2.
Proof.
  assert (Hr : reading host64 BE (rest_of (TSeq KVec shape)) shapes_bytes true
                 (Ok (VSeq [VSeq [VVar 0 []; VVar 1 [VInt 7; VInt 1065353216]]]))).
  { assert (E : read_from_buffer host64 BE (rest_of (TSeq KVec shape)) 0 shapes_bytes
                = Ok (VSeq [VSeq [VVar 0 []; VVar 1 [VInt 7; VInt 1065353216]]])) by (vm_compute; reflexivity).
    rewrite <- E. apply from_buffer. vm_compute. discriminate. }
  destruct (C35_vector_partial host64 host64_valid BE KVec shape _ _ _ (or_introl eq_refl) (shape_supported true) shape_no_eof Hr)
    as (vs & E & H). injection E as <-. eexists. split; [exact H|reflexivity].
Qed.

Example C35_bytes bs v : nlen bs <= 1000 -> read_from_buffer host64 BE (rest_of (TSeq KRef (TP U8))) 5 bs = Ok v ->
  exists vs, v = VSeq [VSeq vs] /\ nlen vs = nlen bs.
Proof.
  intros Hl Ev.
  assert (Hs : supported host64 BE true true LEof (TSeq KRef (TP U8))) by (apply supportedb_sound; vm_compute; reflexivity).
  destruct (C35_plain_data_partial host64 host64_valid BE KRef (TP U8) bs true v Hs) as (vs & -> & Hv); try discriminate; auto.
  - exact I.
  - rewrite <- Ev. apply from_buffer. change (h_alloc_max host64) with 9223372036854775807. lia.
  - exists vs. split; [reflexivity|]. rewrite Hv. change (h_size host64 (TP U8)) with 1. apply N.div_1_r.
Qed.
Example C35_bytes_read : read_from_buffer host64 BE (rest_of (TSeq KRef (TP U8))) 5 [x01; x02; x03]
  = Ok (VSeq [VSeq [VInt 1; VInt 2; VInt 3]]).
Proof. vm_compute. reflexivity. Qed.

Example C35_terminates_tidy bs buf : nlen bs <= 2 ^ 40 -> ~ outcome host64 LE tidy bs buf (Fault Diverges).
Proof. apply C25_tidy. Qed.

(** Three hostile length prefixes of 2^32 - 1, of which the second fails: there is
    one allocation, of one element. *)
Example C40_log :
  br_log (snd (with_min host64 (TSeq KVec (TSeq KVec (TStr KString))) (BufferReader LE) 0
                 [x01; x00; x00; x00; xff; xff; xff; xff; xff; xff; xff; xff]))
  = [{| al_count := 1; al_size := 24; al_min := 4; al_rest := 8 |}].
Proof. vm_compute. reflexivity. Qed.
