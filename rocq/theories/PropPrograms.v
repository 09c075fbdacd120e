(* Property C115: `Writable` implementations written by users. *)
From Verif Require Import Samples Checker Programs WriteApi PropWrite.

Section Said.
  Context {C : Type} (h : host).

  (** What a body says, whoever listens: [ord] is the byte order it is told. *)
  Fixpoint said (ord : option C -> endian) (ctx : option C) (p : wprog C) : res bytes :=
    let e := ord ctx in
    let enc1 := encode (h_iter h) e (ipv6_order h e) in
    match p with
    | WReturn => Ok []
    | WFail er => Err er
    | WPanic f => Fault f
    | WBytes b k => rapp (Ok b) (said ord ctx k)
    | WU8 n k => rapp (Ok [n2b n]) (said ord ctx k)
    | WUint w n k => rapp (Ok (word e w n)) (said ord ctx k)
    | WVarint n k => rapp (Ok (vi_enc n)) (said ord ctx k)
    | WValue t v k => rapp (enc1 t v) (said ord ctx k)
    | WSlice t vs k | WEach t vs k => rapp (enc_all (enc1 t) vs) (said ord ctx k)
    | WEndian k => said ord ctx (k e)
    | WContext k => match ctx with Some c => said ord ctx (k c) | None => Fault PanicExplicit end
    | WSetContext c k => match ctx with Some _ => said ord (Some c) k | None => Fault PanicExplicit end
    | WRoom n k => said ord ctx (k None)
    end.

  (** The values it writes are values, of types that can be written; it does not ask how much
      room there is. *)
  Fixpoint fit (p : wprog C) : Prop :=
    match p with
    | WReturn | WFail _ | WPanic _ => True
    | WBytes _ k | WU8 _ k | WUint _ _ k | WSetContext _ k => fit k
    | WVarint n k => n < 2 ^ 64 /\ fit k
    | WValue t v k => wsup h t /\ valid (h_lim h) t v /\ fit k
    | WSlice t vs k => slice_elem h t /\ wsup h t /\ Forall (valid (h_lim h) t) vs /\ fit k
    | WEach t vs k => wsup h t /\ Forall (valid (h_lim h) t) vs /\ fit k
    | WEndian k => forall e, fit (k e)
    | WContext k => forall c, fit (k c)
    | WRoom _ _ => False
    end.

  Lemma run_sim (VH : valid_host h) {St} (mk : option C -> writer St) wrep werr room ctx p :
    (forall ctx, writer_ok h (mk ctx) wrep werr room) -> fit p ->
    wsim wrep werr room (run h mk ctx p) (said (fun ctx => wr_endian (mk ctx)) ctx p).
  Proof.
    intros OK. revert ctx.
    assert (B : forall ctx m1 m2 x1 x2, wsim wrep werr room m1 x1 -> wsim wrep werr room m2 x2 ->
              wsim wrep werr room (m1 ;;; m2) (rapp x1 x2))
      by (intros ctx; apply (wsim_bind h (mk ctx) wrep werr room (OK ctx))).
    induction p as [|er|f|b p IH|n p IH|w n p IH|n p IH|t v p IH|t vs p IH|t vs p IH|k IH|k IH|c p IH|n k IH];
      intros ctx Hf; cbn [run said fit] in *.
    - apply wsim_ret.
    - apply wsim_fail.
    - apply wsim_crash.
    - apply (B ctx); [apply (wk_bytes _ _ _ _ _ (OK ctx))|apply IH, Hf].
    - apply (B ctx); [apply (wk_u8 _ _ _ _ _ (OK ctx))|apply IH, Hf].
    - apply (B ctx); [apply (wk_uint _ _ _ _ _ (OK ctx))|apply IH, Hf].
    - destruct Hf as (Hn & Hf). apply (B ctx); [apply (wsim_varint h (mk ctx) _ _ _ (OK ctx)), Hn|apply IH, Hf].
    - destruct Hf as (Hs & Hv & Hf). apply (B ctx); [|apply IH, Hf]. apply (write_sim h VH (mk ctx) _ _ _ (OK ctx)); assumption.
    - destruct Hf as (Hh & Hs & Hv & Hf). apply (B ctx); [|apply IH, Hf].
      apply (wsim_slice h VH (mk ctx) _ _ _ (OK ctx)); [exact Hh|exact Hv|]. eapply Forall_impl; [|exact Hv].
      intros v Hvv. apply (write_sim h VH (mk ctx) _ _ _ (OK ctx)); assumption.
    - destruct Hf as (Hs & Hv & Hf). apply (B ctx); [|apply IH, Hf].
      apply (wsim_each h (mk ctx) _ _ _ (OK ctx)). eapply Forall_impl; [|exact Hv].
      intros v Hvv. apply (write_sim h VH (mk ctx) _ _ _ (OK ctx)); assumption.
    - apply IH, Hf.
    - destruct ctx; [apply IH, Hf|apply wsim_crash].
    - destruct ctx; [apply IH, Hf|apply wsim_crash].
    - destruct Hf.
  Qed.
End Said.

Section Programs.
  Context {C : Type} (order : C -> endian) (h : host) (VH : valid_host h).

  (** What the body says when it is measured, and when it is written with a context. *)
  Definition measured (p : wprog C) : res bytes := said h (fun _ => h_native h) None p.
  Definition meant (c : C) (p : wprog C) : res bytes :=
    said h (fun ctx => match ctx with Some c => order c | None => LE end) (Some c) p.

  (** `bytes_needed` is the length of what the body says in the host's byte order, without a
      context. *)
  Theorem C115_needed p : fit h p -> size_of_program h p = rmap nlen (measured p).
  Proof.
    intros Hf. unfold size_of_program, measured.
    pose proof (run_sim h VH (fun _ : option C => SizeCalculator h) _ _ _ None p (fun _ => size_calculator_ok h) Hf 0 [] eq_refl) as H.
    change (said h (fun _ => wr_endian (SizeCalculator h)) None p) with (said h (fun _ => h_native h) None p) in H.
    destruct (run h _ None p 0) as [r n]. cbn [fst snd] in H.
    destruct (said h _ None p) as [b|er|f]; cbn [wpost app rmap] in *.
    - destruct H as [(-> & ->)|(er & b1 & b2 & _ & _ & [] & _)]. reflexivity.
    - destruct H as (er' & y & -> & [->|[]] & _). reflexivity.
    - destruct H as [->|(er' & _ & [])]. reflexivity.
  Qed.

  Lemma collected c p buf : fit h p ->
    let (r, s) := run h (collector order (BufferCollector h)) (Some c) p {| bc_buffer := buf; bc_position := 0 |} in
    wpost (bcrep buf) bcerr (bcroom buf) [] (meant c p) r s.
  Proof.
    intros Hf.
    pose proof (run_sim h VH (collector order (BufferCollector h)) _ _ _ (Some c) p
                  (fun ctx => buffer_collector_ok h _ buf) Hf _ [] (bc_start_rep buf)) as H.
    destruct (run h (collector order (BufferCollector h)) (Some c) p _) as [r s]. exact H.
  Qed.

  (** `write_to_vec`: what the body means, if that is as long as what it said when it was
      measured; if it is longer the write fails, and if it is shorter the debug assertion does. *)
  Theorem C115_vec mem c p b0 b : (forall n, n <= nlen (mem n)) -> fit h p ->
    measured p = Ok b0 -> meant c p = Ok b ->
    program_to_vec order h mem c p =
      if nlen b =? nlen b0 then Ok b
      else if nlen b0 <? nlen b then Err UnexpectedEndOfOutputBuffer
      else if h_overflow_checks h then Fault PanicAssert else Ok b.
  Proof.
    intros Hm Hf H0 Hb. unfold program_to_vec. rewrite (C115_needed p Hf), H0. cbn [rmap rbind].
    pose proof (collected c p (ntake (nlen b0) (mem (nlen b0))) Hf) as H. rewrite Hb in H.
    destruct (run h _ (Some c) p _) as [r s]. cbn [wpost app] in H.
    assert (El : nlen (ntake (nlen b0) (mem (nlen b0))) = nlen b0) by (rewrite nlen_take; specialize (Hm (nlen b0)); lia).
    destruct H as [(-> & (H1 & H2 & H3))|(er & b1 & b2 & _ & -> & -> & _ & Hr)].
    - rewrite El in H2. cbn [rbind]. rewrite H1, H3, take_app_exact by reflexivity.
      destruct (N.eqb_spec (nlen b) (nlen b0)) as [E|E]; [rewrite andb_false_r; reflexivity|].
      destruct (N.ltb_spec (nlen b0) (nlen b)); [lia|]. destruct (h_overflow_checks h); reflexivity.
    - unfold bcroom in Hr. rewrite El in Hr. cbn [rbind].
      destruct (N.eqb_spec (nlen b) (nlen b0)); [lia|]. destruct (N.ltb_spec (nlen b0) (nlen b)); [reflexivity|lia].
  Qed.

  (** A body that cannot be measured cannot be written to memory: neither entry point runs it. *)
  Theorem C115_unmeasured mem c p buffer : fit h p -> (forall b, measured p <> Ok b) ->
    program_to_vec order h mem c p = measured p /\ program_to_buffer order h c p buffer = (rmap (fun _ => tt) (measured p), buffer).
  Proof.
    intros Hf H0. unfold program_to_vec, program_to_buffer. rewrite (C115_needed p Hf).
    destruct (measured p) as [b|er|f]; [destruct (H0 b); reflexivity|split; reflexivity..].
  Qed.

  Theorem C115_buffer c p b0 b buffer : fit h p -> measured p = Ok b0 -> meant c p = Ok b -> nlen b = nlen b0 ->
    program_to_buffer order h c p buffer =
      if nlen b <=? nlen buffer then (Ok tt, b ++ ndrop (nlen b) buffer)
      else (Err (OutputBufferIsTooSmall (nlen buffer) (nlen b)), buffer).
  Proof.
    intros Hf H0 Hb Hl. unfold program_to_buffer. rewrite (C115_needed p Hf), H0. cbn [rmap]. rewrite <- Hl.
    destruct (N.leb_spec (nlen b) (nlen buffer)) as [E|E]; [|reflexivity].
    pose proof (collected c p (ntake (nlen b) buffer) Hf) as H. rewrite Hb in H.
    destruct (run h _ (Some c) p _) as [r s]. cbn [wpost app] in H.
    assert (El : nlen (ntake (nlen b) buffer) = nlen b) by (rewrite nlen_take; lia).
    destruct H as [(-> & (H1 & H2 & H3))|(er & b1 & b2 & _ & _ & _ & _ & Hr)].
    - rewrite H3. f_equal. rewrite drop_all by lia. rewrite app_nil_r. reflexivity.
    - exfalso. apply Hr. unfold bcroom. lia.
  Qed.

  (** Streams do not measure: they get what the body means, or a prefix of it and the error of
      the stream. *)
  Theorem C115_stream c p b o r o' : fit h p -> meant c p = Ok b -> program_to_stream order h c p o = (r, o') ->
    exists b1 b2, b = b1 ++ b2 /\ os_out o' = os_out o ++ b1
      /\ ((r = Ok tt /\ b2 = [])
          \/ exists ev er, In ev (os_sched o) /\ event_error ev = Some er /\ r = Err er).
  Proof.
    intros Hf Hb E. unfold program_to_stream in E.
    pose proof (run_sim h VH (collector order (WritingCollector h)) _ _ _ (Some c) p
                  (fun ctx => writing_collector_ok h _ o) Hf _ [] (os_start_rep o)) as H.
    rewrite E in H. cbn [fst snd] in H.
    assert (Em : said h (fun ctx => wr_endian (collector order (WritingCollector h) ctx)) (Some c) p = Ok b) by exact Hb.
    rewrite Em in H. cbn [wpost app] in H.
    destruct H as [(-> & (Ho & _))|(er & b1 & b2 & -> & -> & (ev & Hin & Hev) & (Ho & _) & _)].
    - exists b, []. rewrite app_nil_r. auto.
    - exists b1, b2. split; [reflexivity|]. split; [exact Ho|]. right. eauto.
  Qed.

  (** A body that asks neither for the byte order nor for the context says as much when it is
      measured as it means, whatever it writes. *)
  Fixpoint modest (p : wprog C) : Prop :=
    match p with
    | WReturn | WFail _ | WPanic _ => True
    | WBytes _ k | WU8 _ k | WUint _ _ k | WVarint _ k | WValue _ _ k | WSlice _ _ k | WEach _ _ k => modest k
    | WEndian _ | WContext _ | WSetContext _ _ | WRoom _ _ => False
    end.

  Lemma modest_same p ord1 ord2 ctx1 ctx2 : modest p -> samelen (said h ord1 ctx1 p) (said h ord2 ctx2 p).
  Proof.
    intros Hp. induction p as [|er|f|b p IH|n p IH|w n p IH|n p IH|t v p IH|t vs p IH|t vs p IH|k IH|k IH|c p IH|n k IH];
      cbn [said modest] in *; try destruct Hp; try apply samelen_refl; apply samelen_app; auto; try reflexivity.
    - unfold samelen. cbn [rmap]. rewrite !nlen_word. reflexivity.
    - apply enc_samelen.
    - apply samelen_all, Forall_forall. intros v _. apply enc_samelen.
    - apply samelen_all, Forall_forall. intros v _. apply enc_samelen.
  Qed.

  Theorem C115_modest mem c p b : (forall n, n <= nlen (mem n)) -> fit h p -> modest p -> meant c p = Ok b ->
    size_of_program h p = Ok (nlen b)
    /\ program_to_vec order h mem c p = Ok b
    /\ (forall buffer, nlen b <= nlen buffer -> program_to_buffer order h c p buffer = (Ok tt, b ++ ndrop (nlen b) buffer))
    /\ forall o, well_behaved (os_sched o) -> exists o', program_to_stream order h c p o = (Ok tt, o') /\ os_out o' = os_out o ++ b.
  Proof.
    intros Hm Hf Hp Hb.
    destruct (samelen_ok _ (measured p) b (modest_same p _ _ _ _ Hp) Hb) as (b0 & H0 & Hl).
    split; [rewrite (C115_needed p Hf), H0; cbn [rmap]; f_equal; exact Hl|].
    split; [rewrite (C115_vec mem c p b0 b Hm Hf H0 Hb), Hl, N.eqb_refl; reflexivity|].
    split.
    - intros buffer Hle. rewrite (C115_buffer c p b0 b buffer Hf H0 Hb (eq_sym Hl)).
      destruct (N.leb_spec (nlen b) (nlen buffer)); [reflexivity|lia].
    - intros o Ho. destruct (program_to_stream order h c p o) as [r o'] eqn:E. exists o'.
      destruct (C115_stream c p b o r o' Hf Hb E) as (b1 & b2 & -> & Hout & [(-> & ->)|(ev & er & Hin & Hev & _)]).
      + rewrite app_nil_r. auto.
      + destruct (Ho ev Hin) as [->|(k & -> & Hk)]; cbn in Hev; [discriminate|].
        destruct (N.eqb_spec k 0); [contradiction|discriminate].
  Qed.

  (** A derived type written by hand, value by value, gives the bytes of its derived
      implementation, which does not measure this way. *)
  Theorem C115_derived mem c t v b : (forall n, n <= nlen (mem n)) -> wsup h t -> valid (h_lim h) t v ->
    (program_to_vec order h mem c (WValue t v WReturn) = Ok b <-> write_to_vec h mem (order c) t v = Ok b).
  Proof.
    intros Hm Hs Hv.
    assert (Em : meant c (WValue t v WReturn) = rapp (encode (h_iter h) (order c) (ipv6_order h (order c)) t v) (Ok [])) by reflexivity.
    assert (Hn : forall x, rapp x (Ok []) = x) by (intros [x| |]; cbn; rewrite ?app_nil_r; reflexivity).
    rewrite Hn in Em. rewrite (C03_wire_format h VH (order c) mem t v b Hm Hs Hv).
    assert (Hf : fit h (WValue (C := C) t v WReturn)) by (cbn; auto).
    assert (Hs' := modest_same (WValue t v WReturn) (fun _ => h_native h) (fun ctx => match ctx with Some c => order c | None => LE end) None (Some c) I).
    change (samelen (measured (WValue t v WReturn)) (meant c (WValue t v WReturn))) in Hs'.
    split; intros E.
    - destruct (encode (h_iter h) (order c) (ipv6_order h (order c)) t v) as [b'|er|f] eqn:Ee.
      + destruct (C115_modest mem c (WValue t v WReturn) b' Hm Hf I Em) as (_ & E' & _). congruence.
      + rewrite Em in Hs'. unfold samelen in Hs'. destruct (measured (WValue t v WReturn)) as [x|x|x] eqn:Ex; try discriminate Hs'.
        pose proof (C115_unmeasured mem c _ [] Hf (ltac:(intros y; rewrite Ex; discriminate))) as (Ev & _). congruence.
      + rewrite Em in Hs'. unfold samelen in Hs'. destruct (measured (WValue t v WReturn)) as [x|x|x] eqn:Ex; try discriminate Hs'.
        pose proof (C115_unmeasured mem c _ [] Hf (ltac:(intros y; rewrite Ex; discriminate))) as (Ev & _). congruence.
    - rewrite E in Em. destruct (C115_modest mem c (WValue t v WReturn) b Hm Hf I Em) as (_ & E' & _). exact E'.
  Qed.
End Programs.
Print Assumptions C115_needed.
Print Assumptions C115_vec.
Print Assumptions C115_unmeasured.
Print Assumptions C115_buffer.
Print Assumptions C115_stream.
Print Assumptions C115_modest.
Print Assumptions C115_derived.

(** ** Cases *)

(** A context that carries the version of the format.  A file header: a magic number, the
    list of section names, a checksum. *)
Record versioned_context := { vc_order : endian; vc_version : N }.
Definition v2 (e : endian) : versioned_context := {| vc_order := e; vc_version := 2 |}.
Definition names : ty := TSeq KVec (TStr KString).
Definition name_list : val := VSeq [VBytes [x61; x62]; VBytes []].
Definition header : wprog versioned_context :=
  WBytes [x53; x50] (WValue names name_list (WUint 4 7 (WVarint 300 (WSlice (TP U16) [VInt 1; VInt 2] WReturn)))).

Example C115_modest_case : fit host64 header /\ modest header
  /\ meant vc_order host64 (v2 BE) header = Ok [x53; x50; x00; x00; x00; x02; x00; x00; x00; x02; x61; x62; x00; x00; x00; x00; x00; x00; x00; x07; x81; x2c; x00; x01; x00; x02]
  /\ exists b, program_to_vec vc_order host64 dirty (v2 BE) header = Ok b.
Proof.
  split; [|split; [exact I|split; [vm_compute; reflexivity|eexists; vm_compute; reflexivity]]].
  cbn [fit header]. split; [apply wsupb_sound; vm_compute; reflexivity|]. split; [apply validb_sound; vm_compute; reflexivity|].
  split; [reflexivity|]. split; [intros _; exact I|]. split; [apply wsupb_sound; vm_compute; reflexivity|].
  split; [|exact I]. repeat constructor; apply validb_sound; vm_compute; reflexivity.
Qed.

(** Not every body can be written to memory: one that asks its context for the version can be
    written to a stream, but measuring it panics; one whose length depends on the byte order
    fails in the other one. *)
Definition by_version : wprog versioned_context :=
  WContext (fun c => if vc_version c =? 1 then WU8 5 WReturn else WUint 4 5 WReturn).
Definition marked : wprog versioned_context :=
  WEndian (fun e => match e with LE => WUint 2 513 WReturn | BE => WBytes [xff] (WUint 2 513 WReturn) end).

Theorem C115_any_refuted :
  (fit host64 by_version
   /\ meant vc_order host64 (v2 LE) by_version = Ok [x05; x00; x00; x00]
   /\ program_to_stream vc_order host64 (v2 LE) by_version {| os_out := []; os_sched := [] |}
        = (Ok tt, {| os_out := [x05; x00; x00; x00]; os_sched := [] |})
   /\ program_to_vec vc_order host64 dirty (v2 LE) by_version = Fault PanicExplicit)
  /\ fit host64 marked
   /\ program_to_stream vc_order host64 (v2 BE) marked {| os_out := []; os_sched := [] |}
        = (Ok tt, {| os_out := [xff; x02; x01]; os_sched := [] |})
   /\ program_to_vec vc_order host64 dirty (v2 LE) marked = Ok [x01; x02]
   /\ program_to_vec vc_order host64 dirty (v2 BE) marked = Err UnexpectedEndOfOutputBuffer.
Proof.
  split; [split; [intros c; destruct (vc_version c =? 1); exact I|]|split; [intros []; exact I|]]; repeat split; vm_compute; reflexivity.
Qed.
Print Assumptions C115_any_refuted.
