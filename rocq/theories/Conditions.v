(* The conditions of the property theorems, and relations between them. *)
From Verif Require Export EncMin WriteApi.

(** A type is covered if the code reads and writes it according to the wire
    format ([wsup], [supported]) and the format can be read back ([rtok]).
    [bw]: slices may be borrowed from the input; [pk]: enums may have
    `peek_tag`. *)
Record covered (h : host) (e : endian) (bw pk : bool) (t : ty) : Prop := {
  cv_write : wsup h t;
  cv_read : supported h e bw pk LDefault t;
  cv_back : rtok (h_lim h) e (ipv6_order h e) false t
}.

(** A value of a covered type: valid, and if there is `peek_tag`, with the tags in
    place. *)
Definition value_of (h : host) (e : endian) (t : ty) (v : val) : Prop :=
  valid (h_lim h) t v /\ tagged (h_iter h) e (ipv6_order h e) t v.

Section NoPeek.
  Context (lim : limits) (it : list val -> list val) (e e6 : endian).
  Notation tagged := (tagged it e e6).
  Notation valid := (valid lim).
  Definition np (t : ty) : Prop := forall v, no_peek t -> valid t v -> tagged t v.

  Lemma no_peek_fields fs : Forall (fun f => np (snd f)) fs ->
    all_fields (fun a t => f_skip a = true \/ no_peek t) fs -> forall vs,
    valid_fields valid fs vs -> tagged_fields tagged fs vs.
  Proof.
    induction 1 as [|[a t] fs Hf _ IH]; intros Hp [|v vs] Hv; cbn in *; auto.
    destruct Hp as [Hp Hps], Hv as [Hv Hvs]. split; [|apply IH; assumption]. destruct Hp; auto.
  Qed.

  Lemma no_peek_elems t vs : np t -> no_peek t -> Forall (valid t) vs -> Forall (tagged t) vs.
  Proof. intros IH Hp. apply Forall_impl. intros v. apply IH, Hp. Qed.

  (** Without `peek_tag` there is nothing to demand of the value. *)
  Lemma no_peek_tagged t : np t.
  Proof.
    induction t as [s|k|k t IH|t n IH|t n IH|t IH|t1 t2 IH1 IH2|ts IH|i t IH|k t IH|k tk tv IHk IHv|t IH|d fs IH|d vs IH|]
      using ty_ind'; intros v Hp Hv.
    - destruct v; exact I.
    - destruct v; exact I.
    - destruct v; try contradiction. apply no_peek_elems; auto. apply Hv.
    - destruct v; try contradiction. apply no_peek_elems; auto. apply Hv.
    - destruct v; try contradiction. apply no_peek_elems; auto. apply Hv.
    - destruct v; try contradiction; [exact I|]. apply IH; assumption.
    - destruct Hp as [Hp1 Hp2], v; try contradiction; [apply IH1|apply IH2]; assumption.
    - destruct v; try contradiction. cbn in *. revert vs Hp Hv.
      induction IH as [|t ts IHt _ IHts]; intros [|v vs] Hp Hv; cbn in *; auto.
      split; [apply IHt|apply IHts]; tauto.
    - destruct v as [| | | |[|x [|y vs]]| | | | |]; try exact I. cbn [Wellformed.tagged].
      assert (valid t x /\ valid t y) as [Hx Hy] by (destruct i, vs as [|[] [|]]; cbn in Hv; tauto).
      split; apply IH; assumption.
    - destruct v; try contradiction. apply no_peek_elems; auto. apply Hv.
    - destruct v; try contradiction. cbn in *. destruct Hv as [Hv _], Hp as [Hp1 Hp2].
      revert Hv. apply Forall_impl. intros [| | | |[|x [|y [|]]]| | | | |]; cbn; try tauto. intros [Hx Hy]. split; auto.
    - apply (IH v); [exact Hp|]. destruct v; exact Hv.
    - destruct v; try contradiction. apply no_peek_fields; assumption.
    - destruct v; try contradiction. cbn in *. destruct Hp as [Hk Hp]. revert i Hp Hv.
      induction IH as [|[g fs] vs Hf _ IHvs]; intros [|i] Hp Hv; cbn in *; auto.
      + split; [congruence|]. apply no_peek_fields; [exact Hf|apply Hp|exact Hv].
      + apply IHvs; [apply Hp|exact Hv].
    - destruct v; exact I.
  Qed.
End NoPeek.

Lemma plain_value h e t v : no_peek t -> valid (h_lim h) t v -> value_of h e t v.
Proof. split; [assumption|]. eapply no_peek_tagged; eassumption. Qed.

(** A type without parts that reach for the end of the input is not open. *)
Lemma no_eof_fields fs : Forall (fun f => forall eof, no_eof eof (snd f) -> opens eof (snd f) = false) fs ->
  all_fields (fun a t => f_skip a = true \/ (f_eof a = false /\ no_eof (field_eof a t) t)) fs ->
  fields_open opens fs = false.
Proof.
  induction 1 as [|[a t] fs Hf _ IH]; intros Hn; [reflexivity|]. destruct Hn as [Hn Hns]. cbn in *.
  rewrite (IH Hns), orb_false_r. destruct Hn as [->|[_ Hn]]; [reflexivity|]. rewrite (Hf _ Hn). apply andb_false_r.
Qed.

Lemma no_eof_closed t : forall eof, no_eof eof t -> opens eof t = false.
Proof.
  induction t as [s|k|k t IH|t n IH|t n IH|t IH|t1 t2 IH1 IH2|ts IH|i t IH|k t IH|k tk tv IHk IHv|t IH|d fs IH|d vs IH|]
    using ty_ind'; intros eof Hn; cbn [opens no_eof] in *; try (apply IH; tauto); try tauto; try reflexivity.
  - destruct Hn as [Hn1 Hn2]. rewrite IH1, IH2 by assumption. reflexivity.
  - induction IH as [|t ts IHt _ IHts]; [reflexivity|]. destruct Hn as [Hn Hns]. cbn.
    rewrite IHt, IHts by assumption. reflexivity.
  - apply no_eof_fields; assumption.
  - induction IH as [|[g fs] vs Hf _ IHvs]; [reflexivity|]. destruct Hn as [Hn Hns]. cbn in *.
    rewrite IHvs, no_eof_fields by assumption. reflexivity.
Qed.

(** A type that can be read without borrowing can be read with it. *)
Lemma supported_borrow h e pk t : forall lm, supported h e false pk lm t -> supported h e true pk lm t.
Proof.
  assert (Hfs : forall fs, Forall (fun f => forall lm, supported h e false pk lm (snd f) -> supported h e true pk lm (snd f)) fs ->
    all_fields (sup_field h (supported h e false pk)) fs -> all_fields (sup_field h (supported h e true pk)) fs).
  { induction 1 as [|[a t'] fs Hf _ IH]; [auto|]. intros [H1 H2]. split; [|auto]. cbn in *.
    destruct H1 as [H1|(H1 & H3 & H4)]; [left; assumption|right]. auto. }
  induction t as [s|k|k t IH|t n IH|t n IH|t IH|t1 t2 IH1 IH2|ts IH|i t IH|k t IH|k tk tv IHk IHv|t IH|d fs IH|d vs IH|]
    using ty_ind'; intros lm H; cbn [supported] in *; try tauto; try (apply IH; assumption); try (split; [tauto|apply IH; tauto]).
  - destruct k; auto.
  - destruct H as [H1 H2]. split; [|auto]. destruct k; cbn in *; tauto.
  - destruct H. split; auto.
  - induction IH as [|t ts IHt _ IHts]; [exact I|]. destruct H. split; auto.
  - destruct H as (H1 & H2 & H3). auto.
  - auto.
  - destruct H as [H1 H2]. split; [exact H1|]. clear H1.
    induction IH as [|[g fs] vs Hf _ IHvs]; [exact I|]. destruct H2. split; auto.
Qed.

Lemma supported_peek h e bw t : forall lm, supported h e bw false lm t -> supported h e bw true lm t.
Proof.
  assert (Hfs : forall fs, Forall (fun f => forall lm, supported h e bw false lm (snd f) -> supported h e bw true lm (snd f)) fs ->
    all_fields (sup_field h (supported h e bw false)) fs -> all_fields (sup_field h (supported h e bw true)) fs).
  { induction 1 as [|[a t'] fs Hf _ IH]; [auto|]. intros [H1 H2]. split; [|auto]. cbn in *.
    destruct H1 as [H1|(H1 & H3 & H4)]; [left; assumption|right]. auto. }
  induction t as [s|k|k t IH|t n IH|t n IH|t IH|t1 t2 IH1 IH2|ts IH|i t IH|k t IH|k tk tv IHk IHv|t IH|d fs IH|d vs IH|]
    using ty_ind'; intros lm H; cbn [supported] in *; try tauto; try (apply IH; assumption); try (split; [tauto|apply IH; tauto]).
  - destruct H. split; auto.
  - induction IH as [|t ts IHt _ IHts]; [exact I|]. destruct H. split; auto.
  - destruct H as (H1 & H2 & H3). auto.
  - auto.
  - destruct H as [H1 H2]. split; [intros Hp; destruct (H1 Hp); discriminate|]. clear H1.
    induction IH as [|[g fs] vs Hf _ IHvs]; [exact I|]. destruct H2. split; auto.
Qed.

Lemma covered_weaken h e bw bw' pk pk' t : (bw = true -> bw' = true) -> (pk = true -> pk' = true) ->
  covered h e bw pk t -> covered h e bw' pk' t.
Proof.
  intros Hb Hp [H1 H2 H3]. constructor; auto.
  assert (H4 : supported h e bw' pk LDefault t).
  { destruct bw, bw'; auto; [discriminate Hb; reflexivity|apply supported_borrow, H2]. }
  destruct pk, pk'; auto; [discriminate Hp; reflexivity|apply supported_peek, H4].
Qed.

(* ------------------------------------------------------------------ *)
(** * Round trips through the wire format on a host *)

Section Facts.
  Context (h : host) (VH : valid_host h) (e : endian).
  Notation e6 := (ipv6_order h e).
  Notation encode := (encode (h_iter h) e e6).
  Notation decode := (decode (h_lim h) e e6).

  Lemma host_round_trip t v b rest : rtok (h_lim h) e e6 false t -> value_of h e t v ->
    encode t v = Ok b -> (opens false t = true -> rest = []) ->
    decode t (b ++ rest) = DOk (norm t v) (Some rest).
  Proof.
    intros Hr [Hv Ht] He Ho. unfold Spec.decode.
    apply (round_trip (h_lim h) (h_iter h) e e6 (vh_usize_hi h VH) (vh_systime h VH) (vh_iter h VH)); assumption.
  Qed.

  Lemma host_min bw pk t v b : supported h e bw pk LDefault t -> value_of h e t v -> encode t v = Ok b ->
    min_bytes h t <= nlen b.
  Proof. intros Hs [Hv Ht] He. eapply enc_min; eassumption. Qed.
End Facts.
