(* Structs field by field: shared by the properties of field attributes. *)
From Verif Require Export Samples Entry.

(** What the length expressions of later fields can see: the numbers of the
    fields before, without the skipped ones. *)
Fixpoint visible (fs : fields) (vs : list val) : list (option Z) :=
  match fs, vs with
  | f :: fr, v :: vr => (if f_skip (fst f) then [] else [proj v]) ++ visible fr vr
  | _, _ => []
  end.

Lemma enc_fields_app e e6 en fs1 fs2 vs1 vs2 : length fs1 = length vs1 -> forall prev,
  enc_fields e e6 en prev (fs1 ++ fs2) (vs1 ++ vs2)
  = rapp (enc_fields e e6 en prev fs1 vs1) (enc_fields e e6 en (prev ++ visible fs1 vs1) fs2 vs2).
Proof.
  revert vs1. induction fs1 as [|[a t] fs1 IH]; intros [|v vs1] Hl prev; try discriminate.
  - cbn [app visible enc_fields]. rewrite app_nil_r, rapp_nil_l. reflexivity.
  - injection Hl as Hl. cbn [app visible enc_fields fst snd]. destruct (f_skip a).
    + rewrite (IH vs1 Hl). reflexivity.
    + rewrite (IH vs1 Hl), rapp_assoc, <- app_assoc. reflexivity.
Qed.

Lemma valid_fields_app lim fs1 fs2 vs1 vs2 : length fs1 = length vs1 ->
  valid_fields (valid lim) (fs1 ++ fs2) (vs1 ++ vs2)
  <-> valid_fields (valid lim) fs1 vs1 /\ valid_fields (valid lim) fs2 vs2.
Proof.
  revert vs1. induction fs1 as [|[a t] fs1 IH]; intros [|v vs1] Hl; try discriminate; cbn.
  - tauto.
  - injection Hl as Hl. rewrite (IH vs1 Hl). tauto.
Qed.

Lemma all_fields_app P fs1 fs2 : all_fields P (fs1 ++ fs2) <-> all_fields P fs1 /\ all_fields P fs2.
Proof. induction fs1 as [|f fs1 IH]; cbn; [tauto|]. rewrite IH. tauto. Qed.

Section Derived.
  Context (h : host) (VH : valid_host h) (e : endian).
  Notation e6 := (ipv6_order h e).
  Notation encode := (encode (h_iter h) e e6).

  (** For derived types, the error that stops the encoding is what the entry
      points report, before anything is written. *)
  Lemma derived_needed t v er : match t with TStruct _ _ | TEnum _ _ => True | _ => False end ->
    wsup h t -> valid (h_lim h) t v -> encode t v = Err er -> bytes_needed h t v = Err er.
  Proof.
    intros Ht Hs Hv He.
    assert (Hb : bytes_needed h t v = match write h (SizeCalculator h) t v 0 with
      | (Ok _, n) => Ok n | (Err e, _) => Err e | (Fault f, _) => Fault f end) by (destruct t; try contradiction; reflexivity).
    rewrite Hb. clear Hb.
    pose proof (write_sim h VH (SizeCalculator h) _ _ _ (size_calculator_ok h) t v Hs Hv 0 [] eq_refl) as H.
    cbn [SizeCalculator wr_endian] in H.
    assert (Hl : samelen (enc (h_iter h) e e6 len0 t v) (enc (h_iter h) (h_native h) (ipv6_order h (h_native h)) len0 t v))
      by apply enc_samelen.
    unfold Spec.encode in He. rewrite He in Hl. unfold samelen in Hl. cbn [rmap] in Hl.
    destruct (enc _ _ _ len0 t v) as [b|er'|f] in H, Hl; try discriminate. cbn in Hl. injection Hl as <-.
    destruct (write h (SizeCalculator h) t v 0) as [r n]. cbn [fst snd wpost] in H.
    destruct H as (er' & y & -> & [->|[]] & _). reflexivity.
  Qed.

  Theorem derived_error t v er : match t with TStruct _ _ | TEnum _ _ => True | _ => False end ->
    wsup h t -> valid (h_lim h) t v -> encode t v = Err er ->
    (forall mem, write_to_vec h mem e t v = Err er)
    /\ (forall buffer, write_to_buffer h e t v buffer = (Err er, buffer)).
  Proof.
    intros Ht Hs Hv He. pose proof (derived_needed t v er Ht Hs Hv He) as Hn.
    split; [intros mem; unfold write_to_vec|intros buffer; unfold write_to_buffer]; rewrite Hn; reflexivity.
  Qed.

  (** A field of a struct: what is written before it, for it, and behind it. *)
  Lemma struct_split d fs1 a t fs2 vs1 v vs2 b : length fs1 = length vs1 -> f_skip a = false ->
    encode (TStruct d (fs1 ++ (a, t) :: fs2)) (VSeq (vs1 ++ v :: vs2)) = Ok b ->
    exists b1 bf b2,
      b = b1 ++ bf ++ b2
      /\ encode (TStruct d fs1) (VSeq vs1) = Ok b1
      /\ enc_field e e6 (enc (h_iter h) e e6) (visible fs1 vs1) a t v = Ok bf
      /\ enc_fields e e6 (enc (h_iter h) e e6) (visible fs1 vs1 ++ [proj v]) fs2 vs2 = Ok b2.
  Proof.
    intros Hl Hk. unfold Spec.encode. cbn [enc]. rewrite enc_fields_app by assumption. cbn [app enc_fields fst snd].
    rewrite Hk. intros H. apply rapp_ok in H as (b1 & b' & E1 & E2 & ->).
    apply rapp_ok in E2 as (bf & b2 & E2 & E3 & ->). exists b1, bf, b2. auto.
  Qed.

  Lemma struct_error d fs1 a t fs2 vs1 v vs2 b1 er : length fs1 = length vs1 -> f_skip a = false ->
    encode (TStruct d fs1) (VSeq vs1) = Ok b1 ->
    enc_field e e6 (enc (h_iter h) e e6) (visible fs1 vs1) a t v = Err er ->
    encode (TStruct d (fs1 ++ (a, t) :: fs2)) (VSeq (vs1 ++ v :: vs2)) = Err er.
  Proof.
    intros Hl Hk. unfold Spec.encode. cbn [enc]. intros E1 E2.
    rewrite enc_fields_app by assumption. cbn [app enc_fields fst snd].
    rewrite Hk, E1, E2. reflexivity.
  Qed.

  Lemma struct_valid d fs1 fs2 vs1 vs2 : length fs1 = length vs1 ->
    valid (h_lim h) (TStruct d (fs1 ++ fs2)) (VSeq (vs1 ++ vs2)) ->
    valid (h_lim h) (TStruct d fs1) (VSeq vs1) /\ valid (h_lim h) (TStruct d fs2) (VSeq vs2).
  Proof. intros Hl. cbn [valid]. apply valid_fields_app, Hl. Qed.

  Lemma struct_wsup d fs1 fs2 : wsup h (TStruct d (fs1 ++ fs2)) ->
    wsup h (TStruct d fs1) /\ wsup h (TStruct d fs2).
  Proof. apply all_fields_app. Qed.
End Derived.

(** Reading the first fields, then the others. *)
Section DecodeApp.
  Context (lim : limits) (e e6 : endian).
  Notation dfields := (dfields lim e e6 (decl lim e e6)).

  Lemma dfields_app fs1 fs2 : forall prev o,
    dfields prev (fs1 ++ fs2) o
    = dbind (dfields prev fs1) (fun ws => dmap (app ws) (dfields (prev ++ visible fs1 ws) fs2)) o.
  Proof.
    induction fs1 as [|[a t] fs1 IH]; intros prev o.
    - cbn [app Spec.dfields visible]. rewrite app_nil_r. unfold dbind, dmap, dbind, dret.
      destruct (dfields prev fs2 o); reflexivity.
    - cbn [app Spec.dfields fst snd]. destruct (f_skip a) eqn:Ek.
      + unfold dmap at 1, dbind at 1. rewrite IH. unfold dmap, dbind, dret.
        destruct (dfields prev fs1 o) as [ws o1| | | |]; try reflexivity. cbn [visible fst]. rewrite Ek. cbn [app].
        destruct (dfields (prev ++ visible fs1 ws) fs2 o1); reflexivity.
      + unfold dbind at 1 3 4. destruct (dfield lim e e6 (decl lim e e6) prev a t o) as [v o1| | | |]; try reflexivity.
        unfold dbind at 1. rewrite IH. unfold dmap, dbind, dret.
        destruct (dfields (prev ++ [proj v]) fs1 o1) as [ws o2| | | |]; try reflexivity. cbn [visible fst]. rewrite Ek.
        rewrite <- app_assoc. cbn [app].
        destruct (dfields (prev ++ proj v :: visible fs1 ws) fs2 o2); reflexivity.
  Qed.

  Lemma decode_struct_app d fs1 fs2 bs ws o : decode lim e e6 (TStruct d fs1) bs = DOk (VSeq ws) o ->
    decode lim e e6 (TStruct d (fs1 ++ fs2)) bs
    = dmap (fun us => VSeq (ws ++ us)) (dfields (visible fs1 ws) fs2) o.
  Proof.
    unfold decode. cbn [decl]. unfold dmap at 1 2, dbind at 1 2. rewrite dfields_app. unfold dbind at 1.
    destruct (dfields [] fs1 (Some bs)) as [us o1| | | |]; try discriminate. unfold dret. intros E. injection E as -> ->.
    unfold dmap, dbind, dret. cbn [app]. destruct (dfields (visible fs1 ws) fs2 o); reflexivity.
  Qed.

  (** Whatever goes wrong in the first fields goes wrong in all of them. *)
  Lemma decode_struct_bad d fs1 fs2 bs : (forall v o, decode lim e e6 (TStruct d fs1) bs <> DOk v o) ->
    decode lim e e6 (TStruct d (fs1 ++ fs2)) bs = decode lim e e6 (TStruct d fs1) bs.
  Proof.
    unfold decode. cbn [decl]. unfold dmap, dbind, dret. rewrite dfields_app. unfold dbind.
    destruct (dfields [] fs1 (Some bs)) as [us o1| | | |]; try reflexivity. intros H. destruct (H _ _ eq_refl).
  Qed.

  Lemma decode_struct_seq d fs bs v o : decode lim e e6 (TStruct d fs) bs = DOk v o -> exists ws, v = VSeq ws.
  Proof.
    unfold decode. cbn [decl]. unfold dmap, dbind, dret. destruct (dfields [] fs (Some bs)); try discriminate.
    intros E. injection E as <- <-. eauto.
  Qed.
End DecodeApp.
