(* Sizes of encodings, bytes_needed, and the entry points that write. *)
From Verif Require Export WriterFacts.

(* ------------------------------------------------------------------ *)
(** * The size of an encoding does not depend on the byte order *)

Definition samelen (x y : res bytes) : Prop := rmap nlen x = rmap nlen y.

Lemma samelen_app a b c d : samelen a b -> samelen c d -> samelen (rapp a c) (rapp b d).
Proof.
  unfold samelen. destruct a, b; cbn; try discriminate; auto; intros H1.
  injection H1 as H1. destruct c, d; cbn; try discriminate; auto; intros H2.
  injection H2 as H2. rewrite !nlen_app. congruence.
Qed.

Lemma samelen_refl x : samelen x x.
Proof. reflexivity. Qed.

Lemma samelen_ok x y b : samelen x y -> x = Ok b -> exists b', y = Ok b' /\ nlen b' = nlen b.
Proof. unfold samelen. intros H ->. destruct y; cbn in H; try discriminate. injection H as H. eauto. Qed.

Lemma samelen_all f g vs : Forall (fun v => samelen (f v) (g v)) vs -> samelen (enc_all f vs) (enc_all g vs).
Proof.
  induction 1 as [|v vs H _ IH]; [reflexivity|]. rewrite !enc_all_cons. apply samelen_app; assumption.
Qed.

Section Len.
  Context (it : list val -> list val) (e1 s1 e2 s2 : endian).

  Lemma nlen_octets e b : nlen (octets e b) = nlen b.
  Proof. destruct e; cbn [octets]; rewrite ?nlen_rev; reflexivity. Qed.

  Lemma nlen_enc_prim e p z : nlen (enc_prim e p z) = N.of_nat (psize p).
  Proof. unfold enc_prim. apply nlen_word. Qed.

  Lemma samelen_scalar s v : samelen (enc_scalar e1 s1 s v) (enc_scalar e2 s2 s v).
  Proof.
    unfold samelen. destruct s; try reflexivity;
      destruct v as [|bo|z|b|vs| | | | |i us]; try reflexivity; cbn [enc_scalar rmap];
      try (rewrite ?nlen_word, ?nlen_octets, ?nlen_enc_prim; reflexivity).
    - destruct i as [|[|i]]; try reflexivity; destruct us as [|[] [|]]; try reflexivity;
        cbn [rmap]; rewrite !nlen_cons, !nlen_octets; reflexivity.
    - destruct vs as [|[] [|[] [|]]]; try reflexivity. cbn [rmap].
      rewrite !nlen_app, !nlen_enc_prim. reflexivity.
    - destruct vs as [|[] [|[] [|]]]; try reflexivity. destruct (_ <? 0)%Z; [reflexivity|]. cbn [rmap].
      rewrite !nlen_app, !nlen_enc_prim. reflexivity.
    - destruct vs as [|[] [|[] [|]]]; try reflexivity. cbn [rmap].
      rewrite !nlen_app, !nlen_enc_prim. reflexivity.
    - apply samelen_all. apply Forall_forall. intros [] _; try reflexivity.
      unfold samelen. cbn. rewrite !nlen_enc_prim. reflexivity.
  Qed.

  Lemma nlen_enc_basic b n : nlen (enc_basic e1 b n) = nlen (enc_basic e2 b n).
  Proof. destruct b; cbn [enc_basic]; rewrite ?nlen_word; reflexivity. Qed.

  Lemma samelen_len l n : samelen (enc_len e1 l n) (enc_len e2 l n).
  Proof.
    unfold samelen. destruct l as [b le|[m|]|]; cbn [enc_len]; try reflexivity.
    destruct (n <=? basic_max b); [|reflexivity]. cbn. rewrite nlen_enc_basic. reflexivity.
  Qed.

  Definition sl (t : ty) : Prop := forall l v, samelen (enc it e1 s1 l t v) (enc it e2 s2 l t v).

  Lemma samelen_fields fs : Forall (fun f => sl (snd f)) fs -> forall prev vs,
    samelen (enc_fields e1 s1 (enc it e1 s1) prev fs vs) (enc_fields e2 s2 (enc it e2 s2) prev fs vs).
  Proof.
    induction 1 as [|[a t] fs Hf _ IH]; intros prev [|v vs]; cbn [enc_fields]; try reflexivity.
    cbn [fst snd] in *. destruct (f_skip a); [apply IH|]. apply samelen_app; [|apply IH].
    unfold enc_field. rewrite !rmap_app. apply samelen_app; [reflexivity|].
    destruct (f_varint a); [apply samelen_scalar|apply Hf].
  Qed.

  Lemma enc_samelen t : sl t.
  Proof.
    induction t as [s|k|k t IH|t n IH|t n IH|t IH|t1 t2 IH1 IH2|ts IH|i t IH|k t IH|k tk tv IHk IHv|t IH|d fs IH|d vs IH|]
      using ty_ind'; intros l v.
    - destruct v; apply samelen_scalar.
    - destruct v; try reflexivity. cbn [enc]. apply samelen_app; [apply samelen_len|reflexivity].
    - destruct v; try reflexivity. cbn [enc]. apply samelen_app; [apply samelen_len|].
      apply samelen_all, Forall_forall. intros; apply IH.
    - destruct v; try reflexivity. cbn [enc]. apply samelen_all, Forall_forall. intros; apply IH.
    - destruct v; try reflexivity. cbn [enc]. apply samelen_all, Forall_forall. intros; apply IH.
    - destruct v; try reflexivity. cbn [enc]. apply samelen_app; [reflexivity|apply IH].
    - destruct v; try reflexivity; cbn [enc]; (apply samelen_app; [reflexivity|]); auto.
    - destruct v; try reflexivity. cbn [enc]. revert vs.
      induction IH as [|t ts IHt _ IHts]; intros [|v vs]; cbn [enc_tuple]; try reflexivity.
      apply samelen_app; [apply IHt|apply IHts].
    - destruct v as [| | | |[|a [|b vs]]| | | | |]; try reflexivity. cbn [enc]. apply samelen_app; apply IH.
    - destruct v; try reflexivity. cbn [enc]. apply samelen_app; [apply samelen_len|].
      apply samelen_all, Forall_forall. intros; apply IH.
    - destruct v; try reflexivity. cbn [enc]. apply samelen_app; [apply samelen_len|].
      apply samelen_all, Forall_forall. intros [| | | |[|a [|b [|]]]| | | | |] _; try reflexivity.
      cbn [enc_pair]. apply samelen_app; [apply IHk|apply IHv].
    - destruct v; apply IH.
    - destruct v; try reflexivity. cbn [enc]. apply samelen_fields, IH.
    - destruct v as [| | | | | | | | |i us]; try reflexivity. cbn [enc]. revert i.
      induction IH as [|[tag fs] vs IHf _ IHvs]; intros [|i]; cbn [enc_variant]; try reflexivity.
      + rewrite !rmap_app. apply samelen_app; [|apply samelen_fields, IHf].
        destruct (e_peek d); [reflexivity|]. unfold samelen. cbn [rmap fst]. rewrite nlen_enc_basic. reflexivity.
      + apply IHvs.
    - destruct v; reflexivity.
  Qed.
End Len.

(* ------------------------------------------------------------------ *)
(** * bytes_needed *)

Lemma nlen_concat (bs : list bytes) : nlen (concat bs) = nsum (map nlen bs).
Proof.
  induction bs as [|b bs IH]; [reflexivity|]. cbn [concat map nsum fold_right].
  rewrite nlen_app, IH. reflexivity.
Qed.

Lemma nsum_perm l l' : Permutation l l' -> nsum l = nsum l'.
Proof.
  induction 1; cbn [nsum fold_right] in *; unfold nsum in *; lia.
Qed.

(** Summing item sizes in any order. *)
Lemma needed_all (en : val -> res bytes) (bn : val -> res N) vs ws b :
  Permutation ws vs -> (forall v x, In v vs -> en v = Ok x -> bn v = Ok (nlen x)) ->
  enc_all en ws = Ok b -> rsum (rmapM bn vs) = Ok (nlen b).
Proof.
  intros HP Hbn Hb.
  assert (Hok : forall v, In v vs -> exists x, en v = Ok x).
  { intros v Hv. apply enc_all_ok in Hb as (bs & HF & _).
    assert (In v ws) as Hw by (eapply Permutation_in; [symmetry; exact HP|exact Hv]).
    clear - HF Hw. induction HF as [|w x ws bs Hwx HF IH]; [contradiction|].
    destruct Hw as [->|Hw]; eauto. }
  pose (sz := fun v => match en v with Ok x => nlen x | _ => 0 end).
  assert (H1 : rmapM bn vs = Ok (map sz vs)).
  { assert (Hbn' : forall v, In v vs -> bn v = Ok (sz v)).
    { intros v Hv. destruct (Hok v Hv) as [x Hx]. unfold sz. rewrite Hx. apply Hbn; assumption. }
    clear - Hbn'. induction vs as [|v vs IH]; [reflexivity|]. cbn [rmapM map].
    rewrite Hbn' by (left; reflexivity). cbn. rewrite IH; [reflexivity|]. intros; apply Hbn'; right; assumption. }
  rewrite H1. cbn. f_equal.
  rewrite (nsum_perm (map sz vs) (map sz ws)) by (apply Permutation_map; symmetry; exact HP).
  apply enc_all_ok in Hb as (bs & HF & ->). rewrite nlen_concat.
  clear - HF. induction HF as [|w x ws bs Hwx HF IH]; [reflexivity|].
  cbn [map nsum fold_right]. unfold sz at 1. rewrite Hwx. unfold nsum in IH. rewrite IH. reflexivity.
Qed.

Lemma nsum_const {A} c (l : list A) : nsum (map (fun _ => c) l) = nlen l * c.
Proof.
  induction l as [|x l IH]; [reflexivity|]. cbn [map nsum fold_right]. rewrite nlen_cons.
  unfold nsum in IH. rewrite IH. lia.
Qed.

Section Needed.
  Context (h : host) (VH : valid_host h).
  Notation lim := (h_lim h).
  Notation valid := (valid lim).
  Notation enc e := (enc (h_iter h) e (ipv6_order h e)).

  Lemma perm_iter k vs : Permutation (iter_order (h_iter h) k vs) vs.
  Proof. destruct k; cbn [iter_order]; auto. apply (vh_iter h VH). Qed.

  Lemma is_length_ok e n b : enc_len e len0 n = Ok b -> is_length n = Ok tt /\ nlen b = 4.
  Proof.
    unfold enc_len, len0, is_length, basic_max. destruct (N.leb_spec n (2 ^ 32 - 1)); [|discriminate]. num_pow.
    intros E. injection E as <-. split; [|cbn [enc_basic]; rewrite nlen_word; reflexivity].
    destruct (N.leb_spec 9223372036854775807 n); [lia|reflexivity].
  Qed.

  Lemma needed_scalar e s v b : valid_scalar lim s v ->
    enc_scalar e (ipv6_order h e) s v = Ok b -> scalar_bytes_needed s v = Ok (nlen b).
  Proof.
    destruct s; cbn [valid_scalar enc_scalar scalar_bytes_needed]; intros Hv.
    all: try (destruct v as [|bo|z|bb|vs| | | | |i us]; try contradiction;
              intros E; injection E as <-;
              rewrite ?nlen_enc_prim, ?nlen_word, ?nlen_octets; try reflexivity;
              unfold nlen; rewrite Hv; reflexivity).
    - destruct v as [| | | | | | | | |i [|]]; try contradiction. intros E; injection E as <-. reflexivity.
    - destruct v; try contradiction. intros E; injection E as <-. f_equal. apply vi_bytes_needed_spec.
      unfold in_z in Hv. num_pow. lia.
    - destruct v as [| | | | | | | | |[|[|i]] [|[] [|]]]; try contradiction; intros E; injection E as <-;
        rewrite nlen_cons, nlen_octets; unfold nlen; rewrite Hv; reflexivity.
    - destruct v as [| | | |[|[] [|[] [|]]]| | | | |]; try contradiction. intros E; injection E as <-.
      rewrite nlen_app, !nlen_enc_prim. reflexivity.
    - destruct v as [| | | |[|[] [|[] [|]]]| | | | |]; try contradiction.
      destruct (_ <? 0)%Z; [discriminate|]. intros E; injection E as <-.
      rewrite nlen_app, !nlen_enc_prim. reflexivity.
    - destruct v as [| | | |[|[] [|[] [|]]]| | | | |]; try contradiction. intros E; injection E as <-.
      rewrite nlen_app, !nlen_enc_prim. reflexivity.
    - destruct v as [| | | |vs| | | | |]; try contradiction. intros E.
      change (enc_all (fun v => match v with VInt z => Ok (enc_prim e p z) | _ => Fault IllTyped end) vs = Ok b) in E.
      assert (Hs : rsum (rmapM (fun _ => Ok (N.of_nat (psize p))) vs) = Ok (nlen b)).
      { eapply needed_all; [reflexivity| |exact E]. intros v x _ Hx. cbn in Hx.
        destruct v; try discriminate. injection Hx as <-. rewrite nlen_enc_prim. reflexivity. }
      assert (Hm : rmapM (fun _ : val => Ok (N.of_nat (psize p))) vs = Ok (map (fun _ => N.of_nat (psize p)) vs)).
      { clear. induction vs as [|v vs IH]; [reflexivity|]. cbn [rmapM map]. rewrite IH. reflexivity. }
      rewrite Hm in Hs. exact Hs.
  Qed.

  (** `bytes_needed` is the size of the encoding. *)
  Theorem bytes_needed_exact e t v b : wsup h t -> valid t v ->
    enc e len0 t v = Ok b -> bytes_needed h t v = Ok (nlen b).
  Proof.
    assert (Hderived : forall t v b, wsup h t -> valid t v -> enc e len0 t v = Ok b ->
      match write h (SizeCalculator h) t v 0 with
      | (Ok _, n) => Ok n | (Err e, _) => Err e | (Fault f, _) => Fault f
      end = Ok (nlen b)).
    { intros t0 v0 b0 Hs Hv Hb.
      pose proof (write_sim h VH (SizeCalculator h) _ _ _ (size_calculator_ok h) t0 v0 Hs Hv 0 [] eq_refl) as H.
      cbn [SizeCalculator wr_endian] in H.
      destruct (samelen_ok _ (enc (h_native h) len0 t0 v0) b0 (enc_samelen _ _ _ _ _ t0 len0 v0) Hb) as (b' & Hb' & Hl).
      cbn [SizeCalculator wr_endian] in *. rewrite Hb' in H.
      destruct (write h (SizeCalculator h) t0 v0 0) as [r n]. cbn [fst snd wpost] in H.
      destruct H as [[-> Hn]|(er & b1 & b2 & _ & _ & [] & _)].
      unfold screp in Hn. rewrite Hn. cbn [app]. congruence. }
    revert v b.
    induction t as [s|k|k t IH|t n IH|t n IH|t IH|t1 t2 IH1 IH2|ts IH|i t IH|k t IH|k tk tv IHk IHv|t IH|d fs IH|d vs IH|]
      using ty_ind'; cbn [wsup bytes_needed]; intros v b Hs Hv Hb.
    - eapply needed_scalar; [exact Hv|]. destruct v; exact Hb.
    - destruct v as [| | |x| | | | | |]; try contradiction. cbn [enc] in Hb.
      apply rapp_ok in Hb as (y & z & Hy & Hz & ->). injection Hz as <-.
      apply is_length_ok in Hy as [-> Hy]. cbn. rewrite nlen_app, Hy. reflexivity.
    - destruct v as [| | | |vs| | | | |]; try contradiction. cbn [enc] in Hb. destruct Hs as [He Hs].
      apply rapp_ok in Hb as (y & z & Hy & Hz & ->).
      apply is_length_ok in Hy as [-> Hy]. cbn [rbind]. rewrite nlen_app, Hy.
      destruct Hv as [Hv _].
      destruct (is_prim h t) eqn:Ep.
      + f_equal. f_equal.
        assert (Hp : plain_data h t) by (apply prim_plain; auto).
        assert (Hn : rsum (rmapM (fun _ => Ok (h_size h t)) vs) = Ok (nlen z)).
        { eapply needed_all; [reflexivity| |exact Hz]. intros v x Hin Hx.
          rewrite Forall_forall in Hv. destruct (plain_enc h VH (h_iter h) e (ipv6_order h e) t v Hp (Hv v Hin)) as (x' & E & L).
          rewrite E in Hx. injection Hx as <-. rewrite L. reflexivity. }
        assert (Hm : rmapM (fun _ : val => Ok (h_size h t)) vs = Ok (map (fun _ => h_size h t) vs)).
        { clear. induction vs as [|v vs IH]; [reflexivity|]. cbn [rmapM map]. rewrite IH. reflexivity. }
        rewrite Hm in Hn. cbn in Hn. injection Hn as Hn. rewrite nsum_const in Hn. assumption.
      + erewrite needed_all; [reflexivity|reflexivity| |exact Hz].
        intros v x Hin Hx. rewrite Forall_forall in Hv. apply IH; auto.
    - destruct v as [| | | |vs| | | | |]; try contradiction. cbn [enc] in Hb. destruct Hs as [_ Hs].
      destruct Hv as [Hv _]. eapply needed_all; [reflexivity| |exact Hb].
      intros v x Hin Hx. rewrite Forall_forall in Hv. apply IH; auto.
    - destruct v as [| | | |vs| | | | |]; try contradiction. cbn [enc] in Hb.
      destruct Hv as [Hv _]. eapply needed_all; [reflexivity| |exact Hb].
      intros v x Hin Hx. rewrite Forall_forall in Hv. apply IH; auto.
    - destruct v as [| | | | | |u| | |]; try contradiction; cbn [enc] in Hb.
      + injection Hb as <-. reflexivity.
      + apply rapp_ok in Hb as (y & z & Hy & Hz & ->). injection Hy as <-.
        erewrite IH by eauto. cbn. rewrite nlen_cons. f_equal. lia.
    - destruct Hs as [Hs1 Hs2]. destruct v as [| | | | | | |u|u|]; try contradiction; cbn [enc] in Hb;
        apply rapp_ok in Hb as (y & z & Hy & Hz & ->); injection Hy as <-.
      + erewrite IH1 by eauto. cbn. rewrite nlen_cons. f_equal. lia.
      + erewrite IH2 by eauto. cbn. rewrite nlen_cons. f_equal. lia.
    - destruct v as [| | | |vs| | | | |]; try contradiction. cbn [enc] in Hb. cbn in Hv.
      revert vs b Hv Hb. induction IH as [|t ts IHt _ IHts]; intros [|v vs] b Hv Hb;
        cbn [valid_list] in Hv; try contradiction; cbn [enc_tuple needed_tuple] in *.
      + injection Hb as <-. reflexivity.
      + apply rapp_ok in Hb as (y & z & Hy & Hz & ->). destruct Hs as [Hs1 Hs2]. destruct Hv as [Hv1 Hv2].
        erewrite IHt by eauto. cbn [rbind]. erewrite IHts by eauto. cbn. rewrite nlen_app. reflexivity.
    - destruct i; destruct v as [| | | |[|x [|y [|[] [|]]]]| | | | |]; try contradiction; cbn [enc] in Hb;
        destruct Hv as [Hv1 Hv2]; apply rapp_ok in Hb as (y' & z & Hy & Hz & ->);
        erewrite IH by eauto; cbn [rbind]; erewrite IH by eauto; cbn; rewrite nlen_app; reflexivity.
    - destruct v as [| | | |vs| | | | |]; try contradiction. cbn [enc] in Hb.
      apply rapp_ok in Hb as (y & z & Hy & Hz & ->). apply is_length_ok in Hy as [-> Hy].
      cbn [rbind]. rewrite nlen_app, Hy. destruct Hv as (Hv & _ & _).
      erewrite needed_all; [reflexivity|apply perm_iter| |exact Hz].
      intros v x Hin Hx. rewrite Forall_forall in Hv. apply IH; auto.
    - destruct Hs as [Hs1 Hs2]. destruct v as [| | | |vs| | | | |]; try contradiction. cbn [enc] in Hb.
      apply rapp_ok in Hb as (y & z & Hy & Hz & ->). apply is_length_ok in Hy as [-> Hy].
      cbn [rbind]. rewrite nlen_app, Hy. destruct Hv as (Hv & _ & _).
      erewrite needed_all; [reflexivity|apply perm_iter| |exact Hz].
      intros v x Hin Hx. rewrite Forall_forall in Hv. specialize (Hv v Hin).
      destruct v as [| | | |[|kk [|xx [|]]]| | | | |]; try contradiction. destruct Hv as [Hv1 Hv2].
      cbn [enc_pair needed_pair] in *. apply rapp_ok in Hx as (y' & z' & Hy' & Hz' & ->).
      erewrite IHk by eauto. cbn [rbind]. erewrite IHv by eauto. cbn. rewrite nlen_app. reflexivity.
    - apply IH; auto.
    - apply Hderived; auto.
    - apply Hderived; auto.
    - destruct v; contradiction.
  Qed.

  (* ---------------------------------------------------------------- *)
  (** ** Entry points *)

  Section Entry.
    Context (e : endian) (t : ty) (v : val) (Hs : wsup h t) (Hv : valid t v).

    Lemma write_buffer_sim buf :
      let (r, s) := write h (BufferCollector h e) t v {| bc_buffer := buf; bc_position := 0 |} in
      wpost (bcrep buf) bcerr (bcroom buf) [] (enc e len0 t v) r s.
    Proof.
      pose proof (write_sim h VH _ _ _ _ (buffer_collector_ok h e buf) t v Hs Hv _ [] (bc_start_rep buf)) as H.
      destruct (write h (BufferCollector h e) t v _) as [r s]. exact H.
    Qed.

    (** Writing a writable value to a buffer. *)
    Theorem write_to_buffer_ok b buffer : enc e len0 t v = Ok b ->
      write_to_buffer h e t v buffer =
      if nlen b <=? nlen buffer then (Ok tt, b ++ ndrop (nlen b) buffer)
      else (Err (OutputBufferIsTooSmall (nlen buffer) (nlen b)), buffer).
    Proof.
      intros Hb. unfold write_to_buffer. rewrite (bytes_needed_exact e t v b Hs Hv Hb).
      destruct (N.leb_spec (nlen b) (nlen buffer)) as [E|E]; [|reflexivity].
      pose proof (write_buffer_sim (ntake (nlen b) buffer)) as H.
      destruct (write h (BufferCollector h e) t v _) as [r s]. rewrite Hb in H. cbn [wpost app] in H.
      assert (El : nlen (ntake (nlen b) buffer) = nlen b) by (rewrite nlen_take; lia).
      destruct H as [[-> (H1 & H2 & H3)]|(er & b1 & b2 & _ & _ & _ & _ & Hr)].
      - rewrite H3. f_equal. rewrite drop_all by lia. rewrite app_nil_r. reflexivity.
      - exfalso. apply Hr. unfold bcroom. lia.
    Qed.

    (** Writing a value that has no encoding does not succeed, and changes at most
        the bytes of the buffer it was going to use. *)
    Theorem write_to_buffer_err buffer : (forall b, enc e len0 t v <> Ok b) ->
      let (r, buffer') := write_to_buffer h e t v buffer in
      r <> Ok tt /\ (forall n, bytes_needed h t v = Ok n -> (forall f, enc e len0 t v <> Fault f) -> ndrop n buffer' = ndrop n buffer).
    Proof.
      intros Hb. unfold write_to_buffer. destruct (bytes_needed h t v) as [n|er|f].
      - destruct (N.leb_spec n (nlen buffer)) as [E|E].
        + pose proof (write_buffer_sim (ntake n buffer)) as H.
          destruct (write h (BufferCollector h e) t v _) as [r s].
          assert (El : nlen (ntake n buffer) = n) by (rewrite nlen_take; lia).
          destruct (enc e len0 t v) as [b|er|f].
          * exfalso. eapply Hb. reflexivity.
          * destruct H as (er' & y & -> & _ & Hy). split; [discriminate|].
            intros m Hm _. injection Hm as <-.
            apply drop_app_exact. apply bc_len in Hy. congruence.
          * split.
            -- destruct H as [->|(er' & -> & _)]; discriminate.
            -- intros m _ Hf. exfalso. eapply Hf. reflexivity.
        + split; [discriminate|reflexivity].
      - split; [discriminate|intros; discriminate].
      - split; [discriminate|intros; discriminate].
    Qed.

    Theorem write_to_vec_ok mem b : (forall n, n <= nlen (mem n)) -> enc e len0 t v = Ok b ->
      write_to_vec h mem e t v = Ok b.
    Proof.
      intros Hm Hb. unfold write_to_vec. rewrite (bytes_needed_exact e t v b Hs Hv Hb). cbn [rbind].
      pose proof (write_buffer_sim (ntake (nlen b) (mem (nlen b)))) as H.
      destruct (write h (BufferCollector h e) t v _) as [r s]. rewrite Hb in H. cbn [wpost app] in H.
      assert (El : nlen (ntake (nlen b) (mem (nlen b))) = nlen b) by (rewrite nlen_take; specialize (Hm (nlen b)); lia).
      destruct H as [[-> (H1 & H2 & H3)]|(er & b1 & b2 & _ & _ & _ & _ & Hr)].
      - cbn [rbind]. rewrite H1, N.eqb_refl, andb_false_r, H3.
        rewrite take_app_exact by reflexivity. reflexivity.
      - exfalso. apply Hr. unfold bcroom. lia.
    Qed.

    Theorem write_to_vec_err mem b : (forall n, n <= nlen (mem n)) ->
      write_to_vec h mem e t v = Ok b -> enc e len0 t v = Ok b.
    Proof.
      intros Hm Hb. destruct (enc e len0 t v) as [b'|er|f] eqn:E.
      - rewrite (write_to_vec_ok mem b' Hm E) in Hb. assumption.
      - exfalso. unfold write_to_vec in Hb. apply rbind_ok in Hb as (n & _ & Hb).
        pose proof (write_buffer_sim (ntake n (mem n))) as H.
        destruct (write h (BufferCollector h e) t v _) as [r s]. rewrite E in H. cbn [wpost] in H.
        destruct H as (er' & y & -> & _). discriminate.
      - exfalso. unfold write_to_vec in Hb. apply rbind_ok in Hb as (n & _ & Hb).
        pose proof (write_buffer_sim (ntake n (mem n))) as H.
        destruct (write h (BufferCollector h e) t v _) as [r s]. rewrite E in H. cbn [wpost] in H.
        destruct H as [->|(er' & -> & _)]; discriminate.
    Qed.

    Theorem write_to_stream_spec o :
      let (r, o') := write_to_stream h e t v o in
      wpost (osrep o) (oserr o) (osroom o) [] (enc e len0 t v) r o'.
    Proof.
      unfold write_to_stream.
      pose proof (write_sim h VH _ _ _ _ (writing_collector_ok h e o) t v Hs Hv _ [] (os_start_rep o)) as H.
      destruct (write h (WritingCollector h e) t v _) as [r s]. exact H.
    Qed.

    Theorem write_to_file_spec sched :
      let (r, o') := write_to_file h None e t v sched in
      exists s, wpost (fwrep sched) (oserr (f0 sched)) (osroom (f0 sched)) [] (enc e len0 t v) r s
                /\ o' = bw_drop s.
    Proof.
      unfold write_to_file.
      pose proof (write_sim h VH _ _ _ _ (file_collector_ok h e sched) t v Hs Hv
        {| bw_buf := []; bw_inner := {| os_out := []; os_sched := sched |} |} []) as H.
      destruct (write h (FileCollector h e) t v _) as [r s]. exists s. split; [|reflexivity]. apply H.
      split; [reflexivity|apply incl_refl].
    Qed.
  End Entry.
End Needed.
