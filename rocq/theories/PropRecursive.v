(* Property C52: recursive types round trip at every nesting depth. *)
From Verif Require Import Recursive Samples PropRoundTrip.

Definition derived (t : ty) : Prop := match t with TStruct _ _ | TEnum _ _ => True | _ => False end.

(** A recursive declaration: a derived type with the hole [TBot] where it
    mentions itself.  All unrollings are one type to the compiler, so they have
    one layout; it is not plain data; the conditions of the round trip theorems
    hold for the first two unrollings. *)
Record recursive (h : host) (e : endian) (bw pk : bool) (d : ty) : Prop := {
  rc_derived : derived d;
  rc_layout : forall n, same_layout h (unroll d n) (unroll d (S n));
  rc_prim : is_prim h (unroll d 1) = false;
  rc_one : covered h e bw pk (unroll d 1);
  rc_two : covered h e bw pk (unroll d 2)
}.

Section Recursive.
  Context (h : host) (VH : valid_host h) (e : endian) (bw pk : bool) (d : ty) (RC : recursive h e bw pk d).
  Context (mem : N -> bytes) (Hmem : forall n, n <= nlen (mem n)).
  Notation e6 := (ipv6_order h e).
  Notation u := (unroll d).

  Lemma u_nominal n : nominal (u n).
  Proof. apply unroll_nominal. pose proof (rc_derived _ _ _ _ _ RC). destruct d; cbn in *; auto. Qed.

  Lemma u_derived n : derived (u (S n)).
  Proof. cbn [unroll]. pose proof (rc_derived _ _ _ _ _ RC). destruct d; cbn in *; tauto. Qed.

  Lemma u_prim n : is_prim h (u n) = false.
  Proof.
    assert (E : forall n, is_prim h (u n) = is_prim h (u (S n)) /\ is_prim h (u n) = false).
    { clear n. induction n as [|n [IH1 IH2]]; [split; [symmetry; apply (rc_prim _ _ _ _ _ RC)|reflexivity]|].
      split; [|congruence]. cbn [unroll].
      apply (prim_plug h (u n) (u (S n)) (rc_layout _ _ _ _ _ RC n) (u_nominal n) (u_nominal (S n)) IH1). }
    apply E.
  Qed.

  Lemma u_same_prim n : is_prim h (u n) = is_prim h (u (S n)).
  Proof. rewrite !u_prim. reflexivity. Qed.

  Lemma u_silent n : silent (u n) -> silent (u (S n)).
  Proof. induction n as [|n IH]; [intros []|]. apply (silent_plug (u n) (u (S n)) d IH). Qed.

  Lemma u_min n : min_bytes h (u n) <= min_bytes h (u (S n)).
  Proof.
    induction n as [|n IH]; [cbn [unroll min_bytes]; lia|].
    apply (min_plug h (u n) (u (S n)) (rc_layout _ _ _ _ _ RC n) (u_nominal n) (u_nominal (S n)) d IH).
  Qed.

  Lemma u_minok n : minok h (u (S n)) -> minok h (u (S (S n))).
  Proof.
    induction n as [|n IH]; intros H;
      [refine (minok_plug h (u 0) (u 1) (rc_layout _ _ _ _ _ RC _) (u_nominal _) (u_nominal _) (u_same_prim _) (u_prim _) d
                (fun _ => H) (u_min _) H)|].
    exact (minok_plug h (u (S n)) (u (S (S n))) (rc_layout _ _ _ _ _ RC _) (u_nominal _) (u_nominal _) (u_same_prim _) (u_prim _) d
             IH (u_min _) H).
  Qed.

  Lemma u_exact n : exact (u (S n)) -> exact (u (S (S n))).
  Proof.
    induction n as [|n IH]; intros H.
    - exact (exact_plug (u 0) (u 1) d (fun _ => H) H).
    - exact (exact_plug (u (S n)) (u (S (S n))) d IH H).
  Qed.

  Lemma opens_derived t eof : derived t -> opens eof t = opens false t.
  Proof. destruct t; cbn; tauto. Qed.

  Lemma u_opens n eof : opens eof (u (S n)) = opens eof (u (S (S n))).
  Proof.
    revert eof. induction n as [|n IH]; intros eof.
    - destruct (opens false (u 1)) eqn:E.
      + rewrite opens_derived, E by apply u_derived. symmetry.
        refine (opens_mono (u 0) (u 1) d (u_nominal _) (u_nominal _) _ eof _); [discriminate|].
        change (plug (u 0) d) with (u 1). rewrite opens_derived by apply u_derived. exact E.
      + refine (opens_plug (u 0) (u 1) (u_nominal _) (u_nominal _) _ d eof).
        intros eof'. rewrite (opens_derived (u 1)), E by apply u_derived. reflexivity.
    - exact (opens_plug (u (S n)) (u (S (S n))) (u_nominal _) (u_nominal _) IH d eof).
  Qed.

  Lemma u_decl n l : ddec (decl (h_lim h) e e6 l (u n)) (decl (h_lim h) e e6 l (u (S n))).
  Proof.
    revert l. induction n as [|n IH]; intros l; [intros o; apply dle_panic|].
    exact (decl_plug h VH (u n) (u (S n)) (rc_layout _ _ _ _ _ RC n) (u_nominal _) (u_nominal _) e e6 d IH l).
  Qed.

  Lemma supported_derived t lm : derived t -> supported h e bw pk LDefault t -> supported h e bw pk lm t.
  Proof. destruct t; cbn; tauto. Qed.

  Lemma rtok_derived t eof : derived t -> rtok (h_lim h) e e6 false t -> rtok (h_lim h) e e6 eof t.
  Proof. destruct t; cbn; tauto. Qed.

  Lemma u_supported n lm : supported h e bw pk lm (u (S n)) -> supported h e bw pk lm (u (S (S n))).
  Proof.
    revert lm. induction n as [|n IH]; intros lm H.
    - apply supported_derived; [apply u_derived|apply (rc_two _ _ _ _ _ RC)].
    - exact (supported_plug h (u (S n)) (u (S (S n))) (rc_layout _ _ _ _ _ RC _) (u_nominal _) (u_nominal _) (u_same_prim _) (u_prim _)
        (u_silent _) (u_min _) (u_minok _) e bw pk d IH lm H).
  Qed.

  Lemma u_wsup n : wsup h (u (S n)) -> wsup h (u (S (S n))).
  Proof.
    induction n as [|n IH]; intros H; [apply (rc_two _ _ _ _ _ RC)|].
    exact (wsup_plug h (u (S n)) (u (S (S n))) (rc_layout _ _ _ _ _ RC _) (u_nominal _) (u_nominal _) (u_same_prim _) (u_prim _)
        (u_silent _) (u_min _) (u_minok _) d IH H).
  Qed.

  Lemma u_rtok n eof : rtok (h_lim h) e e6 eof (u (S n)) -> rtok (h_lim h) e e6 eof (u (S (S n))).
  Proof.
    revert eof. induction n as [|n IH]; intros eof H.
    - apply rtok_derived; [apply u_derived|apply (rc_two _ _ _ _ _ RC)].
    - exact (rtok_plug h VH (u (S n)) (u (S (S n))) (rc_layout _ _ _ _ _ RC _) (u_nominal _) (u_nominal _) e e6
        (u_decl _) (u_opens _) (u_exact _) d IH eof H).
  Qed.

  (** The conditions then hold for all unrollings. *)
  Theorem C52_covered n : covered h e bw pk (u (S n)).
  Proof.
    induction n as [|n [H1 H2 H3]]; [apply (rc_one _ _ _ _ _ RC)|].
    constructor; [apply u_wsup, H1|apply u_supported, H2|apply u_rtok, H3].
  Qed.

  (** A value of some depth is the same value among the deeper ones. *)
  Lemma u_embeds n : embeds h e e6 (u n) (u (S n)).
  Proof.
    induction n as [|n IH]; [constructor; intros; contradiction|].
    exact (embeds_plug h VH (u n) (u (S n)) (rc_layout _ _ _ _ _ RC n) (u_nominal _) (u_nominal _) e e6 d IH).
  Qed.

  Lemma u_embeds_le n m : (n <= m)%nat -> embeds h e e6 (u n) (u m).
  Proof.
    induction 1 as [|m _ IH]; [constructor; auto|]. pose proof (u_embeds m) as Hm. constructor; intros.
    - apply Hm, IH, H.
    - rewrite (em_enc _ _ _ _ _ IH _ _ H). apply Hm, IH, H.
    - rewrite (em_norm _ _ _ _ _ IH _ H). apply Hm, IH, H.
    - apply (em_tagged _ _ _ _ _ Hm); [apply IH, H|apply (em_tagged _ _ _ _ _ IH); assumption].
  Qed.

  Lemma u_decl_le n m l : (n <= m)%nat -> ddec (decl (h_lim h) e e6 l (u n)) (decl (h_lim h) e e6 l (u m)).
  Proof.
    induction 1 as [|m _ IH]; [apply ddec_refl|]. intros o. destruct (IH o) as [E|H]; [|right; exact H].
    rewrite E. apply u_decl.
  Qed.

  (** C52: a value of any depth is written the same and read back by every reader,
      to whatever greater depth the type is unrolled. *)
  Theorem C52_round_trip n m v b r : pk = true -> (n <= m)%nat -> value_of h e (u n) v ->
    write_to_vec h mem e (u n) v = Ok b ->
    write_to_vec h mem e (u m) v = Ok b
    /\ (reading h e (u m) b bw r -> r = Ok (norm (u n) v)).
  Proof.
    intros Hpk Hnm Hv Hb. destruct n as [|n]; [destruct Hv as [[] _]|]. destruct m as [|m]; [lia|].
    destruct (C52_covered n) as [Hw Hs Hr]. destruct (C52_covered m) as [Hw' Hs' Hr']. rewrite Hpk in Hs'.
    pose proof (written h VH e mem Hmem _ _ _ Hw Hv Hb) as He.
    pose proof (u_embeds_le _ _ Hnm) as Hem.
    assert (Hv' : value_of h e (u (S m)) v)
      by (split; [apply Hem, Hv|apply (em_tagged _ _ _ _ _ Hem); apply Hv]).
    assert (He' : encode (h_iter h) e e6 (u (S m)) v = Ok b).
    { unfold encode. rewrite <- (em_enc _ _ _ _ _ Hem _ _ (proj1 Hv)). exact He. }
    split; [apply (write_to_vec_ok h VH); [exact Hw'|apply Hv'|exact Hmem|exact He']|].
    intros Hrd. pose proof (host_round_trip h VH e _ _ _ [] Hr' Hv' He' (fun _ => eq_refl)) as Hd. rewrite app_nil_r in Hd.
    rewrite (reading_ok h VH e _ b bw r _ _ Hs' Hrd Hd (host_min h VH e _ _ _ _ _ Hs' Hv' He')).
    rewrite (em_norm _ _ _ _ _ Hem _ (proj1 Hv)). reflexivity.
  Qed.

  (** With bytes behind it. *)
  Theorem C52_round_trip_prefix n m v b rest r : pk = true -> (n <= m)%nat -> value_of h e (u n) v ->
    no_eof false (u 1) ->
    write_to_vec h mem e (u n) v = Ok b ->
    reading h e (u m) (b ++ rest) bw r -> r = Ok (norm (u n) v).
  Proof.
    intros Hpk Hnm Hv Hn Hb Hrd. destruct n as [|n]; [destruct Hv as [[] _]|]. destruct m as [|m]; [lia|].
    destruct (C52_covered n) as [Hw Hs Hr]. destruct (C52_covered m) as [Hw' Hs' Hr']. rewrite Hpk in Hs'.
    pose proof (written h VH e mem Hmem _ _ _ Hw Hv Hb) as He.
    pose proof (u_embeds_le _ _ Hnm) as Hem.
    assert (Hv' : value_of h e (u (S m)) v)
      by (split; [apply Hem, Hv|apply (em_tagged _ _ _ _ _ Hem); apply Hv]).
    assert (He' : encode (h_iter h) e e6 (u (S m)) v = Ok b).
    { unfold encode. rewrite <- (em_enc _ _ _ _ _ Hem _ _ (proj1 Hv)). exact He. }
    assert (Ho : opens false (u (S m)) = true -> rest = []).
    { assert (E : opens false (u (S m)) = false) by
        (clear - RC Hn; induction m as [|m IH]; [apply (no_eof_closed _ false Hn)|rewrite <- (u_opens m); exact IH]).
      rewrite E. discriminate. }
    pose proof (host_round_trip h VH e _ _ _ rest Hr' Hv' He' Ho) as Hd.
    assert (Hm : min_bytes h (u (S m)) <= nlen (b ++ rest)).
    { rewrite nlen_app. pose proof (host_min h VH e _ _ _ _ _ Hs' Hv' He'). lia. }
    rewrite (reading_ok h VH e _ _ bw r _ _ Hs' Hrd Hd Hm).
    rewrite (em_norm _ _ _ _ _ Hem _ (proj1 Hv)). reflexivity.
  Qed.

  (** Whatever the input is: a value read at some depth is read at every greater
      depth, so the choice of the depth does not matter. *)
  Theorem C52_any_depth n m bs v r : pk = true -> (n <= m)%nat -> minok h (u 1) -> no_eof false (u 1) ->
    reading h e (u (S n)) bs bw (Ok v) -> reading h e (u (S m)) bs bw r -> r = Ok v.
  Proof.
    intros Hpk Hnm Hmo Hne H1 H2.
    assert (Hsup : forall k, supported h e bw true LDefault (u (S k))) by (intros k; rewrite <- Hpk; apply C52_covered).
    assert (Hmin : forall k, minok h (u (S k))) by (induction k as [|k IH]; [exact Hmo|apply u_minok, IH]).
    assert (Hno : forall k, no_eof false (u (S k))).
    { induction k as [|k IH]; [exact Hne|].
      assert (Hd : forall eof t, derived t -> no_eof false t -> no_eof eof t) by (intros eof []; cbn; tauto).
      enough (H : forall eof, no_eof eof (u (S k)) -> no_eof eof (u (S (S k)))) by apply H, IH.
      clear IH. induction k as [|k IHk]; intros eof H.
      - refine (no_eof_plug (u 0) (u 1) d (u_nominal _) (u_nominal _) _ eof H).
        intros eof' _. apply Hd; [apply u_derived|exact Hne].
      - exact (no_eof_plug (u (S k)) (u (S (S k))) d (u_nominal _) (u_nominal _) IHk eof H). }
    destruct (reading_decodes h VH e _ _ _ _ (Hsup n) H1) as [[o Hd]|Hd].
    - assert (Hd' : decode (h_lim h) e e6 (u (S m)) bs = DOk v o).
      { unfold decode in *. assert (Hl : (S n <= S m)%nat) by lia.
        destruct (u_decl_le _ _ len0 Hl (Some bs)) as [E|[E|[s E]]]; congruence. }
      apply (reading_ok h VH e _ bs bw r v o (Hsup m) H2 Hd').
      destruct (N.le_gt_cases (min_bytes h (u (S m))) (nlen bs)) as [Hl|Hl]; [exact Hl|exfalso].
      exact (small_undecodable h VH e _ bs v o (Hmin m) Hl Hd').
    - exfalso. exact (decode_spec _ _ _ _ _ (Hno n) Hd).
  Qed.
End Recursive.

Print Assumptions C52_covered.
Print Assumptions C52_round_trip.
Print Assumptions C52_round_trip_prefix.
Print Assumptions C52_any_depth.

(* ------------------------------------------------------------------ *)
(** * Examples *)

(** The sample hosts' layout sees only the layout of what is plugged in. *)
Lemma layout_plug ptr rv x y t : layout ptr rv x = layout ptr rv y ->
  layout ptr rv (plug x t) = layout ptr rv (plug y t).
Proof.
  intros E.
  induction t as [s|k|k t IH|t n IH|t n IH|t IH|t1 t2 IH1 IH2|ts IH|i t IH|k t IH|k tk tv IHk IHv|t IH|d fs IH|d vs IH|]
    using ty_ind'; cbn [plug layout]; rewrite ?IH, ?IH1, ?IH2; try reflexivity; [| | |exact E].
  - f_equal. rewrite !map_map. induction IH as [|t ts Ht _ IH]; [reflexivity|]. cbn [map]. rewrite Ht, IH. reflexivity.
  - f_equal. rewrite !map_map. cbn [snd]. induction IH as [|f fs Hf _ IH]; [reflexivity|]. cbn [map]. rewrite Hf, IH. reflexivity.
  - f_equal. rewrite !map_map. cbn [snd]. induction IH as [|v vs Hv _ IH]; [reflexivity|]. cbn [map]. rewrite IH. f_equal.
    rewrite !map_map. cbn [snd]. clear IH. induction Hv as [|f fs Hf _ IH]; [reflexivity|]. cbn [map]. rewrite Hf, IH. reflexivity.
Qed.

(** A host that gives all unrollings of a declaration the same layout. *)
Lemma sample_layout ptr rv nat chk d : layout ptr rv (unroll d 1) = layout ptr rv (unroll d 2) ->
  forall n, same_layout (with_hole (make_host ptr rv nat chk) (unroll d 1)) (unroll d n) (unroll d (S n)).
Proof.
  intros E n.
  assert (El : layout ptr rv (unroll d (S n)) = layout ptr rv (unroll d (S (S n)))).
  { induction n as [|n IH]; [exact E|]. apply layout_plug, IH. }
  assert (Ep : forall t, layout ptr rv (plug (unroll d 1) (plug (unroll d n) t)) = layout ptr rv (plug (unroll d 1) (plug (unroll d (S n)) t))).
  { intros t. rewrite !plug_plug, !plug_unroll. apply layout_plug, El. }
  constructor; cbn [with_hole make_host h_size h_align h_offset]; intros.
  - rewrite Ep. reflexivity.
  - rewrite Ep. reflexivity.
  - unfold the_offset, field_layouts, plug_fields. do 2 f_equal. rewrite !map_map. apply map_ext. intros f. apply Ep.
Qed.

(** `enum Expr { Num(u32), Neg(Box<Expr>), Call(String, Vec<Expr>) }` *)
Definition expr : ty :=
  TEnum {| e_tag := BU32; e_peek := false |}
    [(0, [(plain, TP U32)]); (1, [(plain, TBox TBot)]); (2, [(plain, TStr KString); (plain, TSeq KVec TBot)])].
Definition expr_host : host := with_hole host64 (unroll expr 1).

Lemma expr_host_valid : valid_host expr_host.
Proof. apply with_hole_valid, host64_valid. Qed.

Lemma expr_recursive : recursive expr_host BE true true expr.
Proof.
  constructor.
  - exact I.
  - apply sample_layout. vm_compute. reflexivity.
  - reflexivity.
  - apply coveredb_sound. vm_compute. reflexivity.
  - apply coveredb_sound. vm_compute. reflexivity.
Qed.

(** `f(-1, g(-(-7)))` *)
Definition an_expr : val :=
  VVar 2 [VBytes [x66]; VSeq [VVar 1 [VVar 0 [VInt 1]];
    VVar 2 [VBytes [x67]; VSeq [VVar 1 [VVar 1 [VVar 0 [VInt 7]]]]]]].

Example an_expr_value : value_of expr_host BE (unroll expr 5) an_expr.
Proof. apply value_ofb_sound. vm_compute. reflexivity. Qed.

(** It has no lesser depth, so the recursion matters. *)
Example an_expr_depth : ~ valid (h_lim expr_host) (unroll expr 4) an_expr.
Proof.
  cbn. intros (_ & (H & _) & _). apply Forall_inv_tail, Forall_inv in H.
  destruct H as (_ & (H & _) & _). apply Forall_inv in H. cbn in H. tauto.
Qed.

Example an_expr_round_trip m r : (5 <= m)%nat ->
  exists b, write_to_vec expr_host dirty BE (unroll expr m) an_expr = Ok b /\ nlen b = 54
  /\ (reading expr_host BE (unroll expr m) b true r -> r = Ok an_expr).
Proof.
  intros Hm. eexists.
  pose proof (fun b => C52_round_trip expr_host expr_host_valid BE true true expr expr_recursive dirty dirty_enough
    5 m an_expr b r eq_refl Hm an_expr_value) as H.
  destruct (H _ ltac:(vm_compute; reflexivity)) as [H1 H2]. split; [exact H1|]. split; [vm_compute; reflexivity|exact H2].
Qed.

(** `struct List { head: u16, tail: Option<Box<List>> }`, and lists of every length. *)
Definition list_ty : ty :=
  TStruct (sd 50 RRust) [(plain, TP U16); (plain, TOption (TBox TBot))].
Definition list_host : host := with_hole host32be (unroll list_ty 1).

Lemma list_host_valid : valid_host list_host.
Proof. apply with_hole_valid, host32be_valid. Qed.

Lemma list_recursive : recursive list_host LE true true list_ty.
Proof.
  constructor.
  - exact I.
  - apply sample_layout. vm_compute. reflexivity.
  - reflexivity.
  - apply coveredb_sound. vm_compute. reflexivity.
  - apply coveredb_sound. vm_compute. reflexivity.
Qed.

Fixpoint chain (n : nat) : val :=
  VSeq [VInt (Z.of_nat n mod 65536); match n with O => VNone | S n' => VSome (chain n') end].

Example chain_value n : value_of list_host LE (unroll list_ty (S n)) (chain n).
Proof.
  induction n as [|n [IH1 IH2]]; [apply value_ofb_sound; vm_compute; reflexivity|].
  change (unroll list_ty (S (S n)))
    with (TStruct (sd 50 RRust) [(plain, TP U16); (plain, TOption (TBox (unroll list_ty (S n))))]).
  generalize dependent (unroll list_ty (S n)). intros u IH1 IH2. cbn [chain].
  generalize dependent (chain n). intros v IH1 IH2.
  split; cbn - [Z.modulo Z.of_nat pmod]; repeat split; try assumption.
  - pose proof (Z.mod_pos_bound (Z.of_nat (S n)) 65536 eq_refl) as Hb. change (Z.of_N (pmod U16)) with 65536%Z.
    apply andb_true_intro. split; [apply Z.leb_le|apply Z.ltb_lt]; lia.
  - right. exact I.
  - right. exact IH2.
Qed.

Lemma chain_norm n : norm (unroll list_ty (S n)) (chain n) = chain n.
Proof.
  induction n as [|n IH]; [reflexivity|].
  change (unroll list_ty (S (S n)))
    with (TStruct (sd 50 RRust) [(plain, TP U16); (plain, TOption (TBox (unroll list_ty (S n))))]).
  generalize dependent (unroll list_ty (S n)). intros u IH. cbn [chain].
  generalize dependent (chain n). intros v IH. cbn - [Z.modulo Z.of_nat]. rewrite IH. reflexivity.
Qed.

(** A list of any length is written and read back. *)
Example chain_round_trip n m b r : (n < m)%nat ->
  write_to_vec list_host dirty LE (unroll list_ty (S n)) (chain n) = Ok b ->
  reading list_host LE (unroll list_ty m) b true r -> r = Ok (chain n).
Proof.
  intros Hm Hb Hr. rewrite <- (chain_norm n).
  exact (proj2 (C52_round_trip list_host list_host_valid LE true true list_ty list_recursive dirty dirty_enough
    (S n) m (chain n) b r eq_refl Hm (chain_value n) Hb) Hr).
Qed.
