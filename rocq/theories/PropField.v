(* Property C26: the separate code the derive macro emits for fields of well-known
   types does what the types' own implementations do. *)
From Verif Require Import Samples Entry.

(** A field without attributes. *)
Definition bare (a : fattrs) : Prop :=
  f_eof a = false /\ f_skip a = false /\ f_varint a = false /\ f_len a = LDefault /\ f_prefix a = [].

(** The field is an array (or an optional one) and recognised as such. *)
Definition array_field (a : fattrs) (t : ty) : option ty :=
  if f_opaque a then None
  else match t with TArr t' _ | TOption (TArr t' _) => Some t' | _ => None end.

Section Field.
  Context (h : host).

  Section Any.
    Context {St : Type}.

    Lemma ret_first (m : M St unit) s : (ret tt ;;; m) s = m s.
    Proof. reflexivity. Qed.

    Lemma bind_ext {A B} (m : M St A) (k1 k2 : A -> M St B) s :
      (forall x s', k1 x s' = k2 x s') -> bind m k1 s = bind m k2 s.
    Proof. intros H. unfold bind. destruct (m s) as [[x| |] s']; auto. Qed.

    Lemma mmap_ext {A B} (f : A -> B) (m1 m2 : M St A) s : m1 s = m2 s -> mmap f m1 s = mmap f m2 s.
    Proof. intros H. unfold mmap, bind. rewrite H. reflexivity. Qed.

    Lemma write_inner_own (W : writer St) prev t v s :
      match t with TArr _ _ => False | _ => True end ->
      write_field_inner h W (write h W) prev LDefault false t v s = write h W t v s.
    Proof.
      intros Ht. destruct t as [[p| | | | | | | | | | | | | | | | |]|k|k t'|t' n|t' n|t'|t1 t2|ts|i t'|k t'|k tk tv|t'|d fs|d vs|];
        try contradiction; try reflexivity;
        try (destruct k; try reflexivity; destruct v; reflexivity).
      destruct v; reflexivity.
    Qed.

    (** C26, writing: on every writer and for every value, a field of any other
        type than an array makes the same calls with the same outcome. *)
    Theorem C26_write (W : writer St) prev a t v s : bare a -> array_field a t = None ->
      write_field h W (write h W) prev a t v s = write h W t v s.
    Proof.
      intros (_ & _ & Hv & Hl & Hp) Ha. unfold write_field. rewrite Hp, ret_first. unfold array_field in Ha.
      destruct (f_opaque a); [reflexivity|]. rewrite Hl, Hv.
      destruct t as [s0|k|k t'|t' n|t' n|t'|t1 t2|ts|i t'|k t'|k tk tv|t'|d fs|d vs|];
        try discriminate; try (apply write_inner_own; exact I).
      cbn [write]. destruct v as [| | | | | |u| | |]; try reflexivity.
      apply bind_ext. intros [] s'. apply write_inner_own. destruct t'; try exact I. discriminate.
    Qed.

    Lemma read_inner_own (R : reader St) prev a t s : f_eof a = false -> f_len a = LDefault ->
      match t with TArr _ _ => False | _ => True end ->
      read_field_inner h R (read h R) prev a false t s = read h R t s.
    Proof.
      intros He Hl Ht.
      destruct t as [[p| | | | | | | | | | | | | | | | |]|k|k t'|t' n|t' n|t'|t1 t2|ts|i t'|k t'|k tk tv|t'|d fs|d vs|];
        try contradiction; try reflexivity;
        (destruct k; try reflexivity; cbn [read_field_inner read]; unfold with_length; rewrite Hl, He; cbn [length_type];
         try reflexivity).
    Qed.

    (** Reading, for every reader in every state. *)
    Theorem C26_read (R : reader St) prev a t s : bare a -> array_field a t = None ->
      read_field h R (read h R) prev a t s = read h R t s.
    Proof.
      intros (He & _ & Hv & Hl & Hp) Ha. unfold read_field. rewrite He, Hp. unfold array_field in Ha.
      change ((ret tt ;;; ?m) s) with (m s).
      destruct (f_opaque a); [reflexivity|]. rewrite Hv.
      destruct t as [s0|k|k t'|t' n|t' n|t'|t1 t2|ts|i t'|k t'|k tk tv|t'|d fs|d vs|];
        try discriminate; try (apply read_inner_own; auto; exact I).
      cbn [read]. apply bind_ext. intros flag s'. destruct (flag =? 0); [reflexivity|]. apply mmap_ext.
      apply read_inner_own; auto. destruct t'; try exact I. discriminate.
    Qed.
  End Any.

  (* ---------------------------------------------------------------- *)
  (** ** Arrays *)

  Lemma field_len_bare a t prev : bare a -> field_len false prev a t = len0.
  Proof. intros (_ & _ & _ & Hl & _). unfold field_len. rewrite Hl. destruct (sized_field a t); reflexivity. Qed.

  Lemma single_encode it e e6 d a t v : bare a ->
    encode it e e6 (TStruct d [(a, t)]) (VSeq [v]) = encode it e e6 t v.
  Proof.
    intros Hb. unfold encode. cbn [enc enc_fields fst snd]. unfold enc_field.
    rewrite (field_len_bare a t [] Hb). destruct Hb as (_ & -> & -> & _ & ->).
    destruct (enc it e e6 len0 t v) as [b| |]; cbn; rewrite ?app_nil_r; reflexivity.
  Qed.

  Lemma single_decode lim e e6 d a t bs : bare a ->
    decode lim e e6 (TStruct d [(a, t)]) bs = dmap (fun v => VSeq [v]) (decl lim e e6 len0 t) (Some bs).
  Proof.
    intros Hb. unfold decode. cbn [decl dfields fst snd]. unfold dfield. rewrite (proj1 Hb), (field_len_bare a t [] Hb).
    destruct Hb as (_ & -> & -> & _ & ->). unfold dmap, dbind, dconst, dbind, dread. rewrite nlen_nil.
    change (0 =? 0) with true. cbn.
    destruct (decl lim e e6 len0 t (Some bs)) as [v o| | | |]; reflexivity.
  Qed.

  Lemma single_min d a t : bare a -> min_bytes h (TStruct d [(a, t)]) = min_bytes h t.
  Proof.
    intros (He & Hk & Hv & Hl & Hp). cbn [min_bytes map nsum fold_right]. unfold field_min. cbn [fst snd].
    rewrite He, Hk, Hv, Hl, Hp. cbn [orb negb length_type basic_size]. rewrite nlen_nil.
    destruct (f_opaque a); [lia|].
    destruct t as [s0|k|k t'|t' n|t' n|t'|t1 t2|ts|i t'|k t'|k tk tv|t'|d' fs|d' vs|]; cbn [is_container];
      try (destruct k); cbn [min_bytes]; lia.
  Qed.

  Lemma single_wsup d a t : bare a -> wsup h t -> wsup h (TStruct d [(a, t)]).
  Proof. intros (_ & _ & Hv & _) H. split; [|exact I]. right. cbn. rewrite Hv. split; [discriminate|assumption]. Qed.

  Lemma single_supported d a t e bw pk : bare a -> supported h e bw pk LDefault t ->
    supported h e bw pk LDefault (TStruct d [(a, t)]).
  Proof.
    intros (_ & _ & Hv & Hl & Hp) H. split; [|exact I]. right. cbn [fst snd]. rewrite Hv, Hl, Hp.
    split; [discriminate|]. split; [apply N.le_0_l|]. destruct (sized_field a t); assumption.
  Qed.

  Context (VH : valid_host h).

  (** A struct with one field without attributes, of any type, is written like its
      field.  [wsup]: the elements of slices and arrays are laid out as their
      declaration says; [C26_write] has no such condition. *)
  Theorem C26_struct_write_partial mem e d a t v b : (forall n, n <= nlen (mem n)) -> bare a -> wsup h t ->
    valid (h_lim h) t v ->
    write_to_vec h mem e (TStruct d [(a, t)]) (VSeq [v]) = Ok b <-> write_to_vec h mem e t v = Ok b.
  Proof.
    intros Hm Hb Hw Hv.
    assert (Hw' : wsup h (TStruct d [(a, t)])) by (apply single_wsup; assumption).
    assert (Hv' : valid (h_lim h) (TStruct d [(a, t)]) (VSeq [v])) by (split; [assumption|exact I]).
    pose proof (single_encode (h_iter h) e (ipv6_order h e) d a t v Hb) as E. unfold encode in E.
    split; intros H.
    - apply (write_to_vec_ok h VH); auto. rewrite <- E. eapply (write_to_vec_err h VH); eassumption.
    - apply (write_to_vec_ok h VH); auto. rewrite E. eapply (write_to_vec_err h VH); eassumption.
  Qed.

  (** And it is read like its field, by every reader from every input. *)
  Theorem C26_struct_read_partial e d a t bs bw bw' r1 r2 v : bare a ->
    supported h e bw true LDefault t -> supported h e bw' true LDefault t -> no_eof false t -> minok h t ->
    reading h e (TStruct d [(a, t)]) bs bw r1 -> reading h e t bs bw' r2 ->
    r1 = Ok (VSeq [v]) <-> r2 = Ok v.
  Proof.
    intros Hb Hs1 Hs2 Hn Hk H1 H2.
    pose proof (reading_agrees h VH e _ _ _ _ (single_supported d a t e bw true Hb Hs1) H1) as A1.
    pose proof (reading_agrees h VH e _ _ _ _ Hs2 H2) as A2.
    pose proof (decode_spec (h_lim h) e (ipv6_order h e) t bs Hn) as Hd.
    unfold too_small in *. rewrite (single_min d a t Hb), (single_decode _ _ _ d a t bs Hb) in A1.
    unfold dmap, dbind in A1. fold (decode (h_lim h) e (ipv6_order h e) t bs) in A1.
    pose proof (small_undecodable h VH e t bs) as Hu.
    destruct (decode (h_lim h) e (ipv6_order h e) t bs) as [w o| |er sure|f sure|] eqn:Ed; [| | | |congruence].
    - specialize (Hu w o Hk).
      destruct A1 as [[L1 ->]|A1]; [exfalso; apply Hu; auto|].
      destruct A2 as [[L2 ->]|A2]; [exfalso; apply Hu; auto|]. cbn in A1, A2. subst.
      split; intros E; injection E as <-; reflexivity.
    - split; intros ->; exfalso;
        [destruct A1 as [[_ E]|(er & E & _)]|destruct A2 as [[_ E]|(er & E & _)]]; discriminate.
    - split; intros ->; exfalso;
        [destruct A1 as [[_ E]|[[E _]|[_ (er' & E & _)]]]|destruct A2 as [[_ E]|[[E _]|[_ (er' & E & _)]]]]; discriminate.
    - split; intros ->; exfalso;
        [destruct A1 as [[_ E]|[E|[_ (er' & E & _)]]]|destruct A2 as [[_ E]|[E|[_ (er' & E & _)]]]]; discriminate.
  Qed.
End Field.

Print Assumptions C26_write.
Print Assumptions C26_read.
Print Assumptions C26_struct_write_partial.
Print Assumptions C26_struct_read_partial.

(* ------------------------------------------------------------------ *)
(** * The hypotheses are met *)

Example bare_plain : bare plain.
Proof. repeat split. Qed.

(* struct Grid { rows: [[u16; 2]; 3] } *)
Definition grid : ty := TArr (TArr (TP U16) 2) 3.
Definition grid_value : val :=
  VSeq [VSeq [VInt 1; VInt 2]; VSeq [VInt 3; VInt 4]; VSeq [VInt 5; VInt 515]].

Example C26_grid_bytes :
  write_to_vec host32be dirty LE grid grid_value
  = Ok [x01; x00; x02; x00; x03; x00; x04; x00; x05; x00; x03; x02].
Proof. vm_compute. reflexivity. Qed.

Example C26_struct_write_holds b :
  write_to_vec host32be dirty LE (TStruct (sd 7 RRust) [(plain, grid)]) (VSeq [grid_value]) = Ok b
  <-> write_to_vec host32be dirty LE grid grid_value = Ok b.
Proof.
  apply C26_struct_write_partial; [apply host32be_valid|apply dirty_enough|apply bare_plain| |].
  - apply wsupb_sound. vm_compute. reflexivity.
  - apply validb_sound. vm_compute. reflexivity.
Qed.

Example C26_struct_read_holds :
  read_from_buffer host32be LE (TStruct (sd 7 RRust) [(plain, grid)]) 0
    [x01; x00; x02; x00; x03; x00; x04; x00; x05; x00; x03; x02] = Ok (VSeq [grid_value]).
Proof.
  set (bs := [x01; x00; x02; x00; x03; x00; x04; x00; x05; x00; x03; x02]).
  assert (Hl : nlen bs <= h_alloc_max host32be) by (vm_compute; discriminate).
  assert (Hs : supported host32be LE true true LDefault grid) by (apply supportedb_sound; vm_compute; reflexivity).
  eapply C26_struct_read_partial with (bw := true) (bw' := true) (t := grid) (r2 := read_from_buffer host32be LE grid 0 bs);
    [apply host32be_valid|apply bare_plain|exact Hs|exact Hs| | | | |].
  - apply no_eofb_sound. vm_compute. reflexivity.
  - apply minokb_sound. vm_compute. reflexivity.
  - apply from_buffer, Hl.
  - apply from_buffer, Hl.
  - vm_compute. reflexivity.
Qed.

(* ------------------------------------------------------------------ *)
(** * Where it fails *)

(* #[repr(transparent)] struct Id { #[speedy(varint)] id: u64 } *)
Definition id_ty : ty := TStruct (sd 8 RTransparent) [(with_varint, TP U64)].

(** C26 is false for arrays of a `repr(transparent)` struct whose field has an
    attribute: as a field the array is written as memory, by itself it is written
    element by element, with the attribute. *)
Theorem C26_array_write_refuted : exists h t v b1 b2, valid_host h /\ b1 <> b2
  /\ write_to_vec h dirty LE t v = Ok b1
  /\ write_to_vec h dirty LE (TStruct (sd 9 RRust) [(plain, t)]) (VSeq [v]) = Ok b2.
Proof.
  exists host64, (TArr id_ty 1), (VSeq [VSeq [VInt 5]]), [x05], [x05; x00; x00; x00; x00; x00; x00; x00].
  split; [apply host64_valid|]. split; [discriminate|]. split; vm_compute; reflexivity.
Qed.

(** Reading is the other way round. *)
Theorem C26_array_read_refuted : exists h t bs v, valid_host h
  /\ read_from_buffer h LE (TStruct (sd 9 RRust) [(plain, t)]) 0 bs = Ok (VSeq [v])
  /\ forall w, read_from_buffer h LE t 0 bs <> Ok w.
Proof.
  exists host64, (TArr id_ty 1), [x05], (VSeq [VSeq [VInt 5]]).
  split; [apply host64_valid|]. split; [vm_compute; reflexivity|].
  intros w. vm_compute. discriminate.
Qed.

Print Assumptions C26_array_write_refuted.
Print Assumptions C26_array_read_refuted.
