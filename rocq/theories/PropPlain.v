(* Property C37: a struct treated as plain data is its fields in declaration
   order, without padding, whatever layout the compiler chooses. *)
From Verif Require Import Samples EncFacts.

(** Structs whose layout the derive macro checks: not `unsafe_is_primitive`, not
    `repr(packed)`, nothing but a plain field in a `repr(transparent)`. *)
Fixpoint checked (t : ty) : Prop :=
  match t with
  | TStruct d fs =>
    sd_forced d = false /\ sd_repr d <> RPacked
    /\ all_fields (fun a t' => (sd_repr d = RTransparent -> can_be_primitive a = true) /\ checked t') fs
  | _ => True
  end.

Section Plain.
  Context (h : host) (VH : valid_host h).

  Lemma checked_honest t : checked t -> honest h t.
  Proof.
    induction t as [s|k|k t IH|t n IH|t n IH|t IH|t1 t2 IH1 IH2|ts IH|i t IH|k t IH|k tk tv IHk IHv|t IH|d fs IH|d vs IH|]
      using ty_ind'; try (intros; exact I).
    intros (Hf & Hp & Ha). split.
    - intros Hd Hprim. rewrite Hf in Hd. unfold is_packed in Hd.
      assert (Ht : is_transparent d fs = true) by (destruct (sd_repr d); try congruence; destruct (is_transparent d fs); cbn in Hd; congruence).
      assert (Hx : exists f, fs = [f] /\ sd_repr d = RTransparent)
        by (unfold is_transparent in Ht; destruct (sd_repr d), fs as [|? []]; try discriminate; eauto).
      destruct Hx as (f & -> & Er). destruct (vh_transparent h VH d f Er) as [Es Eo].
      cbn [is_prim] in Hprim. rewrite Ht in Hprim. cbn in Hprim, Ha. rewrite andb_true_r in Hprim.
      split; [|split].
      + cbn. tauto.
      + cbn. rewrite Es. lia.
      + reflexivity.
    - apply all_fields_forall. apply all_fields_forall in Ha. rewrite Forall_forall in *.
      intros f Hin. apply (IH f Hin). apply (Ha f Hin).
  Qed.

  (** Where the fields are: one after the other from the start, filling the
      struct.  (Fields without size may be anywhere.) *)
  Theorem C37_offsets_partial d fs i f : honest h (TStruct d fs) -> is_prim h (TStruct d fs) = true ->
    nth_error fs i = Some f -> h_size h (snd f) <> 0 ->
    h_offset h d fs i = nsum (map (fun g => h_size h (snd g)) (firstn i fs))
    /\ h_size h (TStruct d fs) = nsum (map (fun g => h_size h (snd g)) fs).
  Proof.
    intros [Hd _] Hp Hi Hz. destruct (is_prim_struct h VH d fs Hd Hp) as (_ & Hs & Ht & _).
    split; [|symmetry; exact Hs].
    assert (Hg : forall l j base k, tight h d fs j base l -> nth_error l k = Some f ->
      h_offset h d fs (j + k) = base + nsum (map (fun g => h_size h (snd g)) (firstn k l))).
    { clear - Hz. induction l as [|g l IH]; intros j base k Ht Hk; [destruct k; discriminate|].
      destruct Ht as [H1 H2]. destruct k as [|k].
      - injection Hk as ->. rewrite Nat.add_0_r. cbn. destruct H1; [contradiction|]. lia.
      - cbn in Hk. rewrite <- Nat.add_succ_comm, (IH _ _ _ H2 Hk). unfold nsum. cbn. lia. }
    pose proof (Hg fs 0%nat 0 i Ht Hi) as E. cbn [Nat.add] in E. rewrite E. lia.
  Qed.

  (** Its memory image. *)
  Theorem C37_image_partial d fs vs : honest h (TStruct d fs) -> is_prim h (TStruct d fs) = true ->
    valid (h_lim h) (TStruct d fs) (VSeq vs) ->
    mem_write h (TStruct d fs) (VSeq vs)
    = concat (map (fun p => mem_write h (snd (fst p)) (snd p)) (combine fs vs)).
  Proof.
    intros Hh Hp Hv. pose proof (prim_plain h VH _ Hh Hp) as Hpl.
    pose proof (mem_write_enc h VH (h_iter h) LE _ _ Hpl Hv) as He.
    destruct Hpl as (Hf & _ & _). cbn [Spec.enc valid] in He, Hv.
    rewrite enc_fields_plain in He by (apply (all_fields_impl _ _ _ (fun a t H => proj1 H) Hf)).
    enough (E : enc_tuple (enc (h_iter h) (h_native h) LE len0) (map snd fs) vs
              = Ok (concat (map (fun p => mem_write h (snd (fst p)) (snd p)) (combine fs vs)))) by congruence.
    clear He Hh Hp. revert vs Hv. induction fs as [|f fs IH]; intros [|v vs] Hv; cbn in Hv; try contradiction; [reflexivity|].
    destruct Hf as [[_ Hpf] Hf]. destruct Hv as [Hv Hvs]. cbn [map enc_tuple].
    rewrite (mem_write_enc h VH (h_iter h) LE _ _ Hpf Hv), (IH Hf vs Hvs). reflexivity.
  Qed.

  (** Reinterpreting memory. *)
  Theorem C37_view_partial d fs bs i f : honest h (TStruct d fs) -> is_prim h (TStruct d fs) = true ->
    nlen bs = h_size h (TStruct d fs) -> nth_error fs i = Some f ->
    exists vs, mem_read h (TStruct d fs) bs = VSeq vs
    /\ length vs = length fs
    /\ nth_error vs i = Some (mem_read h (snd f)
         (ntake (h_size h (snd f)) (ndrop (nsum (map (fun g => h_size h (snd g)) (firstn i fs))) bs))).
  Proof.
    intros Hh Hp Hl Hi. eexists. split; [reflexivity|].
    assert (Hg : forall l j k,
      let go := fix go (i : nat) (l : fields) : list val :=
             match l with
             | [] => []
             | f :: r => mem_read h (snd f) (slice bs (h_offset h d fs i) (h_size h (snd f))) :: go (S i) r
             end in
      length (go j l) = length l
      /\ nth_error (go j l) k = match nth_error l k with
          | Some g => Some (mem_read h (snd g) (slice bs (h_offset h d fs (j + k)) (h_size h (snd g))))
          | None => None
          end).
    { clear. induction l as [|g l IH]; intros j k; [split; [reflexivity|destruct k; reflexivity]|].
      cbn zeta. split; [cbn; f_equal; apply (IH (S j) k)|]. destruct k as [|k].
      - rewrite Nat.add_0_r. reflexivity.
      - rewrite <- Nat.add_succ_comm. apply (IH (S j) k). }
    destruct (Hg fs 0%nat i) as [Hg1 Hg2]. split; [exact Hg1|]. cbn zeta in Hg2. rewrite Hi in Hg2.
    etransitivity; [exact Hg2|]. cbn [Nat.add].
    f_equal. f_equal. unfold slice. destruct (N.eq_dec (h_size h (snd f)) 0) as [E|E]; [rewrite E, !take_0; reflexivity|].
    rewrite (proj1 (C37_offsets_partial d fs i f Hh Hp Hi E)). reflexivity.
  Qed.

  (** A `repr(transparent)` struct is its field, whatever its attributes are. *)
  Theorem C37_transparent d f v : sd_repr d = RTransparent -> honest h (snd f) -> is_prim h (TStruct d [f]) = true ->
    valid (h_lim h) (TStruct d [f]) (VSeq [v]) ->
    mem_write h (TStruct d [f]) (VSeq [v]) = mem_write h (snd f) v.
  Proof.
    intros Er Hh Hp [Hv _]. destruct (vh_transparent h VH d f Er) as [Es Eo].
    assert (Ht : is_transparent d [f] = true) by (unfold is_transparent; rewrite Er; reflexivity).
    cbn [is_prim] in Hp. rewrite Ht in Hp. cbn in Hp. rewrite andb_true_r in Hp.
    pose proof (prim_plain h VH _ Hh Hp) as Hpl.
    destruct (plain_enc h VH (h_iter h) (h_native h) LE _ _ Hpl Hv) as (b & Eb & Lb).
    rewrite (mem_write_enc h VH (h_iter h) LE _ _ Hpl Hv) in Eb. injection Eb as Eb. rewrite <- Eb in Lb.
    cbn [mem_write]. rewrite Eo. unfold overlay. rewrite take_0, drop_all; [rewrite app_nil_r; reflexivity|].
    rewrite nlen_repeat, N2Nat.id, Es. lia.
  Qed.
End Plain.

(** C37 for the structs whose layout is checked: no condition on the layout is
    left. *)
Theorem C37_offsets h d fs i f : valid_host h -> checked (TStruct d fs) -> is_prim h (TStruct d fs) = true ->
  nth_error fs i = Some f -> h_size h (snd f) <> 0 ->
  h_offset h d fs i = nsum (map (fun g => h_size h (snd g)) (firstn i fs))
  /\ h_size h (TStruct d fs) = nsum (map (fun g => h_size h (snd g)) fs).
Proof. intros VH Hc. apply C37_offsets_partial; [exact VH|apply checked_honest; assumption]. Qed.

Theorem C37_image h d fs vs : valid_host h -> checked (TStruct d fs) -> is_prim h (TStruct d fs) = true ->
  valid (h_lim h) (TStruct d fs) (VSeq vs) ->
  mem_write h (TStruct d fs) (VSeq vs)
  = concat (map (fun p => mem_write h (snd (fst p)) (snd p)) (combine fs vs)).
Proof. intros VH Hc. apply C37_image_partial; [exact VH|apply checked_honest; assumption]. Qed.

Theorem C37_view h d fs bs i f : valid_host h -> checked (TStruct d fs) -> is_prim h (TStruct d fs) = true ->
  nlen bs = h_size h (TStruct d fs) -> nth_error fs i = Some f ->
  exists vs, mem_read h (TStruct d fs) bs = VSeq vs
  /\ length vs = length fs
  /\ nth_error vs i = Some (mem_read h (snd f)
       (ntake (h_size h (snd f)) (ndrop (nsum (map (fun g => h_size h (snd g)) (firstn i fs))) bs))).
Proof. intros VH Hc. apply C37_view_partial; [exact VH|apply checked_honest; assumption]. Qed.

Print Assumptions C37_offsets_partial.
Print Assumptions C37_image_partial.
Print Assumptions C37_view_partial.
Print Assumptions C37_transparent.
Print Assumptions C37_offsets.
Print Assumptions C37_image.
Print Assumptions C37_view.

(* ------------------------------------------------------------------ *)
(** * Examples *)

(** `struct Pixel { r: u8, g: u8, at: Point }`, treated as plain data by a host
    that keeps the order and not by one that reverses it. *)
Definition pixel : fields := [(plain, TP U8); (plain, TP U8); (plain, point)].
Example pixel_prim : is_prim host64 (TStruct (sd 51 RRust) pixel) = true
                     /\ is_prim host32be (TStruct (sd 51 RRust) pixel) = false.
Proof. split; vm_compute; reflexivity. Qed.
Example pixel_checked : checked (TStruct (sd 51 RRust) pixel).
Proof. cbn. repeat split; discriminate. Qed.

Example pixel_image :
  mem_write host64 (TStruct (sd 51 RRust) pixel) (VSeq [VInt 1; VInt 2; VSeq [VInt 3; VInt (-2)]])
  = [x01; x02; x03; x00; xfe; xff].
Proof.
  rewrite (C37_image host64 _ _ _ host64_valid pixel_checked (proj1 pixel_prim)) by (vm_compute; tauto).
  vm_compute. reflexivity.
Qed.

(** On a host that reverses it, `repr(C)` restores the order. *)
Example pixel_c : is_prim host32be (TStruct (sd 52 RC) pixel) = true
  /\ h_offset host32be (sd 52 RC) pixel 2 = 2.
Proof.
  assert (Hp : is_prim host32be (TStruct (sd 52 RC) pixel) = true) by (vm_compute; reflexivity).
  split; [exact Hp|].
  refine (proj1 (C37_offsets host32be (sd 52 RC) pixel 2 (plain, point) host32be_valid _ Hp eq_refl _)).
  - cbn. repeat split; discriminate.
  - vm_compute. discriminate.
Qed.

(* ------------------------------------------------------------------ *)
(** * `repr(packed)` *)

(** `repr(packed)` alone promises nothing about the order of the fields, and the
    derive macro does not look.  A host that packs fields in reverse. *)
Definition packs_backwards : host :=
  {| h_native := LE;
     h_lim := h_lim host64;
     h_overflow_checks := false;
     h_size := h_size host64;
     h_align := h_align host64;
     h_offset d fs i := match sd_repr d with
                        | RPacked => nsum (map (fun f => h_size host64 (snd f)) (skipn (S i) fs))
                        | _ => h_offset host64 d fs i
                        end;
     h_capacity := h_capacity host64;
     h_iter := h_iter host64;
     h_alloc_max := h_alloc_max host64 |}.

Lemma place_packed l : forall off, snd (place true off l) = off + nsum (map fst l).
Proof.
  induction l as [|[s a] l IH]; intros off; [cbn; lia|]. cbn [place].
  specialize (IH (off + s)). destruct (place true (off + s) l). cbn in *. unfold nsum in IH. lia.
Qed.

Lemma packed_size d fs : sd_repr d = RPacked ->
  h_size host64 (TStruct d fs) = nsum (map (fun f => h_size host64 (snd f)) fs).
Proof.
  intros Er. cbn [host64 make_host h_size layout]. unfold struct_layout. rewrite Er. unfold seq_layout. cbn [fst].
  rewrite place_packed. unfold round_up. cbn [N.eqb]. rewrite map_map, N.add_0_l, N.add_sub, N.div_1_r, N.mul_1_r. reflexivity.
Qed.

Lemma packs_backwards_valid : valid_host packs_backwards.
Proof.
  pose proof host64_valid as VH.
  assert (Hn : forall fs i (f : fattrs * ty), nth_error fs i = Some f ->
    nsum (map (fun f => h_size host64 (snd f)) (skipn i fs))
    = h_size host64 (snd f) + nsum (map (fun f => h_size host64 (snd f)) (skipn (S i) fs))).
  { induction fs as [|g fs IH]; intros [|i] f Hf; try discriminate; [injection Hf as ->; reflexivity|]. apply (IH i f Hf). }
  assert (Hs : forall fs i j, (i <= j)%nat ->
    nsum (map (fun f : fattrs * ty => h_size host64 (snd f)) (skipn j fs))
    <= nsum (map (fun f => h_size host64 (snd f)) (skipn i fs))).
  { generalize (fun f : fattrs * ty => h_size host64 (snd f)). intros sz.
    induction fs as [|g fs IH]; intros [|i] [|j] Hij; cbn [skipn map]; try lia.
    - pose proof (IH 0%nat j ltac:(lia)) as H. cbn [skipn] in H. unfold nsum in *. cbn [fold_right]. lia.
    - apply IH. lia. }
  constructor.
  - apply VH.
  - apply VH.
  - apply VH.
  - apply VH.
  - apply VH.
  - apply VH.
  - apply VH.
  - apply VH.
  - intros d f Er. cbn [packs_backwards h_offset h_size]. rewrite Er. apply (vh_transparent host64 VH d f Er).
  - intros d fs i f Hf. cbn [packs_backwards h_offset h_size].
    destruct (sd_repr d) eqn:Er; try (apply (vh_inside host64 VH d fs i f Hf)).
    rewrite (packed_size d fs Er). pose proof (Hn fs i f Hf). pose proof (Hs fs 0%nat i ltac:(lia)). cbn [skipn] in *. lia.
  - intros d fs i j f g Hij Hf Hg Hzf Hzg. cbn [packs_backwards h_offset h_size] in *.
    destruct (sd_repr d) eqn:Er; try (apply (vh_disjoint host64 VH d fs i j f g Hij Hf Hg Hzf Hzg)).
    right. pose proof (Hn fs j g Hg). pose proof (Hs fs (S i) j ltac:(lia)). lia.
  - intros d fs Er. pose proof (vh_c host64 VH d fs Er) as H. unfold offsets in *.
    cbn [packs_backwards h_offset]. rewrite Er. exact H.
  - apply VH.
  - apply VH.
Qed.

(** `#[repr(packed)] struct P { a: u8, b: u16 }` *)
Definition packed_fields : fields := [(plain, TP U8); (plain, TP U16)].

(** C37 fails: the struct is treated as plain data although its image is not its
    fields in order, and what is written for a slice of them is not what is
    written for each of them. *)
Theorem C37_packed_refuted :
  exists h d fs vs, valid_host h /\ is_prim h (TStruct d fs) = true /\ sd_forced d = false
  /\ valid (h_lim h) (TStruct d fs) (VSeq vs)
  /\ mem_write h (TStruct d fs) (VSeq vs)
     <> concat (map (fun p => mem_write h (snd (fst p)) (snd p)) (combine fs vs))
  /\ exists b b1, write_to_vec h dirty LE (TSeq KVec (TStruct d fs)) (VSeq [VSeq vs]) = Ok (word LE 4 1 ++ b)
     /\ write_to_vec h dirty LE (TStruct d fs) (VSeq vs) = Ok b1 /\ b <> b1.
Proof.
  exists packs_backwards, (sd 53 RPacked), packed_fields, [VInt 1; VInt 770].
  split; [apply packs_backwards_valid|]. split; [vm_compute; reflexivity|]. split; [reflexivity|].
  split; [vm_compute; tauto|]. split; [vm_compute; discriminate|].
  exists [x02; x03; x01], [x01; x02; x03].
  split; [vm_compute; reflexivity|]. split; [vm_compute; reflexivity|]. discriminate.
Qed.
Print Assumptions C37_packed_refuted.
