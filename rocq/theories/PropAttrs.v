(* Properties C32, C33, C34: skipped fields, constants before fields, containers
   that reach to the end of the input. *)
From Verif Require Import StructFacts.

(* ------------------------------------------------------------------ *)
(** * C32: skipped fields *)

(** The fields that are not skipped, and their values. *)
Definition kept (fs : fields) : fields := filter (fun f => negb (f_skip (fst f))) fs.

Fixpoint kept_values (fs : fields) (vs : list val) : list val :=
  match fs, vs with
  | f :: fr, v :: vr => (if f_skip (fst f) then [] else [v]) ++ kept_values fr vr
  | _, _ => []
  end.

(** All fields, from the values of those that are not skipped. *)
Fixpoint with_defaults (fs : fields) (ws : list val) : list val :=
  match fs with
  | [] => []
  | f :: fr =>
    if f_skip (fst f) then f_default (fst f) :: with_defaults fr ws
    else match ws with w :: wr => w :: with_defaults fr wr | [] => [] end
  end.

Section Skip.
  Context (h : host).

  Lemma skip_write {St} (W : writer St) wr fs : forall prev vs s, length fs = length vs ->
    write_fields h W wr prev fs vs s = write_fields h W wr prev (kept fs) (kept_values fs vs) s.
  Proof.
    induction fs as [|[a t] fs IH]; intros prev [|v vs] s Hl; try discriminate; [reflexivity|].
    injection Hl as Hl. cbn [write_fields kept filter kept_values fst snd]. destruct (f_skip a) eqn:Ek; cbn [negb app].
    - apply IH, Hl.
    - cbn [write_fields fst snd]. rewrite Ek. unfold bind.
      destruct (write_field h W wr prev a t v s) as [[[]| |] s1]; try reflexivity. apply IH, Hl.
  Qed.

  (** C32, writing: on every writer, a struct is written like the struct without
      its skipped fields. *)
  Theorem C32_write_partial {St} (W : writer St) d fs vs s : length fs = length vs ->
    write h W (TStruct d fs) (VSeq vs) s = write h W (TStruct d (kept fs)) (VSeq (kept_values fs vs)) s.
  Proof. intros Hl. cbn [write]. apply skip_write, Hl. Qed.

  (** In particular their values do not matter. *)
  Corollary C32_irrelevant_partial {St} (W : writer St) d fs vs ws s :
    length fs = length vs -> length fs = length ws -> kept_values fs vs = kept_values fs ws ->
    write h W (TStruct d fs) (VSeq vs) s = write h W (TStruct d fs) (VSeq ws) s.
  Proof. intros H1 H2 H. rewrite (C32_write_partial W d fs vs s H1), (C32_write_partial W d fs ws s H2), H. reflexivity. Qed.

  (** The same for the variants of an enum. *)
  Lemma skip_variants {St} (W : writer St) dn wr vs : forall i us s tag fs,
    nth_error vs i = Some (tag, fs) -> length fs = length us ->
    write_variant h W dn wr vs i us s
    = write_variant h W dn wr (map (fun v => (fst v, kept (snd v))) vs) i (kept_values fs us) s.
  Proof.
    induction vs as [|[g gs] vs IH]; intros [|i] us s tag fs Hn Hl; try discriminate; cbn [write_variant map fst snd].
    - injection Hn as -> ->. unfold bind.
      destruct ((if e_peek dn then ret tt else write_tag h W (e_tag dn) tag) s) as [[[]| |] s1]; try reflexivity.
      apply skip_write, Hl.
    - eapply IH; eassumption.
  Qed.

  Theorem C32_write_enum_partial {St} (W : writer St) d vs i us s tag fs :
    nth_error vs i = Some (tag, fs) -> length fs = length us ->
    write h W (TEnum d vs) (VVar i us) s
    = write h W (TEnum d (map (fun v => (fst v, kept (snd v))) vs)) (VVar i (kept_values fs us)) s.
  Proof. intros Hn Hl. cbn [write]. eapply skip_variants; eassumption. Qed.

  Lemma skip_read {St} (R : reader St) rd fs : forall prev s,
    read_fields h R rd prev fs s
    = let (r, s') := read_fields h R rd prev (kept fs) s in (rmap (with_defaults fs) r, s').
  Proof.
    induction fs as [|[a t] fs IH]; intros prev s; [reflexivity|].
    cbn [read_fields kept filter with_defaults fst snd]. destruct (f_skip a) eqn:Ek; cbn [negb].
    - unfold mmap, bind, ret. rewrite IH. fold (kept fs). destruct (read_fields h R rd prev (kept fs) s) as [[ws| |] s1]; reflexivity.
    - cbn [read_fields fst snd]. rewrite Ek. unfold bind, ret.
      destruct (read_field h R rd prev a t s) as [[v| |] s1]; try reflexivity.
      rewrite IH. fold (kept fs). destruct (read_fields h R rd (prev ++ [proj v]) (kept fs) s1) as [[ws| |] s2]; reflexivity.
  Qed.

  Definition on_fields (f : list val -> list val) (v : val) : val :=
    match v with VSeq vs => VSeq (f vs) | _ => v end.

  (** C32, reading: every reader reads the struct without its skipped fields and
      puts in the defaults. *)
  Theorem C32_read_partial {St} (R : reader St) d fs s :
    read h R (TStruct d fs) s
    = let (r, s') := read h R (TStruct d (kept fs)) s in (rmap (on_fields (with_defaults fs)) r, s').
  Proof.
    cbn [read]. unfold mmap, bind, ret. rewrite skip_read.
    destruct (read_fields h R (read h R) [] (kept fs) s) as [[ws| |] s']; reflexivity.
  Qed.

  (** The buffers have to be as long as without them. *)
  Theorem C32_minimum_partial d fs : min_bytes h (TStruct d fs) = min_bytes h (TStruct d (kept fs)).
  Proof.
    cbn [min_bytes]. induction fs as [|[a t] fs IH]; [reflexivity|].
    cbn [kept filter fst]. destruct (f_skip a) eqn:Ek; cbn [negb].
    - fold (kept fs). rewrite <- IH. cbn [map nsum fold_right]. unfold field_min at 1. cbn [fst snd].
      rewrite Ek, orb_true_r. reflexivity.
    - fold (kept fs). cbn [map nsum fold_right]. unfold nsum in IH. rewrite IH. reflexivity.
  Qed.

  (** So the entry points: *)
  Corollary C32_read_from_buffer_partial e d fs addr bs :
    read_from_buffer h e (TStruct d fs) addr bs
    = match read_from_buffer h e (TStruct d (kept fs)) addr bs with
      | Err (InputBufferIsTooSmall a n) => Err (InputBufferIsTooSmall a n)
      | r => rmap (on_fields (with_defaults fs)) r
      end.
  Proof.
    unfold read_from_buffer, read_with_length_from_buffer, with_min. rewrite C32_minimum_partial.
    destruct (nlen bs <? min_bytes h (TStruct d (kept fs))); [reflexivity|]. rewrite C32_read_partial.
    destruct (read h (BufferReader e) (TStruct d (kept fs)) (br_start addr bs)) as [[v|er|f] s]; try reflexivity.
    destruct er; reflexivity.
  Qed.
End Skip.

Print Assumptions C32_write_partial.
Print Assumptions C32_irrelevant_partial.
Print Assumptions C32_write_enum_partial.
Print Assumptions C32_read_partial.
Print Assumptions C32_minimum_partial.
Print Assumptions C32_read_from_buffer_partial.

(* struct Cached { #[speedy(skip)] a: u32, x: u8, #[speedy(skip)] b: String, y: u8 } *)
Definition cached : fields :=
  [(with_skip (VInt 0), TP U32); (plain, TP U8); (with_skip (VBytes []), TStr KString); (plain, TP U8)].

Example C32_cached_written :
  write_to_vec host64 dirty LE (TStruct (sd 30 RRust) cached) (VSeq [VInt 77; VInt 1; VBytes [x61]; VInt 2]) = Ok [x01; x02].
Proof. vm_compute. reflexivity. Qed.
Example C32_cached_read :
  read_from_buffer host64 LE (TStruct (sd 30 RRust) cached) 0 [x01; x02] = Ok (VSeq [VInt 0; VInt 1; VBytes []; VInt 2]).
Proof. vm_compute. reflexivity. Qed.

(* #[repr(transparent)] struct Hidden { #[speedy(skip)] x: u32 } *)
Definition hidden : ty := TStruct (sd 31 RTransparent) [(with_skip (VInt 0), TP U32)].

(** C32 is false inside slices: the memory of a `repr(transparent)` struct is
    copied with the skipped field in it. *)
Theorem C32_write_refuted : exists h v b, valid_host h
  /\ write_to_vec h dirty LE hidden v = Ok []
  /\ write_to_vec h dirty LE (TSeq KVec hidden) (VSeq [v]) = Ok b /\ nlen b = 8.
Proof.
  exists host64, (VSeq [VInt 258]), [x01; x00; x00; x00; x02; x01; x00; x00].
  split; [apply host64_valid|]. split; [vm_compute; reflexivity|]. split; vm_compute; reflexivity.
Qed.

Theorem C32_read_refuted : exists h bs, valid_host h
  /\ read_from_buffer h LE (TSeq KVec hidden) 0 bs = Ok (VSeq [VSeq [VInt 258]]).
Proof.
  exists host64, [x01; x00; x00; x00; x02; x01; x00; x00]. split; [apply host64_valid|]. vm_compute. reflexivity.
Qed.

Print Assumptions C32_write_refuted.
Print Assumptions C32_read_refuted.

(* ------------------------------------------------------------------ *)
(** * C33: constants before fields *)

(** The field without its constant. *)
Definition no_const (a : fattrs) : fattrs :=
  {| f_eof := f_eof a; f_skip := f_skip a; f_varint := f_varint a; f_opaque := f_opaque a;
     f_len := f_len a; f_prefix := []; f_default := f_default a |}.

Lemma begins_dec b p : begins b p \/ ~ begins b p.
Proof.
  destruct (list_eq_dec Byte.byte_eq_dec (ntake (nlen p) b) p) as [E|E].
  - left. exists (ndrop (nlen p) b). rewrite <- E at 1. symmetry. apply take_drop.
  - right. intros [r ->]. apply E. apply take_app_exact. reflexivity.
Qed.

Section Const.
  Context (h : host) (VH : valid_host h) (e : endian).
  Notation e6 := (ipv6_order h e).
  Notation decode := (decode (h_lim h) e e6).

  Section InStruct.
    Context (d : sdecl) (fs1 : fields) (a : fattrs) (t : ty) (fs2 : fields) (Hskip : f_skip a = false).
    Notation T := (TStruct d (fs1 ++ (a, t) :: fs2)).
    Notation T0 := (TStruct d (fs1 ++ (no_const a, t) :: fs2)).

    (** C33, writing: the constant stands between what is before the field and the
        field, and the rest is as if there was no constant. *)
    Theorem C33_written_partial mem vs1 v vs2 out : (forall n, n <= nlen (mem n)) -> length fs1 = length vs1 ->
      wsup h T -> valid (h_lim h) T (VSeq (vs1 ++ v :: vs2)) ->
      write_to_vec h mem e T (VSeq (vs1 ++ v :: vs2)) = Ok out ->
      exists b1 c,
        out = b1 ++ f_prefix a ++ c
        /\ write_to_vec h mem e (TStruct d fs1) (VSeq vs1) = Ok b1
        /\ write_to_vec h mem e T0 (VSeq (vs1 ++ v :: vs2)) = Ok (b1 ++ c).
    Proof.
      intros Hmem Hlen Hw Hv Ho.
      destruct (struct_wsup h d fs1 _ Hw) as [Hw1 Hw2].
      destruct (struct_valid h d fs1 _ vs1 _ Hlen Hv) as [Hv1 Hv2].
      apply (write_to_vec_err h VH) in Ho; try assumption.
      apply (struct_split h e d fs1 a t fs2 vs1 v vs2 out Hlen Hskip) in Ho as (b1 & bf & b2 & -> & E1 & E2 & E3).
      unfold enc_field in E2. apply rmap_ok in E2 as (c & E2 & ->).
      exists b1, (c ++ b2). split; [rewrite <- app_assoc; reflexivity|].
      split; [apply (write_to_vec_ok h VH); assumption|].
      assert (Hw0 : wsup h T0) by (apply all_fields_app; split; [exact Hw1|exact Hw2]).
      assert (Hv0 : valid (h_lim h) T0 (VSeq (vs1 ++ v :: vs2))) by (apply valid_fields_app; [assumption|]; split; [exact Hv1|exact Hv2]).
      apply (write_to_vec_ok h VH); try assumption.
      cbn [enc]. rewrite enc_fields_app by assumption. cbn [app enc_fields fst snd].
      change (f_skip (no_const a)) with (f_skip a). rewrite Hskip.
      unfold encode in E1. cbn [enc] in E1. rewrite E1.
      unfold enc_field. change (f_varint (no_const a)) with (f_varint a). change (f_prefix (no_const a)) with (@nil byte).
      change (field_len false (visible fs1 vs1) (no_const a) t) with (field_len false (visible fs1 vs1) a t).
      rewrite E2, E3. reflexivity.
    Qed.

    Lemma const_bad rest : nlen (f_prefix a) <= nlen rest -> ~ begins rest (f_prefix a) ->
      dconst (f_prefix a) (Some rest) = DBad (ExpectedConstant (f_prefix a)) true.
    Proof.
      intros Hl Hn. unfold dconst, dbind, dread.
      destruct (N.eqb_spec (nlen (f_prefix a)) 0) as [E|E].
      - exfalso. apply Hn. destruct (f_prefix a); [exists rest; reflexivity|]. rewrite nlen_cons in E. lia.
      - destruct (N.leb_spec (nlen (f_prefix a)) (nlen rest)) as [_|?]; [|lia].
        destruct list_eq_dec as [E1|_]; [|reflexivity]. exfalso. apply Hn.
        exists (ndrop (nlen (f_prefix a)) rest). rewrite <- E1 at 1. symmetry. apply take_drop.
    Qed.

    Lemma const_eof rest : nlen rest < nlen (f_prefix a) -> dconst (f_prefix a) (Some rest) = DEof.
    Proof.
      intros Hl. unfold dconst, dbind, dread.
      destruct (N.eqb_spec (nlen (f_prefix a)) 0) as [E|E]; [lia|].
      destruct (N.leb_spec (nlen (f_prefix a)) (nlen rest)) as [?|_]; [lia|reflexivity].
    Qed.

    (** C33, reading: where the constant is missing the input is refused. *)
    Theorem C33_refuses_partial bs bw r ws rest : supported h e bw true LDefault T -> reading h e T bs bw r ->
      decode (TStruct d fs1) bs = DOk (VSeq ws) (Some rest) -> ~ begins rest (f_prefix a) ->
      too_small h T bs r
      \/ (nlen (f_prefix a) <= nlen rest /\ r = Err (ExpectedConstant (f_prefix a)))
      \/ (nlen rest < nlen (f_prefix a) /\ (f_eof a = false -> ran_out r)).
    Proof.
      intros Hs Hr Hd Hn. destruct (reading_agrees h VH e T bs bw r Hs Hr) as [H|H]; [left; exact H|right].
      rewrite (decode_struct_app _ _ _ d fs1 ((a, t) :: fs2) bs ws _ Hd) in H.
      unfold dmap, dbind in H. cbn [dfields fst snd] in H. rewrite Hskip in H.
      destruct (N.le_gt_cases (nlen (f_prefix a)) (nlen rest)) as [Hl|Hl]; [left|right]; (split; [exact Hl|]).
      - unfold dbind, dfield in H. destruct (f_eof a).
        + unfold dcatch, dbind in H. rewrite const_bad in H by assumption. destruct H as [[H _]|[H _]]; [exact H|discriminate].
        + unfold dbind in H. rewrite const_bad in H by assumption. destruct H as [[H _]|[H _]]; [exact H|discriminate].
      - intros Ef. unfold dbind, dfield in H. rewrite Ef in H. unfold dbind in H. rewrite const_eof in H by assumption. exact H.
    Qed.

    (** Values are produced only from inputs with the constant in its place (or
        that end before it is complete, if the field is `default_on_eof`). *)
    Theorem C33_only_if_partial bs bw w : no_eof false (TStruct d fs1) ->
      supported h e bw true LDefault T -> reading h e T bs bw (Ok w) ->
      exists ws rest, decode (TStruct d fs1) bs = DOk (VSeq ws) (Some rest)
        /\ (begins rest (f_prefix a) \/ (f_eof a = true /\ nlen rest < nlen (f_prefix a))).
    Proof.
      intros Hno Hs Hr.
      pose proof (decode_spec (h_lim h) e e6 (TStruct d fs1) bs Hno) as Hu.
      pose proof (decode_ok_rest (h_lim h) e e6 (TStruct d fs1) bs) as Hok.
      destruct (reading_agrees h VH e T bs bw _ Hs Hr) as [[_ H]|H]; [discriminate|].
      destruct (decode (TStruct d fs1) bs) as [v o| |er sure|f sure|] eqn:Hd.
      - destruct (decode_struct_seq _ _ _ d fs1 bs v o Hd) as [ws ->].
        destruct (Hok _ _ Hno eq_refl) as (c & rest & -> & _). exists ws, rest. split; [reflexivity|].
        destruct (begins_dec rest (f_prefix a)) as [Hb|Hb]; [left; exact Hb|right].
        destruct (C33_refuses_partial bs bw (Ok w) ws rest Hs Hr Hd Hb) as [[_ E]|[[_ E]|[Hl E]]]; try discriminate.
        split; [|exact Hl]. destruct (f_eof a); [reflexivity|]. destruct (E eq_refl) as (er & E' & _). discriminate.
      - rewrite decode_struct_bad, Hd in H by (rewrite Hd; discriminate). destruct H as (er & H & _). discriminate.
      - rewrite decode_struct_bad, Hd in H by (rewrite Hd; discriminate). destruct H as [[H _]|[_ (er' & H & _)]]; discriminate.
      - rewrite decode_struct_bad, Hd in H by (rewrite Hd; discriminate). destruct H as [H|[_ (er' & H & _)]]; discriminate.
      - contradiction.
    Qed.
  End InStruct.
End Const.

Print Assumptions C33_written_partial.
Print Assumptions C33_refuses_partial.
Print Assumptions C33_only_if_partial.

(* struct Magic { n: u8, #[speedy(constant_prefix = b"SP")] x: u16, y: u8 } *)
Definition magic : ty :=
  TStruct (sd 32 RRust) [(plain, TP U8); (with_prefix [x53; x50], TP U16); (plain, TP U8)].

Example magic_covered : covered host32be LE false true magic.
Proof. apply coveredb_sound. vm_compute. reflexivity. Qed.

Example C33_magic : write_to_vec host32be dirty LE magic (VSeq [VInt 7; VInt 258; VInt 9])
  = Ok [x07; x53; x50; x02; x01; x09].
Proof. vm_compute. reflexivity. Qed.

Example C33_magic_written : exists b1 c,
  [x07; x53; x50; x02; x01; x09] = b1 ++ [x53; x50] ++ c
  /\ write_to_vec host32be dirty LE (TStruct (sd 32 RRust) [(plain, TP U8)]) (VSeq [VInt 7]) = Ok b1
  /\ write_to_vec host32be dirty LE
       (TStruct (sd 32 RRust) [(plain, TP U8); (no_const (with_prefix [x53; x50]), TP U16); (plain, TP U8)])
       (VSeq [VInt 7; VInt 258; VInt 9]) = Ok (b1 ++ c).
Proof.
  eapply (C33_written_partial host32be host32be_valid LE (sd 32 RRust) [(plain, TP U8)]
    (with_prefix [x53; x50]) (TP U16) [(plain, TP U8)] eq_refl dirty [VInt 7] (VInt 258) [VInt 9]);
    [exact dirty_enough|reflexivity|apply magic_covered| |exact C33_magic].
  apply validb_sound. vm_compute. reflexivity.
Qed.

Example C33_magic_refused bw r : reading host32be LE magic [x07; x53; x51; x02; x01; x09] bw r ->
  r = Err (ExpectedConstant [x53; x50]).
Proof.
  intros Hr.
  assert (Hs : supported host32be LE bw true LDefault magic).
  { destruct bw; [apply supported_borrow|]; apply magic_covered. }
  destruct (C33_refuses_partial host32be host32be_valid LE (sd 32 RRust) [(plain, TP U8)]
    (with_prefix [x53; x50]) (TP U16) [(plain, TP U8)] eq_refl _ bw r [VInt 7] [x53; x51; x02; x01; x09] Hs Hr)
    as [[H _]|[[_ H]|[H _]]].
  - vm_compute. reflexivity.
  - intros [q H]. discriminate.
  - revert H. vm_compute. discriminate.
  - exact H.
  - revert H. vm_compute. discriminate.
Qed.

(* #[repr(transparent)] struct Marked { #[speedy(constant_prefix = b"SP")] x: u16 } *)
Definition marked : ty := TStruct (sd 33 RTransparent) [(with_prefix [x53; x50], TP U16)].

(** C33 is false inside slices: the constant of a `repr(transparent)` struct is
    neither written nor asked for. *)
Theorem C33_write_refuted : exists h v, valid_host h
  /\ write_to_vec h dirty LE marked v = Ok [x53; x50; x02; x01]
  /\ write_to_vec h dirty LE (TSeq KVec marked) (VSeq [v]) = Ok [x01; x00; x00; x00; x02; x01].
Proof.
  exists host64, (VSeq [VInt 258]). split; [apply host64_valid|]. split; [vm_compute; reflexivity|]. vm_compute. reflexivity.
Qed.

Theorem C33_read_refuted : exists h v, valid_host h
  /\ read_from_buffer h LE (TSeq KVec marked) 0 [x01; x00; x00; x00; x02; x01; x58; x58] = Ok v.
Proof. exists host64, (VSeq [VSeq [VInt 258]]). split; [apply host64_valid|]. vm_compute. reflexivity. Qed.

(** What was written is then not even read back: the reader first asks for as many
    bytes as the constants would take. *)
Theorem C33_round_trip_refuted : exists h v b, valid_host h
  /\ write_to_vec h dirty LE (TSeq KVec marked) v = Ok b
  /\ read_from_buffer h LE (TSeq KVec marked) 0 b = Err UnexpectedEndOfInput.
Proof.
  exists host64, (VSeq [VSeq [VInt 258]]), [x01; x00; x00; x00; x02; x01].
  split; [apply host64_valid|]. split; [vm_compute; reflexivity|]. vm_compute. reflexivity.
Qed.

Print Assumptions C33_write_refuted.
Print Assumptions C33_round_trip_refuted.
Print Assumptions C33_read_refuted.

(* ------------------------------------------------------------------ *)
(** * C34: containers that reach to the end of the input *)

Section Until.
  Context (h : host) (VH : valid_host h) (e : endian).
  Context (mem : N -> bytes) (Hmem : forall n, n <= nlen (mem n)).
  Notation e6 := (ipv6_order h e).
  Notation decl := (decl (h_lim h) e e6).

  (** An element type that takes at least a byte: some value is written as
      something. *)
  Definition takes_bytes (t : ty) : Prop :=
    exists w b, value_of h e t w /\ write_to_vec h mem e t w = Ok b /\ b <> [].

  (** Types the elements can have. *)
  Definition until_elements (c : ty) : Prop :=
    match c with
    | TStr _ => True
    | TSeq _ t => rtok (h_lim h) e e6 false t /\ no_eof false t /\ takes_bytes t
    | TSet _ t => rtok (h_lim h) e e6 false t /\ no_eof false t /\ takes_bytes t /\ exact t
    | TMap _ tk tv =>
      rtok (h_lim h) e e6 false tk /\ no_eof false tk /\ takes_bytes tk /\ exact tk
      /\ rtok (h_lim h) e e6 false tv /\ no_eof false tv
    | _ => False
    end.

  (** No element is read from nothing. *)
  Lemma takes_bytes_ends t : wsup h t -> rtok (h_lim h) e e6 false t -> no_eof false t -> takes_bytes t ->
    ends (decl len0 t).
  Proof.
    intros Hw Hr Hn (w & b & Hv & Hb & Hne).
    apply (write_to_vec_err h VH) in Hb; try assumption; [|apply Hv].
    pose proof (host_round_trip h VH e t w b [] Hr Hv Hb (fun _ => eq_refl)) as Hd. rewrite app_nil_r in Hd.
    unfold ends. destruct (decode_strict (h_lim h) e e6 t Hn []) as [E|(E1 & _ & E3)]; [exact E|exfalso].
    unfold decode in Hd. specialize (E1 b). cbn [app] in E1. rewrite Hd in E1.
    destruct (decl len0 t (Some [])) as [v o| | | |]; try discriminate.
    destruct (E3 v o eq_refl) as (c & q & -> & Eq). symmetry in Eq. apply app_eq_nil in Eq as [_ ->].
    cbn in E1. injection E1 as _ E1. apply Hne. symmetry. exact E1.
  Qed.

  Lemma until_rtok c : wsup h c -> until_elements c -> rtok (h_lim h) e e6 true c.
  Proof.
    intros Hw Hu. destruct c; try contradiction; cbn [rtok until_elements wsup] in *.
    - exact I.
    - destruct Hu as (H1 & H2 & H3). split; [assumption|]. split; [apply no_eof_closed, H2|]. intros _.
      apply takes_bytes_ends; tauto.
    - destruct Hu as (H1 & H2 & H3 & H4). split; [assumption|]. split; [apply no_eof_closed, H2|].
      split; [assumption|]. intros _. apply takes_bytes_ends; tauto.
    - destruct Hu as (H1 & H2 & H3 & H4 & H5 & H6). split; [assumption|]. split; [apply no_eof_closed, H2|].
      split; [assumption|]. split; [assumption|]. split; [apply no_eof_closed, H6|]. intros _.
      assert (E : ends (decl len0 c1)) by (apply takes_bytes_ends; tauto).
      unfold ends, dpair, dbind in *. rewrite E. reflexivity.
  Qed.

  Lemma rt_fields_app fs1 fs2 : rt_fields (rtok (h_lim h) e e6) fs1 -> fields_open opens fs1 = false \/ fs2 = [] ->
    rt_fields (rtok (h_lim h) e e6) fs2 ->
    rt_fields (rtok (h_lim h) e e6) (fs1 ++ fs2).
  Proof.
    induction fs1 as [|[a t] fs1 IH]; intros H1 Ho H2; [exact H2|]. cbn [app rt_fields fst snd] in *.
    destruct H1 as [Ha H1]. destruct Ho as [Ho| ->]; [|rewrite app_nil_r; auto].
    cbn [fields_open fst snd] in Ho. apply orb_false_iff in Ho as [Ho1 Ho2].
    split; [|apply IH; auto].
    destruct Ha as [Ha|(Hv & Hok & Hop)]; [left; exact Ha|].
    destruct (f_skip a) eqn:Ek; [left; reflexivity|right]. split; [exact Hv|]. split; [exact Hok|].
    intros Hopen. rewrite Hopen in Ho1. cbn [negb andb] in Ho1.
    destruct (f_varint a) eqn:Ev; [|discriminate]. rewrite (Hv eq_refl) in Hopen. discriminate.
  Qed.

  (** C34: behind fields that read back by themselves, a container with
      `length = ..` reads back exactly, with every reader. *)
  Theorem C34_reads_back_partial d fs a c vs u b bw r :
    f_skip a = false -> f_varint a = false -> f_opaque a = false -> f_len a = LEof -> is_container c = true ->
    let T := TStruct d (fs ++ [(a, c)]) in
    wsup h T -> supported h e bw true LDefault T ->
    rtok (h_lim h) e e6 false (TStruct d fs) -> opens false (TStruct d fs) = false -> until_elements c ->
    length fs = length vs -> value_of h e T (VSeq (vs ++ [u])) ->
    write_to_vec h mem e T (VSeq (vs ++ [u])) = Ok b ->
    reading h e T b bw r ->
    r = Ok (VSeq (norm_fields norm fs vs ++ [norm c u])).
  Proof.
    intros Hk Hva Ho Hl Hc T Hw Hs Hr Hop Hu Hlen Hv Hb Hrd.
    assert (Hwc : wsup h c).
    { destruct (struct_wsup h d fs _ Hw) as [_ [H _]]. cbn in H. destruct H as [H|[_ H]]; [congruence|tauto]. }
    assert (Hrt : rtok (h_lim h) e e6 false T).
    { cbn [rtok] in *. apply rt_fields_app; [exact Hr|left; exact Hop|].
      cbn [rt_fields fst snd]. split; [right|exact I]. split; [congruence|]. split; [|intros _; exact I].
      assert (Ef : field_eof a c = true).
      { unfold field_eof, sized_field. rewrite Ho, Hl. destruct c; try discriminate; cbn [is_container] in *; rewrite ?Hc; reflexivity. }
      rewrite Ef. apply until_rtok; assumption. }
    assert (He : encode (h_iter h) e e6 T (VSeq (vs ++ [u])) = Ok b)
      by (eapply write_to_vec_err; try eassumption; apply Hv).
    pose proof (host_round_trip h VH e _ _ b [] Hrt Hv He (fun _ => eq_refl)) as Hd. rewrite app_nil_r in Hd.
    assert (En : norm T (VSeq (vs ++ [u])) = VSeq (norm_fields norm fs vs ++ [norm c u])).
    { cbn [norm T]. f_equal. clear - Hlen Hk. revert vs Hlen.
      induction fs as [|[a1 t1] fs IH]; intros [|v1 vs] Hlen; try discriminate; cbn [app norm_fields fst snd].
      - rewrite Hk. reflexivity.
      - injection Hlen as Hlen. rewrite (IH vs Hlen). reflexivity. }
    rewrite <- En. eapply reading_ok; try eassumption. eapply host_min; eassumption.
  Qed.
End Until.

Print Assumptions takes_bytes_ends.
Print Assumptions C34_reads_back_partial.

(* struct Log { id: u8, #[speedy(length = ..)] entries: Vec<(u16, Option<u8>)> } *)
Definition entry : ty := TTuple [TP U16; TOption (TP U8)].
Definition log : fields := [(plain, TP U8); (with_len LEof, TSeq KVec entry)].
Definition log_value : list val := [VInt 7; VSeq [VSeq [VInt 1; VNone]; VSeq [VInt 2; VSome (VInt 3)]]].

Example C34_log : write_to_vec host64 dirty LE (TStruct (sd 34 RRust) log) (VSeq log_value)
  = Ok [x07; x01; x00; x00; x02; x00; x01; x03].
Proof. vm_compute. reflexivity. Qed.

Example C34_log_reads_back bw r :
  reading host64 LE (TStruct (sd 34 RRust) log) [x07; x01; x00; x00; x02; x00; x01; x03] bw r ->
  r = Ok (VSeq log_value).
Proof.
  intros Hr.
  assert (Hv : value_of host64 LE (TStruct (sd 34 RRust) log) (VSeq log_value)) by (apply value_ofb_sound; vm_compute; reflexivity).
  assert (Hs : supported host64 LE bw true LDefault (TStruct (sd 34 RRust) log)).
  { destruct bw; [apply supported_borrow|]; apply supportedb_sound; vm_compute; reflexivity. }
  assert (Hu : until_elements host64 LE dirty (TSeq KVec entry)).
  { split; [apply rtokb_sound; vm_compute; reflexivity|]. split; [apply no_eofb_sound; vm_compute; reflexivity|].
    exists (VSeq [VInt 1; VNone]), [x01; x00; x00].
    split; [apply value_ofb_sound; vm_compute; reflexivity|]. split; [vm_compute; reflexivity|discriminate]. }
  refine (C34_reads_back_partial host64 host64_valid LE dirty dirty_enough (sd 34 RRust) [(plain, TP U8)]
    (with_len LEof) (TSeq KVec entry) [VInt 7] _ _ bw r _ _ _ _ _ _ Hs _ _ Hu _ Hv C34_log Hr); try reflexivity.
  - apply wsupb_sound. vm_compute. reflexivity.
  - apply rtokb_sound. vm_compute. reflexivity.
Qed.

(* #[repr(transparent)] struct Id(#[speedy(varint)] u64);
   struct Ids { #[speedy(length = ..)] ids: Vec<Id> } *)
Definition ids : ty :=
  TStruct (sd 35 RRust) [(with_len LEof, TSeq KVec (TStruct (sd 36 RTransparent) [(with_varint, TP U64)]))].

(** C34 is false for vectors of `repr(transparent)` structs with an attribute on the
    field: their memory is written, but their fields are read. *)
Theorem C34_transparent_refuted : exists h v b w, valid_host h
  /\ write_to_vec h dirty LE ids v = Ok b
  /\ read_from_buffer h LE ids 0 b = Ok w /\ w <> v.
Proof.
  exists host64, (VSeq [VSeq [VSeq [VInt 5]]]), [x05; x00; x00; x00; x00; x00; x00; x00].
  eexists. split; [apply host64_valid|]. split; [vm_compute; reflexivity|].
  split; [vm_compute; reflexivity|]. intros E. injection E as E. discriminate.
Qed.

Print Assumptions C34_transparent_refuted.
