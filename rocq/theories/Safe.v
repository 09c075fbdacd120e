(* What reading guarantees whatever the input is: values are valid, as many bytes
   are consumed as the minimum length promises, and only the listed faults can
   occur. *)
From Verif Require Export Entry ValOrder EncFacts.

Section Tri.
  Context {St : Type}.
  (** [inv s n]: [n] bytes are left in state [s].  [allow f]: the fault [f] is
      tolerated. *)
  Context (inv : St -> N -> Prop) (allow : fault -> Prop).

  (** [m] returns only values satisfying [Q], having consumed [k] bytes at least;
      after the end of the input has been hit, the reader is still usable. *)
  Definition tri {A} (k : N) (m : M St A) (Q : A -> Prop) : Prop := forall s n, inv s n ->
    match m s with
    | (Ok a, s') => Q a /\ exists n', inv s' n' /\ n' + k <= n
    | (Err er, s') => is_eof er = true -> exists n', inv s' n' /\ n' <= n
    | (Fault f, s') => allow f
    end.

  Lemma tri_ext {A} k (m m' : M St A) Q : (forall s, m s = m' s) -> tri k m Q -> tri k m' Q.
  Proof. intros E H s n Hs. rewrite <- E. exact (H s n Hs). Qed.

  Lemma tri_weaken {A} k k' (m : M St A) (Q Q' : A -> Prop) :
    tri k m Q -> k' <= k -> (forall a, Q a -> Q' a) -> tri k' m Q'.
  Proof.
    intros H Hk Hq s n Hs. specialize (H s n Hs). destruct (m s) as [[a|er|f] s']; auto.
    destruct H as [Ha (n' & Hn & Hl)]. split; [auto|]. exists n'. split; [exact Hn|lia].
  Qed.

  Lemma tri_le {A} k k' (m : M St A) (Q : A -> Prop) : tri k m Q -> k' <= k -> tri k' m Q.
  Proof. intros H Hk. eapply tri_weaken; eauto. Qed.

  Lemma tri_post {A} k (m : M St A) (Q Q' : A -> Prop) : tri k m Q -> (forall a, Q a -> Q' a) -> tri k m Q'.
  Proof. intros H Hq. eapply tri_weaken; [exact H|lia|exact Hq]. Qed.

  Lemma tri_ret {A} (a : A) (Q : A -> Prop) : Q a -> tri 0 (ret a) Q.
  Proof. intros H s n Hs. split; [exact H|]. exists n. split; [exact Hs|lia]. Qed.

  Lemma tri_fail {A} er k (Q : A -> Prop) : tri k (fail er) Q.
  Proof. intros s n Hs. cbn. exists n. split; [exact Hs|lia]. Qed.

  Lemma tri_crash {A} f k (Q : A -> Prop) : allow f -> tri k (crash f) Q.
  Proof. intros H s n Hs. exact H. Qed.

  Lemma tri_bind {A B} k1 k2 (m : M St A) (f : A -> M St B) Q1 Q2 :
    tri k1 m Q1 -> (forall a, Q1 a -> tri k2 (f a) Q2) -> tri (k1 + k2) (bind m f) Q2.
  Proof.
    intros Hm Hf s n Hs. unfold bind. specialize (Hm s n Hs). destruct (m s) as [[a|er|x] s1]; auto.
    destruct Hm as [Ha (n1 & Hn1 & Hl1)]. specialize (Hf a Ha s1 n1 Hn1). destruct (f a s1) as [[b|er|x] s2]; auto.
    - destruct Hf as [Hb (n2 & Hn2 & Hl2)]. split; [exact Hb|]. exists n2. split; [exact Hn2|lia].
    - intros He. destruct (Hf He) as (n2 & Hn2 & Hl2). exists n2. split; [exact Hn2|lia].
  Qed.

  (** With the arithmetic left over. *)
  Lemma tri_bind' {A B} k k1 k2 (m : M St A) (f : A -> M St B) Q1 Q2 :
    tri k1 m Q1 -> (forall a, Q1 a -> tri k2 (f a) Q2) -> k <= k1 + k2 -> tri k (bind m f) Q2.
  Proof. intros Hm Hf Hk. eapply tri_le; [eapply tri_bind; eauto|exact Hk]. Qed.

  Lemma tri_then {A B} k (m : M St A) (f : A -> M St B) Q1 Q2 :
    tri k m Q1 -> (forall a, Q1 a -> tri 0 (f a) Q2) -> tri k (bind m f) Q2.
  Proof. intros Hm Hf. eapply tri_bind'; eauto. lia. Qed.

  Lemma tri_after {A B} k (m : M St A) (f : A -> M St B) Q1 Q2 :
    tri 0 m Q1 -> (forall a, Q1 a -> tri k (f a) Q2) -> tri k (bind m f) Q2.
  Proof. intros Hm Hf. eapply tri_bind'; eauto. lia. Qed.

  Lemma tri_assoc {A B C} k (m : M St A) (f : A -> M St B) (g : B -> M St C) Q :
    tri k (bind (bind m f) g) Q -> tri k (bind m (fun a => bind (f a) g)) Q.
  Proof. apply tri_ext. intros s. unfold bind. destruct (m s) as [[a|er|x] s1]; reflexivity. Qed.

  Lemma tri_map {A B} k (g : A -> B) (m : M St A) (Q : A -> Prop) (Q' : B -> Prop) :
    tri k m Q -> (forall a, Q a -> Q' (g a)) -> tri k (mmap g m) Q'.
  Proof. intros Hm Hq. eapply tri_then; [exact Hm|]. intros a Ha. apply tri_ret, Hq, Ha. Qed.

  Lemma tri_lift {A} (r : res A) (Q : A -> Prop) :
    match r with Ok a => Q a | Err _ => True | Fault f => allow f end -> tri 0 (lift r) Q.
  Proof.
    intros H s n Hs. cbn. destruct r; [split; [exact H|]| |exact H]; [|intros _]; exists n; (split; [exact Hs|lia]).
  Qed.

  Lemma tri_catch {A} k (d : A) (m : M St A) (Q : A -> Prop) : tri k m Q -> Q d -> tri 0 (catch_eof d m) Q.
  Proof.
    intros Hm Hd s n Hs. unfold catch_eof. specialize (Hm s n Hs). destruct (m s) as [[a|er|f] s'].
    - destruct Hm as [Ha (n' & Hn & Hl)]. split; [exact Ha|]. exists n'. split; [exact Hn|lia].
    - destruct (is_eof er) eqn:E; [|intros C; congruence]. destruct (Hm eq_refl) as (n' & Hn & Hl).
      split; [exact Hd|]. exists n'. split; [exact Hn|lia].
    - exact Hm.
  Qed.

  Lemma tri_repeat {A} k (m : M St A) (Q : A -> Prop) c : tri k m Q ->
    tri (k * N.of_nat c) (repeatM m c) (fun vs => Forall Q vs /\ length vs = c).
  Proof.
    intros Hm. induction c as [|c IH]; cbn [repeatM].
    - rewrite N.mul_0_r. apply tri_ret. auto.
    - eapply tri_bind' with (k2 := k * N.of_nat c); [exact Hm| |lia]. intros v Hv.
      eapply tri_then; [exact IH|]. intros vs [Hvs Hl]. apply tri_ret. cbn [length]. split; [constructor; auto|lia].
  Qed.
End Tri.

(** The laws of a reader, for an input of at most [L] bytes; [vec_ok size min n]:
    there is room for a vector of [n] elements. *)
Record safe_reader {St} (h : host) (R : reader St) (inv : St -> N -> Prop) (allow : fault -> Prop)
    (L : N) (vec_ok : N -> N -> N -> Prop) : Prop := {
  sf_small : forall s n, inv s n -> n <= L;
  sf_limit : L <= l_usize_max (h_lim h);
  sf_read : forall n, tri inv allow n (rd_read R n) (fun b => nlen b = n);
  sf_read_ptr : forall n, tri inv allow n (rd_read_ptr R n) (fun b => nlen b = n);
  sf_peek : forall n, n <= 16 -> tri inv allow 0 (rd_peek R n) (fun b => nlen b = n);
  sf_peek_ptr : forall n, n <= 16 -> tri inv allow 0 (rd_peek_ptr R n) (fun b => nlen b = n);
  sf_borrow : forall b, rd_borrow R = Some b -> forall n,
    tri inv allow n (b n) (fun p => nlen (snd p) = n /\ n <= L);
  sf_borrow_r : forall b, rd_borrow_r R = Some b -> forall n, tri inv allow n (b n) (fun bs => nlen bs = n);
  sf_borrow_eof : forall b, rd_borrow_eof R = Some b -> tri inv allow 0 b (fun p => nlen (snd p) <= L);
  sf_lent : rd_borrow R <> None \/ rd_borrow_eof R <> None -> L <= h_alloc_max h;
  sf_fuel : forall s n, inv s n -> rd_fuel R s = S (N.to_nat n);
  (** room for a vector, after the check that the input is long enough *)
  sf_vec : forall n size min, allow PanicCapacity \/ vec_ok size min n \/ n * size <= h_alloc_max h ->
    tri inv allow 0 ((if usize_max h <? min * n then fail UnexpectedEndOfInput else require R (min * n)) ;;;
                     alloc h R n size min) (fun _ => n * size <= h_alloc_max h);
  (** room for a copy of a borrowed slice *)
  sf_copy : forall b, rd_borrow R = Some b -> forall n size,
    tri inv allow (n * size) (p <- b (n * size) ;; alloc h R n size size ;;; ret p)
        (fun p => nlen (snd p) = n * size)
}.

(* ------------------------------------------------------------------ *)
(** * Types that cause no other fault *)

(** A memory image of [t] is a value of [t]: numbers, and structs of numbers. *)
Fixpoint numeric (t : ty) : Prop :=
  match t with
  | TScalar (SPrim _) => True
  | TStruct _ fs => all_fields (fun _ t' => numeric t') fs
  | _ => False
  end.

(** ... with `speedy_is_primitive` true all the way down. *)
Fixpoint image (h : host) (t : ty) : Prop :=
  match t with
  | TScalar (SPrim _) => True
  | TStruct _ fs => is_prim h t = true /\ all_fields (fun _ t' => image h t') fs
  | _ => False
  end.

(** No `unsafe_is_primitive` anywhere. *)
Fixpoint unforced (t : ty) : Prop :=
  match t with
  | TStruct d fs => sd_forced d = false /\ all_fields (fun _ t' => unforced t') fs
  | _ => True
  end.

(** The types for which `minimum_bytes_needed` is a lower bound: variants of an
    enum with `peek_tag` have to consume the tag, and plain data must not take
    less room in memory than its fields announce. *)
Fixpoint least (h : host) (t : ty) : Prop :=
  match t with
  | TArr t' _ => (is_prim h t' = true -> min_bytes h t' <= h_size h t') /\ least h t'
  | TRange _ t' | TBox t' => least h t'
  | TTuple ts => all_tys (least h) ts
  | TStruct _ fs => all_fields (field_minok (least h)) fs
  | TEnum d vs =>
    if e_peek d then
      all_variants (fun fs => all_fields (field_minok (least h)) fs
        /\ basic_size (e_tag d) <= nsum (map (field_min (min_bytes h)) fs)) vs
    else True
  | _ => True
  end.

Section Calm.
  (** [allow f]: the fault [f] is tolerated.  With all of them tolerated, what
      remains is that the type is meaningful: defaults are values, lengths are
      numbers of type usize, `varint` is put on a `u64`, constants and what is
      read to the end of the input fit into memory. *)
  Context (h : host) (e : endian) (allow : fault -> Prop) (L : N) (vec_ok : N -> N -> N -> Prop).
  Notation umax := (l_usize_max (h_lim h)).
  Notation min := (min_bytes h).
  Notation size := (h_size h).
  Notation amax := (h_alloc_max h).

  (** Lengths computed from earlier fields are of type usize; the computation
      does not panic. *)
  Definition len_ok (lm : lenmode) : Prop :=
    match lm with
    | LExpr f => (forall prev n, f prev = Some n -> n <= umax)
                 /\ (allow PanicOverflow \/ forall prev, f prev <> None)
    | _ => True
    end.

  (** There is room for as many elements as the input may announce. *)
  Definition counted (lm : lenmode) (t : ty) : Prop :=
    allow PanicCapacity \/ forall n, possible_length h lm n -> vec_ok (size t) (min t) n.

  (** Reading until the end of the input ends. *)
  Definition finishes (t : ty) : Prop := allow Diverges \/ (least h t /\ 0 < min t).

  (** What is read until the end of the input fits into memory. *)
  Definition roomy (t : ty) : Prop :=
    (forall n, n <= L -> n * size t <= amax)
    \/ (least h t /\ forall n, n <= L -> n * min t <= L -> n * size t <= amax).

  (** Plain data can be converted to the byte order of the host. *)
  Definition converts (t : ty) : Prop :=
    is_prim h t = true ->
    image h t /\ (allow PanicExplicit \/ (conversion_necessary (h_native h) e = true -> convertible t)).

  (** Elements of vectors: those without size are not read at all. *)
  Definition elem_ok (t : ty) : Prop :=
    converts t /\ (is_prim h t = false -> size t <> 0 \/ valid (h_lim h) t (zst_val t)).

  (** Elements of `Cow` slices, which may be borrowed. *)
  Definition cow_ok (lm : lenmode) (t : ty) : Prop :=
    is_prim h t = true ->
    (allow PanicDivZero \/ size t <> 0)
    /\ (fits h lm (size t) \/ (allow PanicOverflow /\ allow PanicCapacity)).

  (** Elements of borrowed slices. *)
  Definition view_ok (t : ty) : Prop := numeric t /\ (allow UbMisaligned \/ h_align h t = 1).

  (** Elements of sets, entries of maps. *)
  Definition set_elem (k : colkind) (t : ty) : Prop :=
    is_prim h t = true -> numeric t /\ (k = CBTree \/ allow PanicDivZero \/ size t <> 0).
  Definition map_elem (k : colkind) (tk tv : ty) : Prop :=
    k = CIndex
    \/ (is_prim h tk = true -> is_prim h tv = true ->
        numeric tk /\ numeric tv /\ (k = CBTree \/ allow PanicDivZero \/ size (pair_ty tk tv) <> 0)).

  Definition calm_field (calm : lenmode -> ty -> Prop) (a : fattrs) (t : ty) : Prop :=
    (f_skip a || f_eof a = true -> valid (h_lim h) t (f_default a))
    /\ (f_skip a = true
        \/ (f_varint a = true -> t = TP U64)
           /\ nlen (f_prefix a) <= amax
           /\ calm (if sized_field a t then f_len a else LDefault) t).

  Fixpoint calm (lm : lenmode) (t : ty) {struct t} : Prop :=
    match t with
    | TScalar (SDuration | SSystemTime | SDateTime) => allow PanicExplicit
    | TScalar _ => True
    | TStr k =>
      len_ok lm
      /\ match k with
         | KRefStr => True
         | _ => counted lm (TP U8) /\ (lm = LEof -> L <= amax)
         end
      /\ match k with
         | KCowStr | KRegex => fits h lm 1 \/ (allow PanicOverflow /\ allow PanicCapacity)
         | _ => True
         end
    | TSeq k t' =>
      len_ok lm
      /\ match k with
         | KRef => view_ok t' /\ (lm = LEof -> allow PanicDivZero \/ size t' <> 0)
         | _ => elem_ok t' /\ (k = KCow -> cow_ok lm t') /\ counted lm t'
                /\ (lm = LEof -> finishes t' /\ roomy t') /\ calm LDefault t'
         end
    | TArr t' _ => converts t' /\ calm LDefault t'
    | TRange _ t' | TBox t' => calm LDefault t'
    | TRefArr t' _ => view_ok t'
    | TOption t' => calm lm t'
    | TResult t1 t2 => calm LDefault t1 /\ calm LDefault t2
    | TTuple ts => all_tys (calm LDefault) ts
    | TSet k t' => len_ok lm /\ set_elem k t' /\ (lm = LEof -> finishes t') /\ calm LDefault t'
    | TMap k tk tv =>
      len_ok lm /\ map_elem k tk tv /\ (lm = LEof -> finishes tk \/ finishes tv) /\ calm LDefault tk /\ calm LDefault tv
    | TStruct _ fs => all_fields (calm_field calm) fs
    | TEnum _ vs => all_variants (all_fields (calm_field calm)) vs
    | TBot => allow IllTyped
    end.
End Calm.

Section Safe.
  Context {St : Type} (h : host) (VH : valid_host h) (R : reader St).
  Context (inv : St -> N -> Prop) (allow : fault -> Prop) (L : N) (vec_ok : N -> N -> N -> Prop).
  Context (SF : safe_reader h R inv allow L vec_ok).
  Notation lim := (h_lim h).
  Notation e := (rd_endian R).
  Notation umax := (l_usize_max (h_lim h)).
  Notation tri := (tri inv allow).
  Notation valid := (valid lim).
  Notation min := (min_bytes h).
  Notation size := (h_size h).
  Notation amax := (h_alloc_max h).
  Notation counted := (counted h allow vec_ok).
  Notation calm := (calm h e allow L vec_ok).

  (* ---------------------------------------------------------------- *)
  (** ** Numbers *)

  Lemma tri_require k {A} n (m : M St A) Q : tri k m Q -> tri k (require R n ;;; m) Q.
  Proof.
    intros Hm. eapply tri_after with (Q1 := fun _ => True); [|intros _ _; exact Hm].
    intros s m' Hs. unfold require. destruct (rd_can R n s) as [[]|]; try (split; [exact I|]); try intros _;
      exists m'; (split; [exact Hs|lia]).
  Qed.

  Lemma byte_lt b : nlen b = 1 -> le_num b < 256.
  Proof. intros H. pose proof (le_num_lt b) as Hl. rewrite H in Hl. exact Hl. Qed.

  Lemma uint_lt w b : nlen b = N.of_nat w ->
    swap_if (h_native h) e w (of_ne (h_native h) b) < 256 ^ N.of_nat w.
  Proof.
    intros Hb. rewrite swap_of_ne by (unfold nlen in Hb; lia). rewrite <- Hb. apply unword_lt.
  Qed.

  Lemma tri_u8 : tri 1 (read_u8 R) (fun n => n < 256).
  Proof.
    apply tri_require. eapply tri_then; [apply SF|]. intros b Hb. apply tri_ret, byte_lt, Hb.
  Qed.
  Lemma tri_peek_u8 : tri 0 (peek_u8 R) (fun n => n < 256).
  Proof.
    apply tri_require. eapply tri_then; [apply SF; discriminate|]. intros b Hb. apply tri_ret, byte_lt, Hb.
  Qed.
  Lemma tri_uint w : tri (N.of_nat w) (read_uint h R w) (fun n => n < 256 ^ N.of_nat w).
  Proof.
    apply tri_require. eapply tri_then; [apply SF|]. intros b Hb. apply tri_ret, uint_lt, Hb.
  Qed.
  Lemma tri_peek_uint w : (w <= 16)%nat -> tri 0 (peek_uint h R w) (fun n => n < 256 ^ N.of_nat w).
  Proof.
    intros Hw. apply tri_require. eapply tri_then; [apply SF; lia|]. intros b Hb. apply tri_ret, uint_lt, Hb.
  Qed.

  Lemma tri_prim p : tri (N.of_nat (psize p)) (read_prim h R p) (fun z => prim_ok p z = true).
  Proof.
    unfold read_prim.
    eapply tri_then with (Q1 := fun n => n < pmod p); [|intros n Hn; apply tri_ret, of_bits_ok, Hn].
    rewrite pmod_pow. destruct p; first [apply tri_u8 | apply tri_uint].
  Qed.

  Lemma vi_lt b tail : b < 256 -> nlen tail = vi_length b ->
    N.lor (vi_upper b) (vi_value (h_native h) tail) < 2 ^ 64.
  Proof.
    intros Hb Ht. rewrite vi_length_ones in Ht by assumption.
    rewrite vi_number by (try assumption; unfold nlen in Ht; lia).
    pose proof (le_num_lt tail) as Hl. rewrite Ht, <- pow2_256 in Hl.
    pose proof (vi_ones_le b) as Hk. clear Ht. set (k := vi_ones b) in *.
    assert (Hq : b mod 2 ^ (7 - N.of_nat k) < 2 ^ (7 - N.of_nat k)) by (apply N.mod_lt, N.pow_nonzero; discriminate).
    set (q := b mod 2 ^ (7 - N.of_nat k)) in *. clearbody q k.
    assert (Hc : (k = 0 \/ k = 1 \/ k = 2 \/ k = 3 \/ k = 4 \/ k = 5 \/ k = 6 \/ k = 7 \/ k = 8)%nat) by lia.
    destruct Hc as [->|[->|[->|[->|[->|[->|[->|[->| ->]]]]]]]];
      repeat match goal with
             | H : context [2 ^ ?x] |- _ => let y := eval vm_compute in (2 ^ x) in change (2 ^ x) with y in H
             | |- context [2 ^ ?x] => let y := eval vm_compute in (2 ^ x) in change (2 ^ x) with y
             end; lia.
  Qed.

  Lemma tri_varint : tri 1 (read_varint h R) (fun n => n < 2 ^ 64).
  Proof.
    unfold read_varint, vi_impl. eapply tri_then; [apply tri_u8|]. intros b Hb. cbn beta in Hb.
    eapply tri_le; [|apply N.le_0_l]. eapply tri_then; [apply SF|].
    intros tail Ht. apply tri_ret, vi_lt; assumption.
  Qed.

  Lemma tri_peek_varint : tri 0 (peek_varint h R) (fun n => n < 2 ^ 64).
  Proof.
    unfold peek_varint, vi_impl. eapply tri_then; [apply tri_peek_u8|]. intros b Hb. cbn beta in Hb.
    eapply tri_then; [apply SF|].
    - rewrite vi_length_ones by assumption. pose proof (vi_ones_le b). lia.
    - intros tail Ht. apply tri_ret, vi_lt; assumption.
  Qed.

  Lemma usize_lo' : 2 ^ 32 - 1 <= umax.
  Proof. apply (vh_usize_lo h VH). Qed.

  Lemma tri_length b : tri (basic_size b) (read_length h R b) (fun n => possible_length h (LType b) n).
  Proof.
    pose proof usize_lo' as Hus. revert Hus. num_pow. intros Hus.
    destruct b; cbn [read_length basic_size]; unfold possible_length, basic_max.
    - eapply tri_then; [apply tri_u8|]. intros n Hn. destruct (N.ltb_spec 127 n); [apply tri_fail|].
      apply tri_ret. num_pow. lia.
    - eapply tri_post; [apply tri_u8|]. cbn beta. intros n Hn. num_pow. lia.
    - eapply tri_post; [apply (tri_uint 2)|]. cbn beta. intros n. num_pow. lia.
    - eapply tri_post; [apply (tri_uint 4)|]. cbn beta. intros n. num_pow. lia.
    - eapply tri_then; [apply (tri_uint 8)|]. cbn beta. intros n. unfold usize_max.
      destruct (N.ltb_spec umax n); [intros _; apply tri_fail|]. num_pow. intros Hn. apply tri_ret. num_pow. lia.
    - eapply tri_then; [apply tri_varint|]. cbn beta. intros n. unfold usize_max.
      destruct (N.ltb_spec umax n); [intros _; apply tri_fail|]. num_pow. intros Hn. apply tri_ret. num_pow. lia.
  Qed.

  (* ---------------------------------------------------------------- *)
  (** ** Plain data *)

  Lemma image_numeric t : image h t -> numeric t.
  Proof.
    induction t as [s| | | | | | | | | | | |d fs IH| |] using ty_ind'; cbn [image numeric]; auto.
    intros [_ Hf]. apply all_fields_forall in Hf. apply all_fields_forall.
    rewrite Forall_forall in *. intros f Hin. apply IH; [exact Hin|]. apply (Hf f Hin).
  Qed.

  Lemma unforced_image t : unforced t -> is_prim h t = true -> image h t.
  Proof.
    induction t as [s| | | | | | | | | | | |d fs IH| |] using ty_ind'; intros Hu Hp; try (cbn in Hp; discriminate).
    - destruct s; try discriminate. exact I.
    - cbn [image]. split; [exact Hp|]. destruct Hu as [Hd Hu].
      assert (Hf : forallb (fun f => is_prim h (snd f)) fs = true).
      { cbn [is_prim] in Hp. destruct (is_transparent d fs); [exact Hp|]. destruct (potentially_primitive d fs); [|discriminate].
        destruct fs as [|f fs]; [reflexivity|]. rewrite Hd in Hp. cbn [orb] in Hp.
        apply andb_prop in Hp as [Hp _]. apply andb_prop in Hp as [Hp _]. exact Hp. }
      rewrite forallb_forall in Hf. apply all_fields_forall in Hu. apply all_fields_forall.
      rewrite Forall_forall in *. intros f Hin. apply IH; [exact Hin|apply (Hu f Hin)|apply (Hf f Hin)].
  Qed.

  Lemma number_valid p n : n < 256 ^ N.of_nat (psize p) -> valid (TScalar (SPrim p)) (VInt (of_bits p n)).
  Proof. intros H. cbn. apply of_bits_ok. rewrite pmod_pow. exact H. Qed.

  (** Every memory image is a value. *)
  Lemma numeric_ok t bs : numeric t -> mem_ok h t bs = true.
  Proof.
    revert bs. induction t as [s| | | | | | | | | | | |d fs IH| |] using ty_ind';
      cbn [numeric mem_ok]; intros bs Hp; try contradiction; [destruct s; try contradiction; reflexivity|].
    generalize fs at 1 as all. generalize 0%nat as i.
    induction IH as [|f r IHf IH IHl]; intros i all; [reflexivity|]. destruct Hp as [Hpf Hp].
    rewrite IHf by exact Hpf. apply IHl, Hp.
  Qed.
  Lemma numeric_all_ok t l : numeric t -> forallb (mem_ok h t) l = true.
  Proof. intros Hp. apply forallb_forall. intros bs _. apply numeric_ok, Hp. Qed.

  (** A memory image of the right size is a value. *)
  Lemma mem_read_valid t bs : numeric t -> nlen bs = size t -> valid t (mem_read h t bs).
  Proof.
    revert bs. induction t as [s| | | | | | | | | | | |d fs IH| |] using ty_ind';
      cbn [numeric]; intros bs Hp Hl; try contradiction.
    - destruct s; try contradiction. cbn [mem_read]. apply number_valid. rewrite of_ne_word.
      pose proof (vh_prim h VH p) as Hs. unfold TP in Hs. rewrite Hs in Hl. rewrite <- Hl. apply unword_lt.
    - cbn [mem_read Spec.valid].
      assert (Hoff : forall j f, nth_error fs j = Some f -> h_offset h d fs (0 + j) + size (snd f) <= nlen bs).
      { intros j f Hj. rewrite Hl. apply (vh_inside h VH), Hj. }
      clear Hl. revert Hoff. generalize 0%nat as i. generalize fs at 2 4 as all. intros all i.
      revert i. induction fs as [|f r IHl]; intros i Hoff; [exact I|].
      destruct Hp as [Hpf Hp]. inversion IH as [|? ? IHf IHr]; subst. cbn [valid_fields]. split.
      + apply IHf; [exact Hpf|]. specialize (Hoff 0%nat f eq_refl). rewrite Nat.add_0_r in Hoff.
        unfold slice. rewrite nlen_take, nlen_drop. lia.
      + apply IHl; auto. intros j g Hj. specialize (Hoff (S j) g Hj).
        replace (S i + j)%nat with (i + S j)%nat by lia. exact Hoff.
  Qed.

  Lemma flip_valid t v : image h t -> valid t v ->
    match flip h t v with
    | Ok v' => valid t v'
    | Err _ => False
    | Fault f => f = PanicExplicit /\ ~ flips t
    end.
  Proof.
    revert v. induction t as [s| | | | | | | | | | | |d fs IH| |] using ty_ind';
      cbn [image]; intros v Hp Hv; try contradiction.
    - destruct s; try contradiction. destruct v; try contradiction. cbn [flip]. apply number_valid, swap_bytes_lt.
    - destruct Hp as [Hpr Hf]. destruct v as [| | | |vs| | | | |]; try contradiction. cbn [flip].
      destruct (is_transparent d fs) eqn:Et; [split; [reflexivity|intros [C _]; congruence]|].
      assert (Epp : potentially_primitive d fs = true).
      { cbn [is_prim] in Hpr. rewrite Et in Hpr. destruct (potentially_primitive d fs); [reflexivity|discriminate]. }
      rewrite Epp. clear Epp Hpr. cbn [Spec.valid] in Hv.
      set (go := fix go (l : fields) (us : list val) : res (list val) :=
        match l, us with
        | [], [] => Ok []
        | f :: r, u :: ur => rbind (flip h (snd f) u) (fun u' => rmap (cons u') (go r ur))
        | _, _ => Fault IllTyped
        end).
      assert (H : match go fs vs with
                  | Ok vs' => valid_fields valid fs vs'
                  | Err _ => False
                  | Fault f => f = PanicExplicit /\ ~ all_fields (fun _ t' => flips t') fs
                  end).
      { clear Et. revert vs Hv. induction fs as [|f r IHl]; intros vs Hv.
        - destruct vs; [exact I|contradiction].
        - destruct vs as [|u ur]; [contradiction|]. destruct Hv as [Hu Hur]. destruct Hf as [Hff Hfr].
          inversion IH as [|? ? IHf IHr]; subst. specialize (IHf u Hff Hu). specialize (IHl IHr Hfr ur Hur).
          cbn [go]. fold go. destruct (flip h (snd f) u) as [u'| |x]; cbn [rbind].
          + destruct (go r ur) as [us'| |x]; cbn [rmap].
            * cbn [valid_fields]. auto.
            * contradiction.
            * destruct IHl as [-> Hn]. split; [reflexivity|]. cbn [all_fields]. tauto.
          + contradiction.
          + destruct IHf as [-> Hn]. split; [reflexivity|]. cbn [all_fields]. tauto. }
      destruct (go fs vs) as [vs'| |x]; cbn [rmap]; [exact H|exact H|].
      destruct H as [-> Hn]. split; [reflexivity|]. cbn [flips]. tauto.
  Qed.

  Lemma conv_valid t v : image h t -> valid t v ->
    allow PanicExplicit \/ (conversion_necessary (h_native h) e = true -> convertible t) ->
    match conv h e t v with Ok v' => valid t v' | Err _ => True | Fault f => allow f end.
  Proof.
    revert v. induction t as [s| | | | | | | | | | | |d fs IH| |] using ty_ind';
      cbn [image]; intros v Hp Hv Hc; try contradiction.
    - destruct s; try contradiction. destruct v; try contradiction. cbn [conv].
      destruct (conversion_necessary _ _); [apply number_valid, swap_bytes_lt|exact Hv].
    - pose proof Hp as [Hpr Hf]. pose proof Hv as Hv0. destruct v as [| | | |vs| | | | |]; try contradiction. cbn [conv].
      destruct (is_transparent d fs) eqn:Et.
      + assert (Hx : exists f, fs = [f]) by (unfold is_transparent in Et; destruct (sd_repr d), fs as [|? []]; try discriminate; eauto).
        destruct Hx as [f ->]. cbn [Spec.valid valid_fields] in Hv. destruct vs as [|u [|]]; try (destruct Hv; contradiction); try contradiction.
        destruct Hv as [Hu _]. destruct Hf as [Hff _]. inversion IH as [|? ? IHf _]; subst.
        specialize (IHf u Hff Hu). cbn [convertible] in Hc. rewrite Et in Hc.
        assert (Hc' : allow PanicExplicit \/ (conversion_necessary (h_native h) e = true -> convertible (snd f))).
        { destruct Hc as [Hc|Hc]; [left; exact Hc|right]. intros E. destruct (Hc E) as [H _]. exact H. }
        specialize (IHf Hc'). destruct (conv h e (snd f) u); cbn [rmap]; [|exact I|exact IHf].
        cbn [Spec.valid valid_fields]. auto.
      + assert (Epp : potentially_primitive d fs = true).
        { cbn [is_prim] in Hpr. rewrite Et in Hpr. destruct (potentially_primitive d fs); [reflexivity|discriminate]. }
        rewrite Epp. destruct (conversion_necessary (h_native h) e) eqn:En; [|exact Hv0].
        pose proof (flip_valid (TStruct d fs) (VSeq vs) Hp Hv0) as H.
        destruct (flip h (TStruct d fs) (VSeq vs)) as [v'| |x]; [exact H|contradiction|].
        destruct H as [-> Hn]. destruct Hc as [Hc|Hc]; [exact Hc|]. exfalso. apply Hn.
        specialize (Hc eq_refl). cbn [convertible] in Hc. rewrite Et in Hc. cbn [flips]. auto.
  Qed.

  Lemma raw_valid t n bs : numeric t -> nlen bs = N.of_nat n * size t ->
    Forall (valid t) (map (mem_read h t) (chunks (N.to_nat (size t)) n bs)).
  Proof.
    intros Hp Hl. apply Forall_map. eapply Forall_impl; [|apply chunks_Forall; lia].
    cbn beta. intros c Hc. apply mem_read_valid; [assumption|]. unfold nlen. lia.
  Qed.

  Lemma conv_list t vs : image h t -> Forall (valid t) vs ->
    allow PanicExplicit \/ (conversion_necessary (h_native h) e = true -> convertible t) ->
    match rmapM (conv h e t) vs with
    | Ok us => Forall (valid t) us /\ length us = length vs
    | Err _ => True
    | Fault f => allow f
    end.
  Proof.
    intros Hi Hv Hc. induction Hv as [|v r Hv Hr IH]; cbn [rmapM]; [auto|].
    pose proof (conv_valid t v Hi Hv Hc) as H. destruct (conv h e t v); cbn [rbind]; [|exact I|exact H].
    destruct (rmapM (conv h e t) r); cbn [rmap rbind]; [|exact I|exact IH]. cbn [length]. destruct IH. auto.
  Qed.

  Lemma slice_count_image t n : image h t ->
    slice_count h t n = if size t =? 0 then Fault PanicDivZero else Ok (n / size t).
  Proof.
    induction t as [s| | | | | | | | | | | |d fs IH| |] using ty_ind'; cbn [image]; intros Hp; try contradiction.
    - destruct s; try contradiction. cbn [slice_count].
      pose proof (vh_prim h VH p) as Hs. unfold TP in Hs. rewrite Hs. destruct p; reflexivity.
    - destruct Hp as [Hpr Hf]. cbn [slice_count]. destruct (is_transparent d fs) eqn:Et.
      + assert (Hx : exists f, fs = [f] /\ sd_repr d = RTransparent)
          by (unfold is_transparent in Et; destruct (sd_repr d), fs as [|? []]; try discriminate; eauto).
        destruct Hx as (f & -> & Er). destruct (vh_transparent h VH d f Er) as [Es _]. rewrite Es.
        inversion IH as [|? ? IHf _]; subst. apply IHf, Hf.
      + assert (Epp : potentially_primitive d fs = true).
        { cbn [is_prim] in Hpr. rewrite Et in Hpr. destruct (potentially_primitive d fs); [reflexivity|discriminate]. }
        rewrite Epp. reflexivity.
  Qed.

  Lemma nlen_map {A B} (f : A -> B) l : nlen (map f l) = nlen l.
  Proof. unfold nlen. rewrite map_length. reflexivity. Qed.

  Lemma nlen_chunks sz n bs : nlen (chunks sz (N.to_nat n) bs) = n.
  Proof. unfold nlen. rewrite chunks_length. lia. Qed.

  (* ---------------------------------------------------------------- *)
  (** ** Vectors and slices *)

  Lemma u64_of_n n : n < 2 ^ 64 -> prim_ok U64 (Z.of_N n) = true.
  Proof.
    intros H. unfold prim_ok. cbn [psigned]. change (pmod U64) with (2 ^ 64).
    destruct (Z.leb_spec 0 (Z.of_N n)); [|lia]. destruct (Z.ltb_spec (Z.of_N n) (Z.of_N (2 ^ 64))); [reflexivity|lia].
  Qed.

  (** What a counted list has to be. *)
  Definition list_ok (t : ty) (vs : list val) : Prop :=
    Forall (valid t) vs /\ nlen vs <= umax /\ nlen vs * size t <= amax.

  Lemma tri_vec t rd n : elem_ok h e allow t -> (is_prim h t = false -> tri 0 rd (valid t)) -> n <= umax ->
    allow PanicCapacity \/ vec_ok (size t) (min t) n \/ n * size t <= amax ->
    tri (if is_prim h t then n * size t else 0) (read_vec h R t rd n) (fun vs => list_ok t vs /\ nlen vs = n).
  Proof.
    intros [Hcv Hz] Hrd Hn Hroom. unfold read_vec.
    apply tri_assoc.
    eapply tri_after; [apply SF; exact Hroom|]. cbn beta. intros _ Hfit.
    destruct (is_prim h t) eqn:Ep.
    - destruct (Hcv Ep) as [Hi Hc].
      assert (Ecap : h_capacity h n (size t) * size t = n * size t).
      { destruct (N.eq_dec (size t) 0) as [->|Hz']; [lia|]. rewrite (vh_capacity h VH) by assumption. lia. }
      rewrite Ecap. eapply tri_then; [apply SF|]. intros bs Hb.
      assert (Hraw : Forall (valid t) (map (mem_read h t) (chunks (N.to_nat (size t)) (N.to_nat n) bs)))
        by (apply raw_valid; [apply image_numeric, Hi|rewrite N2Nat.id; exact Hb]).
      apply tri_lift. pose proof (conv_list t _ Hi Hraw Hc) as H.
      destruct (rmapM (conv h e t) _) as [us| |]; [|exact I|exact H].
      destruct H as [Hu Hl]. rewrite map_length, chunks_length in Hl.
      assert (nlen us = n) by (unfold nlen; lia). subst n. repeat split; auto.
    - destruct (N.eqb_spec (size t) 0) as [E|E].
      + destruct (Hz eq_refl) as [C|Hv]; [contradiction|]. apply tri_ret.
        assert (Hl : nlen (repeat (zst_val t) (N.to_nat n)) = n) by (unfold nlen; rewrite repeat_length; lia).
        split; [|exact Hl]. unfold list_ok. rewrite Hl. split; [|auto].
        apply Forall_forall. intros v Hv'. apply repeat_spec in Hv'. subst. exact Hv.
      + eapply tri_weaken; [apply tri_repeat, Hrd; reflexivity|lia|].
        intros vs [Hv Hl]. assert (nlen vs = n) by (unfold nlen; lia). subst n. repeat split; auto.
  Qed.

  Lemma chunks_prefix sz n (bs : bytes) : (n * sz <= length bs)%nat -> chunks sz n bs = chunks sz n (firstn (n * sz) bs).
  Proof.
    revert bs. induction n as [|n IH]; intros l Hl; [reflexivity|]. cbn [chunks Nat.mul].
    rewrite firstn_firstn, Nat.min_l by lia. f_equal.
    rewrite IH by (rewrite skipn_length; lia). rewrite skipn_firstn_comm.
    replace (sz + n * sz - sz)%nat with (n * sz)%nat by lia. reflexivity.
  Qed.

  (** As many elements as there are in some bytes. *)
  Lemma raw_list t bs : numeric t -> size t <> 0 -> nlen bs <= amax ->
    list_ok t (map (mem_read h t) (chunks (N.to_nat (size t)) (N.to_nat (nlen bs / size t)) bs)).
  Proof.
    intros Hi Hz Hl. pose proof (vh_alloc h VH) as Hau. set (q := nlen bs / size t).
    assert (Hle : q * size t <= nlen bs) by (rewrite N.mul_comm; apply N.mul_div_le; assumption).
    assert (Hq : q <= nlen bs) by nia. unfold list_ok. rewrite nlen_map, nlen_chunks. split; [|split; lia].
    rewrite chunks_prefix by (unfold nlen in Hle; lia).
    apply raw_valid; [exact Hi|]. unfold nlen in *. rewrite firstn_length. lia.
  Qed.

  Lemma tri_cow lm t rd n : elem_ok h e allow t -> cow_ok h allow lm t -> possible_length h lm n -> n <= umax ->
    (is_prim h t = false -> tri 0 rd (valid t)) ->
    allow PanicCapacity \/ vec_ok (size t) (min t) n \/ n * size t <= amax ->
    tri 0 (read_cow h R t rd n) (list_ok t).
  Proof.
    intros He Hcow Hn Hnu Hrd Hroom. pose proof (vh_alloc h VH) as Hau. unfold read_cow.
    destruct (if is_prim h t && no_conv h R t then rd_borrow R else None)%bool as [b|] eqn:Eb;
      [|eapply tri_weaken; [apply tri_vec; assumption|lia|cbn beta; tauto]].
    destruct (is_prim h t && no_conv h R t)%bool eqn:E2; [|discriminate].
    apply andb_prop in E2 as [Ep Enc]. destruct He as [Hcv _].
    destruct (Hcv Ep) as [Hi _]. destruct (Hcow Ep) as [Hz Hfit].
    assert (Hal : L <= amax) by (apply SF; left; congruence).
    unfold usize_max.
    destruct (N.ltb_spec umax (n * size t)) as [Hov|Hov].
    { (* the product overflows *)
      assert (Hall : allow PanicOverflow /\ allow PanicCapacity).
      { destruct Hfit as [Hfit|Hfit]; [specialize (Hfit n Hn); lia|exact Hfit]. }
      cbn [andb]. destruct (h_overflow_checks h); [apply tri_crash, Hall|].
      eapply tri_after with (Q1 := fun _ => True); [apply tri_ret; exact I|]. intros _ _.
      eapply tri_le; [eapply tri_then; [apply SF, Eb|]|apply N.le_0_l].
      cbn beta. intros [addr bs] [Hb HL]. cbn [snd] in Hb.
      destruct ((h_align h t =? 1) || (addr mod h_align h t =? 0))%bool.
      - rewrite (slice_count_image t _ Hi). destruct (N.eqb_spec (size t) 0) as [Ez|Ez].
        + destruct Hz as [Hz|Hz]; [|contradiction]. eapply (tri_crash inv allow PanicDivZero). exact Hz.
        + apply (tri_ret inv allow). apply raw_list; [apply image_numeric, Hi|assumption|lia].
      - unfold alloc. destruct (N.ltb_spec amax (n * size t)); [|lia].
        apply (tri_crash inv allow PanicCapacity), Hall. }
    cbn [andb]. rewrite N.mod_small by lia.
    intros s m Hs. pose proof (sf_borrow _ _ _ _ _ _ SF b Eb (n * size t) s m Hs) as H1.
    pose proof (sf_copy _ _ _ _ _ _ SF b Eb n (size t) s m Hs) as H2.
    unfold bind, ret in *. destruct (b (n * size t) s) as [[[addr bs]|er|f] s1]; [|exact H1|exact H1].
    destruct H1 as [[Hb HL] (m1 & Hm1 & Hle)]. cbn [snd] in Hb.
    destruct ((h_align h t =? 1) || (addr mod h_align h t =? 0))%bool.
    - rewrite (slice_count_image t _ Hi). destruct (N.eqb_spec (size t) 0) as [Ez|Ez].
      + destruct Hz as [Hz|Hz]; [exact Hz|contradiction].
      + cbn [lift]. split; [apply raw_list; [apply image_numeric, Hi|assumption|lia]|]. exists m1. split; [assumption|lia].
    - destruct (alloc h R n (size t) (size t) s1) as [[[]|er|f] s2].
      + destruct H2 as [_ (m2 & Hm2 & Hle2)]. split; [|exists m2; split; [assumption|lia]].
        unfold list_ok. rewrite nlen_map, nlen_chunks. split; [|split; lia].
        apply raw_valid; [apply image_numeric, Hi|rewrite N2Nat.id; exact Hb].
      + exact H2.
      + exact H2.
  Qed.

  Lemma tri_borrowed n : tri n (borrowed R n) (fun p => nlen (snd p) = n /\ n <= amax).
  Proof.
    unfold borrowed. destruct (rd_borrow R) as [b|] eqn:E; [|apply tri_fail].
    assert (Hal : L <= amax) by (apply SF; left; congruence).
    eapply tri_post; [apply SF, E|]. cbn beta. intros p [H1 H2]. split; [assumption|lia].
  Qed.

  Lemma tri_borrowed_eof : tri 0 (match rd_borrow_eof R with Some b => b | None => fail Unsized end)
    (fun p => nlen (snd p) <= amax).
  Proof.
    destruct (rd_borrow_eof R) as [b|] eqn:E; [|apply tri_fail].
    assert (Hal : L <= amax) by (apply SF; right; congruence).
    eapply tri_post; [apply SF, E|]. cbn beta. intros p H. lia.
  Qed.

  Lemma tri_cast t n b (Q : val -> Prop) : allow UbMisaligned \/ h_align h t = 1 -> numeric t ->
    Q (VSeq (map (mem_read h t) (chunks (N.to_nat (size t)) (N.to_nat n) (snd b)))) -> tri 0 (cast_slice h t n b) Q.
  Proof.
    intros Ha Hi HQ. unfold cast_slice. rewrite numeric_all_ok by exact Hi.
    destruct (N.eqb_spec (fst b mod h_align h t) 0) as [E|E]; [apply tri_ret, HQ|].
    destruct Ha as [Ha|Ha]; [apply tri_crash, Ha|]. exfalso. apply E. rewrite Ha. apply N.mod_1_r.
  Qed.

  Lemma tri_guard k {A} t (m : M St A) Q : tri k m Q -> tri k (endianness_guard h R t ;;; m) Q.
  Proof.
    intros Hm. eapply tri_after with (Q1 := fun _ => True); [|intros _ _; exact Hm].
    unfold endianness_guard. destruct (_ && _)%bool; [apply tri_fail|apply tri_ret; exact I].
  Qed.

  Lemma tri_ref_slice t n : view_ok h allow t -> n <= umax ->
    tri 0 (read_ref_slice h R t n) (fun v => exists vs, v = VSeq vs /\ list_ok t vs).
  Proof.
    intros [Hi Ha] Hn. unfold read_ref_slice. destruct (_ <? _); [apply tri_fail|].
    eapply tri_le; [eapply tri_then; [apply tri_borrowed|]|apply N.le_0_l].
    cbn beta. intros p [H1 H2]. apply tri_cast; [exact Ha|exact Hi|]. eexists. split; [reflexivity|].
    unfold list_ok. rewrite nlen_map, nlen_chunks. split; [|auto].
    apply raw_valid; [exact Hi|rewrite N2Nat.id; exact H1].
  Qed.

  (** Everything that is left. *)
  Lemma tri_rest_slice t : view_ok h allow t -> allow PanicDivZero \/ size t <> 0 ->
    tri 0 (b <- match rd_borrow_eof R with Some b => b | None => fail Unsized end ;;
           if size t =? 0 then crash PanicDivZero else cast_slice h t (nlen (snd b) / size t) b)
        (fun v => exists vs, v = VSeq vs /\ list_ok t vs).
  Proof.
    intros [Hi Ha] Hz. eapply tri_then; [apply tri_borrowed_eof|]. cbn beta. intros p Hl.
    destruct (N.eqb_spec (size t) 0) as [E|E]; [destruct Hz as [Hz|Hz]; [apply tri_crash, Hz|contradiction]|].
    apply tri_cast; [exact Ha|exact Hi|]. eexists. split; [reflexivity|]. apply raw_list; assumption.
  Qed.

  (* ---------------------------------------------------------------- *)
  (** ** Sets and maps *)

  Definition set_ok (P : val -> Prop) (k : colkind) (key : val -> val) (n : N) (v : val) : Prop :=
    exists vs, v = VSeq vs /\ Forall P vs /\ nlen vs <= n /\ keys_ok k key vs.

  Lemma collect_ok P k key n xs : Forall P xs -> nlen xs = n -> set_ok P k key n (VSeq (collect k key xs)).
  Proof.
    intros Hx Hn. exists (collect k key xs). split; [reflexivity|]. split; [apply collect_Forall, Hx|].
    split; [|apply collect_keys_ok]. pose proof (collect_length key k xs). unfold nlen in *. lia.
  Qed.

  Lemma tri_slow P k key rd n : tri 0 rd P ->
    tri 0 (xs <- repeatM rd (N.to_nat n) ;; ret (VSeq (collect k key xs))) (set_ok P k key n).
  Proof.
    intros Hrd. eapply tri_le; [eapply tri_then; [apply tri_repeat, Hrd|]|apply N.le_0_l].
    cbn beta. intros xs [Hx Hl]. apply tri_ret, collect_ok; [exact Hx|]. unfold nlen. lia.
  Qed.

  Lemma tri_raw_collect (P : val -> Prop) k key t n bs : numeric t -> k = CBTree \/ allow PanicDivZero \/ size t <> 0 ->
    (forall v, valid t v -> P v) -> nlen bs = n * size t -> tri 0 (raw_collect h k key t n bs) (set_ok P k key n).
  Proof.
    intros Hi Hz HP Hb. unfold raw_collect. destruct (N.eqb_spec (size t) 0) as [E|E].
    - assert (Hnil : set_ok P CBTree key n (VSeq [])).
      { exists []. split; [reflexivity|]. split; [constructor|]. split; [unfold nlen; cbn; lia|].
        apply (collect_keys_ok key CBTree []). }
      destruct Hz as [->|[Hz|Hz]]; [apply tri_ret, Hnil| |contradiction].
      destruct k; [apply tri_ret, Hnil|apply tri_crash, Hz|apply tri_crash, Hz].
    - apply tri_ret, collect_ok; [|rewrite nlen_map, nlen_chunks; reflexivity].
      eapply Forall_impl; [exact HP|]. apply raw_valid; [exact Hi|rewrite N2Nat.id; exact Hb].
  Qed.

  Lemma tri_collection k key t rd n : set_elem h allow k t -> tri 0 rd (valid t) ->
    tri 0 (read_collection h R k key t rd n) (set_ok (valid t) k key n).
  Proof.
    intros Hc Hrd. unfold read_collection.
    destruct (is_prim h t && no_conv h R t)%bool eqn:E2; [|apply tri_slow, Hrd].
    apply andb_prop in E2 as [Ep Enc]. destruct (Hc Ep) as (Hi & Hz).
    destruct (_ <? _); [apply tri_fail|].
    destruct (rd_borrow_r R) as [b|] eqn:Eb; [|apply tri_slow, Hrd].
    eapply tri_le; [eapply tri_then; [apply SF, Eb|]|apply N.le_0_l].
    cbn beta. intros bs Hb. apply tri_raw_collect; auto.
  Qed.

  Lemma tri_pair kk kv rk rv tk tv : tri kk rk (valid tk) -> tri kv rv (valid tv) ->
    tri (kk + kv) (read_pair rk rv) (valid_pair (valid tk) (valid tv)).
  Proof.
    intros Hk Hv. eapply tri_bind; [exact Hk|]. intros a Ha. eapply tri_then; [exact Hv|]. intros b Hb.
    apply tri_ret. cbn. auto.
  Qed.

  Lemma tri_pair0 rk rv tk tv : tri 0 rk (valid tk) -> tri 0 rv (valid tv) ->
    tri 0 (read_pair rk rv) (valid_pair (valid tk) (valid tv)).
  Proof. apply (tri_pair 0 0). Qed.

  Lemma tri_kv k tk tv rk rv n : map_elem h allow k tk tv -> k <> CIndex -> tri 0 rk (valid tk) -> tri 0 rv (valid tv) ->
    tri 0 (read_kv h R k tk tv rk rv n) (set_ok (valid_pair (valid tk) (valid tv)) k pair_key n).
  Proof.
    intros Hc Hne Hk Hv. unfold read_kv.
    match goal with |- tri _ (if ?b then _ else _) _ => destruct b eqn:E2 end;
      [|apply tri_slow, tri_pair0; assumption].
    apply andb_prop in E2 as [E2 Enc]. apply andb_prop in E2 as [Ek Ev].
    destruct Hc as [Hc|Hc]; [contradiction|]. destruct (Hc Ek Ev) as (Hik & Hiv & Hz).
    destruct (_ <? _); [apply tri_fail|].
    destruct (rd_borrow_r R) as [b|] eqn:Eb; [|apply tri_slow, tri_pair0; assumption].
    eapply tri_le; [eapply tri_then; [apply SF, Eb|]|apply N.le_0_l].
    cbn beta. intros bs Hb. apply tri_raw_collect; [cbn; auto|exact Hz| |exact Hb].
    intros v Hv'. cbn in Hv'. destruct v as [| | | |[|x [|y [|]]]| | | | |]; try tauto. cbn. tauto.
  Qed.

  Lemma tri_map_impl k tk tv rk rv n : map_elem h allow k tk tv -> tri 0 rk (valid tk) -> tri 0 rv (valid tv) ->
    tri 0 (read_map h R k tk tv rk rv n) (set_ok (valid_pair (valid tk) (valid tv)) k pair_key n).
  Proof.
    intros. destruct k; cbn [read_map].
    - apply tri_kv; auto; discriminate.
    - apply tri_kv; auto; discriminate.
    - apply tri_slow, tri_pair0; assumption.
  Qed.

  (* ---------------------------------------------------------------- *)
  (** ** To the end of the input *)

  Lemma tri_until_loop k rd P : tri k rd P -> forall fuel s n, inv s n ->
    match until_eof_loop rd fuel s with
    | (Ok vs, s') => Forall P vs /\ (length vs < fuel)%nat /\ exists n', inv s' n' /\ n' + k * nlen vs <= n
    | (Err er, s') => is_eof er = true -> exists n', inv s' n' /\ n' <= n
    | (Fault f, s') => allow f \/ (f = Diverges /\ k * N.of_nat fuel <= n)
    end.
  Proof.
    intros Hrd. induction fuel as [|fuel IH]; intros s n Hs; cbn [until_eof_loop]; [right; split; [reflexivity|lia]|].
    pose proof (Hrd s n Hs) as H1. destruct (rd s) as [[v|er|f] s1].
    - destruct H1 as [Hv (n1 & Hn1 & Hle)]. specialize (IH s1 n1 Hn1). unfold mmap, bind, ret.
      destruct (until_eof_loop rd fuel s1) as [[vs|er|f] s2].
      + destruct IH as (Hvs & Hl & n2 & Hn2 & Hle2). split; [constructor; assumption|].
        split; [cbn [length]; lia|]. exists n2. split; [assumption|].
        replace (nlen (v :: vs)) with (1 + nlen vs) by (unfold nlen; cbn [length]; lia). lia.
      + intros He. destruct (IH He) as (n2 & ? & ?). exists n2. split; [assumption|lia].
      + destruct IH as [IH|[-> IH]]; [left; exact IH|right; split; [reflexivity|lia]].
    - destruct (is_eof er) eqn:E; [|intros; congruence]. destruct (H1 eq_refl) as (n1 & Hn1 & Hle).
      split; [constructor|]. split; [cbn; lia|]. exists n1. split; [assumption|]. unfold nlen. cbn [length]. lia.
    - left. exact H1.
  Qed.

  Lemma tri_until k rd P : tri k rd P -> allow Diverges \/ 0 < k ->
    tri 0 (read_until_eof R rd) (fun vs => Forall P vs /\ nlen vs <= L /\ nlen vs * k <= L).
  Proof.
    intros Hrd Hd s n Hs. unfold read_until_eof. rewrite (sf_fuel _ _ _ _ _ _ SF s n Hs).
    pose proof (sf_small _ _ _ _ _ _ SF s n Hs) as Hn.
    pose proof (tri_until_loop k rd P Hrd (S (N.to_nat n)) s n Hs) as H.
    destruct (until_eof_loop rd _ s) as [[vs|er|f] s'].
    - destruct H as (Hv & Hl & n' & Hn' & Hle). split; [|exists n'; split; [assumption|lia]].
      split; [exact Hv|]. unfold nlen in *. lia.
    - exact H.
    - destruct H as [H|[-> H]]; [exact H|]. destruct Hd as [Hd|Hd]; [exact Hd|]. nia.
  Qed.

  (* ---------------------------------------------------------------- *)
  (** ** Strings *)

  Definition text (v : val) : Prop := exists b, v = VBytes b /\ utf8_valid b = true /\ nlen b <= h_alloc_max h.

  Lemma tri_str b : nlen b <= h_alloc_max h -> tri 0 (to_str b) text.
  Proof.
    intros Hb. unfold to_str. destruct (utf8_valid b) eqn:E; [|apply tri_fail]. apply tri_ret. exists b. auto.
  Qed.

  Lemma u8_size : size TU8 = 1.
  Proof. apply (vh_prim h VH U8). Qed.
  Lemma u8_elem : elem_ok h e allow TU8.
  Proof. split; [intros _; split; [exact I|right; cbn; auto]|discriminate]. Qed.

  Lemma tri_elem_u8 : tri 1 (read_elem_u8 h R) (valid TU8).
  Proof. eapply tri_then; [apply (tri_prim U8)|]. intros z Hz. apply tri_ret. exact Hz. Qed.

  Lemma tri_vec_u8 n : n <= umax -> allow PanicCapacity \/ vec_ok 1 1 n \/ n <= amax ->
    tri n (read_vec_u8 h R n) (fun b => nlen b <= amax).
  Proof.
    intros Hn Hroom. eapply tri_map.
    - eapply tri_le; [apply tri_vec; [apply u8_elem|discriminate|exact Hn|]|].
      + rewrite u8_size, N.mul_1_r. exact Hroom.
      + change (is_prim h TU8) with true. rewrite u8_size. lia.
    - intros vs ((_ & _ & Hf) & _). rewrite u8_size in Hf. unfold as_bytes. rewrite nlen_map. lia.
  Qed.

  Lemma tri_cow_u8 lm n : fits h lm 1 \/ (allow PanicOverflow /\ allow PanicCapacity) -> possible_length h lm n -> n <= umax ->
    allow PanicCapacity \/ vec_ok 1 1 n \/ n <= amax ->
    tri 0 (read_cow_u8 h R n) (fun b => nlen b <= amax).
  Proof.
    intros Hf Hn Hnu Hroom. eapply tri_map.
    - eapply tri_cow; [apply u8_elem| |exact Hn|exact Hnu|discriminate|].
      + intros _. rewrite u8_size. split; [right; discriminate|exact Hf].
      + rewrite u8_size, N.mul_1_r. exact Hroom.
    - intros vs (_ & _ & Hf'). rewrite u8_size in Hf'. unfold as_bytes. rewrite nlen_map. lia.
  Qed.

  Lemma tri_constant c : nlen c <= h_alloc_max h -> tri (nlen c) (read_constant h R c) (fun _ => True).
  Proof.
    intros Hc. unfold read_constant. eapply tri_then with (Q1 := fun _ => True).
    - destruct (rd_borrow R) as [b|] eqn:E.
      + eapply tri_map; [apply SF, E|auto].
      + pose proof (vh_alloc h VH). eapply tri_post; [apply tri_vec_u8; [lia|auto]|auto].
    - intros b _. destruct (list_eq_dec _ b c); [apply tri_ret; exact I|apply tri_fail].
  Qed.

  Lemma tri_until_str : L <= h_alloc_max h ->
    tri 0 (vs <- read_until_eof R (read_elem_u8 h R) ;; to_str (as_bytes vs)) text.
  Proof.
    intros HL. eapply tri_then; [apply (tri_until 1 _ _ tri_elem_u8); right; reflexivity|].
    cbn beta. intros vs (_ & Hl & _). apply tri_str. unfold as_bytes. rewrite nlen_map. lia.
  Qed.

  (* ---------------------------------------------------------------- *)
  (** ** Scalars *)

  Lemma tri_ipv4 : tri 4 (read_ipv4 h R) (fun v => exists b, v = VBytes b /\ length b = 4%nat).
  Proof.
    eapply tri_then; [apply (tri_uint 4)|]. intros n _. apply tri_ret. eexists. split; [reflexivity|].
    rewrite rev_length, le_bytes_length. reflexivity.
  Qed.

  Lemma tri_ipv6 : tri 16 (read_ipv6 h R) (fun v => exists b, v = VBytes b /\ length b = 16%nat).
  Proof.
    eapply tri_then; [apply SF|]. cbn beta. intros b Hb. apply tri_ret. eexists. split; [reflexivity|].
    destruct (negb _); rewrite ?rev_length; unfold nlen in Hb; lia.
  Qed.

  Lemma tri_duration : allow PanicExplicit ->
    tri 12 (read_duration h R) (valid_scalar lim SDuration).
  Proof.
    intros Ha. eapply (tri_bind _ _ 8 4); [apply (tri_uint 8)|]. intros s _.
    eapply tri_then; [apply (tri_uint 4)|]. intros n _. apply tri_lift. unfold duration_new.
    destruct (N.ltb_spec (s + n / 1000000000) (2 ^ 64)) as [H|H]; [|exact Ha].
    pose proof (N.mod_lt n 1000000000). cbn [valid_scalar]. unfold in_z. revert H. num_pow. lia.
  Qed.

  Lemma tri_scalar s : calm LDefault (TScalar s) -> tri (scalar_min s) (read_scalar h R s) (valid_scalar lim s).
  Proof.
    intros Hc. destruct s; cbn [read_scalar scalar_min Safe.calm] in *; unfold of_n.
    - eapply tri_then; [apply tri_prim|]. intros z Hz. apply tri_ret. exact Hz.
    - eapply tri_then; [apply (tri_uint 8)|]. intros n _. unfold usize_max.
      destruct (N.ltb_spec umax n); [apply tri_fail|]. apply tri_ret. cbn. unfold in_z. lia.
    - eapply tri_then; [apply tri_u8|]. intros n _. apply tri_ret. exact I.
    - eapply tri_then; [apply (tri_uint 4)|]. intros n _. destruct (is_scalar n) eqn:E; [|apply tri_fail].
      apply tri_ret. cbn. rewrite N2Z.id. split; [lia|exact E].
    - eapply tri_then; [apply tri_u8|]. intros n _.
      destruct (n =? 0); [apply tri_ret; cbn; lia|]. destruct (n =? 1); [apply tri_ret; cbn; lia|apply tri_fail].
    - apply tri_ret. exact I.
    - eapply tri_then; [apply tri_prim|]. intros z Hz. destruct (Z.eqb_spec z 0); [apply tri_fail|].
      apply tri_ret. split; assumption.
    - eapply tri_then; [apply tri_prim|]. intros z Hz. apply tri_ret. exact Hz.
    - eapply tri_then; [apply tri_varint|]. intros n Hn. cbn beta in Hn. apply tri_ret. cbn [valid_scalar]. unfold in_z. revert Hn. num_pow. lia.
    - eapply tri_post; [apply tri_ipv4|]. intros v (b & -> & Hb). exact Hb.
    - eapply tri_post; [apply tri_ipv6|]. intros v (b & -> & Hb). exact Hb.
    - eapply (tri_bind _ _ 1 4); [apply tri_u8|]. intros n _. destruct (n =? 0); [|destruct (n =? 1)].
      + eapply tri_then; [apply tri_ipv4|]. intros v (b & -> & Hb). apply tri_ret. exact Hb.
      + eapply tri_le; [eapply tri_then; [apply tri_ipv6|]|discriminate].
        intros v (b & -> & Hb). apply tri_ret. exact Hb.
      + apply tri_fail.
    - apply tri_duration, Hc.
    - eapply tri_then; [apply tri_duration, Hc|]. intros v Hv. cbn in Hv.
      destruct v as [| | | |[|[| |s | | | | | | |] [|[| |n | | | | | | |] [|]]]| | | | |]; try contradiction.
      destruct Hv as [H1 H2]. destruct (Z.ltb_spec (Z.of_N (l_systime_max lim)) s); [apply tri_fail|].
      apply tri_ret. cbn. split; assumption.
    - eapply tri_then; [apply SF|]. cbn beta. intros b Hb. apply tri_ret. cbn. unfold nlen in Hb. lia.
    - eapply (tri_bind _ _ 8 4); [apply (tri_prim I64)|]. intros s Hs.
      eapply tri_then; [apply (tri_uint 4)|]. intros n Hn. destruct (l_chrono_ok lim s n) eqn:E; [|apply tri_crash, Hc].
      apply tri_ret. cbn [valid_scalar]. cbn beta in Hn. rewrite N2Z.id. split; [exact Hs|]. split; [|exact E].
      unfold in_z. revert Hn. num_pow. lia.
    - eapply tri_then; [eapply tri_repeat, tri_then; [apply tri_prim|]|].
      + intros z Hz. apply tri_ret with (Q := fun v => match v with VInt z => prim_ok p z = true | _ => False end). exact Hz.
      + intros vs [Hv Hl]. apply tri_ret. split; assumption.
    - eapply tri_then; [apply tri_u8|]. intros m _. apply tri_ret. cbn. unfold bvec_of_mask.
      rewrite map_length, seq_length. split; [reflexivity|]. apply Forall_map. apply Forall_forall. intros; exact I.
  Qed.

  (* ---------------------------------------------------------------- *)
  (** ** Lengths *)

  Lemma possible_small lm n : len_ok h allow lm -> possible_length h lm n -> n <= umax.
  Proof.
    intros Hl Hp. pose proof usize_lo' as Hu. destruct lm as [|b|f|]; cbn in *; try tauto.
    - revert Hu Hp. num_pow. lia.
    - destruct Hp as [prev Hp]. eapply (proj1 Hl), Hp.
  Qed.

  Lemma counted_room lm t n : counted lm t -> possible_length h lm n ->
    allow PanicCapacity \/ vec_ok (size t) (min t) n \/ n * size t <= h_alloc_max h.
  Proof. intros [H|H] Hn; auto. Qed.

  (** The prefix of a container counts towards the minimum. *)
  Definition prefix_len (a : fattrs) (k : N) : Prop :=
    k = 0 \/ (f_eof a = false /\ match f_len a with LDefault | LType _ => True | _ => False end
              /\ k = basic_size (length_type (f_len a))).

  Lemma tri_with_length k prev a kn ue Q : len_ok h allow (f_len a) -> prefix_len a k ->
    (forall n, possible_length h (f_len a) n -> tri 0 (kn n) Q) -> (f_len a = LEof -> tri 0 ue Q) ->
    tri k (with_length h R prev a kn ue) Q.
  Proof.
    intros Hl Hk Hn Hue. unfold with_length.
    assert (Hpre : forall b, (forall n, possible_length h (LType b) n -> possible_length h (f_len a) n) ->
      k = 0 \/ (f_eof a = false /\ k = basic_size b) ->
      tri k (n <- (if f_eof a then catch_eof 0 (read_length h R b) else read_length h R b) ;; kn n) Q).
    { intros b Hb Hkb. eapply tri_then with (Q1 := possible_length h (LType b)); [|intros n Hp; apply Hn, Hb, Hp].
      destruct (f_eof a).
      - destruct Hkb as [->|[E _]]; [|discriminate]. eapply tri_catch; [apply tri_length|]. split; lia.
      - eapply tri_le; [apply tri_length|]. destruct Hkb as [->|[_ ->]]; lia. }
    destruct (f_len a) as [|b|f|] eqn:El; cbn [length_type].
    - apply Hpre; [intros n [H _]; exact H|]. destruct Hk as [->|(? & _ & ->)]; [left|right]; auto. rewrite El; auto.
    - apply Hpre; [auto|]. destruct Hk as [->|(? & _ & ->)]; [left|right]; auto. rewrite El; auto.
    - assert (k = 0) as -> by (destruct Hk as [->|(_ & C & _)]; [reflexivity|rewrite El in C; contradiction]).
      destruct (f prev) as [n|] eqn:Ef; [apply Hn; exists prev; assumption|].
      destruct Hl as [_ [Hl|Hl]]; [apply tri_crash, Hl|]. exfalso. exact (Hl prev Ef).
    - assert (k = 0) as -> by (destruct Hk as [->|(_ & C & _)]; [reflexivity|rewrite El in C; contradiction]).
      auto.
  Qed.

  Lemma tri_default_length {A} (kn : N -> M St A) Q : (forall n, possible_length h LDefault n -> tri 0 (kn n) Q) ->
    tri 4 (n <- read_length h R BU32 ;; kn n) Q.
  Proof. intros H. eapply tri_then; [apply (tri_length BU32)|]. intros n [Hn _]. apply H, Hn. Qed.

  (* ---------------------------------------------------------------- *)
  (** ** Every type *)

  Notation read := (read h R).

  Definition consumes (t : ty) (k : N) : Prop := k = 0 \/ (least h t /\ k = min t).
  (** Fields that are arrays are read element by element. *)
  Definition consumes' (t : ty) (k : N) : Prop :=
    match t with
    | TArr t' n => exists j, consumes t' j /\ k = j * N.of_nat n
    | _ => consumes t k
    end.

  Definition inner_tri (t : ty) : Prop := forall a prev k,
    calm (if is_container t then f_len a else LDefault) t ->
    (if is_container t then prefix_len a k else consumes' t k) ->
    tri k (read_field_inner h R read prev a false t) (valid t).

  Definition type_tri (t : ty) : Prop :=
    (forall k, calm LDefault t -> consumes t k -> tri k (read t) (valid t))
    /\ inner_tri t /\ (forall t', t = TOption t' -> inner_tri t').

  Lemma tri_field prev a t k : type_tri t -> f_skip a = false -> calm_field h calm a t ->
    k = 0 \/ (field_minok (least h) a t /\ k = field_min min (a, t)) ->
    tri k (read_field h R read prev a t) (valid t).
  Proof.
    intros (Ht & Hi & Ho) Hs [Hd [Hs'|(Hvar & Hpf & Hcalm)]] Hk; [congruence|].
    unfold read_field.
    match goal with |- tri _ (if _ then catch_eof _ ?m else _) _ => set (body := m) end.
    assert (Hbody : forall j, j = 0 \/ (f_eof a = false /\ k = j) -> tri j body (valid t)).
    { intros j Hj. unfold body. clear body.
      assert (Hsplit : exists k1 k2, j <= k1 + k2 /\ (k1 <= nlen (f_prefix a))
        /\ (k2 = 0 \/ (f_eof a = false
             /\ match f_len a with LDefault | LType _ => True | _ => False end
             /\ field_minok (least h) a t
             /\ k2 = (if f_opaque a then min t
                      else match t with
                           | TOption _ => 1
                           | TArr t n => min t * N.of_nat n
                           | _ => if is_container t then basic_size (length_type (f_len a))
                                  else if f_varint a then 1 else min t
                           end)))).
      { destruct Hj as [->|[He ->]]; [exists 0, 0; lia|].
        destruct Hk as [->|[Hm ->]]; [exists 0, 0; lia|].
        unfold field_min. cbn [fst snd]. rewrite He, Hs, orb_false_r. cbn [orb].
        destruct (f_len a) eqn:El; cbn [negb]; try (exists 0, 0; lia);
          (eexists (nlen (f_prefix a)), _; split; [rewrite N.add_comm; apply N.le_refl|]; split; [lia|right]; auto). }
      destruct Hsplit as (k1 & k2 & Hle & Hk1 & Hk2).
      eapply tri_bind' with (k1 := k1) (k2 := k2) (Q1 := fun _ => True); [| |exact Hle].
      - destruct (f_prefix a) eqn:Ep.
        + unfold nlen in Hk1. cbn in Hk1. assert (k1 = 0) as -> by lia. apply tri_ret. exact I.
        + eapply tri_le; [apply tri_constant, Hpf|exact Hk1].
      - intros _ _. unfold sized_field in *.
        assert (Hm : k2 = 0 \/ k2 <> 0 /\ (if f_varint a
                          then f_opaque a = false /\ match t with TScalar (SPrim _) => True | _ => False end
                          else if f_opaque a then least h t
                               else match t with
                                    | TOption _ => True
                                    | TArr t' _ => least h t'
                                    | _ => if is_container t then True else least h t
                                    end)).
        { destruct (N.eq_dec k2 0) as [|Hz]; [left; assumption|right; split; [assumption|]].
          destruct Hk2 as [->|(He & Hlm & Hm & _)]; [contradiction|].
          unfold field_minok in Hm. rewrite Hs, He, orb_false_r in Hm. cbn [orb] in Hm.
          destruct (f_len a); cbn [negb] in Hm; try contradiction; exact Hm. }
        destruct (f_opaque a) eqn:Eo; cbn [negb andb] in *.
        + apply Ht; auto. destruct Hk2 as [->|(_ & _ & _ & ->)]; [left; reflexivity|].
          destruct Hm as [->|[_ Hm]]; [left; reflexivity|right]. split; [|reflexivity].
          destruct (f_varint a); [destruct Hm; discriminate|exact Hm].
        + destruct (f_varint a) eqn:Ev.
          * rewrite (Hvar eq_refl) in *. cbn [read_field_inner TP].
            eapply tri_le; [eapply tri_then; [apply tri_varint|]|].
            -- intros n Hn. cbn beta in Hn. apply tri_ret. unfold of_n. cbn [Spec.valid valid_scalar]. exact (u64_of_n n Hn).
            -- destruct Hk2 as [->|(_ & _ & _ & ->)]; cbn; lia.
          * assert (Hin : forall t', t' = t -> (forall t'', t <> TOption t'') -> tri k2 (read_field_inner h R read prev a false t') (valid t')).
            { intros t' -> Hno. apply Hi; [destruct t; first [exact Hcalm | exfalso; eapply Hno; reflexivity]|].
              destruct Hk2 as [->|(He & Hlm & _ & ->)].
              { destruct (is_container t) eqn:Ec; [left; reflexivity|].
                destruct t; try discriminate; try (left; reflexivity). exists 0. split; [left; reflexivity|lia]. }
              destruct (is_container t) eqn:Ec.
              - right. split; [exact He|]. split; [exact Hlm|]. destruct t; try discriminate; reflexivity.
              - destruct Hm as [Hm|[_ Hm]].
                { destruct t; rewrite ?Ec in *; first [left; exact Hm | exists 0; split; [left; reflexivity|lia]]. }
                destruct t; try (exfalso; eapply Hno; reflexivity); rewrite ?Ec in Hm;
                  first [right; split; [exact Hm|reflexivity] | eexists; split; [right; split; [exact Hm|reflexivity]|reflexivity]]. }
            destruct t; try (apply Hin; [reflexivity|discriminate]).
            clear Hin. eapply tri_le; [eapply tri_then; [apply tri_u8|]|].
            -- intros x _. destruct (x =? 0); [apply tri_ret; exact I|].
               eapply tri_map; [apply (Ho _ eq_refl a prev 0)|].
               ++ exact Hcalm.
               ++ destruct (is_container t) eqn:Ec; [left; reflexivity|].
                  destruct t; try discriminate; try (left; reflexivity). exists 0. split; [left; reflexivity|lia].
               ++ intros v Hv'. exact Hv'.
            -- destruct Hk2 as [->|(_ & _ & _ & ->)]; lia. }
    destruct (f_eof a) eqn:Ee.
    - assert (k = 0) as -> by (destruct Hk as [->|[_ ->]]; [reflexivity|]; unfold field_min; cbn [fst snd]; rewrite Ee; reflexivity).
      eapply tri_catch; [apply (Hbody 0); left; reflexivity|]. apply Hd. apply orb_true_r.
    - apply Hbody. right. auto.
  Qed.

  Lemma tri_fields fs : Forall (fun f => type_tri (snd f)) fs ->
    all_fields (calm_field h calm) fs -> forall prev k,
    k = 0 \/ (all_fields (field_minok (least h)) fs /\ k = nsum (map (field_min min) fs)) ->
    tri k (read_fields h R read prev fs) (valid_fields valid fs).
  Proof.
    induction 1 as [|f r Hf Hr IH]; intros Hc prev k Hk; cbn [read_fields].
    - eapply tri_le; [apply tri_ret; exact I|]. destruct Hk as [->|[_ ->]]; cbn; lia.
    - destruct Hc as [Hc Hcr]. destruct f as [a t]. cbn [fst snd] in *.
      assert (Hsplit : exists k1 k2, k = k1 + k2
        /\ (k1 = 0 \/ (field_minok (least h) a t /\ k1 = field_min min (a, t)))
        /\ (k2 = 0 \/ (all_fields (field_minok (least h)) r /\ k2 = nsum (map (field_min min) r)))).
      { destruct Hk as [->|[[H1 H2] ->]]; [exists 0, 0; auto|].
        exists (field_min min (a, t)), (nsum (map (field_min min) r)). auto. }
      destruct Hsplit as (k1 & k2 & -> & Hk1 & Hk2).
      destruct (f_skip a) eqn:Ek.
      + eapply tri_map; [eapply tri_le; [apply IH; eauto|]|].
        * destruct Hk1 as [->|[_ ->]]; [lia|]. unfold field_min. cbn [fst snd]. rewrite Ek, orb_true_r. lia.
        * intros vs Hvs. cbn [valid_fields snd]. split; [|exact Hvs]. apply Hc. rewrite Ek. reflexivity.
      + eapply tri_bind; [apply tri_field; eassumption|]. intros v Hv.
        eapply tri_then; [apply IH; auto|]. intros vs Hvs. apply tri_ret. cbn [valid_fields snd]. auto.
  Qed.

  Lemma tri_variant tag vs : Forall (fun v => Forall (fun f => type_tri (snd f)) (snd v)) vs ->
    all_variants (all_fields (calm_field h calm)) vs -> forall k i all,
    k = 0 \/ all_variants (fun fs => all_fields (field_minok (least h)) fs /\ k <= nsum (map (field_min min) fs)) vs ->
    (forall j us, valid_variant valid vs j us -> valid_variant valid all (i + j) us) ->
    tri k (read_variant h R read tag i vs)
      (fun v => exists j us, v = VVar j us /\ valid_variant valid all j us).
  Proof.
    induction 1 as [|v r Hv Hr IH]; intros Hc k i all Hk Hall; cbn [read_variant]; [apply tri_fail|].
    destruct Hc as [Hc Hcr]. destruct (fst v =? tag).
    - assert (Ht : tri k (read_fields h R read [] (snd v)) (valid_fields valid (snd v))).
      { destruct Hk as [->|[[Hm Hle] _]]; [apply tri_fields; auto|].
        eapply tri_le; [apply tri_fields; auto|exact Hle]. }
      eapply tri_map; [exact Ht|]. intros us Hus. exists i, us. split; [reflexivity|].
      specialize (Hall 0%nat us Hus). rewrite Nat.add_0_r in Hall. exact Hall.
    - apply IH; auto.
      + destruct Hk as [->|[_ Hk]]; auto.
      + intros j us Hj. replace (S i + j)%nat with (i + S j)%nat by lia. apply Hall. exact Hj.
  Qed.

  Lemma tri_tag d : tri (if e_peek d then 0 else basic_size (e_tag d)) (read_tag h R d) (fun _ => True).
  Proof.
    unfold read_tag. destruct (e_peek d).
    - destruct (e_tag d);
        (eapply tri_post; [first [apply tri_peek_u8 | apply tri_peek_uint; lia | apply tri_peek_varint]|auto]).
    - destruct (e_tag d); cbn [basic_size]; (eapply tri_post; [|intros; exact I]).
      + apply tri_u8.
      + apply tri_u8.
      + apply (tri_uint 2).
      + apply (tri_uint 4).
      + apply (tri_uint 8).
      + apply tri_varint.
  Qed.

  Lemma inner_plain t : is_container t = false -> (forall t' n, t <> TArr t' n) ->
    (forall k, calm LDefault t -> consumes t k -> tri k (read t) (valid t)) -> inner_tri t.
  Proof.
    intros Hc Ha H a prev k. rewrite Hc. intros Hcm Hk.
    assert (Hk' : consumes t k) by (destruct t; first [exact Hk | exfalso; eapply Ha; reflexivity]).
    replace (read_field_inner h R read prev a false t) with (read t); [auto|].
    destruct t as [[]|[]|[]| | | | | | |[]|[]| | | |]; try discriminate; try reflexivity.
    exfalso. eapply Ha. reflexivity.
  Qed.

  (** The lists and sets read are values of the type. *)
  Lemma list_valid k t vs : list_ok t vs -> valid (TSeq k t) (VSeq vs).
  Proof.
    intros (Hv & Hl & Hf). cbn [Spec.valid]. split; [exact Hv|]. unfold fits_in, small. rewrite (vh_fits h VH).
    split; [exact Hl|]. apply N.leb_le, Hf.
  Qed.

  Lemma set_valid k t n v : n <= umax -> set_ok (valid t) k id n v -> valid (TSet k t) v.
  Proof. intros Hn (vs & -> & Hv & Hl & Hk). cbn [Spec.valid]. unfold small. repeat split; auto. lia. Qed.

  Lemma map_valid k tk tv n v : n <= umax -> set_ok (valid_pair (valid tk) (valid tv)) k pair_key n v ->
    valid (TMap k tk tv) v.
  Proof. intros Hn (vs & -> & Hv & Hl & Hk). cbn [Spec.valid]. unfold small. repeat split; auto. lia. Qed.

  Lemma text_valid k v : k <> KRegex -> text v -> valid (TStr k) v.
  Proof.
    intros Hk (b & -> & Hu & Hl). cbn [Spec.valid]. split; [exact Hu|].
    pose proof (vh_alloc h VH). unfold fits_in, small. rewrite (vh_fits h VH). change (TP U8) with TU8. rewrite u8_size.
    split; [split; [lia|apply N.leb_le; lia]|]. destruct k; auto; congruence.
  Qed.

  Lemma str_room lm n : counted lm (TP U8) -> possible_length h lm n ->
    allow PanicCapacity \/ vec_ok 1 1 n \/ n <= h_alloc_max h.
  Proof.
    intros Hc Hn. pose proof (counted_room lm (TP U8) n Hc Hn) as H. change (TP U8) with TU8 in H. rewrite u8_size in H.
    change (min TU8) with 1 in H. rewrite N.mul_1_r in H. exact H.
  Qed.

  (** Reading the elements until the end of the input. *)
  Lemma tri_until_type t : (forall k, consumes t k -> tri k (read t) (valid t)) -> finishes h allow t ->
    tri 0 (read_until_eof R (read t)) (fun vs => Forall (valid t) vs /\ nlen vs <= L).
  Proof.
    intros Ht He. assert (Hk : exists k, consumes t k /\ (allow Diverges \/ 0 < k)).
    { destruct He as [He|[Hm He]]; [exists 0; split; [left; reflexivity|auto]|exists (min t)].
      split; [right; auto|auto]. }
    destruct Hk as (k & Hk & Hd). eapply tri_post; [apply (tri_until k); [apply Ht, Hk|exact Hd]|].
    cbn beta. tauto.
  Qed.

  Lemma tri_until_list t : (forall k, consumes t k -> tri k (read t) (valid t)) -> finishes h allow t -> roomy h L t ->
    tri 0 (read_until_eof R (read t)) (list_ok t).
  Proof.
    intros Ht He Hr. pose proof (sf_limit _ _ _ _ _ _ SF).
    assert (Hk : exists k, consumes t k /\ (allow Diverges \/ 0 < k)
      /\ forall n, n <= L -> n * k <= L -> n * size t <= amax).
    { destruct He as [He|[Hm He]]; destruct Hr as [Hr|[Hm' Hr]].
      - exists 0. repeat split; auto. left; reflexivity.
      - exists (min t). repeat split; auto. right; auto.
      - exists (min t). repeat split; auto. right; auto.
      - exists (min t). repeat split; auto. right; auto. }
    destruct Hk as (k & Hk & Hd & Hroom).
    eapply tri_post; [apply (tri_until k); [apply Ht, Hk|exact Hd]|].
    cbn beta. intros vs (Hv & Hl & Hm). split; [exact Hv|]. split; [lia|]. apply Hroom; assumption.
  Qed.

  Theorem tri_all t : type_tri t.
  Proof.
    pose proof (sf_limit _ _ _ _ _ _ SF) as HL.
    induction t as [s|k|k t IH|t n IH|t n IH|t IH|t1 t2 IH1 IH2|ts IH|i t IH|k t IH|k tk tv IHk IHv|t IH|d fs IH|d vs IH|]
      using ty_ind'.
    - (* scalar *)
      assert (H : forall k, calm LDefault (TScalar s) -> consumes (TScalar s) k ->
                  tri k (read (TScalar s)) (valid (TScalar s))).
      { intros k Hc Hk. eapply tri_le; [apply tri_scalar, Hc|]. destruct Hk as [->|[_ ->]]; cbn [min_bytes]; lia. }
      split; [exact H|split; [|intros; discriminate]]. apply inner_plain; [reflexivity|discriminate|exact H].
    - (* string *)
      assert (Hcnt : forall lm n, calm lm (TStr k) -> possible_length h lm n ->
        tri 0 (match k with
               | KString | KBoxStr => b <- read_vec_u8 h R n ;; to_str b
               | KCowStr => b <- read_cow_u8 h R n ;; to_str b
               | KRefStr => b <- borrowed R n ;; to_str (snd b)
               | KRegex => b <- read_cow_u8 h R n ;; v <- to_str b ;;
                           if l_regex_ok (h_lim h) b then ret v else fail (IoError (IoOther 0))
               end) (valid (TStr k))).
      { intros lm n (Hlo & Hc & Hf) Hn. pose proof (possible_small lm n Hlo Hn) as Hsm.
        assert (Hvec : counted lm (TP U8) -> tri 0 (b <- read_vec_u8 h R n ;; to_str b) text).
        { intros Hr. eapply tri_le; [eapply tri_then; [apply tri_vec_u8; [exact Hsm|apply (str_room lm); assumption]|]|apply N.le_0_l].
          intros b H1. apply tri_str. exact H1. }
        destruct k.
        - eapply tri_post; [apply Hvec, Hc|]. intros v. apply text_valid. discriminate.
        - eapply tri_post; [apply Hvec, Hc|]. intros v. apply text_valid. discriminate.
        - eapply tri_then; [eapply tri_cow_u8; [exact Hf|exact Hn|exact Hsm|apply (str_room lm); tauto]|].
          intros b H1. eapply tri_post; [apply tri_str; exact H1|]. intros v. apply text_valid. discriminate.
        - eapply tri_le; [eapply tri_then; [apply tri_borrowed|]|apply N.le_0_l].
          intros b [H1 H2]. eapply tri_post; [apply tri_str; lia|]. intros v. apply text_valid. discriminate.
        - eapply tri_then; [eapply tri_cow_u8; [exact Hf|exact Hn|exact Hsm|apply (str_room lm); tauto]|].
          intros b H1. unfold to_str. destruct (utf8_valid b) eqn:Eu; unfold bind, ret, fail.
          + destruct (l_regex_ok lim b) eqn:Er; [|apply (tri_fail inv allow (IoError (IoOther 0)))].
            apply (tri_ret inv allow (VBytes b)). cbn [Spec.valid]. rewrite Er.
            pose proof (text_valid KString (VBytes b) ltac:(discriminate) (ex_intro _ b (conj eq_refl (conj Eu H1)))) as Hv.
            cbn [Spec.valid] in Hv. tauto.
          + apply (tri_fail inv allow InvalidUtf8). }
      assert (H : forall j, calm LDefault (TStr k) -> consumes (TStr k) j ->
                  tri j (read (TStr k)) (valid (TStr k))).
      { intros j Hc Hj. eapply tri_le; [apply tri_default_length|].
        - intros n Hn. exact (Hcnt LDefault n Hc Hn).
        - destruct Hj as [->|[_ ->]]; cbn [min_bytes]; lia. }
      split; [exact H|split; [|intros; discriminate]].
      destruct k; try (apply inner_plain; [reflexivity|discriminate|exact H]);
        intros a prev j Hc Hj; cbn [is_container] in *; pose proof (fun n => Hcnt (f_len a) n Hc) as Hcn;
        cbn [Safe.calm] in Hc; cbn [read_field_inner]; apply tri_with_length; try tauto; intros El.
      + eapply tri_post; [apply tri_until_str; tauto|]. intros v. apply text_valid. discriminate.
      + eapply tri_post; [apply tri_until_str; tauto|]. intros v. apply text_valid. discriminate.
      + eapply tri_then; [apply tri_borrowed_eof|]. cbn beta. intros p Hp.
        eapply tri_post; [apply tri_str; exact Hp|]. intros v. apply text_valid. discriminate.
    - (* slice *)
      destruct IH as (IH & _ & _).
      assert (Hcnt : forall lm n, calm lm (TSeq k t) -> possible_length h lm n ->
         tri 0 (match k with
                | KVec | KBoxSlice | KSmallVec => mmap VSeq (read_vec h R t (read t) n)
                | KCow => mmap VSeq (read_cow h R t (read t) n)
                | KRef => read_ref_slice h R t n
                end) (valid (TSeq k t))).
      { intros lm n [Hlo Hc] Hn. pose proof (possible_small lm n Hlo Hn) as Hsm.
        assert (Hrd : calm LDefault t -> is_prim h t = false -> tri 0 (read t) (valid t))
          by (intros Hct _; apply IH; [exact Hct|left; reflexivity]).
        assert (Hvec : elem_ok h e allow t -> counted lm t -> calm LDefault t ->
                       tri 0 (mmap VSeq (read_vec h R t (read t) n)) (valid (TSeq k t))).
        { intros He Hcn Hct. eapply tri_map; [eapply tri_le; [apply tri_vec|apply N.le_0_l]|].
          - exact He. - apply Hrd, Hct. - exact Hsm. - apply (counted_room lm); assumption.
          - intros vs [Hvs _]. apply list_valid, Hvs. }
        destruct k; try (apply Hvec; tauto).
        - destruct Hc as (He & Hce & Hcn & _ & Hct). eapply tri_map; [eapply tri_cow|].
          + exact He. + apply Hce. reflexivity. + exact Hn. + exact Hsm. + apply Hrd, Hct. + apply (counted_room lm); assumption.
          + intros vs. apply list_valid.
        - destruct Hc as (Hv & _). eapply tri_post; [apply tri_ref_slice; assumption|].
          intros v (vs & -> & Hvs). apply list_valid, Hvs. }
      assert (H : forall j, calm LDefault (TSeq k t) -> consumes (TSeq k t) j ->
                  tri j (read (TSeq k t)) (valid (TSeq k t))).
      { intros j Hc Hj. cbn [ReadImpl.read].
        assert (Hle : j <= 4) by (destruct Hj as [->|[_ ->]]; cbn [min_bytes]; lia).
        destruct k; cbn [read_seq]; try apply tri_guard; (eapply tri_le; [apply tri_default_length|exact Hle]);
          intros n Hn; exact (Hcnt LDefault n Hc Hn). }
      split; [exact H|split; [|intros; discriminate]].
      destruct k; try (apply inner_plain; [reflexivity|discriminate|exact H]);
        intros a prev j Hc Hj; cbn [is_container] in *; pose proof (fun n => Hcnt (f_len a) n Hc) as Hcn;
        destruct Hc as [Hlo Hc]; cbn [read_field_inner].
      + destruct Hc as (_ & _ & _ & Hcu & Hct). apply tri_with_length; auto. intros El. destruct (Hcu El) as [Hends Hroomy].
        eapply tri_map; [apply tri_until_list; [intros; apply IH; assumption|exact Hends|exact Hroomy]|].
        intros vs. apply list_valid.
      + destruct Hc as (_ & _ & _ & Hcu & Hct). apply tri_with_length; auto. intros El. destruct (Hcu El) as [Hends Hroomy].
        eapply tri_map; [apply tri_until_list; [intros; apply IH; assumption|exact Hends|exact Hroomy]|].
        intros vs. apply list_valid.
      + destruct Hc as (Hv & Hz). apply tri_guard. apply tri_with_length; auto. intros El.
        eapply tri_post; [apply tri_rest_slice; [exact Hv|apply Hz, El]|].
        intros v (vs & -> & Hvs). apply list_valid, Hvs.
    - (* array *)
      destruct IH as (IH & _ & _).
      assert (Hslow : forall j' j, calm LDefault (TArr t n) -> consumes t j' -> j <= j' * N.of_nat n ->
        tri j (mmap VSeq (repeatM (read t) n)) (valid (TArr t n))).
      { intros j' j [_ Hc] Hj' Hle.
        eapply tri_map; [eapply tri_le; [apply tri_repeat, IH; eassumption|exact Hle]|]. intros vs Hvs. exact Hvs. }
      split; [|split; [|intros; discriminate]].
      + intros j Hc Hj. cbn [ReadImpl.read]. unfold read_array. destruct (is_prim h t) eqn:Ep.
        * destruct Hc as [Hcv _]. destruct (Hcv Ep) as [Hi Hcc].
          eapply tri_le; [eapply tri_then; [apply SF|]|].
          -- cbn beta. intros bs Hb.
             assert (Hraw : Forall (valid t) (map (mem_read h t) (chunks (N.to_nat (size t)) n bs)))
               by (apply raw_valid; [apply image_numeric, Hi|exact Hb]).
             eapply tri_map; [apply tri_lift with (Q := fun vs => Forall (valid t) vs /\ length vs = n)|intros vs Hvs; exact Hvs].
             pose proof (conv_list t _ Hi Hraw Hcc) as H.
             destruct (rmapM (conv h e t) _) as [us| |]; [|exact I|exact H].
             rewrite map_length, chunks_length in H. exact H.
          -- destruct Hj as [->|[[Hm _] ->]]; [lia|]. cbn [min_bytes]. specialize (Hm Ep). nia.
        * destruct Hj as [->|[[_ Hm] ->]]; [eapply (Hslow 0); [exact Hc|left; reflexivity|lia]|].
          eapply (Hslow (min t)); [exact Hc|right; auto|]. cbn [min_bytes]. lia.
      + intros a prev j Hc Hj. cbn [is_container] in *. destruct Hj as (j' & Hj' & ->). eapply Hslow; eauto. lia.
    - (* borrowed array *)
      assert (H : forall j, calm LDefault (TRefArr t n) -> consumes (TRefArr t n) j ->
                  tri j (read (TRefArr t n)) (valid (TRefArr t n))).
      { intros j [Hn Ha] Hj. cbn [ReadImpl.read]. unfold read_ref_array. apply tri_guard.
        eapply tri_le; [eapply tri_then; [apply tri_borrowed|]|].
        - cbn beta. intros p [H1 H2]. apply tri_cast; [exact Ha|exact Hn|]. cbn [Spec.valid]. rewrite Nat2N.id.
          split; [apply raw_valid; [exact Hn|lia]|]. rewrite map_length. apply chunks_length.
        - destruct Hj as [->|[_ ->]]; cbn [min_bytes]; lia. }
      split; [exact H|split; [|intros; discriminate]]. apply inner_plain; [reflexivity|discriminate|exact H].
    - (* option *)
      destruct IH as (IH & Hi & _).
      assert (H : forall j, calm LDefault (TOption t) -> consumes (TOption t) j ->
                  tri j (read (TOption t)) (valid (TOption t))).
      { intros j Hc Hj. cbn [ReadImpl.read]. eapply tri_le; [eapply tri_then; [apply tri_u8|]|].
        - intros x _. destruct (x =? 0); [apply tri_ret; exact I|].
          eapply tri_map; [apply IH; [exact Hc|left; reflexivity]|]. intros v Hv. exact Hv.
        - destruct Hj as [->|[_ ->]]; cbn [min_bytes]; lia. }
      split; [exact H|split].
      + apply inner_plain; [reflexivity|discriminate|exact H].
      + intros t' E. injection E as <-. exact Hi.
    - (* result *)
      destruct IH1 as (IH1 & _). destruct IH2 as (IH2 & _).
      assert (H : forall j, calm LDefault (TResult t1 t2) -> consumes (TResult t1 t2) j ->
                  tri j (read (TResult t1 t2)) (valid (TResult t1 t2))).
      { intros j [Hc1 Hc2] Hj. cbn [ReadImpl.read]. eapply tri_le; [eapply tri_then; [apply tri_u8|]|].
        - intros x _. destruct (x =? 0).
          + eapply tri_map; [apply IH2; [exact Hc2|left; reflexivity]|]. intros v Hv. exact Hv.
          + eapply tri_map; [apply IH1; [exact Hc1|left; reflexivity]|]. intros v Hv. exact Hv.
        - destruct Hj as [->|[_ ->]]; cbn [min_bytes]; lia. }
      split; [exact H|split; [|intros; discriminate]]. apply inner_plain; [reflexivity|discriminate|exact H].
    - (* tuple *)
      assert (H : forall j, calm LDefault (TTuple ts) -> consumes (TTuple ts) j ->
                  tri j (read (TTuple ts)) (valid (TTuple ts))).
      { intros j Hc Hj. cbn [ReadImpl.read]. eapply tri_map with (Q := valid_list valid ts); [|intros vs Hvs; exact Hvs].
        unfold consumes in Hj. cbn [Safe.calm least min_bytes] in Hc, Hj. revert j Hj.
        induction IH as [|t r IHt IHr IHl]; intros j Hj; cbn [read_tuple].
        - eapply tri_le; [apply tri_ret; exact I|]. destruct Hj as [->|[_ ->]]; cbn; lia.
        - destruct Hc as [Hc Hcr].
          assert (Hsplit : exists j1 j2, j = j1 + j2 /\ consumes t j1 /\ (j2 = 0 \/ all_tys (least h) r /\ j2 = nsum (map min r))).
          { destruct Hj as [->|[[H1 H2] ->]]; [exists 0, 0; unfold consumes; auto|].
            exists (min t), (nsum (map min r)). unfold consumes; auto. }
          destruct Hsplit as (j1 & j2 & -> & Hj1 & Hj2).
          eapply tri_bind; [apply IHt; eassumption|]. intros v Hv.
          eapply tri_then; [apply IHl; eassumption|]. intros vs Hvs. apply tri_ret. cbn [valid_list]. auto. }
      split; [exact H|split; [|intros; discriminate]]. apply inner_plain; [reflexivity|discriminate|exact H].
    - (* range *)
      destruct IH as (IH & _).
      assert (H : forall j, calm LDefault (TRange i t) -> consumes (TRange i t) j ->
                  tri j (read (TRange i t)) (valid (TRange i t))).
      { intros j Hc Hj. cbn [ReadImpl.read].
        assert (Hj1 : exists j', consumes t j' /\ j <= j' + j').
        { destruct Hj as [->|[Hm ->]]; [exists 0; split; [left; reflexivity|lia]|].
          exists (min t). split; [right; split; [exact Hm|reflexivity]|]. cbn [min_bytes]. lia. }
        destruct Hj1 as (j' & Hj' & Hle).
        eapply tri_bind'; [apply IH; eassumption| |exact Hle]. intros x Hx.
        eapply tri_then; [apply IH; eassumption|]. intros y Hy. apply tri_ret. destruct i; cbn [Spec.valid]; auto. }
      split; [exact H|split; [|intros; discriminate]]. apply inner_plain; [reflexivity|discriminate|exact H].
    - (* set *)
      destruct IH as (IH & _).
      assert (Hcnt : forall lm n, calm lm (TSet k t) -> possible_length h lm n ->
         tri 0 (read_collection h R k id t (read t) n) (valid (TSet k t))).
      { intros lm n (Hlo & He & _ & Hc) Hn. eapply tri_post; [eapply tri_collection; [exact He|]|].
        - apply IH; [exact Hc|left; reflexivity].
        - intros v. apply set_valid, (possible_small lm); assumption. }
      assert (H : forall j, calm LDefault (TSet k t) -> consumes (TSet k t) j ->
                  tri j (read (TSet k t)) (valid (TSet k t))).
      { intros j Hc Hj. cbn [ReadImpl.read]. eapply tri_le; [apply tri_default_length|].
        - intros n Hn. exact (Hcnt LDefault n Hc Hn).
        - destruct Hj as [->|[_ ->]]; cbn [min_bytes]; lia. }
      split; [exact H|split; [|intros; discriminate]].
      destruct k; try (apply inner_plain; [reflexivity|discriminate|exact H]);
        intros a prev j Hc Hj; cbn [is_container] in *; pose proof (fun n => Hcnt (f_len a) n Hc) as Hcn;
        destruct Hc as (Hlo & He & Hends & Hc); cbn [read_field_inner]; apply tri_with_length; auto;
        intros El; (eapply tri_then; [apply tri_until_type; [intros; apply IH; assumption|apply Hends, El]|]);
        intros vs [Hvs Hl]; apply tri_ret; (eapply set_valid; [|apply collect_ok; [exact Hvs|reflexivity]]); lia.
    - (* map *)
      destruct IHk as (IHk & _). destruct IHv as (IHv & _).
      assert (Hcnt : forall lm n, calm lm (TMap k tk tv) -> possible_length h lm n ->
         tri 0 (read_map h R k tk tv (read tk) (read tv) n) (valid (TMap k tk tv))).
      { intros lm n (Hlo & He & _ & Hc1 & Hc2) Hn. eapply tri_post; [eapply tri_map_impl; [exact He| |]|].
        - apply IHk; [exact Hc1|left; reflexivity].
        - apply IHv; [exact Hc2|left; reflexivity].
        - intros v. apply map_valid, (possible_small lm); assumption. }
      assert (H : forall j, calm LDefault (TMap k tk tv) -> consumes (TMap k tk tv) j ->
                  tri j (read (TMap k tk tv)) (valid (TMap k tk tv))).
      { intros j Hc Hj. cbn [ReadImpl.read]. eapply tri_le; [apply tri_default_length|].
        - intros n Hn. exact (Hcnt LDefault n Hc Hn).
        - destruct Hj as [->|[_ ->]]; cbn [min_bytes]; lia. }
      split; [exact H|split; [|intros; discriminate]].
      assert (Hun : forall lm, lm = LEof -> calm lm (TMap k tk tv) ->
        tri 0 (vs <- read_until_eof R (read_pair (read tk) (read tv)) ;; ret (VSeq (collect k pair_key vs)))
            (valid (TMap k tk tv))).
      { intros lm El (Hlo & He & Hends & Hc1 & Hc2).
        assert (Hp : exists j, tri j (read_pair (read tk) (read tv)) (valid_pair (valid tk) (valid tv)) /\ (allow Diverges \/ 0 < j)).
        { assert (Hx : exists j1 j2, consumes tk j1 /\ consumes tv j2 /\ (allow Diverges \/ 0 < j1 + j2)).
          { destruct (Hends El) as [[Hd|[Hm Hlt]]|[Hd|[Hm Hlt]]].
            - exists 0, 0. unfold consumes. auto.
            - exists (min tk), 0. unfold consumes. repeat split; auto. right. lia.
            - exists 0, 0. unfold consumes. auto.
            - exists 0, (min tv). unfold consumes. repeat split; auto. }
          destruct Hx as (j1 & j2 & H1 & H2 & Hd). exists (j1 + j2). split; [|exact Hd].
          apply tri_pair; [apply IHk|apply IHv]; assumption. }
        destruct Hp as (j & Hp & Hd). eapply tri_then; [apply (tri_until j); [exact Hp|exact Hd]|].
        intros vs (Hvs & Hl & _). apply tri_ret. eapply map_valid; [|apply collect_ok; [exact Hvs|reflexivity]]. lia. }
      destruct k; try (apply inner_plain; [reflexivity|discriminate|exact H]);
        intros a prev j Hc Hj; cbn [is_container] in *; pose proof (fun n => Hcnt (f_len a) n Hc) as Hcn;
        cbn [read_field_inner]; (apply tri_with_length; [apply Hc|exact Hj|exact Hcn|]);
        intros El; exact (Hun _ El Hc).
    - (* box *)
      destruct IH as (IH & _).
      assert (H : forall j, calm LDefault (TBox t) -> consumes (TBox t) j ->
                  tri j (read (TBox t)) (valid (TBox t))) by exact IH.
      split; [exact H|split; [|intros; discriminate]]. apply inner_plain; [reflexivity|discriminate|exact H].
    - (* struct *)
      assert (H : forall j, calm LDefault (TStruct d fs) -> consumes (TStruct d fs) j ->
                  tri j (read (TStruct d fs)) (valid (TStruct d fs))).
      { intros j Hc Hj. cbn [ReadImpl.read]. eapply tri_map; [apply tri_fields; eassumption|]. intros vs Hvs. exact Hvs. }
      split; [exact H|split; [|intros; discriminate]]. apply inner_plain; [reflexivity|discriminate|exact H].
    - (* enum *)
      assert (H : forall j, calm LDefault (TEnum d vs) -> consumes (TEnum d vs) j ->
                  tri j (read (TEnum d vs)) (valid (TEnum d vs))).
      { intros j Hc Hj. cbn [ReadImpl.read].
        assert (Hx : exists j', j <= (if e_peek d then 0 else basic_size (e_tag d)) + j' /\
          (j' = 0 \/ all_variants (fun fs => all_fields (field_minok (least h)) fs /\ j' <= nsum (map (field_min min) fs)) vs)).
        { unfold consumes in Hj. cbn [least min_bytes] in Hj. rewrite fold_min_0 in Hj. destruct (e_peek d).
          - destruct Hj as [->|[Hm ->]]; [exists 0; split; [lia|auto]|]. exists (basic_size (e_tag d)). split; [lia|right; exact Hm].
          - exists 0. split; [|auto]. destruct Hj as [->|[_ ->]]; lia. }
        destruct Hx as (j' & Hle & Hj').
        eapply tri_bind'; [apply tri_tag| |exact Hle]. intros tag _.
        eapply tri_post; [apply (tri_variant tag vs IH Hc j' 0%nat vs Hj'); auto|].
        intros v (i & us & -> & Hus). exact Hus. }
      split; [exact H|split; [|intros; discriminate]]. apply inner_plain; [reflexivity|discriminate|exact H].
    - (* end of an unrolling *)
      assert (H : forall j, calm LDefault TBot -> consumes TBot j ->
                  tri j (read TBot) (valid TBot)).
      { intros j Hc _. apply tri_crash, Hc. }
      split; [exact H|split; [|intros; discriminate]]. apply inner_plain; [reflexivity|discriminate|exact H].
  Qed.

  (** Reading a value: valid, as long as promised, with the allowed faults only. *)
  Theorem read_safe t k : calm LDefault t -> consumes t k -> tri k (read t) (valid t).
  Proof. intros. apply tri_all; assumption. Qed.
End Safe.
