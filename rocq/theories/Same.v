(* Values of different types that are the same data.  The relation says nothing
   about bytes; that the encodings are equal is proved below ([same_enc]). *)
From Verif Require Import Spec SpecFacts EncFacts BaseFacts.
From Coq Require Import Permutation.

(** A byte as a number. *)
Definition number (b : byte) : val := VInt (Z.of_N (b2n b)).

(** How many bytes a number takes on the wire, whatever type it is of; [None]: not of a
    fixed width, or not a number. *)
Definition width (s : scalar) : option nat :=
  match s with
  | SPrim p | SNonZero p | SAtomic p => Some (psize p)
  | SUsize => Some 8%nat
  | SChar => Some 4%nat
  | _ => None
  end.

Definition prim_of (s : scalar) : option prim :=
  match s with SPrim p | SNonZero p | SAtomic p => Some p | _ => None end.

Definition key_and_value (v : val) : Prop := exists a b, v = VSeq [a; b].

(** No attribute that shows on the wire. *)
Definition bare_field (f : fattrs * ty) : Prop :=
  f_skip (fst f) = false /\ f_varint (fst f) = false /\ f_prefix (fst f) = []
  /\ (f_len (fst f) = LDefault \/ f_len (fst f) = LType BU32).

(** The length of a field is given in the same way. *)
Definition same_lengths (prev prev' : list (option Z)) (a a' : fattrs) (t t' : ty) (l : lenspec) : Prop :=
  field_len false prev a t = l /\ field_len false prev' a' t' = l.

Section Same.
  (** The iteration order of hash tables. *)
  Context (it : list val -> list val).

  (** [same l t v t' v']: the value [v] of the type [t] is the same data as the value
      [v'] of the type [t']; [l] is how the length of a container is given. *)
  Inductive same : lenspec -> ty -> val -> ty -> val -> Prop :=
  | same_refl l t v : same l t v t v
  | same_sym l t v t' v' : same l t v t' v' -> same l t' v' t v
  | same_trans l t v t' v' t'' v'' : same l t v t' v' -> same l t' v' t'' v'' -> same l t v t'' v''
  (* numbers, whether `NonZero`, atomic, signed, `usize` or `char` *)
  | same_number l s s' z w : width s = Some w -> width s' = Some w -> (0 <= z < 2 ^ Z.of_nat (8 * w))%Z ->
      same l (TScalar s) (VInt z) (TScalar s') (VInt z)
  (* two's complement *)
  | same_signed l s s' p p' z k : prim_of s = Some p -> prim_of s' = Some p' -> psize p = psize p' ->
      same l (TScalar s) (VInt z) (TScalar s') (VInt (z + k * 2 ^ Z.of_nat (8 * psize p)))
  | same_bool l b : same l (TScalar SBool) (VBool b) (TP U8) (VInt (if b then 1 else 0)%Z)
  | same_ipv4 l a b c d : same l (TScalar SIpv4) (VBytes [a; b; c; d]) (TP U32)
      (VInt (Z.of_N (b2n d + 256 * (b2n c + 256 * (b2n b + 256 * b2n a)))))
  | same_ipaddr l d : e_tag d = BU8 -> e_peek d = false ->
      forall i b, (i = 0 \/ i = 1)%nat ->
      same l (TScalar SIpAddr) (VVar i [VBytes b])
        (TEnum d [(0, [(plain, TScalar SIpv4)]); (1, [(plain, TScalar SIpv6)])]) (VVar i [VBytes b])
  | same_duration l secs nanos :
      same l (TScalar SDuration) (VSeq [VInt secs; VInt nanos]) (TTuple [TP U64; TP U32]) (VSeq [VInt secs; VInt nanos])
  | same_systime l secs nanos : (0 <= secs)%Z ->
      same l (TScalar SSystemTime) (VSeq [VInt secs; VInt nanos]) (TScalar SDuration) (VSeq [VInt secs; VInt nanos])
  | same_datetime l secs nanos :
      same l (TScalar SDateTime) (VSeq [VInt secs; VInt nanos]) (TTuple [TP I64; TP U32]) (VSeq [VInt secs; VInt nanos])
  | same_uuid l b : same l (TScalar SUuid) (VBytes b) (TArr (TP U8) 16) (VSeq (map number b))
  | same_glam l p n vs : Forall (fun v => exists z, v = VInt z) vs ->
      same l (TScalar (SGlam p n)) (VSeq vs) (TArr (TP p) n) (VSeq vs)
  | same_unit l : same l (TScalar SUnit) VUnit (TTuple []) (VSeq [])
  (* strings, slices, sets and maps *)
  | same_str l k k' b : same l (TStr k) (VBytes b) (TStr k') (VBytes b)
  | same_bytes l k k' b : same l (TStr k) (VBytes b) (TSeq k' (TP U8)) (VSeq (map number b))
  | same_seq l k k' t t' vs vs' : same_all t t' vs vs' -> same l (TSeq k t) (VSeq vs) (TSeq k' t') (VSeq vs')
  | same_set l k t vs : same l (TSet k t) (VSeq vs) (TSeq KVec t) (VSeq (iter_order it k vs))
  | same_map l k tk tv vs : Forall key_and_value vs ->
      same l (TMap k tk tv) (VSeq vs) (TSeq KVec (TTuple [tk; tv])) (VSeq (iter_order it k vs))
  (* arrays, tuples, ranges, structs *)
  | same_array l t n vs : length vs = n -> same l (TArr t n) (VSeq vs) (TTuple (repeat t n)) (VSeq vs)
  | same_array_ref l t n vs : same l (TRefArr t n) (VSeq vs) (TArr t n) (VSeq vs)
  | same_range l i t a b r : same l (TRange i t) (VSeq (a :: b :: r)) (TTuple [t; t]) (VSeq [a; b])
  | same_tuple l ts ts' vs vs' : same_each ts ts' vs vs' -> same l (TTuple ts) (VSeq vs) (TTuple ts') (VSeq vs')
  | same_newtype t v : same len0 (TTuple [t]) (VSeq [v]) t v
  | same_plain l d fs vs : Forall bare_field fs -> same l (TStruct d fs) (VSeq vs) (TTuple (map snd fs)) (VSeq vs)
  | same_struct l d d' fs fs' vs vs' : same_fields [] [] fs fs' vs vs' ->
      same l (TStruct d fs) (VSeq vs) (TStruct d' fs') (VSeq vs')
  (* boxes, options, results *)
  | same_box t v : same len0 (TBox t) v t v
  | same_boxes l t t' v v' : same len0 t v t' v' -> same l (TBox t) v (TBox t') v'
  | same_none l t t' : same l (TOption t) VNone (TOption t') VNone
  | same_some l t t' v v' : same l t v t' v' -> same l (TOption t) (VSome v) (TOption t') (VSome v')
  | same_ok l t t' u u' v v' : same len0 t v t' v' -> same l (TResult t u) (VOk v) (TResult t' u') (VOk v')
  | same_err l t t' u u' v v' : same len0 u v u' v' -> same l (TResult t u) (VErr v) (TResult t' u') (VErr v')
  | same_some_ok t v : same len0 (TOption t) (VSome v) (TResult t (TScalar SUnit)) (VOk v)
  | same_none_err l t : same l (TOption t) VNone (TResult t (TScalar SUnit)) (VErr VUnit)
  (* variants with the same tag *)
  | same_variant l d d' vs vs' i j tag fs fs' us us' :
      e_tag d = e_tag d' -> e_peek d = e_peek d' ->
      nth_error vs i = Some (tag, fs) -> nth_error vs' j = Some (tag, fs') ->
      same_fields [] [] fs fs' us us' -> same l (TEnum d vs) (VVar i us) (TEnum d' vs') (VVar j us')
  with same_all : ty -> ty -> list val -> list val -> Prop :=
  | same_nil t t' : same_all t t' [] []
  | same_cons t t' v v' vs vs' : same len0 t v t' v' -> same_all t t' vs vs' -> same_all t t' (v :: vs) (v' :: vs')
  with same_each : list ty -> list ty -> list val -> list val -> Prop :=
  | same_each_nil : same_each [] [] [] []
  | same_each_cons t t' ts ts' v v' vs vs' :
      same len0 t v t' v' -> same_each ts ts' vs vs' -> same_each (t :: ts) (t' :: ts') (v :: vs) (v' :: vs')
  (* fields, after the numbers [prev] and [prev'] *)
  with same_fields : list (option Z) -> list (option Z) -> fields -> fields -> list val -> list val -> Prop :=
  | same_fields_nil prev prev' : same_fields prev prev' [] [] [] []
  | same_fields_skip prev prev' a t v fs fs' vs vs' : f_skip a = true ->
      same_fields prev prev' fs fs' vs vs' -> same_fields prev prev' ((a, t) :: fs) fs' (v :: vs) vs'
  | same_fields_skip' prev prev' a t v fs fs' vs vs' : f_skip a = true ->
      same_fields prev prev' fs fs' vs vs' -> same_fields prev prev' fs ((a, t) :: fs') vs (v :: vs')
  | same_fields_cons prev prev' a a' t t' l v v' fs fs' vs vs' :
      f_skip a = false -> f_skip a' = false -> f_varint a = false -> f_varint a' = false -> f_prefix a = f_prefix a' ->
      same_lengths prev prev' a a' t t' l -> same l t v t' v' ->
      same_fields (prev ++ [proj v]) (prev' ++ [proj v']) fs fs' vs vs' ->
      same_fields prev prev' ((a, t) :: fs) ((a', t') :: fs') (v :: vs) (v' :: vs')
  | same_fields_varint prev prev' a a' t v fs fs' vs vs' :
      f_skip a = false -> f_skip a' = false -> f_varint a = true -> f_varint a' = false -> f_prefix a = f_prefix a' ->
      same_fields (prev ++ [proj v]) (prev' ++ [proj v]) fs fs' vs vs' ->
      same_fields prev prev' ((a, t) :: fs) ((a', TScalar SVarint) :: fs') (v :: vs) (v :: vs')
  (* a count in a field of its own is a length prefix *)
  | same_fields_count prev prev' a a' b b' t p n v fs fs' vs vs' :
      f_skip a = false -> f_varint a = false -> f_skip b = false -> f_varint b = false -> f_prefix b = [] ->
      f_skip a' = false -> f_varint a' = false -> f_prefix a' = f_prefix a ->
      is_container t = true -> (match v with VBytes x => nlen x | VSeq x => nlen x | _ => 0 end) = n ->
      In (p, b') [(U8, BU8); (U16, BU16); (U32, BU32); (U64, BU64)] -> n < 256 ^ N.of_nat (psize p) ->
      field_len false (prev ++ [Some (Z.of_N n)]) b t = LenFixed (Some n) ->
      field_len false prev' a' t = LenPrefix b' false ->
      same_fields (prev ++ [Some (Z.of_N n); proj v]) (prev' ++ [proj v]) fs fs' vs vs' ->
      same_fields prev prev' ((a, TP p) :: (b, t) :: fs) ((a', t) :: fs') (VInt (Z.of_N n) :: v :: vs) (v :: vs').
End Same.

Scheme same_ind' := Minimality for same Sort Prop
  with same_all_ind' := Minimality for same_all Sort Prop
  with same_each_ind' := Minimality for same_each Sort Prop
  with same_fields_ind' := Minimality for same_fields Sort Prop.
Combined Scheme same_mutind from same_ind', same_all_ind', same_each_ind', same_fields_ind'.

(* ------------------------------------------------------------------ *)
(** * The same data has the same encoding *)

Section Encodings.
  Context (it : list val -> list val) (Hit : forall l, Permutation (it l) l) (e e6 : endian).
  Notation enc := (enc it e e6).
  Notation same := (same it).

  Lemma iter_perm k vs : Permutation (iter_order it k vs) vs.
  Proof. destruct k; cbn; auto. Qed.

  Lemma nlen_iter k vs : nlen (iter_order it k vs) = nlen vs.
  Proof. unfold nlen. f_equal. apply Permutation_length, iter_perm. Qed.

  Lemma pmod_pow p : Z.of_N (pmod p) = (2 ^ Z.of_nat (8 * psize p))%Z.
  Proof. destruct p; reflexivity. Qed.

  Lemma enc_number s z w : width s = Some w -> (0 <= z < 2 ^ Z.of_nat (8 * w))%Z ->
    enc_scalar e e6 s (VInt z) = Ok (word e w (Z.to_N z)).
  Proof.
    intros Hw Hz.
    assert (Hp : forall p, psize p = w -> enc_prim e p z = word e w (Z.to_N z)).
    { intros p <-. unfold enc_prim, Types.to_bits. rewrite pmod_pow, Z.mod_small by exact Hz. reflexivity. }
    destruct s; try discriminate Hw; injection Hw as Hw; cbn [enc_scalar]; try (rewrite Hp by exact Hw; reflexivity);
      rewrite <- Hw; reflexivity.
  Qed.

  Lemma enc_signed s p z : prim_of s = Some p -> enc_scalar e e6 s (VInt z) = Ok (enc_prim e p z).
  Proof. destruct s; try discriminate; intros [= ->]; reflexivity. Qed.

  Lemma enc_byte b : enc_prim e U8 (Z.of_N (b2n b)) = [b].
  Proof.
    unfold enc_prim. change (psize U8) with 1%nat. rewrite word1. f_equal.
    unfold Types.to_bits. destruct b; reflexivity.
  Qed.

  Lemma enc_numbers b : enc_all (enc len0 (TP U8)) (map number b) = Ok b.
  Proof.
    induction b as [|x b IH]; [reflexivity|]. cbn [map]. rewrite enc_all_cons, IH.
    unfold number at 1. cbn [Spec.enc enc_scalar]. unfold TP. cbn [Spec.enc enc_scalar]. rewrite enc_byte. reflexivity.
  Qed.

  Lemma enc_pairs tk tv vs : Forall key_and_value vs ->
    enc_all (enc_pair (enc len0 tk) (enc len0 tv)) vs = enc_all (enc len0 (TTuple [tk; tv])) vs.
  Proof.
    induction 1 as [|v vs (a & b & ->) _ IH]; [reflexivity|]. rewrite !enc_all_cons, IH. f_equal.
    cbn [Spec.enc enc_pair enc_tuple]. rewrite rapp_nil_r. reflexivity.
  Qed.

  Lemma enc_repeat t vs : enc_all (enc len0 t) vs = enc_tuple (enc len0) (repeat t (length vs)) vs.
  Proof. induction vs as [|v vs IH]; [reflexivity|]. rewrite enc_all_cons, IH. reflexivity. Qed.

  Lemma enc_glam p vs : Forall (fun v => exists z, v = VInt z) vs ->
    rmapM (fun v => match v with VInt z => Ok (enc_prim e p z) | _ => Fault IllTyped end) vs
    = rmapM (enc len0 (TP p)) vs.
  Proof. induction 1 as [|v vs (z & ->) _ IH]; [reflexivity|]. cbn [rmapM]. rewrite IH. reflexivity. Qed.

  Lemma bare_len f prev : bare_field f -> field_len false prev (fst f) (snd f) = len0.
  Proof. intros (_ & _ & _ & [E|E]); unfold field_len; rewrite E; destruct (sized_field _ _); reflexivity. Qed.

  Lemma enc_bare fs : Forall bare_field fs -> forall prev vs,
    enc_fields e e6 enc prev fs vs = enc_tuple (enc len0) (map snd fs) vs.
  Proof.
    induction 1 as [|f fs Hf _ IH]; intros prev vs; [destruct vs; reflexivity|].
    destruct vs as [|v vs]; [reflexivity|]. cbn [enc_fields enc_tuple map].
    pose proof (bare_len f prev Hf) as Hl. destruct Hf as (H1 & H2 & H3 & _).
    rewrite H1. unfold enc_field. rewrite H2, H3, Hl.
    rewrite rmap_app, rapp_nil_l. f_equal. apply IH.
  Qed.

  Lemma enc_variant_nth d vs : forall i us tag fs, nth_error vs i = Some (tag, fs) ->
    enc_variant e e6 d enc vs i us
    = rmap (app (if e_peek d then [] else enc_basic e (e_tag d) tag)) (enc_fields e e6 enc [] fs us).
  Proof.
    induction vs as [|v vs IH]; intros [|i] us tag fs; try discriminate.
    - intros [= ->]. reflexivity.
    - exact (IH i us tag fs).
  Qed.

  Lemma enc_counted b n t v : is_container t = true ->
    (match v with VBytes x => nlen x | VSeq x => nlen x | _ => 0 end) = n -> n <= basic_max b ->
    enc (LenPrefix b false) t v = rapp (Ok (enc_basic e b n)) (enc (LenFixed (Some n)) t v).
  Proof.
    intros Ht Hn Hb. apply N.leb_le in Hb.
    destruct t; try discriminate Ht; destruct v; try reflexivity;
      cbn [Spec.enc enc_len]; rewrite Hn, Hb, N.eqb_refl, rapp_nil_l; reflexivity.
  Qed.

  Lemma enc_ipv4 a b c d :
    octets e [a; b; c; d] = word e 4 (b2n d + 256 * (b2n c + 256 * (b2n b + 256 * b2n a))).
  Proof.
    transitivity (word e 4 (unword e (octets e [a; b; c; d]))).
    - symmetry. apply word_unword. destruct e; reflexivity.
    - f_equal. destruct e; cbn [unword octets rev app le_num]; lia.
  Qed.

  Lemma same_all_enc :
    (forall l t v t' v', same l t v t' v' -> enc l t v = enc l t' v')
    /\ (forall t t' vs vs', same_all it t t' vs vs' ->
          enc_all (enc len0 t) vs = enc_all (enc len0 t') vs' /\ nlen vs = nlen vs')
    /\ (forall ts ts' vs vs', same_each it ts ts' vs vs' -> enc_tuple (enc len0) ts vs = enc_tuple (enc len0) ts' vs')
    /\ (forall prev prev' fs fs' vs vs', same_fields it prev prev' fs fs' vs vs' ->
          enc_fields e e6 enc prev fs vs = enc_fields e e6 enc prev' fs' vs').
  Proof.
    apply same_mutind.
    - reflexivity.
    - intros. symmetry. assumption.
    - intros. etransitivity; eassumption.
    - intros l s s' z w Hs Hs' Hz. cbn [Spec.enc].
      rewrite (enc_number s z w), (enc_number s' z w) by assumption. reflexivity.
    - intros l s s' p p' z k Hs Hs' Hp. cbn [Spec.enc]. rewrite (enc_signed s p), (enc_signed s' p') by assumption.
      unfold enc_prim, Types.to_bits. rewrite !pmod_pow, <- Hp. rewrite Z.mod_add by (apply Z.pow_nonzero; lia). reflexivity.
    - intros l b. destruct b, e; reflexivity.
    - intros l a b c d. unfold TP. cbn [Spec.enc enc_scalar]. rewrite enc_ipv4. f_equal.
      set (n := b2n d + _). assert (Hn : n < 4294967296).
      { pose proof (b2n_lt a); pose proof (b2n_lt b); pose proof (b2n_lt c); pose proof (b2n_lt d). unfold n. lia. }
      unfold enc_prim, Types.to_bits. rewrite pmod_pow. change (psize U32) with 4%nat.
      change (2 ^ Z.of_nat (8 * 4))%Z with 4294967296%Z. rewrite Z.mod_small by lia. rewrite N2Z.id. reflexivity.
    - intros l d Hd Hp i b [-> | ->]; cbn; rewrite Hd, Hp; cbn [enc_basic]; rewrite ?word1; cbn; rewrite ?app_nil_r; reflexivity.
    - intros l secs nanos. cbn. rewrite app_nil_r. reflexivity.
    - intros l secs nanos Hs. cbn. destruct (Z.ltb_spec secs 0); [lia|reflexivity].
    - intros l secs nanos. cbn. rewrite app_nil_r. reflexivity.
    - intros l b. cbn [Spec.enc enc_scalar]. rewrite enc_numbers. reflexivity.
    - intros l p n vs Hv. cbn [Spec.enc enc_scalar]. rewrite (enc_glam p vs Hv). reflexivity.
    - reflexivity.
    - reflexivity.
    - intros l k k' b. cbn [Spec.enc]. rewrite enc_numbers. unfold nlen. rewrite map_length. reflexivity.
    - intros l k k' t t' vs vs' _ [E N]. cbn [Spec.enc]. rewrite E, N. reflexivity.
    - intros l k t vs. cbn [Spec.enc]. rewrite nlen_iter. reflexivity.
    - intros l k tk tv vs Hv. cbn [Spec.enc]. rewrite nlen_iter. f_equal. apply enc_pairs.
      apply Forall_forall. intros x Hx. rewrite Forall_forall in Hv. apply Hv, (Permutation_in _ (iter_perm k vs)), Hx.
    - intros l t n vs <-. cbn [Spec.enc]. apply enc_repeat.
    - reflexivity.
    - intros l i t a b r. cbn [Spec.enc enc_tuple]. rewrite rapp_nil_r. reflexivity.
    - intros l ts ts' vs vs' _ E. exact E.
    - intros t v. cbn [Spec.enc enc_tuple]. apply rapp_nil_r.
    - intros l d fs vs Hf. cbn [Spec.enc]. apply enc_bare, Hf.
    - intros l d d' fs fs' vs vs' _ E. exact E.
    - reflexivity.
    - intros l t t' v v' _ E. exact E.
    - reflexivity.
    - intros l t t' v v' _ E. cbn [Spec.enc]. rewrite E. reflexivity.
    - intros l t t' u u' v v' _ E. cbn [Spec.enc]. rewrite E. reflexivity.
    - intros l t t' u u' v v' _ E. cbn [Spec.enc]. rewrite E. reflexivity.
    - reflexivity.
    - reflexivity.
    - intros l d d' vs vs' i j tag fs fs' us us' Ht Hp Hi Hj _ E. cbn [Spec.enc].
      rewrite (enc_variant_nth d vs i us tag fs Hi), (enc_variant_nth d' vs' j us' tag fs' Hj), Ht, Hp, E. reflexivity.
    - split; reflexivity.
    - intros t t' v v' vs vs' _ E _ [E' N]. rewrite !enc_all_cons, E, E'. split; [reflexivity|].
      unfold nlen in *. cbn [length]. lia.
    - reflexivity.
    - intros t t' ts ts' v v' vs vs' _ E _ E'. cbn [enc_tuple]. rewrite E, E'. reflexivity.
    - reflexivity.
    - intros prev prev' a t v fs fs' vs vs' Hs _ E. cbn [enc_fields fst]. rewrite Hs. exact E.
    - intros prev prev' a t v fs fs' vs vs' Hs _ E. cbn [enc_fields fst]. rewrite Hs. exact E.
    - intros prev prev' a a' t t' l v v' fs fs' vs vs' H1 H2 H3 H4 H5 [H6 H7] _ E _ E'.
      cbn [enc_fields fst snd]. unfold enc_field. rewrite H1, H2, H3, H4, H5, H6, H7, E, E'. reflexivity.
    - intros prev prev' a a' t v fs fs' vs vs' H1 H2 H3 H4 H5 _ E.
      cbn [enc_fields fst snd]. unfold enc_field. rewrite H1, H2, H3, H4, H5, E. reflexivity.
    - intros prev prev' a a' b b' t p n v fs fs' vs vs' H1 H2 H3 H4 H5 H6 H7 H8 Ht Hn Hp Hl L L' _ E.
      cbn [enc_fields fst snd]. unfold enc_field. rewrite H1, H2, H3, H4, H5, H6, H7, H8.
      cbn [proj]. rewrite L, L'. rewrite <- app_assoc. cbn [app]. rewrite E.
      assert (Hb : n <= basic_max b') by
        (cbn in Hp; destruct Hp as [[= <- <-]|[[= <- <-]|[[= <- <-]|[[= <- <-]|[]]]]]; cbn [basic_max psize] in *;
         revert Hl; num_pow; lia).
      assert (Hw : enc (field_len false prev a (TP p)) (TP p) (VInt (Z.of_N n)) = Ok (enc_basic e b' n)).
      { unfold TP. cbn [Spec.enc]. rewrite (enc_number (SPrim p) _ (psize p)); [|reflexivity|].
        - rewrite N2Z.id. cbn in Hp. destruct Hp as [[= <- <-]|[[= <- <-]|[[= <- <-]|[[= <- <-]|[]]]]]; reflexivity.
        - cbn in Hp. destruct Hp as [[= <- <-]|[[= <- <-]|[[= <- <-]|[[= <- <-]|[]]]]]; cbn [psize] in *;
          revert Hl; num_pow; lia. }
      rewrite Hw, (enc_counted b' n t v Ht Hn Hb). rewrite !rmap_app, !rapp_assoc.
      destruct (enc (LenFixed (Some n)) t v); reflexivity.
  Qed.

  Theorem same_enc t v t' v' : same len0 t v t' v' -> encode it e e6 t v = encode it e e6 t' v'.
  Proof. apply (proj1 same_all_enc). Qed.
End Encodings.
