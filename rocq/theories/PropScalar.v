(* Properties C23, C39, C47, C48: scalars. *)
From Verif Require Import Entry Extend Samples.

(** The input ends too early. *)
Definition failed_short (bs : bytes) (r : res val) : Prop :=
  exists er, r = Err er
    /\ (is_eof er = true \/ exists m, nlen bs < m /\ er = InputBufferIsTooSmall (nlen bs) m).

(** Unicode scalar values: code points that are no surrogates. *)
Definition scalar_value (n : N) : Prop := n < 0xD800 \/ 0xE000 <= n < 0x110000.

Lemma ran_out_short bs r : ran_out r -> failed_short bs r.
Proof. intros (er & -> & H). exists er. auto. Qed.

Section Read.
  Context (h : host) (VH : valid_host h) (e : endian).
  Notation reading := (reading h e).

  Lemma scalar_agrees s bs bw r : reading (TScalar s) bs bw r ->
    too_small h (TScalar s) bs r
    \/ agrees (dec_scalar (h_lim h) e (ipv6_order h e) s (Some bs)) r.
  Proof. intros Hr. apply (reading_agrees h VH e (TScalar s) bs bw r I Hr). Qed.

  Lemma too_small_short t bs r : too_small h t bs r -> failed_short bs r.
  Proof. intros [H ->]. eexists. split; [reflexivity|]. right. eauto. Qed.

  (** A scalar that begins with a word. *)
  Lemma word_agrees s w k bs bw r : (0 < w)%nat ->
    (forall o, dec_scalar (h_lim h) e (ipv6_order h e) s o = dbind (dword e w) k o) ->
    reading (TScalar s) bs bw r ->
    (nlen bs < N.of_nat w /\ failed_short bs r)
    \/ (N.of_nat w <= nlen bs
        /\ (too_small h (TScalar s) bs r
            \/ agrees (k (unword e (ntake (N.of_nat w) bs)) (Some (ndrop (N.of_nat w) bs))) r)).
  Proof.
    intros Hw Hd Hr. pose proof (scalar_agrees s bs bw r Hr) as H. rewrite Hd in H.
    unfold dbind, dword, dmap, dbind, dread in H. destruct (N.eqb_spec (N.of_nat w) 0); [lia|].
    destruct (N.leb_spec (N.of_nat w) (nlen bs)) as [Hl|Hl].
    - right. split; [exact Hl|]. exact H.
    - left. split; [exact Hl|]. destruct H as [H|H]; [eapply too_small_short, H|apply ran_out_short, H].
  Qed.

  Lemma is_scalar_value n : is_scalar n = true <-> scalar_value n.
  Proof.
    unfold is_scalar, scalar_value.
    destruct (N.ltb_spec n 0xD800), (N.ltb_spec 0xDFFF n), (N.leb_spec n 0x10FFFF); cbn; split; intros; try discriminate; lia.
  Qed.

  (** C23, `char`: exactly the scalar values are accepted. *)
  Theorem C23_char bs bw r : reading (TScalar SChar) bs bw r ->
    let n := unword e (ntake 4 bs) in
    (nlen bs < 4 -> failed_short bs r)
    /\ (4 <= nlen bs -> scalar_value n -> r = Ok (VInt (Z.of_N n)))
    /\ (4 <= nlen bs -> ~ scalar_value n -> r = Err InvalidChar).
  Proof.
    intros Hr n. pose proof (word_agrees SChar 4 _ bs bw r ltac:(lia) (fun o => eq_refl) Hr) as H.
    change (N.of_nat 4) with 4 in H. fold n in H. destruct H as [[Hl H]|[Hl H]]; [split; [auto|split; intros; lia]|].
    split; [intros; lia|]. destruct H as [[H _]|H]; [change (min_bytes h (TScalar SChar)) with 4 in H; lia|].
    destruct (is_scalar n) eqn:E.
    - apply is_scalar_value in E. split; [|contradiction]. intros _ _. exact H.
    - split; [intros _ C; apply is_scalar_value in C; congruence|]. intros _ _.
      cbn in H. destruct H as [[-> _]|[C _]]; [reflexivity|discriminate].
  Qed.

  Lemma le_num_zero b : le_num b = 0 <-> Forall (eq x00) b.
  Proof.
    induction b as [|x b IH]; cbn [le_num]; [split; auto|]. split.
    - intros H. constructor; [|apply IH; lia]. assert (Hx : b2n x = 0) by lia.
      rewrite <- (n2b_b2n x), Hx. reflexivity.
    - intros H. inversion H as [|? ? <- H']. subst. apply IH in H'. rewrite H'. reflexivity.
  Qed.

  Lemma of_bits_zero p b : nlen b = N.of_nat (psize p) -> of_bits p (unword e b) = 0%Z <-> Forall (eq x00) b.
  Proof.
    intros Hl. assert (E : unword e b = 0 <-> Forall (eq x00) b).
    { destruct e; cbn [unword]; rewrite le_num_zero; [reflexivity|].
      split; intros H; [rewrite <- (rev_involutive b)|]; apply Forall_rev, H. }
    rewrite <- E. pose proof (unword_lt e b) as Hlt. rewrite Hl in Hlt. unfold of_bits.
    assert (Hm : pmod p = 256 ^ N.of_nat (psize p)) by (destruct p; reflexivity).
    destruct (psigned p && (pmod p / 2 <=? unword e b)) eqn:Es; [|lia].
    apply andb_true_iff in Es as [_ Es]. apply N.leb_le in Es.
    assert (0 < pmod p / 2) by (destruct p; vm_compute; reflexivity). lia.
  Qed.

  (** `NonZero`: exactly the byte strings that are not all zero. *)
  Theorem C23_nonzero p bs bw r : reading (TScalar (SNonZero p)) bs bw r ->
    let w := N.of_nat (psize p) in
    (nlen bs < w -> failed_short bs r)
    /\ (w <= nlen bs -> ~ Forall (eq x00) (ntake w bs) -> r = Ok (VInt (of_bits p (unword e (ntake w bs)))))
    /\ (w <= nlen bs -> Forall (eq x00) (ntake w bs) -> r = Err ZeroNonZero).
  Proof.
    intros Hr w.
    assert (Hw : (0 < psize p)%nat) by (destruct p; cbn; lia).
    pose proof (word_agrees (SNonZero p) (psize p)
      (fun n => if (of_bits p n =? 0)%Z then dbad ZeroNonZero else dret (VInt (of_bits p n))) bs bw r Hw) as H.
    destruct H as [[Hl H]|[Hl H]].
    - intros o. cbn [dec_scalar]. unfold dprim, dmap, dbind. destruct (dword e (psize p) o); reflexivity.
    - exact Hr.
    - split; [auto|split; intros; lia].
    - fold w in Hl, H |- *. split; [intros; lia|].
      destruct H as [[H _]|H]; [change (min_bytes h (TScalar (SNonZero p))) with w in H; lia|].
      pose proof (of_bits_zero p (ntake w bs)) as Hz. rewrite nlen_take in Hz. specialize (Hz ltac:(subst w; lia)).
      destruct (Z.eqb_spec (of_bits p (unword e (ntake w bs))) 0%Z) as [E|E].
      + split; [tauto|]. intros _ _. cbn in H. destruct H as [[-> _]|[C _]]; [reflexivity|discriminate].
      + split; [|tauto]. intros _ _. exact H.
  Qed.

  (** `Endianness`: tags 0 and 1. *)
  Theorem C23_endianness bs bw r : reading (TScalar SEndian) bs bw r ->
    match bs with
    | [] => failed_short bs r
    | b :: _ =>
      match b2n b with
      | 0 => r = Ok (VVar 0 [])
      | 1 => r = Ok (VVar 1 [])
      | _ => r = Err InvalidEnumVariant
      end
    end.
  Proof.
    intros Hr. pose proof (word_agrees SEndian 1 _ bs bw r ltac:(lia) (fun o => eq_refl) Hr) as H.
    destruct bs as [|b bs]; [destruct H as [[_ H]|[C _]]; [exact H|unfold nlen in C; cbn [length] in C; lia]|].
    assert (Hn : nlen (b :: bs) = 1 + nlen bs) by (unfold nlen; cbn [length]; lia).
    destruct H as [[C _]|[_ [[C _]|H]]]; [lia|change (min_bytes h (TScalar SEndian)) with 1 in C; lia|].
    change (ntake (N.of_nat 1) (b :: bs)) with [b] in H. rewrite unword1 in H.
    destruct (b2n b) as [|[q|q|]]; cbn in H; try exact H; destruct H as [[-> _]|[C _]]; try reflexivity; discriminate.
  Qed.

  (** `IpAddr`: tags 0 and 1; with a wrong tag no value is returned (an input
      shorter than the smallest address is refused before the tag is seen). *)
  Theorem C23_ipaddr b bs bw r : reading (TScalar SIpAddr) (b :: bs) bw r ->
    match b2n b with
    | 0 => failed_short (b :: bs) r \/ exists a, r = Ok (VVar 0 [VBytes a]) /\ length a = 4%nat
    | 1 => failed_short (b :: bs) r \/ exists a, r = Ok (VVar 1 [VBytes a]) /\ length a = 16%nat
    | _ => r = Err InvalidEnumVariant \/ (nlen (b :: bs) < 5 /\ failed_short (b :: bs) r)
    end.
  Proof.
    intros Hr. pose proof (word_agrees SIpAddr 1 _ (b :: bs) bw r ltac:(lia) (fun o => eq_refl) Hr) as H.
    assert (Hn : nlen (b :: bs) = 1 + nlen bs) by (unfold nlen; cbn [length]; lia).
    destruct H as [[C _]|[_ [C|H]]]; [lia| |].
    - pose proof (too_small_short _ _ _ C) as Hs. destruct C as [C _]. change (min_bytes h (TScalar SIpAddr)) with 5 in C.
      destruct (b2n b) as [|[q|q|]]; auto.
    - change (ntake (N.of_nat 1) (b :: bs)) with [b] in H. change (ndrop (N.of_nat 1) (b :: bs)) with bs in H.
      rewrite unword1 in H.
      assert (Hip : forall n i e0, 0 < n ->
        agrees ((b0 <-- dread n;; dret (VVar i [VBytes (octets e0 b0)])) (Some bs)) r ->
        failed_short (b :: bs) r \/ exists a, r = Ok (VVar i [VBytes a]) /\ nlen a = n).
      { intros n i e0 Hp Ha. unfold dbind, dread in Ha. destruct (N.eqb_spec n 0); [lia|].
        destruct (N.leb_spec n (nlen bs)).
        - right. exists (octets e0 (ntake n bs)). split; [exact Ha|].
          rewrite nlen_octets, nlen_take. lia.
        - left. apply ran_out_short, Ha. }
      destruct (b2n b) as [|[q|q|]]; cbn [N.eqb Pos.eqb] in H.
      + apply Hip in H as [H|(a & -> & Ha)]; [auto| |lia]. right. exists a. split; [reflexivity|unfold nlen in Ha; lia].
      + left. cbn in H. destruct H as [[-> _]|[C _]]; [reflexivity|discriminate].
      + left. cbn in H. destruct H as [[-> _]|[C _]]; [reflexivity|discriminate].
      + apply Hip in H as [H|(a & -> & Ha)]; [auto| |lia]. right. exists a. split; [reflexivity|unfold nlen in Ha; lia].
  Qed.

  Notation dvariant := (dvariant (h_lim h) e (ipv6_order h e)).

  Lemma dvariant_bad d tag vs : ~ In tag (map fst vs) -> forall i o,
    dvariant d tag i vs o = DBad InvalidEnumVariant true.
  Proof.
    induction vs as [|[g fs] vs IH]; intros H i o; cbn [dvariant]; [reflexivity|]. cbn in H |- *.
    destruct (N.eqb_spec g tag) as [->|]; [tauto|]. apply IH. tauto.
  Qed.

  (** Enums.  The tag is the number at the front of the input: fixed width or
      variable length according to [e_tag]. *)
  Definition front_tag (d : edecl) (bs : bytes) (tag : N) : Prop :=
    exists o, dbasic e (e_tag d) (Some bs) = DOk tag o.

  Lemma enum_agrees d vs bs bw r : supported h e bw true LDefault (TEnum d vs) ->
    reading (TEnum d vs) bs bw r -> forall tag, front_tag d bs tag ->
    too_small h (TEnum d vs) bs r
    \/ exists o, agrees (dvariant (decl (h_lim h) e (ipv6_order h e)) tag 0 vs o) r.
  Proof.
    intros Hs Hr tag (o & Ht). destruct (reading_agrees h VH e _ bs bw r Hs Hr) as [H|H]; [auto|right].
    unfold decode in H. cbn [decl] in H. unfold dbind, dpeek in H. destruct (e_peek d); rewrite Ht in H; eauto.
  Qed.

  Lemma read_variant_ok {St} (R : reader St) tag vs : forall i s v s',
    read_variant h R (read h R) tag i vs s = (Ok v, s') ->
    exists j us, v = VVar (i + j) us /\ option_map fst (nth_error vs j) = Some tag.
  Proof.
    induction vs as [|[g fs] vs IH]; intros i s v s' H; cbn [read_variant] in H; [discriminate|]. cbn [fst] in H.
    destruct (N.eqb_spec g tag) as [->|].
    - unfold mmap, bind in H. destruct (read_fields _ _ _ _ _ s) as [[us| |] s1]; try discriminate.
      cbn in H. injection H as <- _. exists 0%nat, us. rewrite Nat.add_0_r. split; reflexivity.
    - apply IH in H as (j & us & -> & E). exists (S j), us. split; [f_equal; lia|exact E].
  Qed.

  (** Only a variant whose tag was read. *)
  Theorem C23_enum d vs bs bw v : supported h e bw true LDefault (TEnum d vs) ->
    reading (TEnum d vs) bs bw (Ok v) ->
    exists i us tag, v = VVar i us /\ front_tag d bs tag /\ option_map fst (nth_error vs i) = Some tag.
  Proof.
    intros [Hp _] Hr. destruct (reading_via h VH e _ bs bw _ Hr) as [[_ C]|H]; [discriminate|].
    destruct H as (St & R & rep & io & s & OK & He & Hrep & Hio & _ & E).
    destruct (read h R (TEnum d vs) s) as [r s'] eqn:Er. cbn [fst] in E. subst r.
    cbn [read] in Er. unfold bind in Er.
    pose proof (read_tag_sim h R true rep io OK d Hp s (Some bs) Hrep) as Ht.
    destruct (read_tag h R d s) as [[tag| |] s1]; try discriminate. cbn [fst snd] in Ht.
    destruct (read_variant_ok R tag vs 0 s1 v s' Er) as (j & us & -> & Hj).
    exists j, us, tag. split; [reflexivity|]. split; [|exact Hj]. rewrite He in Ht.
    destruct Ht as [(er & C & _)|Ht]; [discriminate|].
    unfold front_tag, dpeek in *. destruct (e_peek d), (dbasic e (e_tag d) (Some bs)) as [n o| |er sure|f sure|] eqn:Ed; cbn in Ht.
    1,6: destruct Ht as [Ht _]; injection Ht as <-; eauto.
    1,5: destruct Ht as (er & C & _); discriminate.
    1,4: destruct Ht as [[C _]|[_ (er' & C & _)]]; discriminate.
    1,3: destruct Ht as [C|[_ (er' & C & _)]]; discriminate.
    all: exfalso; destruct (mono_basic e (e_tag d) bs) as [C|(_ & C & _)]; congruence.
  Qed.

  (** Any other tag is refused. *)
  Theorem C23_enum_unknown d vs bs bw r tag : supported h e bw true LDefault (TEnum d vs) ->
    reading (TEnum d vs) bs bw r -> front_tag d bs tag -> ~ In tag (map fst vs) ->
    r = Err InvalidEnumVariant \/ too_small h (TEnum d vs) bs r.
  Proof.
    intros Hs Hr Ht Hin. destruct (enum_agrees d vs bs bw r Hs Hr tag Ht) as [H|[o H]]; [auto|left].
    rewrite dvariant_bad in H by exact Hin. cbn in H.
    destruct H as [[-> _]|[C _]]; [reflexivity|discriminate].
  Qed.

  (* ---------------------------------------------------------------- *)
  (** ** usize *)

  (** C39: what is read is the 64-bit number, or an error. *)
  Theorem C39_read bs bw r : reading (TScalar SUsize) bs bw r ->
    let n := unword e (ntake 8 bs) in
    (nlen bs < 8 -> failed_short bs r)
    /\ (8 <= nlen bs -> n <= l_usize_max (h_lim h) -> r = Ok (VInt (Z.of_N n)))
    /\ (8 <= nlen bs -> l_usize_max (h_lim h) < n -> r = Err OutOfRangeUsize).
  Proof.
    intros Hr n. pose proof (word_agrees SUsize 8 _ bs bw r ltac:(lia) (fun o => eq_refl) Hr) as H.
    change (N.of_nat 8) with 8 in H. fold n in H. destruct H as [[Hl H]|[Hl H]]; [split; [auto|split; intros; lia]|].
    split; [intros; lia|]. destruct H as [[H _]|H]; [change (min_bytes h (TScalar SUsize)) with 8 in H; lia|].
    destruct (N.leb_spec n (l_usize_max (h_lim h))); (split; intros; [try lia|try lia]).
    - exact H.
    - cbn in H. destruct H as [[-> _]|[C _]]; [reflexivity|discriminate].
  Qed.

  Lemma u64_ok n : n < 2 ^ 64 -> prim_ok U64 (Z.of_N n) = true.
  Proof. intros. unfold prim_ok. cbn [psigned]. change (pmod U64) with (2 ^ 64). lia. Qed.

  Lemma u64_bits n : n < 2 ^ 64 -> to_bits U64 (Z.of_N n) = n.
  Proof. intros. unfold to_bits. change (pmod U64) with (2 ^ 64). rewrite Z.mod_small by lia. apply N2Z.id. Qed.

  Lemma u32_bits n : n < 2 ^ 32 -> to_bits U32 (Z.of_N n) = n.
  Proof. intros. unfold to_bits. change (pmod U32) with (2 ^ 32). rewrite Z.mod_small by lia. apply N2Z.id. Qed.

  (** It is written as a u64. *)
  Theorem C39_write mem n : (forall n, n <= nlen (mem n)) -> n <= l_usize_max (h_lim h) ->
    write_to_vec h mem e (TScalar SUsize) (VInt (Z.of_N n)) = write_to_vec h mem e (TScalar (SPrim U64)) (VInt (Z.of_N n))
    /\ write_to_vec h mem e (TScalar SUsize) (VInt (Z.of_N n)) = Ok (word e 8 n).
  Proof.
    intros Hm Hn. pose proof (vh_usize_hi h VH) as Hu.
    assert (E : write_to_vec h mem e (TScalar SUsize) (VInt (Z.of_N n)) = Ok (word e 8 n)).
    { apply (write_to_vec_ok h VH e (TScalar SUsize)); [exact I| |exact Hm|].
      - cbn. unfold in_z. lia.
      - cbn. rewrite N2Z.id. reflexivity. }
    split; [|exact E]. rewrite E. symmetry. apply (write_to_vec_ok h VH e (TScalar (SPrim U64))); [exact I| |exact Hm|].
    - apply u64_ok. lia.
    - cbn [enc enc_scalar]. unfold enc_prim. rewrite u64_bits by lia. reflexivity.
  Qed.

  (* ---------------------------------------------------------------- *)
  (** ** Times *)

  (** The seconds and nanoseconds of an encoded duration. *)
  Definition secs_of (bs : bytes) : N := unword e (ntake 8 bs).
  Definition nanos_of (bs : bytes) : N := unword e (ntake 4 (ndrop 8 bs)).
  Definition total_secs (bs : bytes) : N := secs_of bs + nanos_of bs / 10 ^ 9.
  Definition time_value (bs : bytes) : val :=
    VSeq [VInt (Z.of_N (total_secs bs)); VInt (Z.of_N (nanos_of bs mod 10 ^ 9))].

  Lemma dword_long w bs : N.of_nat w <= nlen bs ->
    dword e w (Some bs) = DOk (unword e (ntake (N.of_nat w) bs)) (Some (ndrop (N.of_nat w) bs)).
  Proof.
    intros H. pose proof (dword_app e w (ntake (N.of_nat w) bs) (ndrop (N.of_nat w) bs)) as E.
    unfold ntake, ndrop in *. rewrite firstn_skipn in E. apply E. rewrite firstn_length. unfold nlen in H. lia.
  Qed.

  Lemma dduration_long bs : 12 <= nlen bs -> dduration e (Some bs) =
    if total_secs bs <? 2 ^ 64 then DOk (time_value bs) (Some (ndrop 12 bs)) else DPanic PanicExplicit true.
  Proof.
    intros Hl. unfold dduration, dbind. rewrite (dword_long 8) by lia. change (N.of_nat 8) with 8.
    rewrite (dword_long 4) by (rewrite nlen_drop; lia). change (N.of_nat 4) with 4.
    fold (secs_of bs) (nanos_of bs). fold (total_secs bs).
    destruct (total_secs bs <? 2 ^ 64); [|reflexivity]. unfold dret, time_value. do 2 f_equal.
    rewrite drop_drop. reflexivity.
  Qed.

  (** C48, true part: seconds within 64 bits after the nanoseconds have been
      carried over. *)
  Theorem C48_read_partial bs bw r : reading (TScalar SSystemTime) bs bw r -> 12 <= nlen bs ->
    total_secs bs < 2 ^ 64 ->
    (total_secs bs <= l_systime_max (h_lim h) -> r = Ok (time_value bs))
    /\ (l_systime_max (h_lim h) < total_secs bs -> r = Err InvalidSystemTime).
  Proof.
    intros Hr Hl Ht. destruct (scalar_agrees SSystemTime bs bw r Hr) as [[H _]|H];
      [change (min_bytes h (TScalar SSystemTime)) with 12 in H; lia|].
    cbn [dec_scalar] in H. unfold dbind in H at 1. rewrite dduration_long in H by exact Hl.
    destruct (N.ltb_spec (total_secs bs) (2 ^ 64)); [|lia]. unfold time_value in H at 1.
    destruct (Z.leb_spec (Z.of_N (total_secs bs)) (Z.of_N (l_systime_max (h_lim h)))); (split; intros; [try lia|try lia]).
    - exact H.
    - cbn in H. destruct H as [[-> _]|[C _]]; [reflexivity|discriminate].
  Qed.

  (** What happens to the others: a panic in `Duration::new`. *)
  Theorem C48_read_overflow bs bw r : reading (TScalar SSystemTime) bs bw r -> 12 <= nlen bs ->
    2 ^ 64 <= total_secs bs -> r = Fault PanicExplicit.
  Proof.
    intros Hr Hl Ht. destruct (scalar_agrees SSystemTime bs bw r Hr) as [[H _]|H];
      [change (min_bytes h (TScalar SSystemTime)) with 12 in H; lia|].
    cbn [dec_scalar] in H. unfold dbind in H at 1. rewrite dduration_long in H by exact Hl.
    destruct (N.ltb_spec (total_secs bs) (2 ^ 64)); [lia|]. destruct H as [->|[C _]]; [reflexivity|discriminate].
  Qed.

  (** Times before the epoch are refused by every writer, and nothing is written. *)
  Theorem C48_before_epoch mem secs nanos buffer o : (secs < 0)%Z ->
    let v := VSeq [VInt secs; VInt nanos] in
    let t := TScalar SSystemTime in
    write_to_vec h mem e t v = Err InvalidSystemTime
    /\ write_to_buffer h e t v buffer =
         (if 12 <=? nlen buffer then Err InvalidSystemTime else Err (OutputBufferIsTooSmall (nlen buffer) 12), buffer)
    /\ write_to_stream h e t v o = (Err InvalidSystemTime, o).
  Proof.
    intros Hs v t. assert (Hn : bytes_needed h t v = Ok 12) by reflexivity.
    assert (Hw : forall St (W : writer St) s, write h W t v s = (Err InvalidSystemTime, s)).
    { intros St W s. unfold t, v. cbn [write write_scalar]. destruct (Z.ltb_spec secs 0); [reflexivity|lia]. }
    split; [|split].
    - unfold write_to_vec. rewrite Hn. cbn [rbind]. rewrite Hw. reflexivity.
    - unfold write_to_buffer. rewrite Hn. destruct (12 <=? nlen buffer); [|reflexivity].
      rewrite Hw. cbn [bc_buffer]. unfold ntake, ndrop. rewrite firstn_skipn. reflexivity.
    - apply Hw.
  Qed.

  (** The others round trip to the nanosecond. *)
  Theorem C48_round_trip mem secs nanos : (forall n, n <= nlen (mem n)) ->
    secs <= l_systime_max (h_lim h) -> nanos < 10 ^ 9 ->
    let v := VSeq [VInt (Z.of_N secs); VInt (Z.of_N nanos)] in
    exists b, write_to_vec h mem e (TScalar SSystemTime) v = Ok b
      /\ forall rest bw r, reading (TScalar SSystemTime) (b ++ rest) bw r -> r = Ok v.
  Proof.
    intros Hm Hs Hn v. pose proof (vh_systime h VH) as Hy.
    assert (Hv : valid (h_lim h) (TScalar SSystemTime) v) by (cbn; unfold in_z; lia).
    exists (word e 8 secs ++ word e 4 nanos). split.
    - apply (write_to_vec_ok h VH e (TScalar SSystemTime)); [exact I|exact Hv|exact Hm|].
      unfold v. cbn [enc enc_scalar]. destruct (Z.ltb_spec (Z.of_N secs) 0); [lia|]. unfold enc_prim.
      rewrite u64_bits by lia. rewrite u32_bits by lia. reflexivity.
    - intros rest bw r Hr.
      assert (L8 : nlen (word e 8 secs) = 8) by (unfold nlen; rewrite word_length; reflexivity).
      assert (L4 : nlen (word e 4 nanos) = 4) by (unfold nlen; rewrite word_length; reflexivity).
      rewrite <- app_assoc in Hr.
      assert (E1 : secs_of (word e 8 secs ++ word e 4 nanos ++ rest) = secs).
      { unfold secs_of. rewrite take_app_exact by exact L8. apply unword_word. change (256 ^ N.of_nat 8) with (2 ^ 64). lia. }
      assert (E2 : nanos_of (word e 8 secs ++ word e 4 nanos ++ rest) = nanos).
      { unfold nanos_of. rewrite drop_app_exact by exact L8. rewrite take_app_exact by exact L4.
        apply unword_word. change (256 ^ N.of_nat 4) with (2 ^ 32). lia. }
      assert (E3 : total_secs (word e 8 secs ++ word e 4 nanos ++ rest) = secs).
      { unfold total_secs. rewrite E1, E2, N.div_small by exact Hn. lia. }
      apply C48_read_partial in Hr; [|rewrite !nlen_app; lia|rewrite E3; lia].
      destruct Hr as [Hr _]. unfold time_value in Hr. rewrite E3, E2, N.mod_small in Hr by exact Hn. apply Hr, Hs.
  Qed.
End Read.

Print Assumptions C23_char.
Print Assumptions C23_nonzero.
Print Assumptions C23_endianness.
Print Assumptions C23_ipaddr.
Print Assumptions C23_enum.
Print Assumptions C23_enum_unknown.
Print Assumptions C39_read.
Print Assumptions C39_write.
Print Assumptions C48_read_partial.
Print Assumptions C48_read_overflow.
Print Assumptions C48_before_epoch.
Print Assumptions C48_round_trip.

(** C48 is false as stated: carrying the nanoseconds over may overflow, which is
    a panic instead of `InvalidSystemTime`. *)
Theorem C48_panic_refuted : exists bs,
  read_from_buffer host64 LE (TScalar SSystemTime) 0 bs = Fault PanicExplicit
  /\ read_from_buffer_copying host32be BE (TScalar SSystemTime) bs = Fault PanicExplicit.
Proof. exists (repeat xff 12). split; vm_compute; reflexivity. Qed.

Print Assumptions C48_panic_refuted.

(* ------------------------------------------------------------------ *)
(** ** Byte order *)

(** Scalars that are one number (or address). *)
Definition one_number (s : scalar) : bool :=
  match s with
  | SPrim _ | SAtomic _ | SNonZero _ | SUsize | SBool | SChar | SEndian | SUnit | SIpv4 | SIpv6 | SBVec _ => true
  | _ => false
  end.

(** Types without numbers in the order of the context. *)
Definition no_order (s : scalar) : bool :=
  match s with SUuid | SVarint | SBool | SUnit | SEndian | SBVec _ => true | _ => false end.

(** The numbers that make up the other scalars. *)
Definition widths (s : scalar) (v : val) : list nat :=
  match s, v with
  | (SDuration | SSystemTime | SDateTime), _ => [8; 4]%nat
  | SGlam p n, _ => repeat (psize p) n
  | SIpAddr, VVar 0%nat _ => [1; 4]%nat
  | SIpAddr, _ => [1; 16]%nat
  | _, _ => []
  end.

(** Every number reversed in its place. *)
Fixpoint rev_each (ws : list nat) (b : bytes) : bytes :=
  match ws with [] => b | w :: r => rev (firstn w b) ++ rev_each r (skipn w b) end.

Section Order.
  Context (h : host) (VH : valid_host h) (mem : N -> bytes) (Hmem : forall n, n <= nlen (mem n)).
  Notation write_to_vec := (write_to_vec h mem).

  Lemma word_swap w n : word BE w n = rev (word LE w n).
  Proof. reflexivity. Qed.

  Lemma octets_swap b : octets BE b = rev (octets LE b) /\ octets LE b = rev (octets BE b).
  Proof. cbn. rewrite rev_involutive. auto. Qed.

  Lemma encodings s v b1 b2 : valid (h_lim h) (TScalar s) v ->
    write_to_vec LE (TScalar s) v = Ok b1 -> write_to_vec BE (TScalar s) v = Ok b2 ->
    enc_scalar LE (ipv6_order h LE) s v = Ok b1 /\ enc_scalar BE (ipv6_order h BE) s v = Ok b2.
  Proof.
    intros Hv H1 H2. split; [apply (write_to_vec_err h VH LE (TScalar s) v I Hv mem b1 Hmem H1)
      |apply (write_to_vec_err h VH BE (TScalar s) v I Hv mem b2 Hmem H2)].
  Qed.

  Lemma ipv6_swap b : octets (ipv6_order h BE) b = rev (octets (ipv6_order h LE) b).
  Proof. unfold ipv6_order. destruct (h_native h); apply octets_swap. Qed.

  Lemma rev_each_app w ws a b : length a = w -> rev_each (w :: ws) (a ++ b) = rev a ++ rev_each ws b.
  Proof.
    intros <-. cbn [rev_each]. rewrite firstn_app, skipn_app, Nat.sub_diag, firstn_all, skipn_all.
    cbn [firstn skipn app]. rewrite app_nil_r. reflexivity.
  Qed.

  (** C47: the big-endian form of a number is the reversed little-endian form. *)
  Theorem C47_reversal s v b1 b2 : one_number s = true -> valid (h_lim h) (TScalar s) v ->
    write_to_vec LE (TScalar s) v = Ok b1 -> write_to_vec BE (TScalar s) v = Ok b2 ->
    b2 = rev b1 /\ b1 = rev b2.
  Proof.
    intros Hs Hv H1 H2. destruct (encodings s v b1 b2 Hv H1 H2) as [E1 E2].
    assert (E : b2 = rev b1); [|split; [exact E|rewrite E, rev_involutive; reflexivity]].
    destruct s; try discriminate Hs; destruct v as [| | | | | | | | |i [|u us]]; try discriminate E1;
      cbn [enc_scalar] in E1, E2; injection E1 as <-; injection E2 as <-; try reflexivity.
    - apply octets_swap.
    - apply ipv6_swap.
  Qed.

  (** The same for scalars made of several numbers, each in its place. *)
  Theorem C47_reversal_parts s v b1 b2 : one_number s = false -> no_order s = false -> valid (h_lim h) (TScalar s) v ->
    write_to_vec LE (TScalar s) v = Ok b1 -> write_to_vec BE (TScalar s) v = Ok b2 ->
    b2 = rev_each (widths s v) b1.
  Proof.
    intros Hs Hn Hv H1 H2. destruct (encodings s v b1 b2 Hv H1 H2) as [E1 E2].
    destruct s; try discriminate Hs; try discriminate Hn.
    - (* SIpAddr *)
      destruct v as [| | | | | | | | |[|[|i]] [|[] [|]]]; try discriminate E1; try contradiction Hv.
      + injection E1 as <-. injection E2 as <-. cbn [widths].
        match goal with |- _ = rev_each _ (_ :: ?c) => change (x00 :: c) with ([x00] ++ c) end.
        rewrite rev_each_app by reflexivity. rewrite <- (app_nil_r (rev b)).
        rewrite rev_each_app by (rewrite rev_length; exact Hv).
        cbn. rewrite rev_involutive, app_nil_r. reflexivity.
      + injection E1 as <-. injection E2 as <-. cbn [widths].
        match goal with |- _ = rev_each _ (_ :: ?c) => change (x01 :: c) with ([x01] ++ c) end.
        rewrite rev_each_app by reflexivity.
        rewrite <- (app_nil_r (octets (ipv6_order h LE) b)).
        rewrite rev_each_app by (destruct (ipv6_order h LE); cbn; rewrite ?rev_length; exact Hv).
        rewrite ipv6_swap. cbn [rev_each]. rewrite app_nil_r. reflexivity.
    - (* SDuration *)
      destruct v as [| | | |[|[] [|[] [|]]]| | | | |]; try discriminate E1.
      injection E1 as <-. injection E2 as <-. reflexivity.
    - (* SSystemTime *)
      destruct v as [| | | |[|[] [|[] [|]]]| | | | |]; try discriminate E1. cbn in E1, E2.
      destruct (_ <? 0)%Z; [discriminate|].
      injection E1 as <-. injection E2 as <-. reflexivity.
    - (* SDateTime *)
      destruct v as [| | | |[|[] [|[] [|]]]| | | | |]; try discriminate E1.
      injection E1 as <-. injection E2 as <-. reflexivity.
    - (* SGlam *)
      destruct v as [| | | |vs| | | | |]; try discriminate E1. cbn [enc_scalar widths] in *.
      destruct Hv as [<- _]. clear H1 H2 Hs Hn. revert b1 b2 E1 E2. induction vs as [|v vs IH]; intros b1 b2 E1 E2.
      + injection E1 as <-. injection E2 as <-. reflexivity.
      + cbn [rmapM] in E1, E2. destruct v; try discriminate E1. cbn [rbind] in E1, E2.
        destruct (rmapM _ vs) as [c1| |] eqn:F1 in E1; try discriminate E1.
        destruct (rmapM _ vs) as [c2| |] eqn:F2 in E2; try discriminate E2.
        injection E1 as <-. injection E2 as <-. cbn [length repeat concat].
        unfold enc_prim. rewrite rev_each_app by apply le_bytes_length.
        rewrite F1, F2 in IH. rewrite (IH (concat c1) (concat c2)) by reflexivity. reflexivity.
  Qed.

  (** The byte order of the context does not matter. *)
  Theorem C47_unaffected s v b1 b2 : no_order s = true -> valid (h_lim h) (TScalar s) v ->
    write_to_vec LE (TScalar s) v = Ok b1 -> write_to_vec BE (TScalar s) v = Ok b2 -> b1 = b2.
  Proof.
    intros Hs Hv H1 H2. destruct (encodings s v b1 b2 Hv H1 H2) as [E1 E2].
    destruct s; try discriminate Hs; destruct v as [| | | | | | | | |i [|u us]]; try discriminate E1;
      cbn [enc_scalar] in E1, E2; injection E1 as <-; injection E2 as <-; reflexivity.
  Qed.

  (** Of a string only the length differs. *)
  Theorem C47_strings k c b1 b2 : valid (h_lim h) (TStr k) (VBytes c) ->
    write_to_vec LE (TStr k) (VBytes c) = Ok b1 -> write_to_vec BE (TStr k) (VBytes c) = Ok b2 ->
    exists n, length n = 4%nat /\ b1 = n ++ c /\ b2 = rev n ++ c.
  Proof.
    intros Hv H1 H2.
    apply (write_to_vec_err h VH LE (TStr k) _ I Hv mem b1 Hmem) in H1.
    apply (write_to_vec_err h VH BE (TStr k) _ I Hv mem b2 Hmem) in H2.
    cbn [enc enc_len len0] in H1, H2. destruct (nlen c <=? basic_max BU32); [|discriminate].
    injection H1 as <-. injection H2 as <-. exists (word LE 4 (nlen c)). split; [apply word_length|]. auto.
  Qed.
End Order.

(** Swapping twice. *)
Theorem C47_swap_twice w n : n < 256 ^ N.of_nat w -> swap_bytes w (swap_bytes w n) = n.
Proof. apply swap_bytes_involutive. Qed.

(** Reading in the other order gives the swapped number. *)
Theorem C47_read_swapped h p n r1 r2 bw bs : valid_host h -> psigned p = false ->
  n < pmod p -> bs = word LE (psize p) n ->
  reading h LE (TScalar (SPrim p)) bs bw r1 -> reading h BE (TScalar (SPrim p)) bs bw r2 ->
  r1 = Ok (VInt (Z.of_N n)) /\ r2 = Ok (VInt (Z.of_N (swap_bytes (psize p) n))).
Proof.
  intros VH Hp Hn -> H1 H2.
  assert (Hl : nlen (word LE (psize p) n) = N.of_nat (psize p)) by (unfold nlen; rewrite word_length; reflexivity).
  assert (Hm : min_bytes h (TScalar (SPrim p)) = N.of_nat (psize p)) by (destruct p; reflexivity).
  assert (Hb : forall m, of_bits p m = Z.of_N m) by (intros; unfold of_bits; rewrite Hp; reflexivity).
  assert (E : forall e, decode (h_lim h) e (ipv6_order h e) (TScalar (SPrim p)) (word LE (psize p) n)
    = DOk (VInt (of_bits p (unword e (word LE (psize p) n)))) (Some [])).
  { intros e. unfold decode. cbn [decl dec_scalar]. unfold dmap, dbind, dprim, dmap, dbind.
    rewrite <- (app_nil_r (word LE (psize p) n)) at 1.
    rewrite dword_app by apply word_length. reflexivity. }
  split.
  - rewrite (reading_ok h VH LE (TScalar (SPrim p)) _ bw r1 _ _ I H1 (E LE)) by lia.
    rewrite Hb, unword_word; [reflexivity|]. destruct p; exact Hn.
  - rewrite (reading_ok h VH BE (TScalar (SPrim p)) _ bw r2 _ _ I H2 (E BE)) by lia.
    rewrite Hb. reflexivity.
Qed.

Print Assumptions C47_reversal.
Print Assumptions C47_reversal_parts.
Print Assumptions C47_unaffected.
Print Assumptions C47_strings.
Print Assumptions C47_swap_twice.
Print Assumptions C47_read_swapped.

(* ------------------------------------------------------------------ *)
(** ** Concrete cases *)

Definition num (l : list N) : bytes := map n2b l.

Example C23_holds :
  read_from_buffer host64 LE (TScalar SChar) 0 (num [0x41; 0; 0; 0]) = Ok (VInt 0x41)
  /\ read_from_buffer host64 BE (TScalar SChar) 0 (num [0; 0; 0xD8; 0]) = Err InvalidChar
  /\ read_from_buffer_copying host32be LE (TScalar SChar) (num [0; 0; 0x11; 0]) = Err InvalidChar
  /\ read_from_buffer host32 LE (TScalar (SNonZero I16)) 0 (num [0; 0x80]) = Ok (VInt (-32768))
  /\ read_from_buffer host32 LE (TScalar (SNonZero I16)) 0 (num [0; 0]) = Err ZeroNonZero
  /\ read_from_buffer host64 LE (TScalar SEndian) 0 (num [2]) = Err InvalidEnumVariant
  /\ read_from_buffer host64 LE (TScalar SIpAddr) 0 (num [2; 1; 2; 3; 4]) = Err InvalidEnumVariant
  /\ fst (read_from_stream_buffered host64 dirty LE (TScalar SIpAddr) {| is_rest := num [2]; is_sched := [] |})
     = Err InvalidEnumVariant.
Proof. repeat split; vm_compute; reflexivity. Qed.

(** An enum with the tags 3 and 9 of two bytes. *)
Definition two_tags : ty :=
  TEnum {| e_tag := BU16; e_peek := false |} [(3, [(plain, TP U8)]); (9, [])].

Example C23_enum_holds :
  supported host64 BE true true LDefault two_tags
  /\ read_from_buffer host64 BE two_tags 0 (num [0; 3; 7]) = Ok (VVar 0 [VInt 7])
  /\ read_from_buffer host64 BE two_tags 0 (num [0; 9; 7]) = Ok (VVar 1 [])
  /\ read_from_buffer host64 BE two_tags 0 (num [9; 0; 7]) = Err InvalidEnumVariant.
Proof. split; [apply supportedb_sound; vm_compute; reflexivity|]. repeat split; vm_compute; reflexivity. Qed.

(** Written on a 64-bit host, read on a 32-bit one. *)
Example C39_holds :
  write_to_vec host64 dirty BE (TScalar SUsize) (VInt (2 ^ 32)) = Ok (num [0; 0; 0; 1; 0; 0; 0; 0])
  /\ read_from_buffer host64 BE (TScalar SUsize) 0 (num [0; 0; 0; 1; 0; 0; 0; 0]) = Ok (VInt (2 ^ 32))
  /\ read_from_buffer host32 BE (TScalar SUsize) 0 (num [0; 0; 0; 1; 0; 0; 0; 0]) = Err OutOfRangeUsize
  /\ read_from_buffer host32 BE (TScalar SUsize) 0 (num [0; 0; 0; 0; 255; 255; 255; 255]) = Ok (VInt (2 ^ 32 - 1)).
Proof. repeat split; vm_compute; reflexivity. Qed.

Example C47_holds :
  write_to_vec host32be dirty LE (TScalar (SPrim I32)) (VInt (-2)) = Ok (num [254; 255; 255; 255])
  /\ write_to_vec host32be dirty BE (TScalar (SPrim I32)) (VInt (-2)) = Ok (num [255; 255; 255; 254])
  /\ write_to_vec host64 dirty LE (TScalar SDuration) (VSeq [VInt 1; VInt 2]) = Ok (num [1;0;0;0;0;0;0;0; 2;0;0;0])
  /\ write_to_vec host64 dirty BE (TScalar SDuration) (VSeq [VInt 1; VInt 2]) = Ok (num [0;0;0;0;0;0;0;1; 0;0;0;2]).
Proof. repeat split; vm_compute; reflexivity. Qed.

Example C48_holds :
  write_to_vec host64 dirty LE (TScalar SSystemTime) (VSeq [VInt (-1); VInt 5]) = Err InvalidSystemTime
  /\ read_from_buffer host64 LE (TScalar SSystemTime) 0 (num [0;0;0;0;0;0;0;128; 0;0;0;0]) = Err InvalidSystemTime
  /\ read_from_buffer host64 LE (TScalar SSystemTime) 0 (num [7;0;0;0;0;0;0;0; 1;202;154;59]) = Ok (VSeq [VInt 8; VInt 1]).
Proof. repeat split; vm_compute; reflexivity. Qed.
