(* Properties C16, C17, C21: variable length integers. *)
From Verif Require Import Entry Samples.

Notation varint := (TScalar SVarint).

Section Varint.
  Context (h : host) (VH : valid_host h).
  Context (mem : N -> bytes) (Hmem : forall n, n <= nlen (mem n)).

  Definition as_varint (n : N) : val := VInt (Z.of_N n).

  Lemma varint_valid e n : n < 2 ^ 64 -> value_of h e varint (as_varint n).
  Proof. intros H. split; [cbn; unfold in_z; lia|]. apply no_peek_tagged with (lim := h_lim h); cbn; unfold in_z; auto; lia. Qed.

  Lemma varint_covered e bw pk : covered h e bw pk varint.
  Proof. split; cbn; auto. Qed.

  Lemma varint_written e n : n < 2 ^ 64 -> write_to_vec h mem e varint (as_varint n) = Ok (vi_enc n).
  Proof.
    intros H. apply (write_to_vec_ok h VH).
    - exact I.
    - apply (varint_valid e n H).
    - exact Hmem.
    - cbn. rewrite N2Z.id. reflexivity.
  Qed.

  (* ---------------------------------------------------------------- *)
  (** ** Round trip *)

  (** C16: a number below 2^64 can be written, and is read back from the bytes
      written, by every reader on any host in either byte order, whatever
      follows. *)
  Theorem C16_round_trip e n : n < 2 ^ 64 ->
    exists b, write_to_vec h mem e varint (as_varint n) = Ok b
      /\ forall h' e' rest bw r, valid_host h' -> reading h' e' varint (b ++ rest) bw r -> r = Ok (as_varint n).
  Proof.
    intros H. exists (vi_enc n). split; [apply varint_written, H|]. intros h' e' rest bw r VH' Hr.
    refine (reading_ok h' VH' e' varint _ bw r (as_varint n) (Some rest) _ Hr _ _).
    - exact I.
    - unfold decode. cbn [decl dec_scalar]. unfold dbind. rewrite dvarint_enc by exact H. reflexivity.
    - rewrite nlen_app, nlen_vi_enc. cbn. lia.
  Qed.

  (** The buffer readers count exactly the bytes written, and an unbuffered
      stream is left right behind them. *)
  Theorem C16_exact_consumption e e' n b rest addr : n < 2 ^ 64 ->
    write_to_vec h mem e varint (as_varint n) = Ok b -> nlen (b ++ rest) <= h_alloc_max h ->
    read_with_length_from_buffer h e' varint addr (b ++ rest) = (Ok (as_varint n), nlen b)
    /\ read_with_length_from_buffer_copying h e' varint (b ++ rest) = (Ok (as_varint n), nlen b).
  Proof.
    intros H Hw Hl. rewrite varint_written in Hw by exact H. injection Hw as <-.
    assert (Hd : decode (h_lim h) e' (ipv6_order h e') varint (vi_enc n ++ rest) = DOk (as_varint n) (Some rest)).
    { unfold decode. cbn [decl dec_scalar]. unfold dbind. rewrite dvarint_enc by exact H. reflexivity. }
    assert (Hm : min_bytes h varint <= nlen (vi_enc n ++ rest)).
    { rewrite nlen_app, nlen_vi_enc. cbn. lia. }
    split.
    - destruct (buffer_agrees h VH e' varint addr (vi_enc n ++ rest) I Hl Hm) as [_ E].
      rewrite (E _ _ Hd), nlen_app. f_equal. lia.
    - destruct (copying_agrees h VH e' varint (vi_enc n ++ rest) I Hl Hm) as [_ E].
      rewrite (E _ _ Hd), nlen_app. f_equal. lia.
  Qed.

  Theorem C16_stream_consumption e e' n b rest sched : n < 2 ^ 64 ->
    write_to_vec h mem e varint (as_varint n) = Ok b -> nlen (b ++ rest) <= l_usize_max (h_lim h) ->
    only_interrupted sched ->
    exists sched',
      read_from_stream_unbuffered h mem e' varint {| is_rest := b ++ rest; is_sched := sched |}
      = (Ok (as_varint n), {| is_rest := rest; is_sched := sched' |}).
  Proof.
    intros H Hw Hl Hsc. rewrite varint_written in Hw by exact H. injection Hw as <-.
    assert (Hd : decode (h_lim h) e' (ipv6_order h e') varint (vi_enc n ++ rest) = DOk (as_varint n) (Some rest)).
    { unfold decode. cbn [decl dec_scalar]. unfold dbind. rewrite dvarint_enc by exact H. reflexivity. }
    assert (Hcl : ~ In (RErr IoUnexpectedEof) sched) by (intros Hi; apply Hsc in Hi; discriminate).
    pose proof (stream_agrees h VH e' mem Hmem false false {| is_rest := vi_enc n ++ rest; is_sched := sched |}
      Hcl Hl varint I) as Ha.
    unfold read_from_stream_unbuffered.
    destruct (deserialize h mem false e' varint _) as [r s]. cbn [is_rest is_sched] in *.
    destruct Ha as [(k & _ & Hk & Hni)|[Ha Hrest]]; [apply Hsc in Hk; destruct (Hni eq_refl eq_refl Hk)|].
    destruct (Hrest _ _ Hd) as (_ & _ & Hre). rewrite Hd in Ha. cbn in Ha. subst r.
    exists (is_sched (sr_stream s)). rewrite <- (Hre eq_refl eq_refl). destruct (sr_stream s); reflexivity.
  Qed.

  (** `read_u64_varint` of any reader that delivers bytes faithfully, in the
      middle of its input. *)
  Theorem C16_any_reader e n b St (R : reader St) pk rep io s rest : n < 2 ^ 64 ->
    write_to_vec h mem e varint (as_varint n) = Ok b -> reader_ok h R pk rep io -> rep s (b ++ rest) ->
    escape io (fst (read_varint h R s))
    \/ (fst (read_varint h R s) = Ok n /\ rep (snd (read_varint h R s)) rest).
  Proof.
    intros H Hw OK Hs. rewrite varint_written in Hw by exact H. injection Hw as <-.
    pose proof (read_varint_sim h R pk rep io OK s (Some (vi_enc n ++ rest)) Hs) as Hsim.
    rewrite dvarint_enc in Hsim by exact H. destruct Hsim as [?|(E & Hr & _)]; auto.
  Qed.

  (* ---------------------------------------------------------------- *)
  (** ** Shortest encodings *)

  (** C17: up to 8 bytes hold 7 bits each; the rest takes 9 bytes. *)
  Theorem C17_length e n b : n < 2 ^ 64 -> write_to_vec h mem e varint (as_varint n) = Ok b ->
    1 <= nlen b <= 9 /\ (forall k, 1 <= k <= 8 -> (nlen b <= k <-> n < 2 ^ (7 * k))).
  Proof.
    intros H Hw. rewrite varint_written in Hw by exact H. injection Hw as <-. rewrite nlen_vi_enc.
    split; [pose proof (vi_extra_le n); lia|]. intros k Hk.
    assert (Hc : k = 1 \/ k = 2 \/ k = 3 \/ k = 4 \/ k = 5 \/ k = 6 \/ k = 7 \/ k = 8) by lia.
    vi_cases n; num_pow; destruct Hc as [->|[->|[->|[->|[->|[->|[->| ->]]]]]]]; cbn; lia.
  Qed.

  Theorem C17_bytes_needed n e b : n < 2 ^ 64 -> write_to_vec h mem e varint (as_varint n) = Ok b ->
    vi_bytes_needed n = nlen b.
  Proof.
    intros H Hw. rewrite varint_written in Hw by exact H. injection Hw as <-. apply vi_bytes_needed_spec, H.
  Qed.

  (** Any input that is read as [n] spends at least as many bytes on it. *)
  Theorem C17_shortest e e' n b addr bs m : n < 2 ^ 64 ->
    write_to_vec h mem e varint (as_varint n) = Ok b -> nlen bs <= h_alloc_max h ->
    read_with_length_from_buffer h e' varint addr bs = (Ok (as_varint n), m) ->
    nlen b <= m <= 9.
  Proof.
    intros H Hw Hl Hr. rewrite varint_written in Hw by exact H. injection Hw as <-.
    destruct (N.lt_ge_cases (nlen bs) (min_bytes h varint)) as [Hm|Hm].
    { rewrite buffer_small in Hr by exact Hm. discriminate. }
    destruct (buffer_agrees h VH e' varint addr bs I Hl Hm) as [Ha Hc].
    unfold read_from_buffer in Ha. rewrite Hr in Ha. cbn [fst] in Ha.
    destruct (decode (h_lim h) e' (ipv6_order h e') varint bs) as [v o| |er sure|f sure|] eqn:Hd; cbn in Ha.
    - injection Ha as <-. unfold decode in Hd. cbn [decl dec_scalar] in Hd.
      assert (Hd' : exists rest, o = Some rest /\ dvarint e' (Some bs) = DOk n (Some rest)).
      { pose proof (decode_ok_rest (h_lim h) e' (ipv6_order h e') varint bs (as_varint n) o I) as Hx.
        unfold decode in Hx. cbn [decl dec_scalar] in Hx. destruct (Hx Hd) as (p & rest & -> & _).
        exists rest. split; [reflexivity|]. unfold dbind, dint, dret in Hd.
        destruct (dvarint e' (Some bs)) as [n' o'| | | |]; try discriminate.
        unfold as_varint in Hd. injection Hd as E ->. f_equal. lia. }
      destruct Hd' as (rest & -> & Hd'). destruct (dvarint_bound _ _ _ _ Hd') as (_ & p & -> & Hp).
      rewrite (Hc _ _ eq_refl) in Hr. injection Hr as <-. rewrite nlen_app, nlen_vi_enc. unfold nlen. lia.
    - destruct Ha as (er & Ha & _). discriminate.
    - destruct Ha as [[Ha _]|[_ (er' & Ha & _)]]; discriminate.
    - destruct Ha as [Ha|[_ (er' & Ha & _)]]; discriminate.
    - unfold decode in Hd. cbn [decl dec_scalar] in Hd. unfold dbind, dint, dret in Hd.
      destruct (dvarint e' (Some bs)) eqn:E; try discriminate.
      exfalso. apply (decode_spec (h_lim h) e' (ipv6_order h e') varint bs I).
      unfold decode. cbn [decl dec_scalar]. unfold dbind. rewrite E. reflexivity.
  Qed.
End Varint.

(** The bytes depend neither on the byte order asked for nor on the host. *)
Theorem C17_no_byte_order h h' mem mem' e e' n : valid_host h -> valid_host h' ->
  (forall n, n <= nlen (mem n)) -> (forall n, n <= nlen (mem' n)) -> n < 2 ^ 64 ->
  write_to_vec h mem e varint (as_varint n) = write_to_vec h' mem' e' varint (as_varint n).
Proof. intros VH VH' Hm Hm' H. rewrite !varint_written by assumption. reflexivity. Qed.

(** The bit trick computes what the table in the tests says. *)
Theorem C17_bit_trick zeros : zeros <= 64 -> get_length_slow zeros = Some (get_length zeros).
Proof.
  intros H. replace (get_length zeros) with (get_length (64 - (64 - zeros))) by (f_equal; lia).
  rewrite get_length_sweep by lia. unfold get_length_slow. cbv zeta.
  repeat match goal with |- context [?a <=? ?b] => destruct (N.leb_spec a b); [reflexivity|] end.
  exfalso. lia.
Qed.

Print Assumptions C17_bit_trick.
Print Assumptions C16_round_trip.
Print Assumptions C16_exact_consumption.
Print Assumptions C16_stream_consumption.
Print Assumptions C16_any_reader.
Print Assumptions C17_length.
Print Assumptions C17_bytes_needed.
Print Assumptions C17_shortest.
Print Assumptions C17_no_byte_order.

(** One number of each length, and a longer encoding that is accepted. *)
Example written_lengths :
  map (fun n => rmap nlen (write_to_vec host32be dirty BE varint (as_varint n)))
      [127; 128; 2 ^ 14; 2 ^ 21; 2 ^ 28; 2 ^ 35; 2 ^ 42; 2 ^ 49; 2 ^ 56; 2 ^ 64 - 1]
  = map (@Ok N) [1; 2; 3; 4; 5; 6; 7; 8; 9; 9].
Proof. vm_compute. reflexivity. Qed.

Example written_300 : write_to_vec host64 dirty LE varint (as_varint 300) = Ok [n2b 129; n2b 44].
Proof. vm_compute. reflexivity. Qed.

Example longer_accepted :
  read_with_length_from_buffer host64 LE varint 0 [n2b 192; n2b 44; n2b 1] = (Ok (as_varint 300), 3).
Proof. vm_compute. reflexivity. Qed.

(* ------------------------------------------------------------------ *)
(** * Peeking *)


Lemma shifted_same (b : byte) tail : firstn (length tail) (b :: tail) = tail <-> Forall (eq b) tail.
Proof.
  revert b. induction tail as [|c tail IH]; intros b; [split; auto|].
  cbn [length firstn]. split.
  - intros H. injection H as -> H. apply IH in H. auto.
  - intros H. inversion H as [|? ? <- H']. subst. f_equal. apply IH, H'.
Qed.

Lemma le_num_inj a b : length a = length b -> le_num a = le_num b -> a = b.
Proof.
  intros Hl E. pose proof (word_unword LE (length a) a eq_refl) as Ha.
  pose proof (word_unword LE (length a) b (eq_sym Hl)) as Hb. cbn in Ha, Hb. congruence.
Qed.

Section Peek.
  Context (h : host) {St : Type} (R : reader St) (rep : St -> bytes -> Prop) (io : error -> Prop).
  Context (OK : reader_ok h R true rep io).

  Lemma peek_varint_sim : sim rep io (peek_varint h R)
    (b <-- dpeek (dword (rd_endian R) 1) ;;
     tail <-- dpeek (dread (N.of_nat (vi_ones b))) ;;
     dret ((b mod 2 ^ (7 - N.of_nat (vi_ones b))) * 2 ^ (8 * N.of_nat (vi_ones b)) + le_num tail)).
  Proof.
    unfold peek_varint, vi_impl.
    apply (sim_bind_where _ _ (fun b => b < 256)); [apply (peek_u8_sim h R true rep io OK eq_refl)| |].
    - intros o a o' H. unfold dpeek in H. destruct (dword _ 1 o) as [x o1| | | |] eqn:E; try discriminate.
      injection H as <- _. apply dword_lt in E. exact E.
    - intros b Hb. rewrite vi_length_ones by assumption.
      apply (sim_bind_where _ _ (fun t => nlen t = N.of_nat (vi_ones b))).
      + apply (ok_peek h R true rep io OK eq_refl).
      + intros o a o' H. eapply dpeek_read_len; eauto.
      + intros t Ht. rewrite vi_number by (try apply nlen_nat; assumption). apply sim_ret.
  Qed.

  (** What `peek_u64_varint` computes: the tail is taken from the position of the
      first byte instead of from behind it.  (The bytes are not consumed.) *)
  Theorem C21_what_is_peeked s b tail rest : length tail = vi_ones (b2n b) -> rep s (b :: tail ++ rest) ->
    escape io (fst (peek_varint h R s))
    \/ (let k := N.of_nat (length tail) in
        fst (peek_varint h R s)
        = Ok ((b2n b mod 2 ^ (7 - k)) * 2 ^ (8 * k) + le_num (firstn (length tail) (b :: tail)))
        /\ rep (snd (peek_varint h R s)) (b :: tail ++ rest)).
  Proof.
    intros Ht Hs. destruct (peek_varint_sim s (Some (b :: tail ++ rest)) Hs) as [?|H]; [auto|right].
    unfold dbind at 1 in H. unfold dpeek at 1 in H. rewrite dword1 in H. rewrite <- Ht in H.
    assert (E : exists q, firstn (length tail) (b :: tail) ++ q = b :: tail ++ rest
                          /\ nlen (firstn (length tail) (b :: tail)) = N.of_nat (length tail)).
    { exists (skipn (length tail) (b :: tail) ++ rest). split.
      - rewrite app_assoc, firstn_skipn. reflexivity.
      - unfold nlen. rewrite firstn_length. cbn [length]. lia. }
    destruct E as (q & E & El). rewrite <- E in H at 2.
    unfold dbind, dpeek in H. rewrite (dread_app' _ _ q El) in H. cbn [dret] in H.
    destruct H as (-> & Hr & _). cbn [repo] in Hr. rewrite E in Hr. auto.
  Qed.

  Context (VH : valid_host h) (mem : N -> bytes) (Hmem : forall n, n <= nlen (mem n)) (e : endian).

  (** C21 holds for numbers that take one byte. *)
  Theorem C21_one_byte_partial n b rest s : n < 2 ^ 7 ->
    write_to_vec h mem e varint (as_varint n) = Ok b -> rep s (b ++ rest) ->
    escape io (fst (peek_varint h R s))
    \/ (fst (peek_varint h R s) = Ok n /\ rep (snd (peek_varint h R s)) (b ++ rest)).
  Proof.
    intros Hn Hw Hs. change (2 ^ 7) with 128 in Hn.
    rewrite (varint_written h VH mem Hmem) in Hw by (num_pow; lia). injection Hw as <-.
    assert (Ex : vi_extra n = 0%nat) by (unfold vi_extra; num_pow; destruct (N.ltb_spec n 128); [reflexivity|lia]).
    rewrite vi_enc_short in * by exact Ex. cbn [app] in *.
    assert (Eb : b2n (n2b n) = n) by (rewrite b2n_n2b; apply N.mod_small; lia).
    assert (Eo : vi_ones n = 0%nat) by (unfold vi_ones; destruct (N.ltb_spec n 128); [reflexivity|lia]).
    destruct (C21_what_is_peeked s (n2b n) [] rest) as [?|[E Hr]]; auto.
    - rewrite Eb, Eo. reflexivity.
    - right. split; [|exact Hr]. rewrite E, Eb. cbn [length firstn le_num N.of_nat].
      rewrite N.mul_0_r, N.sub_0_r. change (2 ^ 0) with 1. rewrite N.mod_small by (num_pow; lia). f_equal. lia.
  Qed.

  (** More exactly: for numbers whose encoding consists of equal bytes, and for no
      others. *)
  Theorem C21_equal_bytes_partial n b c rest s : n < 2 ^ 64 ->
    write_to_vec h mem e varint (as_varint n) = Ok (b :: c) -> rep s ((b :: c) ++ rest) ->
    escape io (fst (peek_varint h R s)) \/ (fst (peek_varint h R s) = Ok n <-> Forall (eq b) c).
  Proof.
    intros Hn Hw Hs. rewrite (varint_written h VH mem Hmem) in Hw by exact Hn. injection Hw as <- <-.
    destruct (vi_first_ones n Hn) as [Ho _]. pose proof (vi_first_lt n Hn) as Hlt. cbn zeta in Hlt.
    set (f := 256 - 2 ^ (8 - N.of_nat (vi_extra n)) + n / 2 ^ (8 * N.of_nat (vi_extra n))) in *.
    assert (Eb : b2n (n2b f) = f) by (rewrite b2n_n2b; apply N.mod_small; exact Hlt).
    destruct (C21_what_is_peeked s (n2b f) (le_bytes (vi_extra n) n) rest) as [?|[E _]]; auto.
    - rewrite Eb, le_bytes_length. symmetry. exact Ho.
    - right. rewrite E, <- shifted_same, Eb.
      pose proof (dvarint_enc LE n [] Hn) as Hd. rewrite app_nil_r in Hd. unfold vi_enc in Hd. fold f in Hd.
      unfold dvarint, dbind in Hd. rewrite dword1, Eb in Hd. rewrite Ho in Hd.
      rewrite <- (app_nil_r (le_bytes _ n)) in Hd at 1.
      rewrite (dread_app' _ (le_bytes (vi_extra n) n)) in Hd by (unfold nlen; rewrite le_bytes_length; reflexivity).
      cbn [dret] in Hd. injection Hd as Hd. rewrite le_bytes_length in *.
      split.
      + intros E'. injection E' as E'. apply le_num_inj.
        * rewrite firstn_length, le_bytes_length. cbn [length]. rewrite le_bytes_length. lia.
        * lia.
      + intros ->. f_equal. exact Hd.
  Qed.
End Peek.

Print Assumptions C21_what_is_peeked.
Print Assumptions C21_one_byte_partial.
Print Assumptions C21_equal_bytes_partial.

(** The statement for the other numbers is false: 300 is peeked as 385. *)
Theorem C21_buffer_refuted : exists n b, write_to_vec host64 dirty LE varint (as_varint n) = Ok b
  /\ fst (read_varint host64 (BufferReader LE) (br_start 0 b)) = Ok n
  /\ fst (peek_varint host64 (BufferReader LE) (br_start 0 b)) = Ok 385 /\ n = 300.
Proof. exists 300, [n2b 129; n2b 44]. repeat split; vm_compute; reflexivity. Qed.

Theorem C21_stream_refuted : exists n b, write_to_vec host64 dirty LE varint (as_varint n) = Ok b
  /\ let i := {| is_rest := b; is_sched := [] |} in
     fst (read_varint host64 (StreamReader dirty LE) (sr_start dirty true i)) = Ok n
  /\ fst (peek_varint host64 (StreamReader dirty LE) (sr_start dirty true i)) = Ok 385 /\ n = 300.
Proof. exists 300, [n2b 129; n2b 44]. repeat split; vm_compute; reflexivity. Qed.

(** A truncated number is peeked although it cannot be read. *)
Theorem C21_truncated_refuted : exists bs,
  fst (read_varint host64 (BufferReader LE) (br_start 0 bs)) = Err UnexpectedEndOfInput
  /\ fst (peek_varint host64 (BufferReader LE) (br_start 0 bs)) = Ok 128.
Proof. exists [n2b 128]. split; vm_compute; reflexivity. Qed.

Print Assumptions C21_buffer_refuted.
Print Assumptions C21_stream_refuted.
Print Assumptions C21_truncated_refuted.

(** A case of the true part: the bytes are there, behind others. *)
Example C21_holds :
  fst (peek_varint host64 (BufferReader BE) (br_start 3 [n2b 77; n2b 1])) = Ok 77
  /\ write_to_vec host64 dirty BE varint (as_varint 77) = Ok [n2b 77].
Proof. split; vm_compute; reflexivity. Qed.
