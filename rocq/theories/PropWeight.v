(* C105: the size of what is read is bounded by the length of the input. *)
From Verif Require Import BaseFacts SpecFacts Checker Samples Weight Entry Extend.

Section C105.
  Context (h : host) (VH : valid_host h) (e : endian).

  (** However the input is read, and whatever it says, the value has at most so
      many nodes and bytes for every byte of input. The factor depends on the type
      alone. *)
  Theorem C105_read t bs bw v : supported h e bw true LDefault t -> no_eof false t -> dense h t ->
    reading h e t bs bw (Ok v) -> weight v <= factor t * (nlen bs + 1).
  Proof.
    intros Hs Hn Hd Hr. destruct (reading_decodes h VH e t bs bw v Hs Hr) as [(o & E)|E].
    - eapply decoded_weight; eassumption.
    - exfalso. exact (decode_spec _ _ _ _ _ Hn E).
  Qed.
End C105.

(* ------------------------------------------------------------------ *)
(** * Types whose elements take no bytes *)

(* struct Cached { #[speedy(skip)] x: u64 }, in a Vec *)
Definition cached : ty := TStruct (sd 82 RRust) [(with_skip (VInt 0), TP U64)].
Definition caches : ty := TSeq KVec cached.

Lemma repeat_cached lim e e6 n o :
  drepeat (decl lim e e6 len0 cached) n o = DOk (List.repeat (VSeq [VInt 0]) n) o.
Proof.
  induction n as [|n IH]; [reflexivity|]. cbn [drepeat List.repeat]. unfold dbind at 1.
  change (decl lim e e6 len0 cached o) with (DOk (VSeq [VInt 0]) o). cbv iota beta.
  unfold dbind. rewrite IH. reflexivity.
Qed.

(** Four bytes give any number of elements, up to 2^32 - 1, from every entry point:
    thirty-two gigabytes of memory. *)
Theorem C105_empty_elements_refuted e n bw r : n < 2 ^ 32 -> reading host64 e caches (word e 4 n) bw r ->
  r = Ok (VSeq (List.repeat (VSeq [VInt 0]) (N.to_nat n))).
Proof.
  intros Hn Hr. assert (Hl : nlen (word e 4 n) = 4) by (unfold nlen; rewrite word_length; reflexivity).
  eapply (reading_ok host64 host64_valid e caches _ bw r _ (Some [])); [|exact Hr| |].
  - destruct e, bw; apply supportedb_sound; vm_compute; reflexivity.
  - assert (E : dword e 4 (Some (word e 4 n)) = DOk n (Some [])).
    { rewrite <- (app_nil_r (word e 4 n)) at 1. rewrite dword_app by apply word_length.
      rewrite unword_word by exact Hn. reflexivity. }
    unfold decode, caches. cbn [decl dlen len0]. unfold dmap, dprefix, dbasic, dbind. rewrite E.
    replace (n <=? l_usize_max (h_lim host64)) with true by
      (symmetry; apply N.leb_le; assert (2 ^ 32 <= l_usize_max (h_lim host64)) by (vm_compute; discriminate); lia).
    cbn [dret]. unfold dsized. rewrite (vh_fits host64 host64_valid).
    replace (n * h_size host64 cached <=? h_alloc_max host64) with true.
    2:{ symmetry. apply N.leb_le. change (h_size host64 cached) with 8.
        assert (8 * 2 ^ 32 <= h_alloc_max host64) by (vm_compute; discriminate). lia. }
    unfold dunsure. rewrite repeat_cached. reflexivity.
  - rewrite Hl. vm_compute. discriminate.
Qed.

Lemma weight_repeat n : weight (VSeq (List.repeat (VSeq [VInt 0]) n)) = 1 + 2 * N.of_nat n.
Proof.
  cbn [weight]. f_equal. induction n as [|n IH]; [reflexivity|]. cbn [List.repeat map]. rewrite nsum_cons, IH.
  change (weight (VSeq [VInt 0])) with 2. lia.
Qed.

(** No factor below 2^29 will do for this type. *)
Corollary C105_no_factor_refuted K : K < 2 ^ 29 -> exists bs v, nlen bs = 4 /\
  (forall addr, read_from_buffer host64 LE caches addr bs = Ok v) /\ K * (nlen bs + 1) < weight v.
Proof.
  intros HK. assert (Hm : exists m, m = 2 ^ 32 - 1) by eauto. destruct Hm as [m Hm].
  assert (Hlt : m < 2 ^ 32) by lia.
  exists (word LE 4 m), (VSeq (List.repeat (VSeq [VInt 0]) (N.to_nat m))).
  assert (Hl : nlen (word LE 4 m) = 4) by apply (nlen_word LE 4).
  split; [exact Hl|]. split.
  - intros addr. eapply C105_empty_elements_refuted; [exact Hlt|]. apply from_buffer.
    rewrite Hl. vm_compute. discriminate.
  - rewrite Hl, weight_repeat, N2Nat.id. assert (2 ^ 32 = 8 * 2 ^ 29) by reflexivity. lia.
Qed.

(* ------------------------------------------------------------------ *)
(** * A case *)

Lemma sample_dense : dense host64 sample.
Proof.
  assert (H : forall t, minokb host64 t && (1 <=? min_bytes host64 t) = true -> takes_a_byte host64 t).
  { intros t Ht. apply andb_prop in Ht as [H1 H2]. split; [apply minokb_sound, H1|apply N.leb_le, H2]. }
  cbn [dense sample point shape all_fields all_tys all_variants].
  repeat split; try left; apply H; vm_compute; reflexivity.
Qed.

Example C105_case bs bw v : reading host64 BE sample bs bw (Ok v) -> weight v <= 400 * (nlen bs + 1).
Proof.
  intros Hr. assert (H : weight v <= factor sample * (nlen bs + 1)).
  { apply (C105_read host64 host64_valid BE sample bs bw v); [|apply no_eofb_sound; vm_compute; reflexivity|exact sample_dense|exact Hr].
    destruct bw; apply supportedb_sound; vm_compute; reflexivity. }
  assert (factor sample <= 400) by (vm_compute; discriminate).
  pose proof (N.mul_le_mono_r (factor sample) 400 (nlen bs + 1)). lia.
Qed.

Print Assumptions C105_read.
Print Assumptions C105_empty_elements_refuted.
Print Assumptions C105_no_factor_refuted.
