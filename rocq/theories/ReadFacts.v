(* The generic reading methods follow the decoder, on every lawful reader. *)
From Verif Require Export Refine.

Section Read.
  Context {St : Type} (h : host) (R : reader St) (pk : bool)
          (rep : St -> bytes -> Prop) (io : error -> Prop).
  Context (OK : reader_ok h R pk rep io).
  Notation lim := (h_lim h).
  Notation e := (rd_endian R).
  Notation umax := (l_usize_max (h_lim h)).
  Notation simh := (sim rep io).

  (** Outcomes compatible with an early end-of-input report. *)
  Definition weak {A} (d : dres A) : Prop :=
    match d with
    | DOk _ _ => False
    | DBad _ sure | DPanic _ sure => sure = false
    | DEof | DUnspec => True
    end.

  Lemma weak_ended {A} s o (d : dres A) er : repo rep s o -> is_eof er = true -> weak d ->
    post rep o d (Err er) s.
  Proof.
    intros Hr He Hw. assert (Hend : ended rep o (@Err A er) s).
    { exists er. repeat split; auto.
      - destruct o; cbn in Hr; eauto.
      - intros ->. exact Hr. }
    destruct d; cbn in *; auto; contradiction.
  Qed.

  Lemma sim_require {A} n (m : M St A) d :
    simh m d -> (forall bs, nlen bs < n -> nlen bs <= umax -> weak (d (Some bs))) ->
    (0 < n -> weak (d None)) -> simh (require R n ;;; m) d.
  Proof.
    intros Hm Hs Hn s o Hr. unfold bind, require.
    destruct (rd_can R n s) as [[]|] eqn:Ec; try (apply Hm; assumption).
    right. cbn [fst snd]. apply weak_ended; [assumption|reflexivity|].
    destruct o as [bs|]; cbn in Hr.
    - destruct (ok_can _ _ _ _ _ OK n s bs Hr) as [E|E]; rewrite E in Ec; [discriminate|].
      injection Ec as Ec. apply N.leb_gt in Ec.
      apply Hs; [assumption|]. apply (ok_small _ _ _ _ _ OK _ _ Hr).
    - destruct Hr as [bs Hr].
      destruct (ok_can _ _ _ _ _ OK n s bs Hr) as [E|E]; rewrite E in Ec; [discriminate|].
      injection Ec as Ec. apply N.leb_gt in Ec. apply Hn. lia.
  Qed.

  Lemma dread_weak n {A} (k : bytes -> dec A) bs : nlen bs < n -> weak (dbind (dread n) k (Some bs)).
  Proof.
    intros H. unfold dbind, dread. destruct (N.eqb_spec n 0); [lia|].
    destruct (N.leb_spec n (nlen bs)); [lia|]. exact I.
  Qed.
  Lemma dread_weak_none n {A} (k : bytes -> dec A) : 0 < n -> weak (dbind (dread n) k None).
  Proof. intros H. unfold dbind, dread. destruct (N.eqb_spec n 0); [lia|]. exact I. Qed.

  Lemma dread_len n o bs o' : dread n o = DOk bs o' -> nlen bs = n.
  Proof.
    unfold dread. destruct (N.eqb_spec n 0) as [->|].
    - intros E. injection E as <- _. reflexivity.
    - destruct o as [l|]; [|discriminate]. destruct (N.leb_spec n (nlen l)); [|discriminate].
      intros E. injection E as <- _. rewrite nlen_take. lia.
  Qed.

  Lemma dpeek_read_len n o bs o' : dpeek (dread n) o = DOk bs o' -> nlen bs = n.
  Proof.
    unfold dpeek. destruct (dread n o) eqn:E; try discriminate.
    intros E'. injection E' as <- _. eapply dread_len; eauto.
  Qed.

  Lemma nlen_nat {A} (l : list A) w : nlen l = N.of_nat w -> length l = w.
  Proof. unfold nlen. lia. Qed.

  (* ---------------------------------------------------------------- *)
  (** ** Numbers *)

  Lemma read_u8_sim : simh (read_u8 R) (dword e 1).
  Proof.
    apply sim_require.
    - apply (sim_bind_where _ _ (fun b => nlen b = 1)); [apply OK| |].
      + intros o a o' H. eapply dread_len; eauto.
      + intros b Hb. apply (nlen_nat b 1%nat) in Hb. destruct b as [|x [|]]; try discriminate.
        rewrite unword1. replace (le_num [x]) with (b2n x) by (cbn [le_num]; lia). apply sim_ret.
    - intros bs H _. apply dread_weak. assumption.
    - intros H. apply dread_weak_none. assumption.
  Qed.

  Lemma read_uint_sim w : simh (read_uint h R w) (dword e w).
  Proof.
    apply sim_require.
    - apply (sim_bind_where _ _ (fun b => nlen b = N.of_nat w)); [apply OK| |].
      + intros o a o' H. eapply dread_len; eauto.
      + intros b Hb. rewrite swap_of_ne by (apply nlen_nat; assumption). apply sim_ret.
    - intros bs H _. apply dread_weak. assumption.
    - intros H. apply dread_weak_none. assumption.
  Qed.

  Lemma dpeek_bind {A B} (d : dec A) (f : A -> B) o : dpeek (dmap f d) o = dmap f (dpeek d) o.
  Proof. unfold dpeek, dmap, dbind, dret. destruct (d o); reflexivity. Qed.

  Lemma peek_u8_sim : pk = true -> simh (peek_u8 R) (dpeek (dword e 1)).
  Proof.
    intros Hp. eapply sim_ext; [reflexivity|intros o; symmetry; apply dpeek_bind|].
    apply sim_require.
    - apply (sim_bind_where _ _ (fun b => nlen b = 1)); [apply OK; assumption| |].
      + intros o a o' H. eapply dpeek_read_len; eauto.
      + intros b Hb. apply (nlen_nat b 1%nat) in Hb. destruct b as [|x [|]]; try discriminate.
        rewrite unword1. replace (le_num [x]) with (b2n x) by (cbn [le_num]; lia). apply sim_ret.
    - intros bs H _. rewrite <- dpeek_bind. pose proof (dread_weak 1 (fun b => dret (unword e b)) bs H) as W.
      unfold dpeek, dmap. destruct (dbind _ _ _); auto.
    - intros H. rewrite <- dpeek_bind. exact I.
  Qed.

  Lemma peek_uint_sim w : pk = true -> simh (peek_uint h R w) (dpeek (dword e w)).
  Proof.
    intros Hp. eapply sim_ext; [reflexivity|intros o; symmetry; apply dpeek_bind|].
    apply sim_require.
    - apply (sim_bind_where _ _ (fun b => nlen b = N.of_nat w)); [apply OK; assumption| |].
      + intros o a o' H. eapply dpeek_read_len; eauto.
      + intros b Hb. rewrite swap_of_ne by (apply nlen_nat; assumption). apply sim_ret.
    - intros bs H _. rewrite <- dpeek_bind.
      pose proof (dread_weak (N.of_nat w) (fun b => dret (unword e b)) bs H) as W.
      unfold dpeek, dmap. destruct (dbind _ _ _); auto.
    - intros H. rewrite <- dpeek_bind.
      pose proof (dread_weak_none (N.of_nat w) (fun b => dret (unword e b)) H) as W.
      unfold dpeek, dmap. destruct (dbind _ _ _); auto.
  Qed.

  Lemma read_prim_sim p : simh (read_prim h R p) (dprim e p).
  Proof.
    unfold read_prim, dprim. apply sim_bind; [|intros; apply sim_ret].
    destruct p; first [apply read_u8_sim | apply read_uint_sim].
  Qed.

  Lemma dword_lt w o n o' : dword e w o = DOk n o' -> n < 256 ^ N.of_nat w.
  Proof.
    unfold dword, dmap, dbind. destruct (dread _ o) eqn:E; try discriminate.
    cbn. intros H. injection H as <- _. apply dread_len in E. rewrite <- E. apply unword_lt.
  Qed.

  Lemma read_varint_sim : simh (read_varint h R) (dvarint e).
  Proof.
    unfold read_varint, vi_impl, dvarint.
    apply (sim_bind_where _ _ (fun b => b < 256)); [apply read_u8_sim| |].
    - intros o a o' H. apply dword_lt in H. exact H.
    - intros b Hb. rewrite vi_length_ones by assumption.
      apply (sim_bind_where _ _ (fun t => nlen t = N.of_nat (vi_ones b))); [apply OK| |].
      + intros o a o' H. eapply dread_len; eauto.
      + intros t Ht. rewrite vi_number by (try apply nlen_nat; assumption). apply sim_ret.
  Qed.

  (* ---------------------------------------------------------------- *)
  (** ** Lengths *)

  Context (Hu : 2 ^ 32 - 1 <= umax).

  Lemma dvarint_lt o n o' : dvarint e o = DOk n o' -> n < 2 ^ 64.
  Proof.
    unfold dvarint, dbind.
    destruct (dword e 1 o) as [x o2| | | |] eqn:Ex; try discriminate.
    destruct (dread _ o2) as [t o3| | | |] eqn:Et; try discriminate.
    cbn [dret]. intros E. injection E as <- _. apply dword_lt in Ex. apply dread_len in Et.
    pose proof (le_num_lt t) as Ht. rewrite Et in Ht. clear Et.
    pose proof (vi_ones_le x) as Hk. revert Ht. generalize dependent (vi_ones x).
    intros k Hk Ht. rewrite <- pow2_256 in Ht.
    assert (Hx : x mod 2 ^ (7 - N.of_nat k) < 2 ^ (7 - N.of_nat k)) by (apply N.mod_lt, N.pow_nonzero; lia).
    generalize dependent (x mod 2 ^ (7 - N.of_nat k)). generalize dependent (le_num t).
    intros y Hy z Hz.
    do 9 (destruct k as [|k]; [cbn [N.of_nat Pos.of_succ_nat Pos.succ] in *; num_pow; lia|]). lia.
  Qed.

  Lemma dprefix_le b o n o' : dprefix lim e b o = DOk n o' ->
    n <= basic_max b /\ n <= umax.
  Proof.
    unfold dprefix, dbind. destruct (dbasic e b o) as [m o1| | | |] eqn:E; try discriminate.
    assert (Hm : m < 2 ^ match b with BU7 | BU8 => 8 | BU16 => 16 | BU32 => 32 | _ => 64 end).
    { destruct b; cbn [dbasic] in E; try (apply dword_lt in E; exact E).
      apply dvarint_lt in E. exact E. }
    destruct b; (match goal with |- context [m <=? ?x] => destruct (N.leb_spec m x) as [Hle|] end;
      [|discriminate]); intros H; injection H as <- _; cbn [basic_max] in *; num_pow; lia.
  Qed.

  Lemma read_length_sim b : simh (read_length h R b) (dprefix lim e b).
  Proof.
    assert (Hx : forall m d k, simh m d ->
      simh (n <- m ;; if k <? n then fail OutOfRangeLength else ret n)
           (n <-- d ;; if n <=? k then dret n else dbad OutOfRangeLength)).
    { intros m d k H. apply sim_bind; [assumption|]. intros n. rewrite N.ltb_antisym.
      destruct (n <=? k); cbn [negb]; [apply sim_ret|apply sim_fail; reflexivity]. }
    assert (Hw : forall m w, simh m (dword e w) -> 256 ^ N.of_nat w <= umax + 1 ->
      simh m (n <-- dword e w ;; if n <=? umax then dret n else dbad OutOfRangeLength)).
    { intros m w H Hle. eapply sim_ext; [reflexivity| |exact H].
      intros o. unfold dbind. destruct (dword e w o) eqn:E; try reflexivity.
      apply dword_lt in E. destruct (N.leb_spec a umax); [reflexivity|lia]. }
    unfold dprefix. destruct b; cbn [read_length dbasic].
    - apply Hx, read_u8_sim.
    - apply Hw; [apply read_u8_sim|]. cbn. num_pow. lia.
    - apply Hw; [apply read_uint_sim|]. cbn. num_pow. lia.
    - apply Hw; [apply read_uint_sim|]. cbn. num_pow. lia.
    - apply Hx, read_uint_sim.
    - apply Hx, read_varint_sim.
  Qed.
End Read.
