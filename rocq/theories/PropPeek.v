(* Properties C20, C22: looking ahead and skipping. *)
From Verif Require Import LockReaders Entry Samples.

(** Calls of the [Reader] interface, by hand-written or generated code. *)
Inductive step :=
| SRead (n : N)       (* read_bytes *)
| SPeek (n : N)       (* peek_bytes *)
| SPeekPrim (p : prim) (* peek_u8, .., peek_f64 *)
| SSkip (n : N)       (* skip_bytes *)
| SValue (t : ty).    (* read_value *)

Definition perform {St} (h : host) (R : reader St) (c : step) : M St val :=
  match c with
  | SRead n => mmap VBytes (rd_read R n)
  | SPeek n => mmap VBytes (rd_peek R n)
  | SPeekPrim p => mmap VInt (peek_prim h R p)
  | SSkip n => mmap (fun _ => VUnit) (rd_skip R n)
  | SValue t => read h R t
  end.

(** The results of a sequence of calls, and the state after it. *)
Fixpoint results {St} h (R : reader St) (cs : list step) (s : St) : list (res val) :=
  match cs with
  | [] => []
  | c :: r => let (x, s') := perform h R c s in x :: results h R r s'
  end.

Fixpoint after {St} h (R : reader St) (cs : list step) (s : St) : St :=
  match cs with
  | [] => s
  | c :: r => after h R r (snd (perform h R c s))
  end.

(** Nobody asks to see more bytes in advance than the primitive types have. *)
Definition modest (c : step) : Prop := match c with SPeek n => n <= 16 | _ => True end.

(** The same value, or both report the end of the input. *)
Definition same_outcome {A} (r1 r2 : res A) : Prop :=
  (exists a, r1 = Ok a /\ r2 = Ok a)
  \/ (exists e1 e2, r1 = Err e1 /\ r2 = Err e2 /\ is_eof e1 = true /\ is_eof e2 = true).

(** What a primitive is made from. *)
Definition prim_of (h : host) (e : endian) (p : prim) (b : bytes) : Z :=
  of_bits p (match p with
             | U8 | I8 => le_num b
             | _ => swap_if (h_native h) e (psize p) (of_ne (h_native h) b)
             end).

(* ------------------------------------------------------------------ *)
(** * Buffers *)

Section Buffer.
  Context (h : host) (e : endian).

  (** C20: in every state of the buffer readers, a peek returns exactly what the
      read would return, and does not change the reader. *)
  Theorem C20_buffer p s :
    peek_prim h (BufferReader e) p s = (fst (read_prim h (BufferReader e) p s), s)
    /\ peek_prim h (CopyingBufferReader e) p s = (fst (read_prim h (CopyingBufferReader e) p s), s).
  Proof.
    unfold peek_prim, read_prim, peek_u8, read_u8, peek_uint, read_uint, bind, require, br_can, ret.
    cbn [BufferReader CopyingBufferReader rd_can rd_peek_ptr rd_read_ptr rd_endian]. unfold br_can, br_peek, br_read.
    split; destruct p; cbn [psize]; repeat match goal with |- context [?a <=? ?b] => destruct (N.leb_spec a b) end; reflexivity || lia.
  Qed.

  Theorem C20_buffer_bytes n s :
    rd_peek (BufferReader e) n s = (fst (rd_read (BufferReader e) n s), s)
    /\ rd_peek (CopyingBufferReader e) n s = (fst (rd_read (CopyingBufferReader e) n s), s).
  Proof. cbn. unfold br_peek, br_read. destruct (n <=? nlen (br_rest s)); split; reflexivity. Qed.

  (** C22: in every state, skipping is reading and forgetting. *)
  Theorem C22_buffer n s :
    rd_skip (BufferReader e) n s
    = (rmap (fun _ => tt) (fst (rd_read (BufferReader e) n s)), snd (rd_read (BufferReader e) n s))
    /\ rd_skip (CopyingBufferReader e) n s
    = (rmap (fun _ => tt) (fst (rd_read (CopyingBufferReader e) n s)), snd (rd_read (CopyingBufferReader e) n s)).
  Proof. cbn. unfold br_skip, br_read. destruct (n <=? nlen (br_rest s)); split; reflexivity. Qed.
End Buffer.

Print Assumptions C20_buffer.
Print Assumptions C20_buffer_bytes.
Print Assumptions C22_buffer.

(* ------------------------------------------------------------------ *)
(** * Streams *)

Section Stream.
  Context (h : host) (VH : valid_host h) (e : endian).
  Context (mem : N -> bytes) (Hmem : forall n, n <= nlen (mem n)) (buffering : bool).
  Notation R := (StreamReader mem e).

  (** A state of a stream reader after any calls, on a stream that delivers in
      chunks of any size. *)
  Definition stream_state (s : sreader) : Prop :=
    exists i cs, no_errors (is_sched i) /\ nlen (is_rest i) <= l_usize_max (h_lim h)
                 /\ s = after h R cs (sr_start mem buffering i).

  Section Schedule.
    Context (sched : list read_event) (Hsc : no_errors sched).
    Notation rep := (srep h buffering true sched).
    Notation same := (same_unread h buffering true sched sched).
    Notation io := (sio buffering true sched).
    Notation io' := (fun er (_ : sreader) => io er).
    Notation locks := (lock same io' io').

    Lemma no_escape {A} (r : res A) : ~ escape io r.
    Proof. intros (er & _ & k & _ & Hk & _). exact (Hsc _ Hk). Qed.

    Definition good (s : sreader) (bs : bytes) : Prop :=
      rep s bs /\ (buffering = true -> 16 <= cb_capacity (sr_buffer s)).

    Lemma good_same s bs : good s bs -> same s s.
    Proof. intros [Hr Hc]. exists bs. auto. Qed.

    Lemma same_good s1 s2 : same s1 s2 -> exists bs, good s1 bs.
    Proof. intros (bs & Hr & _ & Hc). exists bs. split; [exact Hr|]. intros Hb. apply Hc, Hb. Qed.

    Lemma read_good n s bs : good s bs ->
      exists bs', good (snd (sr_read mem n s)) bs'
        /\ cb_capacity (sr_buffer (snd (sr_read mem n s))) = cb_capacity (sr_buffer s)
        /\ ((n <= nlen bs /\ fst (sr_read mem n s) = Ok (ntake n bs) /\ bs' = ndrop n bs)
            \/ (nlen bs < n /\ exists er, fst (sr_read mem n s) = Err er /\ is_eof er = true)).
    Proof.
      intros [Hr Hc]. destruct (sr_read mem n s) as [r s'] eqn:E. cbn [fst snd].
      destruct (sr_read_cases h mem Hmem buffering true sched n s bs r s' Hr E)
        as [(er & -> & Hio)|(Hcap & [(Hn & -> & Hr')|(Hn & -> & Hr')])].
      - destruct (no_escape (Err (A := bytes) er)). exists er. auto.
      - exists (ndrop n bs). split; [split; [exact Hr'|rewrite Hcap; exact Hc]|]. auto.
      - eexists. split; [split; [exact Hr'|rewrite Hcap; exact Hc]|]. split; [exact Hcap|]. right.
        split; [exact Hn|]. eexists. split; [reflexivity|]. destruct (short _ _ _); reflexivity.
    Qed.

    Lemma append_grows size c slot c' data : cb_inv c -> append_slot mem size c = Ok (slot, c') ->
      nlen data <= r_len slot -> cb_capacity c <= cb_capacity (append_done slot data c').
    Proof.
      intros Hi E Hd. destruct (append_slot_ok mem Hmem size c Hi) as (r & c1 & E1 & _ & _ & Hfit & Hgrow & _).
      rewrite E in E1. injection E1 as <- <-. unfold cb_capacity, append_done. cbn.
      rewrite nlen_overlay.
      - destruct Hgrow as [->|?]; lia.
      - unfold append_slot in E. destruct (reserve mem size c) as [c1| |]; try discriminate E. cbn [rbind] in E.
        destruct (empty _ _ _ _) as [[sl b]| |]; try discriminate E. cbn [rbind fst] in E.
        destruct (index (cb_buffer c1) sl) eqn:Ex; try discriminate E. cbn [rbind] in E.
        injection E as -> ->. unfold index in Ex.
        destruct (N.leb_spec (r_start slot) (r_end slot)); [|discriminate Ex].
        destruct (N.leb_spec (r_end slot) (nlen (cb_buffer c'))); [|discriminate Ex].
        unfold r_len in *. lia.
    Qed.

    Lemma sr_append_grows size s bs : rep s bs ->
      cb_capacity (sr_buffer s) <= cb_capacity (sr_buffer (snd (sr_append mem size s))).
    Proof.
      intros Hr. pose proof (sp_inv _ _ _ _ _ _ Hr) as Hi. unfold sr_append, bind, on_buffer.
      destruct (append_slot mem size (sr_buffer s)) as [[slot c]| |] eqn:E; cbn [snd]; try lia.
      cbn [set_buffer sr_stream]. destruct (is_read (r_len slot) (sr_stream s)) as [rr i] eqn:Ei.
      apply (is_read_cases mem Hmem) in Ei as [_ [(data & -> & _ & Hd & _)|(k & -> & _)]]; cbn.
      - apply (append_grows size _ _ _ _ Hi E Hd).
      - destruct (append_slot_ok mem Hmem size _ Hi) as (r & c1 & E1 & _ & _ & Hfit & Hgrow & _).
        rewrite E in E1. injection E1 as <- <-. unfold cb_capacity. destruct Hgrow as [->|?]; lia.
    Qed.

    Lemma peek_fill_grows fuel n s bs : rep s bs ->
      cb_capacity (sr_buffer s) <= cb_capacity (sr_buffer (snd (sr_peek_fill mem fuel n s))).
    Proof.
      revert s. induction fuel as [|fuel IH]; intros s Hr; cbn [sr_peek_fill];
        destruct (N.ltb_spec (cb_len (sr_buffer s)) n); cbn [snd]; try lia.
      set (more := if sr_buffering s then _ else _).
      assert (Hmore : exists k, more s = (Ok k, s) /\ 0 < k).
      { subst more. destruct (sr_buffering s).
        - pose proof (sp_inv _ _ _ _ _ _ Hr) as [Hi _]. unfold lift, usub, cb_capacity, cb_len.
          destruct (N.leb_spec (cb_length (sr_buffer s)) (nlen (cb_buffer (sr_buffer s)))); [|lia].
          eexists. split; [reflexivity|]. unfold cb_len in *. lia.
        - eexists. split; [reflexivity|]. lia. }
      clearbody more. destruct Hmore as (k & Em & Hk). unfold bind. rewrite Em.
      pose proof (sr_append_grows k s bs Hr) as Hg.
      destruct (sr_append mem k s) as [ra sa] eqn:Ea. cbn [snd] in Hg.
      apply (sr_append_cases h mem Hmem buffering true sched k s bs) in Ea; [|assumption|auto|lia].
      destruct Ea as [(er & -> & Hio)|(w & -> & Hr' & _)]; [cbn; exact Hg|].
      destruct (w =? 0); [cbn; exact Hg|]. specialize (IH sa Hr'). lia.
    Qed.

    Lemma peek_good n s bs : good s bs ->
      good (snd (sr_peek mem n s)) bs
      /\ (buffering = true -> n <= cb_capacity (sr_buffer s) ->
          cb_capacity (sr_buffer (snd (sr_peek mem n s))) = cb_capacity (sr_buffer s))
      /\ ((n <= nlen bs /\ fst (sr_peek mem n s) = Ok (ntake n bs))
          \/ (nlen bs < n /\ fst (sr_peek mem n s) = Err UnexpectedEndOfInput)).
    Proof.
      intros [Hr Hc].
      assert (Hg : cb_capacity (sr_buffer s) <= cb_capacity (sr_buffer (snd (sr_peek mem n s)))).
      { unfold sr_peek, bind, see_buffer. pose proof (peek_fill_grows (N.to_nat n) n s bs Hr) as H.
        destruct (sr_peek_fill _ _ _ _) as [[]]; exact H. }
      destruct (sr_peek mem n s) as [r s'] eqn:E. cbn [fst snd] in *.
      destruct (sr_peek_cases h mem Hmem buffering true sched n s bs r s' eq_refl Hr E)
        as [(er & -> & Hio)|(Hr' & Hcap & H)].
      - destruct (no_escape (Err (A := bytes) er)). exists er. auto.
      - split; [split; [exact Hr'|]|auto]. intros Hb. specialize (Hc Hb). lia.
    Qed.

    Lemma skip_good n s bs : good s bs ->
      exists bs', good (snd (default_skip (sr_read mem) n s)) bs'
        /\ cb_capacity (sr_buffer (snd (default_skip (sr_read mem) n s))) = cb_capacity (sr_buffer s)
        /\ ((n <= nlen bs /\ fst (default_skip (sr_read mem) n s) = Ok tt /\ bs' = ndrop n bs)
            \/ (nlen bs < n /\ exists er, fst (default_skip (sr_read mem) n s) = Err er /\ is_eof er = true)).
    Proof.
      unfold default_skip.
      assert (Hk : n <= 1024 * N.of_nat (N.to_nat ((n + 1023) / 1024))).
      { rewrite N2Nat.id. pose proof (N.div_mod (n + 1023) 1024 ltac:(lia)).
        pose proof (N.mod_lt (n + 1023) 1024 ltac:(lia)). lia. }
      revert Hk. generalize (N.to_nat ((n + 1023) / 1024)) as k. intros k. revert n s bs.
      induction k as [|k IH]; intros n s bs Hk Hg; cbn [skip_loop].
      - destruct (N.eqb_spec n 0) as [->|]; [|lia]. cbn. exists bs. split; [exact Hg|]. split; [reflexivity|].
        left. rewrite drop_0. repeat split. lia.
      - destruct (N.eqb_spec n 0) as [->|].
        { cbn. exists bs. split; [exact Hg|]. split; [reflexivity|]. left. rewrite drop_0. repeat split. lia. }
        set (c := if n <? 1024 then n else 1024).
        assert (Hc : c <= n /\ n - c <= 1024 * N.of_nat k).
        { subst c. destruct (N.ltb_spec n 1024); lia. }
        clearbody c. destruct (read_good c s bs Hg) as (bs1 & Hg1 & Hcap1 & H1). unfold bind.
        destruct (sr_read mem c s) as [r1 s1]. cbn [fst snd] in *.
        destruct H1 as [(Hn1 & -> & ->)|(Hn1 & er & -> & Heof)].
        + destruct (IH (n - c) s1 (ndrop c bs) ltac:(lia) Hg1) as (bs2 & Hg2 & Hcap2 & H2).
          exists bs2. split; [exact Hg2|]. split; [congruence|]. rewrite nlen_drop, drop_drop in H2.
          destruct H2 as [(Hn2 & E2 & ->)|(Hn2 & er & E2 & Heof)].
          * left. split; [lia|]. split; [exact E2|]. f_equal. lia.
          * right. split; [lia|eauto].
        + exists bs1. split; [exact Hg1|]. split; [exact Hcap1|]. right. split; [lia|]. cbn. eauto.
    Qed.

    Lemma peek_prim_stream p s :
      peek_prim h R p s = (rmap (prim_of h e p) (fst (sr_peek mem (N.of_nat (psize p)) s)),
                           snd (sr_peek mem (N.of_nat (psize p)) s)).
    Proof.
      unfold peek_prim, peek_u8, peek_uint, bind, require, ret. cbn [StreamReader rd_can rd_peek_ptr rd_endian].
      destruct p; cbn [psize N.of_nat Pos.of_succ_nat Pos.succ]; destruct (sr_peek mem _ s) as [[]]; reflexivity.
    Qed.

    Lemma read_prim_stream p s :
      read_prim h R p s = (rmap (prim_of h e p) (fst (sr_read mem (N.of_nat (psize p)) s)),
                           snd (sr_read mem (N.of_nat (psize p)) s)).
    Proof.
      unfold read_prim, read_u8, read_uint, bind, require, ret. cbn [StreamReader rd_can rd_read_ptr rd_endian].
      destruct p; cbn [psize N.of_nat Pos.of_succ_nat Pos.succ]; destruct (sr_read mem _ s) as [[]]; reflexivity.
    Qed.

    Lemma psize_16 p : N.of_nat (psize p) <= 16.
    Proof. destruct p; cbn; lia. Qed.

    (** Every call keeps a reader usable. *)
    Lemma perform_good c s bs : good s bs -> exists bs', good (snd (perform h R c s)) bs'.
    Proof.
      intros Hg. destruct c as [n|n|p|n|t]; cbn [perform].
      - destruct (read_good n s bs Hg) as (bs' & H & _). exists bs'. unfold mmap, bind. cbn [StreamReader rd_read].
        destruct (sr_read mem n s) as [[]]; exact H.
      - destruct (peek_good n s bs Hg) as (H & _). exists bs. unfold mmap, bind. cbn [StreamReader rd_peek].
        destruct (sr_peek mem n s) as [[]]; exact H.
      - destruct (peek_good (N.of_nat (psize p)) s bs Hg) as (H & _). exists bs. unfold mmap, bind.
        rewrite peek_prim_stream. destruct (sr_peek mem _ s) as [[]]; exact H.
      - destruct (skip_good n s bs Hg) as (bs' & H & _). exists bs'. unfold mmap, bind. cbn [StreamReader rd_skip].
        destruct (default_skip _ n s) as [[]]; exact H.
      - destruct (streams_lock h VH e buffering true mem mem Hmem Hmem sched sched (Hsc _) (Hsc _) t (peeks_anything t)
          s s (good_same s bs Hg)) as [H|[H|[_ H]]]; [destruct (no_escape _ H)|destruct (no_escape _ H)|].
        apply (same_good _ _ H).
    Qed.

    Lemma after_good cs : forall s bs, good s bs -> exists bs', good (after h R cs s) bs'.
    Proof.
      induction cs as [|c cs IH]; intros s bs Hg; cbn [after]; [eauto|].
      destruct (perform_good c s bs Hg) as (bs' & H). eapply IH, H.
    Qed.

    (** Readers that hold the same bytes cannot be told apart. *)
    Lemma perform_lock c : modest c -> locks (perform h R c) (perform h R c).
    Proof.
      intros Hm. pose proof (streams_locked h e buffering true mem mem Hmem Hmem sched sched) as LK.
      destruct c as [n|n|p|n|t]; cbn [perform modest] in *.
      - apply lock_map, LK.
      - apply lock_map, LK; [reflexivity|exact Hm].
      - apply lock_map, lock_bind; [|intros; apply lock_ret].
        destruct p; first [apply (lock_peek_u8 _ _ _ _ _ _ _ LK eq_refl) | apply (lock_peek_uint _ _ _ _ _ _ _ _ LK); [reflexivity|cbn; lia]].
      - apply lock_map. cbn [StreamReader rd_skip]. unfold default_skip. revert n.
        generalize 1023 as c. intros c n. generalize (N.to_nat ((n + c) / 1024)) as k. intros k. revert n.
        induction k as [|k IH]; intros n; cbn [skip_loop]; destruct (n =? 0);
          [apply lock_ret|apply lock_crash|apply lock_ret|].
        apply lock_bind; [apply (lk_read _ _ _ _ _ _ _ LK)|]. intros _. apply IH.
      - apply streams_lock; try assumption; try apply (Hsc _). apply peeks_anything.
    Qed.

    Lemma results_same cs : Forall modest cs -> forall s1 s2, same s1 s2 -> results h R cs s1 = results h R cs s2.
    Proof.
      induction 1 as [|c cs Hm _ IH]; intros s1 s2 Hs; cbn [results]; [reflexivity|].
      destruct (perform_lock c Hm s1 s2 Hs) as [H|[H|[E H]]]; [destruct (no_escape _ H)|destruct (no_escape _ H)|].
      destruct (perform h R c s1) as [r1 s1'], (perform h R c s2) as [r2 s2']. cbn [fst snd] in *.
      rewrite E, (IH _ _ H). reflexivity.
    Qed.
  End Schedule.

  Lemma stream_state_good s : stream_state s -> exists sched bs, no_errors sched /\ good sched s bs.
  Proof.
    intros (i & cs & Hsc & Hl & ->). exists (is_sched i).
    assert (Hg : good (is_sched i) (sr_start mem buffering i) (is_rest i)).
    { split; [apply (sr_start_rep h mem Hmem buffering true (is_sched i) i eq_refl Hl)|].
      intros Hb. cbn [sr_start sr_buffer]. rewrite Hb.
      pose proof (with_capacity_ok mem Hmem (8 * 1024)) as (_ & _ & ->). lia. }
    destruct (after_good (is_sched i) Hsc cs _ _ Hg) as (bs & H). eauto.
  Qed.

  (** C20: in every state a stream reader can be in, peeking a primitive gives
      what reading it would give, and nothing that is done afterwards shows
      whether there was a peek. *)
  Theorem C20_stream p s : stream_state s ->
    let (r, s') := peek_prim h R p s in
    same_outcome r (fst (read_prim h R p s))
    /\ (forall cs, Forall modest cs -> results h R cs s' = results h R cs s).
  Proof.
    intros Hs. destruct (stream_state_good s Hs) as (sched & bs & Hsc & Hg).
    destruct (peek_good sched Hsc (N.of_nat (psize p)) s bs Hg) as (Hg' & Hcap & Hp).
    destruct (read_good sched Hsc (N.of_nat (psize p)) s bs Hg) as (bs' & _ & _ & Hr).
    rewrite peek_prim_stream, read_prim_stream. cbn [fst]. split.
    - destruct Hp as [(Hn & ->)|(Hn & ->)], Hr as [(Hn2 & -> & _)|(Hn2 & er & -> & Heof)]; try lia.
      + left. eexists. split; reflexivity.
      + right. exists UnexpectedEndOfInput, er. auto.
    - intros cs Hcs. apply (results_same sched Hsc cs Hcs). exists bs.
      split; [apply Hg'|]. split; [apply Hg|]. intros Hb. rewrite Hcap.
      + split; [reflexivity|apply Hg, Hb].
      + exact Hb.
      + pose proof (psize_16 p). pose proof (proj2 Hg Hb). lia.
  Qed.

  (** C22: skipping succeeds exactly when reading does, and then leaves the
      reader in a state that cannot be told apart. *)
  Theorem C22_stream n s : stream_state s ->
    let (r, s') := rd_skip R n s in
    same_outcome r (rmap (fun _ => tt) (fst (rd_read R n s)))
    /\ (r = Ok tt -> forall cs, Forall modest cs -> results h R cs s' = results h R cs (snd (rd_read R n s))).
  Proof.
    intros Hs. destruct (stream_state_good s Hs) as (sched & bs & Hsc & Hg). cbn [StreamReader rd_skip rd_read].
    destruct (skip_good sched Hsc n s bs Hg) as (bs1 & Hg1 & Hc1 & H1).
    destruct (read_good sched Hsc n s bs Hg) as (bs2 & Hg2 & Hc2 & H2).
    destruct (default_skip (sr_read mem) n s) as [r s1], (sr_read mem n s) as [r2 s2]. cbn [fst snd] in *.
    destruct H1 as [(Hn1 & -> & ->)|(Hn1 & er1 & -> & He1)], H2 as [(Hn2 & -> & ->)|(Hn2 & er2 & -> & He2)]; try lia.
    - split; [left; eexists; split; reflexivity|]. intros _ cs Hcs. apply (results_same sched Hsc cs Hcs).
      exists (ndrop n bs). split; [apply Hg1|]. split; [apply Hg2|]. intros Hb.
      split; [congruence|apply Hg1, Hb].
    - split; [right; exists er1, er2; auto|discriminate].
  Qed.
End Stream.

Print Assumptions C20_stream.
Print Assumptions C22_stream.

(* ------------------------------------------------------------------ *)
(** * The hypotheses are met *)

(** A buffered stream in small chunks, after a few calls: the ring buffer is
    partly filled. *)
Definition ten_bytes : bytes := map n2b [1; 2; 3; 4; 5; 6; 7; 8; 9; 10].
Definition in_twos : istream := {| is_rest := ten_bytes; is_sched := repeat (RChunk 2) 20 |}.
Definition midway : sreader :=
  after host64 (StreamReader dirty BE) [SRead 1; SPeek 3; SSkip 1] (sr_start dirty true in_twos).

Example midway_state : stream_state host64 BE dirty true midway.
Proof.
  exists in_twos, [SRead 1; SPeek 3; SSkip 1]. split; [|split; [vm_compute; discriminate|reflexivity]].
  intros k H. apply repeat_spec in H. discriminate.
Qed.

Example midway_peek :
  fst (peek_prim host64 (StreamReader dirty BE) U32 midway) = Ok 50595078%Z
  /\ fst (read_prim host64 (StreamReader dirty BE) U32 midway) = Ok 50595078%Z
  /\ results host64 (StreamReader dirty BE) [SPeekPrim U16; SSkip 5; SValue (TP U16); SValue (TP U64)] midway
     = [Ok (VInt 772); Ok VUnit; Ok (VInt 2057); Err UnexpectedEndOfInput].
Proof. repeat split; vm_compute; reflexivity. Qed.

(** After a failed call the bytes may be gone: a failed read of 2000 bytes leaves
    the input, a failed skip takes the first 1024. *)
Example failed_skip :
  let s := sr_start dirty true {| is_rest := repeat x00 1500; is_sched := [] |} in
  let R := StreamReader dirty LE in
  (fst (rd_read R 2000 s), fst (rd_skip R 2000 s)) = (Err UnexpectedEndOfInput, Err UnexpectedEndOfInput)
  /\ nlen (unread (snd (rd_read R 2000 s))) = 1500 /\ nlen (unread (snd (rd_skip R 2000 s))) = 476.
Proof. repeat split; vm_compute; reflexivity. Qed.
