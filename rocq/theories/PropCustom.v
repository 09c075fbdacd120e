(* Property C104: readers and writers written by hand. *)
From Verif Require Import Custom Entry DecodeFacts WriteSim WriteApi Conditions Samples.
From Verif Require Import PropReaders PropRoundTrip.

(* ------------------------------------------------------------------ *)
(** * What an implementation has to do *)

(** [left s]: the bytes still to come in the state [s]; [inv]: the states that
    occur; [io]: errors that have nothing to do with the end of the input. *)
Record keeps_contract {St} (u : user_reader St) (inv : St -> Prop) (left : St -> bytes) (io : error -> Prop) : Prop := {
  kc_io : forall er, io er -> is_eof er = false;
  (* reading [n] bytes gives the next [n] bytes, if there are as many; otherwise it
     is the end of the input, and some of them may be lost *)
  kc_read : forall s n, inv s ->
    match ur_read u n s with
    | (Ok b, s') => inv s' /\ nlen b = n /\ left s = b ++ left s'
    | (Err er, s') =>
        (is_eof er = true /\ nlen (left s) < n /\ inv s' /\ exists lost, left s = lost ++ left s') \/ io er
    | (Fault _, _) => False
    end;
  (* peeking gives the same bytes and leaves them there *)
  kc_peek : forall s n, inv s ->
    match ur_peek u n s with
    | (Ok b, s') => inv s' /\ left s' = left s /\ nlen b = n /\ exists rest, left s = b ++ rest
    | (Err er, s') =>
        (is_eof er = true /\ nlen (left s) < n /\ inv s' /\ exists lost, left s = lost ++ left s') \/ io er
    | (Fault _, _) => False
    end;
  (* an answer to `can_read_at_least` is true *)
  kc_can : forall s n b, inv s -> ur_can u n s = Some b -> b = (n <=? nlen (left s))
}.

(** [out s]: what has arrived.  Writing delivers the bytes, or fails having
    delivered the first few of them. *)
Definition delivers {St} (u : user_writer St) (inv : St -> Prop) (out : St -> bytes) (werr : error -> Prop) : Prop :=
  forall s b, inv s ->
    match uw_write u b s with
    | (Ok _, s') => inv s' /\ out s' = out s ++ b
    | (Err er, s') => werr er /\ inv s' /\ exists b1 b2, b = b1 ++ b2 /\ out s' = out s ++ b1
    | (Fault _, _) => False
    end.

(* ------------------------------------------------------------------ *)
(** * Reading *)

Section Reading.
  Context (h : host) (VH : valid_host h) {St : Type} (u : user_reader St).
  Context (inv : St -> Prop) (left : St -> bytes) (io : error -> Prop) (K : keeps_contract u inv left io).
  Notation e := (ur_endian u).
  Notation e6 := (ipv6_order h e).
  Notation decode := (decode (h_lim h) e e6).

  Definition rounds (s : St) : nat := S (length (left s)).
  Notation R := (hand_written rounds u).

  (** The size bound: the input fits into the address space. *)
  Definition urep (s : St) (bs : bytes) : Prop := inv s /\ left s = bs /\ nlen bs <= l_usize_max (h_lim h).

  Lemma repo_inv s o : repo urep s o -> inv s /\ nlen (left s) <= l_usize_max (h_lim h).
  Proof.
    destruct o as [bs|]; cbn; [intros (Hi & <- & Hs)|intros (bs & Hi & <- & Hs)]; auto.
  Qed.

  Lemma repo_some s bs : repo urep s (Some bs) -> bs = left s.
  Proof. intros (_ & <- & _). reflexivity. Qed.

  Lemma repo_same s s' o : repo urep s o -> inv s' -> left s' = left s -> repo urep s' o.
  Proof.
    intros Hr Hi E. destruct o as [bs|]; cbn in *.
    - destruct Hr as (_ & <- & Hs). repeat split; auto.
    - exists (left s'). destruct Hr as (bs & _ & <- & Hs). repeat split; auto. rewrite E. exact Hs.
  Qed.

  Lemma u_ended {A} o er s s' n : repo urep s o -> n <> 0 ->
    is_eof er = true -> nlen (left s) < n -> inv s' -> (exists lost, left s = lost ++ left s') ->
    ended urep o (Err (A := A) er) s'.
  Proof.
    intros Hr Hz He Hn Hi (lost & Hl). destruct (repo_inv s o Hr) as [_ Hs].
    assert (Hs' : nlen (left s') <= l_usize_max (h_lim h)) by (rewrite Hl, nlen_app in Hs; lia).
    exists er. split; [reflexivity|]. split; [exact He|]. split; [exists (left s'); repeat split; auto|].
    intros ->. apply repo_some in Hr. rewrite <- Hr in Hl. symmetry in Hl. apply app_eq_nil in Hl.
    destruct Hl as [_ Hl]. rewrite Hl in Hs'. repeat split; auto.
  Qed.

  Lemma u_read_sim n : sim urep io (ur_read u n) (dread n).
  Proof.
    intros s o Hr. destruct (repo_inv s o Hr) as [Hi Hs].
    pose proof (kc_read _ _ _ _ K s n Hi) as H. destruct (ur_read u n s) as [[b|er|f] s']; cbn [fst snd]; [| |contradiction].
    - right. destruct H as (Hi' & Hn & Hl). unfold dread. destruct (N.eqb_spec n 0) as [->|Hz].
      + destruct b as [|x b]; [|rewrite nlen_cons in Hn; lia]. split; [reflexivity|]. split; [|auto].
        apply (repo_same s); auto.
      + destruct o as [bs|]; [|exact I]. apply repo_some in Hr. subst bs.
        assert (Hln : nlen (left s) = n + nlen (left s')) by (rewrite Hl, nlen_app; lia).
        destruct (N.leb_spec n (nlen (left s))); [|lia]. split; [|split].
        * rewrite Hl, take_app_exact by exact Hn. reflexivity.
        * rewrite Hl, drop_app_exact by exact Hn. split; [exact Hi'|]. split; [reflexivity|]. lia.
        * intros E. injection E as E. rewrite E in Hln. change (nlen (@nil byte)) with 0 in Hln. lia.
    - destruct H as [(He & Hn & Hi' & Hlost)|Hio]; [|left; exists er; auto]. right. unfold dread.
      destruct (N.eqb_spec n 0) as [->|Hz]; [lia|]. destruct o as [bs|]; [|exact I].
      pose proof (repo_some s bs Hr) as ->. destruct (N.leb_spec n (nlen (left s))); [lia|].
      exact (u_ended _ er s s' n Hr Hz He Hn Hi' Hlost).
  Qed.

  Lemma u_peek_sim n : sim urep io (ur_peek u n) (dpeek (dread n)).
  Proof.
    intros s o Hr. destruct (repo_inv s o Hr) as [Hi Hs].
    pose proof (kc_peek _ _ _ _ K s n Hi) as H. unfold dpeek.
    destruct (ur_peek u n s) as [[b|er|f] s']; cbn [fst snd]; [| |contradiction].
    - right. destruct H as (Hi' & Hsame & Hn & rest & Hl). unfold dread. destruct (N.eqb_spec n 0) as [->|Hz].
      + destruct b as [|x b]; [|rewrite nlen_cons in Hn; lia]. split; [reflexivity|]. split; [|auto].
        apply (repo_same s); auto.
      + destruct o as [bs|]; [|exact I]. pose proof (repo_some s bs Hr) as ->.
        assert (Hln : nlen (left s) = n + nlen rest) by (rewrite Hl, nlen_app; lia).
        destruct (N.leb_spec n (nlen (left s))); [|lia]. split; [|split; [|auto]].
        * rewrite Hl, take_app_exact by exact Hn. reflexivity.
        * apply (repo_same s); auto.
    - destruct H as [(He & Hn & Hi' & Hlost)|Hio]; [|left; exists er; auto]. right. unfold dread.
      destruct (N.eqb_spec n 0) as [->|Hz]; [lia|]. destruct o as [bs|]; [|exact I].
      pose proof (repo_some s bs Hr) as ->. destruct (N.leb_spec n (nlen (left s))); [lia|].
      exact (u_ended _ er s s' n Hr Hz He Hn Hi' Hlost).
  Qed.

  (** The chunks of the provided `skip_bytes` make up the whole. *)
  Lemma u_skip_sim n : sim urep io (default_skip (ur_read u) n) (dmap (fun _ => tt) (dread n)).
  Proof.
    unfold default_skip.
    assert (Hk : n <= 1024 * N.of_nat (N.to_nat ((n + 1023) / 1024))).
    { rewrite N2Nat.id. pose proof (N.div_mod (n + 1023) 1024 ltac:(lia)).
      pose proof (N.mod_lt (n + 1023) 1024 ltac:(lia)). lia. }
    revert Hk. generalize (N.to_nat ((n + 1023) / 1024)) as k. intros k. revert n.
    induction k as [|k IH]; intros n Hk; cbn [skip_loop].
    - destruct (N.eqb_spec n 0) as [->|]; [|lia]. apply sim_ret.
    - destruct (N.eqb_spec n 0) as [->|]; [apply sim_ret|].
      set (c := if n <? 1024 then n else 1024).
      assert (Hc : c <= n /\ n - c <= 1024 * N.of_nat k /\ c + (n - c) = n).
      { subst c. destruct (N.ltb_spec n 1024); lia. }
      eapply (sim_ext _ _ _ _ (dbind (dread c) (fun _ => dmap (fun _ => tt) (dread (n - c))))).
      + reflexivity.
      + intros o. rewrite (dread_add c (n - c) (fun _ _ => dret tt)).
        replace (c + (n - c)) with n by lia. reflexivity.
      + apply sim_bind; [apply u_read_sim|]. intros _. apply IH. lia.
  Qed.

  Lemma user_ok : reader_ok h R true urep io.
  Proof.
    constructor; cbn.
    - apply (kc_io _ _ _ _ K).
    - apply u_read_sim.
    - apply u_read_sim.
    - intros _. apply u_peek_sim.
    - intros _. apply u_peek_sim.
    - apply u_skip_sim.
    - intros n s bs (Hi & <- & _). destruct (ur_can u n s) as [b|] eqn:E; [|auto].
      right. f_equal. exact (kc_can _ _ _ _ K s n b Hi E).
    - discriminate.
    - discriminate.
    - discriminate.
    - intros n size min s bs Hr. exists s. split; [reflexivity|exact Hr].
    - intros s bs (_ & <- & _). reflexivity.
    - intros s bs (_ & _ & Hs). exact Hs.
    - congruence.
  Qed.

  Lemma user_sim t s : supported h e false true LDefault t -> inv s -> nlen (left s) <= l_usize_max (h_lim h) ->
    escape io (fst (read h R t s)) \/ post urep (Some (left s)) (decode t (left s)) (fst (read h R t s)) (snd (read h R t s)).
  Proof.
    intros Hs Hi Hl. apply (read_sim h VH R false true urep io user_ok ltac:(discriminate) t Hs s (Some (left s))).
    repeat split; auto.
  Qed.

  (** A value is read if and only if it is read from a buffer with the same bytes,
      unless the reader fails for reasons of its own. *)
  Theorem C104_read t s bs : supported h e false true LDefault t -> minok h t -> no_eof false t ->
    inv s -> left s = bs -> nlen bs <= h_alloc_max h ->
    (exists er, fst (read h R t s) = Err er /\ io er)
    \/ forall v, fst (read h R t s) = Ok v <-> read_from_buffer_copying h e t bs = Ok v.
  Proof.
    intros Hs Hm Hn Hi <- Hl. pose proof (vh_alloc h VH) as Ha.
    destruct (user_sim t s Hs Hi ltac:(lia)) as [He|Hp]; [left; exact He|right].
    apply post_agrees in Hp. pose proof (decode_spec (h_lim h) e e6 t (left s) Hn) as Hu.
    destruct (reading_agrees h VH e t (left s) false _ Hs (from_copied_buffer h e t (left s) Hl)) as [[Hsm ->]|Ha2].
    - intros v. split; [|discriminate]. intros E. rewrite E in Hp.
      pose proof (small_undecodable h VH e t (left s) v) as Hno.
      destruct (decode t (left s)) as [w o| |er sure|f sure|]; cbn in Hp.
      + injection Hp as <-. destruct (Hno o Hm Hsm eq_refl).
      + destruct Hp as (er & Hp & _). discriminate.
      + destruct Hp as [[Hp _]|[_ (er' & Hp & _)]]; discriminate.
      + destruct Hp as [Hp|[_ (er' & Hp & _)]]; discriminate.
      + congruence.
    - exact (agrees_same _ _ _ Hu Hp Ha2).
  Qed.

  (** Then the reader has moved on by as much. *)
  Theorem C104_position t s bs v n : supported h e false true LDefault t -> no_eof false t ->
    inv s -> left s = bs -> nlen bs <= h_alloc_max h ->
    read_with_length_from_buffer_copying h e t bs = (Ok v, n) ->
    (exists er, fst (read h R t s) = Err er /\ io er)
    \/ exists s', read h R t s = (Ok v, s') /\ inv s' /\ left s' = ndrop n bs.
  Proof.
    intros Hs Hn Hi <- Hl Hb. pose proof (vh_alloc h VH) as Ha.
    destruct (user_sim t s Hs Hi ltac:(lia)) as [He|Hp]; [left; exact He|right].
    assert (Hm : min_bytes h t <= nlen (left s)).
    { destruct (N.lt_ge_cases (nlen (left s)) (min_bytes h t)) as [Hc|Hc]; [|exact Hc].
      rewrite copying_small in Hb by exact Hc. discriminate. }
    destruct (copying_agrees h VH e t (left s) Hs Hl Hm) as [Ha2 Hlen].
    unfold read_from_buffer_copying in Ha2. rewrite Hb in Ha2. cbn [fst] in Ha2.
    destruct (decode t (left s)) as [w o| |er sure|f sure|] eqn:Hd; cbn in Ha2.
    - injection Ha2 as <-. destruct (decode_ok_rest _ _ _ t (left s) v o Hn Hd) as (c & r & -> & Ebs).
      specialize (Hlen v r eq_refl). rewrite Hb in Hlen. injection Hlen as ->.
      destruct Hp as (E & (Hi' & Hl' & _) & _). exists (snd (read h R t s)).
      split; [rewrite <- E; destruct (read h R t s); reflexivity|]. split; [exact Hi'|].
      rewrite Hl', Ebs, nlen_app, drop_app_exact by lia. reflexivity.
    - destruct Ha2 as (er & E & _). discriminate.
    - destruct Ha2 as [[E _]|[_ (er' & E & _)]]; discriminate.
    - destruct Ha2 as [E|[_ (er' & E & _)]]; discriminate.
    - destruct (decode_spec _ _ _ _ _ Hn Hd).
  Qed.
End Reading.

(* ------------------------------------------------------------------ *)
(** * Writing *)

Section Writing.
  Context (h : host) (VH : valid_host h) {St : Type} (w : user_writer St).
  Context (inv : St -> Prop) (out : St -> bytes) (werr : error -> Prop) (D : delivers w inv out werr).
  Notation e := (uw_endian w).
  Notation W := (hand_written_writer h w).

  Definition uwrep (s : St) (bs : bytes) : Prop := inv s /\ out s = bs.
  Notation never := (fun _ : bytes => False).

  Lemma u_write_sim b : wsim uwrep werr never (uw_write w b) (Ok b).
  Proof.
    intros s o (Hi & <-). pose proof (D s b Hi) as H. destruct (uw_write w b s) as [[[]|er|f] s']; cbn [fst snd]; [| |contradiction].
    - left. split; [reflexivity|]. exact H.
    - right. destruct H as (He & Hi' & b1 & b2 & -> & Ho). exists er, b1, b2. repeat split; auto.
  Qed.

  Lemma user_writer_ok : writer_ok h W uwrep werr never.
  Proof.
    constructor; cbn.
    - apply u_write_sim.
    - intros n. apply u_write_sim.
    - intros k n. unfold default_uint. rewrite to_ne_swap. apply u_write_sim.
    - discriminate.
    - auto.
  Qed.

  (** What arrives is the encoding, or on an error of the writer the beginning of it. *)
  Theorem C104_write t v b s mem : (forall n, n <= nlen (mem n)) -> wsup h t -> valid (h_lim h) t v -> inv s ->
    write_to_vec h mem e t v = Ok b ->
    match write h W t v s with
    | (Ok _, s') => inv s' /\ out s' = out s ++ b
    | (Err er, s') => werr er /\ inv s' /\ exists b1 b2, b = b1 ++ b2 /\ out s' = out s ++ b1
    | (Fault _, _) => False
    end.
  Proof.
    intros Hm Hs Hv Hi Hw. apply (write_to_vec_err h VH) in Hw; try assumption.
    pose proof (write_sim h VH W uwrep werr never user_writer_ok t v Hs Hv s (out s) (conj Hi eq_refl)) as H.
    change (wr_endian W) with e in H. unfold Spec.encode in Hw. rewrite Hw in H.
    destruct (write h W t v s) as [r s']. cbn [fst snd] in H.
    destruct H as [[-> [H1 H2]]|(er & b1 & b2 & -> & -> & He & [H1 H2] & _)]; [auto|].
    split; [exact He|]. split; [exact H1|]. eauto.
  Qed.

  (** What cannot be written to a vector is not written. *)
  Theorem C104_write_fails t v s mem : (forall n, n <= nlen (mem n)) -> wsup h t -> valid (h_lim h) t v -> inv s ->
    (forall b, write_to_vec h mem e t v <> Ok b) -> fst (write h W t v s) <> Ok tt.
  Proof.
    intros Hm Hs Hv Hi Hw Hok.
    pose proof (write_sim h VH W uwrep werr never user_writer_ok t v Hs Hv s (out s) (conj Hi eq_refl)) as H.
    change (wr_endian W) with e in H. rewrite Hok in H.
    destruct (Spec.enc (h_iter h) e (ipv6_order h e) len0 t v) as [b|er|f] eqn:E; cbn in H.
    - apply (Hw b). apply (write_to_vec_ok h VH); assumption.
    - destruct H as (er' & y & H & _). discriminate.
    - destruct H as [H|(er' & H & _)]; discriminate.
  Qed.
End Writing.

(** Through both: the value comes back, and the reader stands behind it. *)
Theorem C104_round_trip h (VH : valid_host h) St (w : user_writer St) winv out werr
    St' (u : user_reader St') inv left io t v s s1 r before rest :
  delivers w winv out werr -> keeps_contract u inv left io -> uw_endian w = ur_endian u ->
  covered h (ur_endian u) false true t -> no_eof false t -> value_of h (ur_endian u) t v ->
  winv s -> out s = before -> write h (hand_written_writer h w) t v s = (Ok tt, s1) ->
  inv r -> before ++ left r = out s1 ++ rest -> nlen (left r) <= l_usize_max (h_lim h) ->
  (exists er, fst (read h (hand_written (rounds left) u) t r) = Err er /\ io er)
  \/ exists r', read h (hand_written (rounds left) u) t r = (Ok (norm t v), r') /\ inv r' /\ left r' = rest.
Proof.
  intros HD HK He [Hws Hs Hr] Hn Hv Hi <- Hwr Hir Hl Hsz.
  pose proof (write_sim h VH (hand_written_writer h w) (uwrep winv out) werr (fun _ => False)
    (user_writer_ok h w winv out werr HD) t v Hws (proj1 Hv) s (out s) (conj Hi eq_refl)) as H.
  rewrite Hwr in H. change (wr_endian (hand_written_writer h w)) with (uw_endian w) in H. rewrite He in H. cbn [fst snd] in H.
  destruct (Spec.enc (h_iter h) (ur_endian u) (ipv6_order h (ur_endian u)) len0 t v) as [b|er|f] eqn:E; cbn in H.
  - destruct H as [[_ [_ Ho]]|(er & b1 & b2 & _ & H & _)]; [|discriminate].
    rewrite Ho, <- app_assoc in Hl. apply app_inv_head in Hl.
    assert (Hop : opens false t = true -> rest = []) by (rewrite (no_eof_closed t false Hn); discriminate).
    pose proof (host_round_trip h VH (ur_endian u) t v b rest Hr Hv E Hop) as Hd.
    destruct (user_sim h VH u inv left io HK t r Hs Hir Hsz) as [Hesc|Hp]; [left; exact Hesc|right].
    rewrite Hl, Hd in Hp. destruct Hp as (Er & (Hi' & Hl' & _) & _).
    exists (snd (read h (hand_written (rounds left) u) t r)).
    split; [rewrite <- Er; destruct (read h _ t r); reflexivity|]. auto.
  - destruct H as (er' & y & H & _). discriminate.
  - destruct H as [H|(er' & H & _)]; discriminate.
Qed.

(* ------------------------------------------------------------------ *)
(** * A case: a cipher, over a connection that breaks after some calls *)

Definition scramble (key b : byte) : byte := n2b (N.lxor (b2n key) (b2n b)).

Record wire := { wi_bytes : bytes; wi_calls : nat }.

Definition wire_get (key : byte) (keep : bool) (n : N) : M wire bytes := fun s =>
  match wi_calls s with
  | O => (Err (IoError (IoOther 104)), s)
  | S k =>
    if n <=? nlen (wi_bytes s) then
      (Ok (map (scramble key) (ntake n (wi_bytes s))),
       {| wi_bytes := if keep then wi_bytes s else ndrop n (wi_bytes s); wi_calls := k |})
    else (Err UnexpectedEndOfInput, {| wi_bytes := wi_bytes s; wi_calls := k |})
  end.

Definition cipher_reader (e : endian) (key : byte) : user_reader wire :=
  {| ur_endian := e; ur_read := wire_get key false; ur_peek := wire_get key true; ur_can := fun _ _ => None |}.

Definition cipher_writer (e : endian) (key : byte) : user_writer bytes :=
  {| uw_endian := e; uw_write := fun b s => (Ok tt, s ++ map (scramble key) b) |}.

Definition clear (key : byte) (s : wire) : bytes := map (scramble key) (wi_bytes s).
Definition broken (er : error) : Prop := er = IoError (IoOther 104).

Lemma scramble_twice key b : scramble key (scramble key b) = b.
Proof. destruct key, b; reflexivity. Qed.

Lemma cipher_contract e key : keeps_contract (cipher_reader e key) (fun _ => True) (clear key) broken.
Proof.
  constructor.
  - intros er ->. reflexivity.
  - intros s n _. cbn [cipher_reader ur_read]. unfold wire_get. destruct (wi_calls s); [right; reflexivity|].
    unfold clear. destruct (N.leb_spec n (nlen (wi_bytes s))) as [Hn|Hn].
    + split; [exact I|]. split; [rewrite nlen_map, nlen_take; lia|].
      cbn [wi_bytes]. rewrite <- map_app, take_drop. reflexivity.
    + left. split; [reflexivity|]. split; [rewrite nlen_map; exact Hn|]. split; [exact I|].
      exists []. reflexivity.
  - intros s n _. cbn [cipher_reader ur_peek]. unfold wire_get. destruct (wi_calls s); [right; reflexivity|].
    unfold clear. destruct (N.leb_spec n (nlen (wi_bytes s))) as [Hn|Hn].
    + split; [exact I|]. split; [reflexivity|].
      split; [rewrite nlen_map, nlen_take; lia|].
      exists (map (scramble key) (ndrop n (wi_bytes s))). rewrite <- map_app, take_drop. reflexivity.
    + left. split; [reflexivity|]. split; [rewrite nlen_map; exact Hn|]. split; [exact I|].
      exists []. reflexivity.
  - discriminate.
Qed.

Lemma cipher_delivers e key :
  delivers (cipher_writer e key) (fun _ => True) (map (scramble key)) (fun _ => False).
Proof.
  intros s b _. cbn. split; [exact I|]. rewrite map_app, map_map. f_equal.
  rewrite <- (map_id b) at 2. apply map_ext, scramble_twice.
Qed.

Definition on_the_wire : bytes := snd (write host64 (hand_written_writer host64 (cipher_writer BE x5a)) sample sample_value []).

(** The bytes are not the encoding, but the value arrives. *)
Example C104_scrambled :
  write_to_vec host64 dirty BE sample sample_value <> Ok on_the_wire
  /\ fst (read host64 (hand_written (rounds (clear x5a)) (cipher_reader BE x5a)) sample
        {| wi_bytes := on_the_wire ++ [xff; x00]; wi_calls := 1000 |}) = Ok sample_back.
Proof. split; vm_compute; [discriminate|reflexivity]. Qed.

Example C104_case rest calls :
  nlen (on_the_wire ++ rest) <= l_usize_max (h_lim host64) ->
  let r := {| wi_bytes := on_the_wire ++ rest; wi_calls := calls |} in
  let R := hand_written (rounds (clear x5a)) (cipher_reader BE x5a) in
  (exists er, fst (read host64 R sample r) = Err er /\ broken er)
  \/ exists r', read host64 R sample r = (Ok sample_back, r') /\ wi_bytes r' = rest.
Proof.
  intros Hl r R.
  destruct (C104_round_trip host64 host64_valid bytes (cipher_writer BE x5a) (fun _ => True) (map (scramble x5a)) (fun _ => False)
    wire (cipher_reader BE x5a) (fun _ => True) (clear x5a) broken sample sample_value [] on_the_wire r []
    (map (scramble x5a) rest)) as [H|(r' & H1 & _ & H2)].
  - apply cipher_delivers.
  - apply cipher_contract.
  - reflexivity.
  - apply coveredb_sound. vm_compute. reflexivity.
  - apply no_eofb_sound. vm_compute. reflexivity.
  - apply value_ofb_sound. vm_compute. reflexivity.
  - exact I.
  - reflexivity.
  - vm_compute. reflexivity.
  - exact I.
  - unfold clear, r. cbn [wi_bytes app]. apply map_app.
  - unfold clear, r. cbn [wi_bytes]. rewrite nlen_map. exact Hl.
  - left. exact H.
  - right. exists r'. split; [exact H1|]. unfold clear in H2.
    apply (f_equal (map (scramble x5a))) in H2. rewrite !map_map in H2.
    assert (Hid : forall l, map (fun x => scramble x5a (scramble x5a x)) l = l).
    { intros l. rewrite <- (map_id l) at 2. apply map_ext, scramble_twice. }
    rewrite !Hid in H2. exact H2.
Qed.

(** The contract is needed: a `peek_bytes` that moves on, as one that forwards to
    `read_bytes` does, loses the tag of what follows. *)
Definition forgetful (e : endian) : user_reader wire :=
  {| ur_endian := e; ur_read := wire_get x00 false; ur_peek := wire_get x00 false; ur_can := fun _ _ => None |}.

Theorem C104_moving_peek_refuted : exists h t bs v,
  valid_host h /\ supported h LE false true LDefault t /\ minok h t /\ no_eof false t
  /\ read_from_buffer_copying h LE t bs = Ok v
  /\ exists er, fst (read h (hand_written (rounds (clear x00)) (forgetful LE)) t {| wi_bytes := bs; wi_calls := 100 |}) = Err er
       /\ ~ broken er.
Proof.
  exists host64, (TEnum {| e_tag := BU8; e_peek := true |} [(1, [(plain, TP U8); (plain, TP U8)]); (2, [(plain, TP U8)])]),
    [x01; x07], (VVar 0 [VInt 1; VInt 7]).
  split; [apply host64_valid|]. split; [apply supportedb_sound; vm_compute; reflexivity|].
  split; [apply minokb_sound; vm_compute; reflexivity|]. split; [apply no_eofb_sound; vm_compute; reflexivity|].
  split; [vm_compute; reflexivity|]. eexists. split; [vm_compute; reflexivity|]. discriminate.
Qed.

Print Assumptions C104_read.
Print Assumptions C104_position.
Print Assumptions C104_write.
Print Assumptions C104_write_fails.
Print Assumptions C104_round_trip.
Print Assumptions C104_moving_peek_refuted.
