(* Property C138: readers written by hand that lend. *)
From Verif Require Import Lending Entry DecodeFacts Conditions Samples Safe.
From Verif Require Import PropReaders PropUntil PropCustom.

(* ------------------------------------------------------------------ *)
(** * What an implementation has to do *)

(** [m n] gives the next [n] bytes, if there are as many; otherwise it is the end of the
    input, and some of them may be lost. *)
Definition gives_next {St} (inv : St -> Prop) (left : St -> bytes) (io : error -> Prop) (m : N -> M St bytes) : Prop :=
  forall s n, inv s ->
    match m n s with
    | (Ok b, s') => inv s' /\ nlen b = n /\ left s = b ++ left s'
    | (Err er, s') =>
        (is_eof er = true /\ nlen (left s) < n /\ inv s' /\ exists lost, left s = lost ++ left s') \/ io er
    | (Fault _, _) => False
    end.

Record lends_well {St} (l : lending_reader St) (inv : St -> Prop) (left : St -> bytes) (io : error -> Prop) : Prop := {
  lw_own : keeps_contract (lr_own l) inv left io;
  (* skipping passes as many bytes as reading *)
  lw_skip : forall f, lr_skip l = Some f -> forall s n, inv s ->
    match f n s with
    | (Ok _, s') => inv s' /\ exists b, nlen b = n /\ left s = b ++ left s'
    | (Err er, s') =>
        (is_eof er = true /\ nlen (left s) < n /\ inv s' /\ exists lost, left s = lost ++ left s') \/ io er
    | (Fault _, _) => False
    end;
  (* what is lent are the bytes asked for, no more and no fewer *)
  lw_borrow : forall f, lr_borrow l = Some f -> gives_next inv left io (fun n => mmap snd (f n));
  lw_borrow_r : forall f, lr_borrow_r l = Some f -> gives_next inv left io f;
  (* until the end: everything that is left *)
  lw_borrow_eof : forall f, lr_borrow_eof l = Some f -> forall s, inv s ->
    match f s with
    | (Ok b, s') => inv s' /\ snd b = left s /\ left s' = []
    | _ => False
    end
}.

Section Lending.
  Context (h : host) (VH : valid_host h) {St : Type} (l : lending_reader St).
  Context (inv : St -> Prop) (left : St -> bytes) (io : error -> Prop) (K : lends_well l inv left io).
  Notation e := (ur_endian (lr_own l)).
  Notation e6 := (ipv6_order h e).
  Notation decode := (decode (h_lim h) e e6).
  Notation R := (lends (rounds left) l).

  (** The input fits into memory: lent slices are no longer than isize::MAX. *)
  Definition lrep (s : St) (bs : bytes) : Prop := inv s /\ left s = bs /\ nlen bs <= h_alloc_max h.

  Definition with_read (m : N -> M St bytes) : user_reader St :=
    {| ur_endian := e; ur_read := m; ur_peek := ur_peek (lr_own l); ur_can := ur_can (lr_own l) |}.

  Lemma with_read_contract m : gives_next inv left io m -> keeps_contract (with_read m) inv left io.
  Proof.
    intros H. destruct (lw_own _ _ _ _ K) as [K1 K2 K3 K4]. constructor; cbn [with_read ur_read ur_peek ur_can]; auto.
  Qed.

  Lemma lrep_repo s o : repo lrep s o -> repo (urep h inv left) s o.
  Proof.
    pose proof (vh_alloc h VH). destruct o as [bs|]; cbn.
    - intros (H1 & H2 & H3). repeat split; auto. lia.
    - intros (bs & H1 & H2 & H3). exists bs. repeat split; auto. lia.
  Qed.

  Lemma lrep_inv s o : repo lrep s o -> inv s /\ nlen (left s) <= h_alloc_max h.
  Proof.
    destruct o as [bs|]; cbn; [intros (Hi & <- & Hs)|intros (bs & Hi & <- & Hs)]; auto.
  Qed.

  (** From the small relation to the large one: what is left does not grow. *)
  Lemma sim_lrep {A} (m : M St A) d :
    (forall s, inv s -> nlen (left (snd (m s))) <= nlen (left s) \/ escape io (fst (m s))) ->
    sim (urep h inv left) io m d -> sim lrep io m d.
  Proof.
    intros Hg H s o Hr. destruct (lrep_inv s o Hr) as [Hi Hs].
    destruct (Hg s Hi) as [Hle|Hesc]; [|left; exact Hesc].
    destruct (H s o (lrep_repo s o Hr)) as [He|Hp]; [left; exact He|right].
    assert (Hup : forall bs, urep h inv left (snd (m s)) bs -> lrep (snd (m s)) bs).
    { intros bs (H1 & <- & _). repeat split; auto. lia. }
    assert (Hupo : forall o', repo (urep h inv left) (snd (m s)) o' -> repo lrep (snd (m s)) o').
    { intros [bs|]; cbn; [apply Hup|]. intros (bs & Hb). exists bs. apply Hup, Hb. }
    assert (Hend : forall B (r : res B), ended (urep h inv left) o r (snd (m s)) -> ended lrep o r (snd (m s))).
    { intros B r (er & E & Ee & (bs & Hb) & Hn). exists er. split; [exact E|]. split; [exact Ee|].
      split; [exists bs; apply Hup, Hb|]. intros Ho. apply Hup, Hn, Ho. }
    unfold post in *. destruct (d o) as [a o'| |er sure|f sure|]; auto.
    - destruct Hp as (E & Hp & Hx). split; [exact E|]. split; [apply Hupo, Hp|exact Hx].
    - destruct Hp as [Hp|[Hq Hp]]; [left; exact Hp|right; split; [exact Hq|apply Hend, Hp]].
    - destruct Hp as [Hp|[Hq Hp]]; [left; exact Hp|right; split; [exact Hq|apply Hend, Hp]].
  Qed.

  Lemma gives_next_sim m n : gives_next inv left io m -> sim lrep io (m n) (dread n).
  Proof.
    intros H. apply sim_lrep.
    - intros s Hi. specialize (H s n Hi). destruct (m n s) as [[b|er|f] s']; cbn [fst snd]; [| |contradiction].
      + destruct H as (_ & _ & E). left. rewrite E, nlen_app. lia.
      + destruct H as [(_ & _ & _ & lost & E)|Hio]; [left; rewrite E, nlen_app; lia|right; exists er; auto].
    - exact (u_read_sim h (with_read m) inv left io (with_read_contract m H) n).
  Qed.

  Lemma own_read : gives_next inv left io (ur_read (lr_own l)).
  Proof. exact (kc_read _ _ _ _ (lw_own _ _ _ _ K)). Qed.

  Lemma lend_peek_sim n : sim lrep io (ur_peek (lr_own l) n) (dpeek (dread n)).
  Proof.
    apply sim_lrep; [|exact (u_peek_sim h (lr_own l) inv left io (lw_own _ _ _ _ K) n)].
    intros s Hi. pose proof (kc_peek _ _ _ _ (lw_own _ _ _ _ K) s n Hi) as H.
    destruct (ur_peek (lr_own l) n s) as [[b|er|f] s']; cbn [fst snd]; [| |contradiction].
    - destruct H as (_ & E & _). left. rewrite E. lia.
    - destruct H as [(_ & _ & _ & lost & E)|Hio]; [left; rewrite E, nlen_app; lia|right; exists er; auto].
  Qed.

  (** Skipping is reading without looking. *)
  Lemma skip_sim f n : lr_skip l = Some f -> sim lrep io (f n) (dmap (fun _ => tt) (dread n)).
  Proof.
    intros Hf.
    set (m := fun n : N => fun s : St => match f n s with
      | (Ok _, s') => (Ok (ntake n (left s)), s') | (Err er, s') => (Err er, s') | (Fault x, s') => (Fault x, s') end).
    assert (Hm : gives_next inv left io m).
    { intros s k Hi. unfold m. pose proof (lw_skip _ _ _ _ K f Hf s k Hi) as H.
      destruct (f k s) as [[u|er|x] s']; auto. destruct H as (Hi' & b & Hb & E). rewrite E.
      rewrite take_app_exact by exact Hb. auto. }
    assert (E : forall s, f n s = mmap (fun _ => tt) (m n) s).
    { intros s. unfold mmap, bind, ret, m. destruct (f n s) as [[[]|er|x] s']; reflexivity. }
    intros s o Hr. rewrite E.
    eapply (sim_ext _ _ (mmap (fun _ => tt) (m n)) _ (dmap (fun _ => tt) (dread n))); [reflexivity|reflexivity| |exact Hr].
    apply sim_map, gives_next_sim, Hm.
  Qed.

  (** The chunks of the provided `skip_bytes` make up the whole. *)
  Lemma default_skip_sim n : sim lrep io (default_skip (ur_read (lr_own l)) n) (dmap (fun _ => tt) (dread n)).
  Proof.
    unfold default_skip.
    assert (Hk : n <= 1024 * N.of_nat (N.to_nat ((n + 1023) / 1024))).
    { rewrite N2Nat.id. pose proof (N.div_mod (n + 1023) 1024 ltac:(lia)).
      pose proof (N.mod_lt (n + 1023) 1024 ltac:(lia)). lia. }
    revert Hk. generalize (N.to_nat ((n + 1023) / 1024)) as k. intros k. revert n.
    induction k as [|k IH]; intros n Hk; cbn [skip_loop].
    - destruct (N.eqb_spec n 0) as [->|]; [|lia]. apply sim_ret.
    - destruct (N.eqb_spec n 0) as [->|]; [apply sim_ret|].
      set (c := if n <? 1024 then n else 1024).
      assert (Hc : c <= n /\ n - c <= 1024 * N.of_nat k /\ c + (n - c) = n).
      { subst c. destruct (N.ltb_spec n 1024); lia. }
      eapply (sim_ext _ _ _ _ (dbind (dread c) (fun _ => dmap (fun _ => tt) (dread (n - c))))).
      + reflexivity.
      + intros o. rewrite (dread_add c (n - c) (fun _ _ => dret tt)).
        replace (c + (n - c)) with n by lia. reflexivity.
      + apply sim_bind; [apply gives_next_sim, own_read|]. intros _. apply IH. lia.
  Qed.

  Lemma lending_ok : reader_ok h R true lrep io.
  Proof.
    constructor; cbn [lends rd_read rd_read_ptr rd_peek rd_peek_ptr rd_skip rd_can rd_borrow rd_borrow_r rd_borrow_eof rd_alloc rd_fuel].
    - apply (kc_io _ _ _ _ (lw_own _ _ _ _ K)).
    - intros n. apply gives_next_sim, own_read.
    - intros n. apply gives_next_sim, own_read.
    - intros _ n. apply lend_peek_sim.
    - intros _ n. apply lend_peek_sim.
    - intros n. destruct (lr_skip l) as [f|] eqn:E; [apply skip_sim, E|apply default_skip_sim].
    - intros n s bs (Hi & <- & _). destruct (ur_can (lr_own l) n s) as [b|] eqn:E; [|auto].
      right. f_equal. exact (kc_can _ _ _ _ (lw_own _ _ _ _ K) s n b Hi E).
    - intros f Hf n. exact (gives_next_sim _ n (lw_borrow _ _ _ _ K f Hf)).
    - intros f Hf n. exact (gives_next_sim _ n (lw_borrow_r _ _ _ _ K f Hf)).
    - intros f Hf s o Hr. destruct (lrep_inv s o Hr) as [Hi Hs]. right.
      pose proof (lw_borrow_eof _ _ _ _ K f Hf s Hi) as H. unfold mmap, bind, ret.
      destruct (f s) as [[b|er|x] s']; [|contradiction|contradiction]. cbn [fst snd]. destruct H as (Hi' & Eb & E').
      destruct o as [bs|]; [|exact I]. destruct Hr as (_ & <- & _). cbn. rewrite Eb. split; [reflexivity|].
      split; [|auto]. split; [exact Hi'|]. split; [exact E'|]. unfold nlen. cbn. lia.
    - intros n size min s bs Hr. exists s. split; [reflexivity|exact Hr].
    - intros s bs (_ & <- & _). reflexivity.
    - intros s bs (_ & _ & Hs). pose proof (vh_alloc h VH). lia.
    - intros _ s bs (_ & _ & Hs). exact Hs.
  Qed.

  (** What a type may contain: references only if the reader lends. *)
  Definition readable_by (bw : bool) (t : ty) : Prop :=
    supported h e bw true LDefault t
    /\ (bw = true -> lr_borrow l <> None /\ lr_borrow_eof l <> None).

  Lemma lending_sim bw t s : readable_by bw t -> inv s -> nlen (left s) <= h_alloc_max h ->
    escape io (fst (read h R t s)) \/ post lrep (Some (left s)) (decode t (left s)) (fst (read h R t s)) (snd (read h R t s)).
  Proof.
    intros [Hs Hb] Hi Hl. apply (read_sim h VH R bw true lrep io lending_ok Hb t Hs s (Some (left s))).
    repeat split; auto.
  Qed.

  Lemma readable_borrow bw t : readable_by bw t -> supported h e true true LDefault t.
  Proof. intros [Hs _]. destruct bw; [exact Hs|apply supported_borrow, Hs]. Qed.

  (** A value is read if and only if it is read from a buffer with the same bytes,
      unless the reader fails for reasons of its own. *)
  Theorem C138_read bw t s bs addr : readable_by bw t -> minok h t -> no_eof false t ->
    inv s -> left s = bs -> nlen bs <= h_alloc_max h ->
    (exists er, fst (read h R t s) = Err er /\ io er)
    \/ forall v, fst (read h R t s) = Ok v <-> read_from_buffer h e t addr bs = Ok v.
  Proof.
    intros Hs Hm Hn Hi <- Hl.
    destruct (lending_sim bw t s Hs Hi Hl) as [He|Hp]; [left; exact He|right].
    apply post_agrees in Hp. pose proof (decode_spec (h_lim h) e e6 t (left s) Hn) as Hu.
    destruct (reading_agrees h VH e t (left s) true _ (readable_borrow bw t Hs) (from_buffer h e t (left s) addr Hl)) as [[Hsm ->]|Ha2].
    - intros v. split; [|discriminate]. intros E. rewrite E in Hp.
      pose proof (small_undecodable h VH e t (left s) v) as Hno.
      destruct (decode t (left s)) as [w o| |er sure|f sure|]; cbn in Hp.
      + injection Hp as <-. destruct (Hno o Hm Hsm eq_refl).
      + destruct Hp as (er & Hp & _). discriminate.
      + destruct Hp as [[Hp _]|[_ (er' & Hp & _)]]; discriminate.
      + destruct Hp as [Hp|[_ (er' & Hp & _)]]; discriminate.
      + congruence.
    - exact (agrees_same _ _ _ Hu Hp Ha2).
  Qed.

  (** What was written comes back, and the reader stands behind it; a value at the end
      may be one that takes everything. *)
  Theorem C138_round_trip bw t v b rest s mem : (forall n, n <= nlen (mem n)) ->
    covered h e bw true t -> (bw = true -> lr_borrow l <> None /\ lr_borrow_eof l <> None) ->
    value_of h e t v -> write_to_vec h mem e t v = Ok b -> (opens false t = true -> rest = []) ->
    inv s -> left s = b ++ rest -> nlen (left s) <= h_alloc_max h ->
    (exists er, fst (read h R t s) = Err er /\ io er)
    \/ exists s', read h R t s = (Ok (norm t v), s') /\ inv s' /\ left s' = rest.
  Proof.
    intros Hmem [Hws Hs Hr] Hb Hv Hw Hop Hi El Hl.
    apply (write_to_vec_err h VH) in Hw; try assumption; [|apply Hv].
    pose proof (host_round_trip h VH e t v b rest Hr Hv Hw Hop) as Hd.
    destruct (lending_sim bw t s (conj Hs Hb) Hi Hl) as [Hesc|Hp]; [left; exact Hesc|right].
    rewrite El, Hd in Hp. destruct Hp as (E & (Hi' & El' & _) & _). exists (snd (read h R t s)).
    split; [rewrite <- E; destruct (read h R t s); reflexivity|]. auto.
  Qed.

  (** Skipping, overridden or not. *)
  Theorem C138_skip n s : inv s -> nlen (left s) <= h_alloc_max h ->
    (exists er, fst (rd_skip R n s) = Err er /\ io er)
    \/ if n <=? nlen (left s)
       then exists s', rd_skip R n s = (Ok tt, s') /\ inv s' /\ left s' = ndrop n (left s)
       else exists er, fst (rd_skip R n s) = Err er /\ is_eof er = true.
  Proof.
    intros Hi Hl.
    destruct (ok_skip _ _ _ _ _ lending_ok n s (Some (left s))) as [He|Hp]; [repeat split; auto|left; exact He|right].
    unfold dmap, dbind, dret, dread in Hp. destruct (N.eqb_spec n 0) as [->|Hz].
    - destruct Hp as (E & (Hi' & El & _) & _). destruct (N.leb_spec 0 (nlen (left s))); [|lia].
      exists (snd (rd_skip R 0 s)). split; [rewrite <- E; destruct (rd_skip R 0 s); reflexivity|]. auto.
    - destruct (N.leb_spec n (nlen (left s))) as [Hn|Hn].
      + destruct Hp as (E & (Hi' & El & _) & _). exists (snd (rd_skip R n s)).
        split; [rewrite <- E; destruct (rd_skip R n s); reflexivity|]. auto.
      + destruct Hp as (er & E & Ee & _). exists er. auto.
  Qed.
End Lending.

(* ------------------------------------------------------------------ *)
(** * Whatever is lent *)

Section Whatever.
  Context (h : host) (VH : valid_host h) {St : Type}.
  Notation usize_max := (l_usize_max (h_lim h)).

  Lemma count_inside t n k : slice_count h t n = Ok k -> k * h_size h t <= n.
  Proof.
    revert k. induction t as [s| | | | | | | | | | | |d fs IH| |] using ty_ind'; cbn [slice_count]; intros cnt; try discriminate.
    - destruct s; try discriminate. intros E. injection E as <-.
      pose proof (vh_prim h VH p) as Hs. unfold TP in Hs. rewrite Hs.
      rewrite N.mul_comm. apply N.mul_div_le. destruct p; discriminate.
    - destruct (is_transparent d fs) eqn:Et.
      + assert (Hx : exists f, fs = [f] /\ sd_repr d = RTransparent)
          by (unfold is_transparent in Et; destruct (sd_repr d), fs as [|? []]; try discriminate; eauto).
        destruct Hx as (f & -> & Er). destruct (vh_transparent h VH d f Er) as [Es _]. rewrite Es.
        inversion IH as [|? ? IHf _]; subst. apply IHf.
      + destruct (potentially_primitive d fs); [|discriminate].
        destruct (N.eqb_spec (h_size h (TStruct d fs)) 0) as [|Hz]; [discriminate|]. intros E. injection E as <-.
        rewrite N.mul_comm. apply N.mul_div_le, Hz.
  Qed.

  (** A `Cow` is safe with every reader: no slice is used beyond its end, and one that
      is lent with another length than asked for is never used at all. *)
  Theorem C138_cow t length (borrow : N -> M St (N * bytes)) s : touch_cow h t length borrow s <> Beyond.
  Proof.
    unfold touch_cow, after. destruct (_ && _)%bool; [discriminate|].
    destruct (fst (borrow _ s)) as [b|er|f]; try discriminate. unfold lent_cow.
    destruct (N.eqb_spec (nlen (snd b)) (length * h_size h t mod (usize_max + 1))) as [El|]; [|discriminate]. cbn [negb].
    destruct (_ || _)%bool.
    - destruct (slice_count h t (nlen (snd b))) as [n|er|f] eqn:E; try discriminate.
      apply count_inside in E. destruct (N.ltb_spec (nlen (snd b)) (n * h_size h t)); [lia|discriminate].
    - destruct (N.ltb_spec (h_alloc_max h) (length * h_size h t)) as [|Ha]; [discriminate|].
      pose proof (vh_alloc h VH). rewrite N.mod_small in El by lia.
      destruct (N.ltb_spec (nlen (snd b)) (length * h_size h t)); [lia|discriminate].
  Qed.

  Theorem C138_cow_length t length (borrow : N -> M St (N * bytes)) s vs :
    touch_cow h t length borrow s = Within (Ok vs) ->
    exists b, fst (borrow (length * h_size h t mod (usize_max + 1)) s) = Ok b
      /\ nlen (snd b) = length * h_size h t mod (usize_max + 1).
  Proof.
    unfold touch_cow, after. destruct (_ && _)%bool; [discriminate|].
    destruct (fst (borrow _ s)) as [b|er|f]; try discriminate. unfold lent_cow.
    destruct (N.eqb_spec (nlen (snd b)) (length * h_size h t mod (usize_max + 1))) as [El|]; [|discriminate].
    intros _. exists b. auto.
  Qed.

  (** Sets, maps and lists trust the reader: if and only if the slice is shorter than
      asked for, memory behind it is used. *)
  Theorem C138_collection k key t length (borrow : N -> M St bytes) s : h_size h t <> 0 ->
    touch_collection h k key t length borrow s = Beyond
    <-> length * h_size h t <= usize_max
        /\ exists bs, fst (borrow (length * h_size h t) s) = Ok bs /\ nlen bs < length * h_size h t.
  Proof.
    intros Hz. unfold touch_collection, after.
    destruct (N.ltb_spec usize_max (length * h_size h t)) as [Hu|Hu].
    { split; [discriminate|]. intros [H _]. lia. }
    destruct (fst (borrow _ s)) as [bs|er|f].
    - unfold lent_raw. destruct (N.eqb_spec (h_size h t) 0) as [|_]; [contradiction|].
      destruct (N.ltb_spec (nlen bs) (length * h_size h t)) as [Hn|Hn].
      + split; [|reflexivity]. intros _. split; [exact Hu|]. exists bs. auto.
      + split; [discriminate|]. intros (_ & bs' & E & Hn'). injection E as <-. lia.
    - split; [discriminate|]. intros (_ & bs' & E & _). discriminate.
    - split; [discriminate|]. intros (_ & bs' & E & _). discriminate.
  Qed.

  (** So do `&[T]` and `&[T; N]`. *)
  Theorem C138_ref_slice t length (borrow : N -> M St (N * bytes)) s :
    touch_ref_slice h t length borrow s = Beyond
    <-> length * h_size h t <= usize_max
        /\ exists addr bs, fst (borrow (length * h_size h t) s) = Ok (addr, bs)
             /\ addr mod h_align h t = 0 /\ nlen bs < length * h_size h t.
  Proof.
    unfold touch_ref_slice, after.
    destruct (N.ltb_spec usize_max (length * h_size h t)) as [Hu|Hu].
    { split; [discriminate|]. intros [H _]. lia. }
    destruct (fst (borrow _ s)) as [[addr bs]|er|f].
    - unfold lent_ref. cbn [fst snd]. destruct (N.eqb_spec (addr mod h_align h t) 0) as [Ea|Ea]; cbn [negb].
      + destruct (N.ltb_spec (nlen bs) (length * h_size h t)) as [Hn|Hn].
        * split; [|reflexivity]. intros _. split; [exact Hu|]. exists addr, bs. auto.
        * split; [discriminate|]. intros (_ & a' & bs' & E & _ & Hn'). injection E as <- <-. lia.
      + split; [discriminate|]. intros (_ & a' & bs' & E & Ha & _). injection E as <- <-. contradiction.
    - split; [discriminate|]. intros (_ & a' & bs' & E & _). discriminate.
    - split; [discriminate|]. intros (_ & a' & bs' & E & _). discriminate.
  Qed.

  Theorem C138_ref_array t n (borrow : N -> M St (N * bytes)) s :
    touch_ref_array h t n borrow s = Beyond
    <-> exists addr bs, fst (borrow (h_size h t * N.of_nat n) s) = Ok (addr, bs)
          /\ addr mod h_align h t = 0 /\ nlen bs < h_size h t * N.of_nat n.
  Proof.
    unfold touch_ref_array, after. destruct (fst (borrow _ s)) as [[addr bs]|er|f].
    - unfold lent_ref. cbn [fst snd]. destruct (N.eqb_spec (addr mod h_align h t) 0) as [Ea|Ea]; cbn [negb].
      + rewrite (N.mul_comm (N.of_nat n)). destruct (N.ltb_spec (nlen bs) (h_size h t * N.of_nat n)) as [Hn|Hn].
        * split; [|reflexivity]. intros _. exists addr, bs. auto.
        * split; [discriminate|]. intros (a' & bs' & E & _ & Hn'). injection E as <- <-. lia.
      + split; [discriminate|]. intros (a' & bs' & E & Ha & _). injection E as <- <-. contradiction.
    - split; [discriminate|]. intros (a' & bs' & E & _). discriminate.
    - split; [discriminate|]. intros (a' & bs' & E & _). discriminate.
  Qed.

  (** ** Lent as asked: what the model of reading says *)

  Context (R : reader St).

  Definition exactly {A} (len : A -> N) (borrow : N -> M St A) (s : St) : Prop :=
    forall n a, fst (borrow n s) = Ok a -> len a = n.

  Ltac run := unfold bind, ret, fail, crash, lift.

  Theorem C138_collection_read k key t rd length borrow s :
    is_prim h t = true -> no_conv h R t = true -> rd_borrow_r R = Some borrow -> exactly nlen borrow s ->
    touch_collection h k key t length borrow s = Within (fst (read_collection h R k key t rd length s)).
  Proof.
    intros Hp Hc Hb Hx. unfold touch_collection, read_collection, after. rewrite Hp, Hc, Hb. cbn [andb].
    destruct (_ <? _); [reflexivity|]. specialize (Hx (length * h_size h t)). run.
    destruct (borrow (length * h_size h t) s) as [[bs|er|f] s']; cbn [fst] in *; [|reflexivity|reflexivity].
    specialize (Hx bs eq_refl). unfold lent_raw, raw_collect, elements_of. destruct (_ =? 0).
    - destruct k; reflexivity.
    - destruct (N.ltb_spec (nlen bs) (length * h_size h t)); [lia|reflexivity].
  Qed.

  Theorem C138_map_read k tk tv rk rv length borrow s :
    is_prim h tk = true -> is_prim h tv = true ->
    (h_size h tk = 1 /\ h_size h tv = 1 \/ conversion_necessary (h_native h) (rd_endian R) = false) ->
    rd_borrow_r R = Some borrow -> exactly nlen borrow s ->
    touch_collection h k pair_key (pair_ty tk tv) length borrow s = Within (fst (read_kv h R k tk tv rk rv length s)).
  Proof.
    intros Hk Hv Hc Hb Hx. unfold touch_collection, read_kv, after. rewrite Hk, Hv, Hb. cbn [andb].
    assert (E : ((h_size h tk =? 1) && (h_size h tv =? 1) || negb (conversion_necessary (h_native h) (rd_endian R)))%bool = true).
    { destruct Hc as [[-> ->]| ->]; [reflexivity|apply Bool.orb_true_r]. }
    rewrite E. destruct (_ <? _); [reflexivity|]. specialize (Hx (length * h_size h (pair_ty tk tv))). run.
    destruct (borrow (length * h_size h (pair_ty tk tv)) s) as [[bs|er|f] s']; cbn [fst] in *; [|reflexivity|reflexivity].
    specialize (Hx bs eq_refl). unfold lent_raw, raw_collect, elements_of. destruct (_ =? 0).
    - destruct k; reflexivity.
    - destruct (N.ltb_spec (nlen bs) (length * h_size h (pair_ty tk tv))); [lia|reflexivity].
  Qed.

  Theorem C138_ref_slice_read t length borrow s : rd_borrow R = Some borrow -> exactly (fun b => nlen (snd b)) borrow s ->
    touch_ref_slice h t length borrow s = Within (fst (read_ref_slice h R t length s)).
  Proof.
    intros Hb Hx. unfold touch_ref_slice, read_ref_slice, borrowed, after. rewrite Hb.
    destruct (_ <? _); [reflexivity|]. specialize (Hx (length * h_size h t)). run.
    destruct (borrow (length * h_size h t) s) as [[b|er|f] s']; cbn [fst] in *; [|reflexivity|reflexivity].
    specialize (Hx b eq_refl). unfold lent_ref, cast_slice, elements_of. destruct (_ =? 0); [|reflexivity]. cbn [negb].
    destruct (N.ltb_spec (nlen (snd b)) (length * h_size h t)); [lia|]. destruct (forallb _ _); reflexivity.
  Qed.

  Theorem C138_ref_array_read t n borrow s : rd_borrow R = Some borrow -> exactly (fun b => nlen (snd b)) borrow s ->
    (h_size h t = 1 \/ conversion_necessary (h_native h) (rd_endian R) = false) ->
    touch_ref_array h t n borrow s = Within (fst (read_ref_array h R t n s)).
  Proof.
    intros Hb Hx Hc. unfold touch_ref_array, read_ref_array, endianness_guard, borrowed, after. rewrite Hb.
    assert (E : (negb (h_size h t =? 1) && conversion_necessary (h_native h) (rd_endian R))%bool = false).
    { destruct Hc as [->| ->]; [reflexivity|apply Bool.andb_false_r]. }
    rewrite E. specialize (Hx (h_size h t * N.of_nat n)). run.
    destruct (borrow (h_size h t * N.of_nat n) s) as [[b|er|f] s']; cbn [fst] in *; [|reflexivity|reflexivity].
    specialize (Hx b eq_refl). unfold lent_ref, cast_slice, elements_of. destruct (_ =? 0); [|reflexivity]. cbn [negb].
    destruct (N.ltb_spec (nlen (snd b)) (N.of_nat n * h_size h t)); [lia|]. destruct (forallb _ _); reflexivity.
  Qed.

  Theorem C138_cow_read t rd length borrow s :
    is_prim h t = true -> no_conv h R t = true -> rd_borrow R = Some borrow -> exactly (fun b => nlen (snd b)) borrow s ->
    (forall n size min s', fst (rd_alloc R n size min s') = Ok tt) ->
    touch_cow h t length borrow s = Within (fst (read_cow h R t rd length s)).
  Proof.
    intros Hp Hc Hb Hx Ha. unfold touch_cow, read_cow, after, ReadImpl.usize_max. rewrite Hp, Hc, Hb. cbn [andb]. run.
    destruct (_ && _)%bool; [reflexivity|]. specialize (Hx (length * h_size h t mod (usize_max + 1))).
    destruct (borrow (length * h_size h t mod (usize_max + 1)) s) as [[[addr bs]|er|f] s']; cbn [fst snd] in *; [|reflexivity|reflexivity].
    specialize (Hx _ eq_refl). unfold lent_cow, elements_of. cbn [fst snd] in *. rewrite Hx, N.eqb_refl. cbn [negb].
    destruct (_ || _)%bool.
    - destruct (slice_count h t _) as [n|er|f] eqn:E; [|reflexivity|reflexivity].
      apply count_inside in E. destruct (N.ltb_spec (length * h_size h t mod (usize_max + 1)) (n * h_size h t)); [lia|reflexivity].
    - unfold alloc. destruct (N.ltb_spec (h_alloc_max h) (length * h_size h t)) as [|Hal]; [reflexivity|].
      specialize (Ha length (h_size h t) (h_size h t) s'). destruct (rd_alloc R _ _ _ s') as [[[]|er|f] s2]; try discriminate.
      pose proof (vh_alloc h VH). rewrite N.mod_small by lia.
      destruct (N.ltb_spec (length * h_size h t) (length * h_size h t)); [lia|reflexivity].
  Qed.

  (** A `&str` and a constant use whatever is lent, and all of it: as the model of
      reading says, without any condition on the reader. *)
  Theorem C138_str_read n borrow s : rd_borrow R = Some borrow ->
    after (borrow n) lent_str s = Within (fst ((b <- borrowed R n ;; to_str (snd b)) s))
    /\ forall v, after (borrow n) lent_str s = Within (Ok v) ->
         exists b, fst (borrow n s) = Ok b /\ v = VBytes (snd b) /\ utf8_valid (snd b) = true.
  Proof.
    intros Hb. unfold borrowed, after, lent_str, to_str. rewrite Hb. run.
    destruct (borrow n s) as [[b|er|f] s']; cbn [fst]; [|split; [reflexivity|discriminate]..].
    destruct (utf8_valid (snd b)) eqn:E; split; [reflexivity| |reflexivity|discriminate].
    intros v Ev. injection Ev as <-. exists b. auto.
  Qed.

  Theorem C138_constant_read c borrow s : rd_borrow R = Some borrow ->
    after (borrow (nlen c)) (lent_constant c) s = Within (fst (read_constant h R c s))
    /\ (after (borrow (nlen c)) (lent_constant c) s = Within (Ok tt) <-> exists addr, fst (borrow (nlen c) s) = Ok (addr, c)).
  Proof.
    intros Hb. unfold read_constant, after, lent_constant. rewrite Hb. unfold mmap. run.
    destruct (borrow (nlen c) s) as [[[addr bs]|er|f] s']; cbn [fst snd].
    - destruct (list_eq_dec _ bs c) as [->|Hn]; (split; [reflexivity|]).
      + split; [eauto|reflexivity].
      + split; [discriminate|]. intros (x & E). injection E as _ E. contradiction.
    - split; [reflexivity|]. split; [discriminate|]. intros (x & E). discriminate.
    - split; [reflexivity|]. split; [discriminate|]. intros (x & E). discriminate.
  Qed.
End Whatever.

Print Assumptions C138_read.
Print Assumptions C138_round_trip.
Print Assumptions C138_skip.
Print Assumptions C138_cow.
Print Assumptions C138_cow_length.
Print Assumptions C138_collection.
Print Assumptions C138_ref_slice.
Print Assumptions C138_ref_array.
Print Assumptions C138_collection_read.
Print Assumptions C138_map_read.
Print Assumptions C138_ref_slice_read.
Print Assumptions C138_ref_array_read.
Print Assumptions C138_cow_read.
Print Assumptions C138_str_read.
Print Assumptions C138_constant_read.

(* ------------------------------------------------------------------ *)
(** * A case: bytes in memory from the address 4096 on, up to 8192 *)

Definition arena_next (keep : bool) (n : N) : M bytes bytes := fun s =>
  if n <=? nlen s then (Ok (ntake n s), if keep then s else ndrop n s) else (Err UnexpectedEndOfInput, s).

Definition arena (e : endian) : lending_reader bytes :=
  {| lr_own := {| ur_endian := e; ur_read := arena_next false; ur_peek := arena_next true; ur_can := fun _ _ => None |};
     lr_skip := Some (fun n s => if n <=? nlen s then (Ok tt, ndrop n s) else (Err UnexpectedEndOfInput, s));
     lr_borrow := Some (fun n s => mmap (pair (8192 - nlen s)) (arena_next false n) s);
     lr_borrow_r := Some (arena_next false);
     lr_borrow_eof := Some (fun s => (Ok (8192 - nlen s, s), [])) |}.

Notation anything := (fun _ : bytes => True).
Notation all_of_it := (fun s : bytes => s).
Notation none := (fun _ : error => False).

Lemma arena_gives : gives_next anything all_of_it none (arena_next false).
Proof.
  intros s n _. unfold arena_next. destruct (N.leb_spec n (nlen s)).
  - split; [exact I|]. split; [rewrite nlen_take; lia|]. symmetry. apply take_drop.
  - left. split; [reflexivity|]. split; [assumption|]. split; [exact I|]. exists []. reflexivity.
Qed.

Lemma arena_lends e : lends_well (arena e) anything all_of_it none.
Proof.
  constructor.
  - constructor.
    + intros er [].
    + exact arena_gives.
    + intros s n _. cbn [arena lr_own ur_peek]. unfold arena_next. destruct (N.leb_spec n (nlen s)).
      * split; [exact I|]. split; [reflexivity|]. split; [rewrite nlen_take; lia|]. exists (ndrop n s). symmetry. apply take_drop.
      * left. split; [reflexivity|]. split; [assumption|]. split; [exact I|]. exists []. reflexivity.
    + discriminate.
  - intros f E s n _. injection E as <-. destruct (N.leb_spec n (nlen s)).
    + split; [exact I|]. exists (ntake n s). split; [rewrite nlen_take; lia|]. symmetry. apply take_drop.
    + left. split; [reflexivity|]. split; [assumption|]. split; [exact I|]. exists []. reflexivity.
  - intros f E s n _. injection E as <-. pose proof (arena_gives s n Logic.I) as H.
    unfold mmap, bind, ret. destruct (arena_next false n s) as [[b|er|x] s']; exact H.
  - intros f E. injection E as <-. exact arena_gives.
  - intros f E s _. injection E as <-. cbn. auto.
Qed.

(** [( &str, BTreeSet< u16 >, &[u8] )], read with what follows left alone. *)
Definition lent_sample : ty := TTuple [TStr KRefStr; TSet CBTree (TP U16); TSeq KRef (TP U8)].
Definition lent_value : val := VSeq [VBytes [n2b 104; n2b 105]; VSeq [VInt 3; VInt 700]; VSeq [VInt 9; VInt 8; VInt 7]].
Definition lent_bytes : bytes :=
  map n2b [2; 0; 0; 0; 104; 105; 2; 0; 0; 0; 3; 0; 188; 2; 3; 0; 0; 0; 9; 8; 7].

Example C138_case rest : nlen (lent_bytes ++ rest) <= h_alloc_max host64 ->
  read host64 (lends (rounds all_of_it) (arena LE)) lent_sample (lent_bytes ++ rest) = (Ok lent_value, rest).
Proof.
  intros Hl.
  destruct (C138_round_trip host64 host64_valid (arena LE) anything all_of_it none (arena_lends LE) true lent_sample lent_value
    lent_bytes rest (lent_bytes ++ rest) dirty dirty_enough) as [(er & _ & [])|(s' & E & _ & El)].
  - apply coveredb_sound. vm_compute. reflexivity.
  - intros _. split; discriminate.
  - apply value_ofb_sound. vm_compute. reflexivity.
  - vm_compute. reflexivity.
  - discriminate.
  - exact I.
  - reflexivity.
  - exact Hl.
  - cbn beta in El. rewrite E, El. reflexivity.
Qed.

Example C138_read_case bs addr v : nlen bs <= h_alloc_max host64 ->
  fst (read host64 (lends (rounds all_of_it) (arena LE)) lent_sample bs) = Ok v
  <-> read_from_buffer host64 LE lent_sample addr bs = Ok v.
Proof.
  intros Hl.
  destruct (C138_read host64 host64_valid (arena LE) anything all_of_it none (arena_lends LE) true lent_sample bs bs addr)
    as [(er & _ & [])|H].
  - split; [apply supportedb_sound; vm_compute; reflexivity|]. intros _. split; discriminate.
  - apply minokb_sound. vm_compute. reflexivity.
  - apply no_eofb_sound. vm_compute. reflexivity.
  - exact I.
  - reflexivity.
  - exact Hl.
  - apply H.
Qed.

(** A type that takes everything to the end. *)
Example C138_rest_case :
  read host64 (lends (rounds all_of_it) (arena LE)) (rest_of (TSeq KRef (TP U8))) (map n2b [9; 8; 7])
  = (Ok (VSeq [VSeq [VInt 9; VInt 8; VInt 7]]), []).
Proof.
  destruct (C138_round_trip host64 host64_valid (arena LE) anything all_of_it none (arena_lends LE) true
    (rest_of (TSeq KRef (TP U8))) (VSeq [VSeq [VInt 9; VInt 8; VInt 7]])
    (map n2b [9; 8; 7]) [] (map n2b [9; 8; 7]) dirty dirty_enough) as [(er & _ & [])|(s' & E & _ & El)].
  - apply coveredb_sound. vm_compute. reflexivity.
  - intros _. split; discriminate.
  - apply value_ofb_sound. vm_compute. reflexivity.
  - vm_compute. reflexivity.
  - reflexivity.
  - exact I.
  - reflexivity.
  - vm_compute. discriminate.
  - cbn beta in El. rewrite E, El. reflexivity.
Qed.

Example C138_skip_case s : nlen s = 5 -> exists s', rd_skip (lends (rounds all_of_it) (arena LE)) 3 s = (Ok tt, s') /\ nlen s' = 2.
Proof.
  intros Hl.
  destruct (C138_skip host64 host64_valid (arena LE) anything all_of_it none (arena_lends LE) 3 s Logic.I) as [(er & _ & [])|H].
  - rewrite Hl. vm_compute. discriminate.
  - cbn beta in H. rewrite Hl in H. destruct H as (s' & E & _ & ->). exists (ndrop 3 s). split; [exact E|]. rewrite nlen_drop. lia.
Qed.

(** A reader in safe code that lends what it has at hand, here two bytes at most. *)
Definition hasty (e : endian) : lending_reader bytes :=
  let some := fun n s => arena_next false (N.min n 2) s in
  {| lr_own := lr_own (arena e); lr_skip := None;
     lr_borrow := Some (fun n s => mmap (pair (8192 - nlen s)) (some n) s);
     lr_borrow_r := Some some; lr_borrow_eof := None |}.

(** No `unsafe` anywhere in it, and enough input: still, for a set or a slice the crate
    uses memory behind what it was lent. *)
Theorem C138_refuted : ~ forall (l : lending_reader bytes) k key t length borrow borrow_r s,
  lr_borrow l = Some borrow -> lr_borrow_r l = Some borrow_r -> length * h_size host64 t <= nlen s ->
  touch_collection host64 k key t length borrow_r s <> Beyond /\ touch_ref_slice host64 t length borrow s <> Beyond.
Proof.
  intros H.
  destruct (H (hasty LE) CBTree (fun v => v) (TP U8) 3 _ _ (map n2b [5; 6; 7; 8]) eq_refl eq_refl) as [H1 _].
  - vm_compute. discriminate.
  - apply H1. vm_compute. reflexivity.
Qed.

Example C138_hasty :
  touch_ref_slice host64 (TP U8) 3 (fun n s => mmap (pair (8192 - nlen s)) (arena_next false (N.min n 2)) s) (map n2b [5; 6; 7; 8]) = Beyond
  /\ touch_ref_array host64 (TP U8) 3 (fun n s => mmap (pair (8192 - nlen s)) (arena_next false (N.min n 2)) s) (map n2b [5; 6; 7; 8]) = Beyond
  /\ touch_cow host64 (TP U8) 3 (fun n s => mmap (pair (8192 - nlen s)) (arena_next false (N.min n 2)) s) (map n2b [5; 6; 7; 8])
     = Within (Fault PanicAssert)
  /\ touch_cow host64 (TP U8) 2 (fun n s => mmap (pair (8192 - nlen s)) (arena_next false (N.min n 2)) s) (map n2b [5; 6; 7; 8])
     = Within (Ok [VInt 5; VInt 6]).
Proof. repeat split; vm_compute; reflexivity. Qed.

Print Assumptions C138_refuted.

Example C138_arena_exact s : exactly nlen (arena_next false) s.
Proof.
  intros n a. unfold arena_next. destruct (N.leb_spec n (nlen s)); [|discriminate]. cbn [fst]. intros E. injection E as <-.
  rewrite nlen_take. lia.
Qed.

Example C138_hasty_str :
  after (fun s => mmap (pair 0) (arena_next false 2) s) lent_str (map n2b [104; 105; 33]) = Within (Ok (VBytes (map n2b [104; 105])))
  /\ after (fun s => mmap (pair 0) (arena_next false 2) s) (lent_constant (map n2b [104; 105; 33])) (map n2b [104; 105; 33])
     = Within (Err (ExpectedConstant (map n2b [104; 105; 33]))).
Proof. split; vm_compute; reflexivity. Qed.
