(* What reading reserves memory for. *)
From Verif Require Export Calls Wellformed.

(** A reservation is backed by the input if there were at least as many bytes left to
    read as elements asked for; one of elements without size reserves nothing. *)
Definition backed (a : allocation) : bool := (al_count a <=? al_rest a) || (al_size a =? 0).
Definition unbacked (l : list allocation) : nat := length (filter (fun a => negb (backed a)) l).

(** How deep reserving containers are nested in a type. *)
Fixpoint nest (t : ty) : nat :=
  let field (f : fattrs * ty) :=
    if f_skip (fst f) then 0%nat
    else Nat.max (match f_prefix (fst f) with [] => 0 | _ => 1 end) (nest (snd f)) in
  let most := fold_right Nat.max 0%nat in
  match t with
  | TScalar _ | TRefArr _ _ | TBot => 0%nat
  | TStr _ => 1%nat
  | TSeq _ t' => S (nest t')
  | TSet _ t' | TArr t' _ | TOption t' | TRange _ t' | TBox t' => nest t'
  | TResult t1 t2 | TMap _ t1 t2 => Nat.max (nest t1) (nest t2)
  | TTuple ts => most (map nest ts)
  | TStruct _ fs => most (map field fs)
  | TEnum _ vs => most (map (fun v : N * fields => most (map field (snd v))) vs)
  end.

Section Pays.
  Context {St : Type} (P : St -> Prop) (left : St -> N) (log : St -> list allocation).

  (** A computation adds to the log at most [k] reservations that are not backed, and
      none if it succeeds. *)
  Definition pays {A} (k : nat) (m : M St A) : Prop := forall s, P s ->
    P (snd (m s)) /\ left (snd (m s)) <= left s
    /\ exists new, log (snd (m s)) = log s ++ new /\ Forall (fun a => al_rest a <= left s) new
    /\ (unbacked new <= k)%nat /\ forall x, fst (m s) = Ok x -> unbacked new = 0%nat.

  Lemma unbacked_app l1 l2 : unbacked (l1 ++ l2) = (unbacked l1 + unbacked l2)%nat.
  Proof. unfold unbacked. rewrite filter_app, app_length. reflexivity. Qed.

  Lemma pays_quiet {A} k (m : M St A) : (forall s, P s -> P (snd (m s)) /\ left (snd (m s)) <= left s /\ log (snd (m s)) = log s) -> pays k m.
  Proof.
    intros H s Hs. destruct (H s Hs) as (H1 & H0 & H2). split; [exact H1|]. split; [exact H0|]. exists [].
    rewrite app_nil_r. split; [exact H2|]. cbn. split; [constructor|]. split; [lia|auto].
  Qed.
  Lemma pays_ret {A} k (a : A) : pays k (ret a).
  Proof. apply pays_quiet. intros s Hs. repeat split; auto. cbn. lia. Qed.
  Lemma pays_fail {A} k er : pays (A := A) k (fail er).
  Proof. apply pays_quiet. intros s Hs. repeat split; auto. cbn. lia. Qed.
  Lemma pays_crash {A} k f : pays (A := A) k (crash f).
  Proof. apply pays_quiet. intros s Hs. repeat split; auto. cbn. lia. Qed.
  Lemma pays_lift {A} k (r : res A) : pays k (lift r).
  Proof. apply pays_quiet. intros s Hs. repeat split; auto. cbn. lia. Qed.
  Lemma pays_weak {A} k k' (m : M St A) : (k <= k')%nat -> pays k m -> pays k' m.
  Proof. intros Hk H s Hs. destruct (H s Hs) as (H1 & H0 & new & H2 & Hr & H3 & H4). split; [exact H1|]. split; [exact H0|]. exists new. repeat split; auto. lia. Qed.
  Lemma pays_bind {A B} k (m : M St A) (f : A -> M St B) : pays k m -> (forall a, pays k (f a)) -> pays k (bind m f).
  Proof.
    intros Hm Hf s Hs. unfold bind. destruct (Hm s Hs) as (H1 & H0 & new & H2 & Hr & H3 & H4).
    destruct (m s) as [[a|er|x] s']; cbn [fst snd] in *.
    - destruct (Hf a s' H1) as (G1 & G0 & new' & G2 & Gr & G3 & G4). split; [exact G1|]. split; [lia|]. exists (new ++ new').
      rewrite G2, H2, app_assoc, unbacked_app, (H4 a eq_refl). split; [reflexivity|]. split; [|auto].
      apply Forall_app. split; [exact Hr|]. revert Gr. apply Forall_impl. intros b. lia.
    - split; [exact H1|]. split; [exact H0|]. exists new. repeat split; auto. discriminate.
    - split; [exact H1|]. split; [exact H0|]. exists new. repeat split; auto. discriminate.
  Qed.
  Lemma pays_map {A B} k (g : A -> B) (m : M St A) : pays k m -> pays k (mmap g m).
  Proof. intros Hm. apply pays_bind; [exact Hm|]. intros a. apply pays_ret. Qed.
  Lemma pays_repeat {A} k (m : M St A) n : pays k m -> pays k (repeatM m n).
  Proof.
    intros Hm. induction n as [|n IH]; cbn [repeatM]; [apply pays_ret|].
    apply pays_bind; [exact Hm|]. intros a. apply pays_bind; [exact IH|]. intros l. apply pays_ret.
  Qed.

  Lemma drops_times {A} (m : M St A) n : drops P left 1 m -> drops P left (N.of_nat n) (repeatM m n).
  Proof.
    intros Hm. induction n as [|n IH]; cbn [repeatM]; [apply drops_ret|].
    replace (N.of_nat (S n)) with (1 + N.of_nat n) by lia. apply drops_bind; [exact Hm|].
    intros a. apply drops_first; [exact IH|]. intros l. apply drops_ret.
  Qed.

  Context (h : host) (VH : valid_host h) (R : reader St) (K : meter P left R).
  Context (Nb : rd_borrow R = None) (Nr : rd_borrow_r R = None).

  (** The reader logs allocations, and nothing else. *)
  Record ledger : Prop := {
    ld_read : forall n s, P s -> log (snd (rd_read R n s)) = log s;
    ld_read_ptr : forall n s, P s -> log (snd (rd_read_ptr R n s)) = log s;
    ld_peek : forall n s, n <= 16 -> P s -> log (snd (rd_peek R n s)) = log s;
    ld_peek_ptr : forall n s, n <= 16 -> P s -> log (snd (rd_peek_ptr R n s)) = log s;
    ld_alloc : forall n size min s, P s -> exists s',
      rd_alloc R n size min s = (Ok tt, s') /\ left s' = left s
      /\ log s' = log s ++ [{| al_count := n; al_size := size; al_min := min; al_rest := left s |}]
  }.
  Context (L : ledger).

  Lemma pays_rd k n : pays k (rd_read R n).
  Proof. apply pays_quiet. intros s Hs. destruct (mt_read _ _ _ K n s Hs) as (H1 & H2 & _). split; [exact H1|]. split; [exact H2|apply (ld_read L n s Hs)]. Qed.
  Lemma pays_ptr k n : pays k (rd_read_ptr R n).
  Proof. apply pays_quiet. intros s Hs. destruct (mt_read_ptr _ _ _ K n s Hs) as (H1 & H2 & _). split; [exact H1|]. split; [exact H2|apply (ld_read_ptr L n s Hs)]. Qed.
  Lemma pays_peek k n : n <= 16 -> pays k (rd_peek R n).
  Proof. intros Hn. apply pays_quiet. intros s Hs. destruct (mt_peek _ _ _ K n Hn s Hs) as (H1 & H2 & _). split; [exact H1|]. split; [exact H2|apply (ld_peek L n s Hn Hs)]. Qed.
  Lemma pays_peek_ptr k n : n <= 16 -> pays k (rd_peek_ptr R n).
  Proof. intros Hn. apply pays_quiet. intros s Hs. destruct (mt_peek_ptr _ _ _ K n Hn s Hs) as (H1 & H2 & _). split; [exact H1|]. split; [exact H2|apply (ld_peek_ptr L n s Hn Hs)]. Qed.
  Lemma pays_require k n : pays k (require R n).
  Proof. apply pays_quiet. intros s Hs. unfold require. destruct (rd_can R n s) as [[]|]; repeat split; auto; cbn; lia. Qed.

  Hint Resolve pays_ret pays_fail pays_crash pays_lift pays_rd pays_ptr pays_require : pays.
  Ltac pay := repeat match goal with
    | |- forall _, _ => intros ?
    | |- pays _ (bind _ _) => apply pays_bind; [|intros ?]
    | |- pays _ (mmap _ _) => apply pays_map
    | |- pays _ (repeatM _ _) => apply pays_repeat
    | |- pays _ (if ?b then _ else _) => destruct b
    | |- pays _ (match ?x with _ => _ end) => destruct x
    end; auto with pays.

  Lemma pays_u8 k : pays k (read_u8 R). Proof. unfold read_u8. pay. Qed.
  Lemma pays_uint k w : pays k (read_uint h R w). Proof. unfold read_uint. pay. Qed.
  Lemma pays_peek_u8 k : pays k (peek_u8 R). Proof. unfold peek_u8. pay. apply pays_peek_ptr. lia. Qed.
  Lemma pays_peek_uint k w : (w <= 16)%nat -> pays k (peek_uint h R w).
  Proof. intros Hw. unfold peek_uint. pay. apply pays_peek_ptr. lia. Qed.
  Hint Resolve pays_u8 pays_uint pays_peek_u8 : pays.
  Hint Extern 1 (pays _ (peek_uint _ _ _)) => apply pays_peek_uint; lia : pays.
  Lemma pays_prim k p : pays k (read_prim h R p). Proof. unfold read_prim. pay. Qed.
  Lemma pays_varint k : pays k (read_varint h R). Proof. unfold read_varint, vi_impl. pay. Qed.
  Lemma pays_peek_varint k : pays k (peek_varint h R).
  Proof.
    unfold peek_varint, vi_impl. apply pays_bind; [pay|]. intros b. apply pays_bind; [|intros ?; pay].
    apply pays_peek. unfold vi_length, leading_zeros. lia.
  Qed.
  Hint Resolve pays_prim pays_varint pays_peek_varint : pays.
  Lemma pays_length k b : pays k (read_length h R b). Proof. unfold read_length. pay. Qed.
  Hint Resolve pays_length : pays.

  (** The rule for vectors: the reservation is backed once all elements are read. *)
  Lemma pays_vec k t rd n : pays k rd -> (is_prim h t = true \/ drops P left 1 rd) -> pays (S k) (read_vec h R t rd n).
  Proof.
    intros Hrd Hd. unfold read_vec. apply pays_bind; [pay|]. intros _. unfold alloc.
    destruct (h_alloc_max h <? n * h_size h t); [apply pays_quiet; intros s Hs; cbn; repeat split; auto; lia|].
    set (body := if is_prim h t then _ else _).
    assert (Hb : pays k body) by (unfold body; pay).
    assert (Hn : h_size h t = 0 \/ drops P left n body).
    { destruct (N.eq_dec (h_size h t) 0) as [Ez|Ez]; [left; exact Ez|right]. unfold body.
      destruct (is_prim h t) eqn:Ep.
      - apply drops_first; [|intros bs; apply drops_lift].
        apply (drops_weak P left (h_capacity h n (h_size h t) * h_size h t)); [|apply (mt_read_ptr _ _ _ K)].
        rewrite (vh_capacity h VH) by exact Ez. nia.
      - destruct (h_size h t =? 0) eqn:E0; [apply N.eqb_eq in E0; contradiction|].
        destruct Hd as [Hd|Hd]; [discriminate|]. rewrite <- (N2Nat.id n) at 1. apply drops_times, Hd. }
    intros s Hs. destruct (ld_alloc L n (h_size h t) (min_bytes h t) s Hs) as (s1 & E1 & El & Eg).
    pose proof (mt_alloc _ _ _ K n (h_size h t) (min_bytes h t) s Hs) as (Hs1 & _). rewrite E1 in Hs1. cbn [snd] in Hs1.
    unfold bind. rewrite E1. destruct (Hb s1 Hs1) as (H1 & H0 & new & H2 & Hr & H3 & H4). split; [exact H1|].
    split; [lia|]. eexists. rewrite H2, Eg, <- app_assoc. split; [reflexivity|]. split.
    { constructor; [cbn; lia|]. rewrite El in Hr. exact Hr. }
    rewrite unbacked_app. split.
    - unfold unbacked at 1. cbn [filter]. destruct (negb _); cbn [length]; lia.
    - intros x Ex. rewrite (H4 x Ex). unfold unbacked. cbn [filter]. unfold backed. cbn [al_count al_rest al_size].
      destruct Hn as [->|Hn]; [rewrite orb_true_r; reflexivity|].
      destruct (Hn s1 Hs1) as (_ & _ & Hx). specialize (Hx x Ex).
      replace (n <=? left s) with true by (symmetry; apply N.leb_le; lia). reflexivity.
  Qed.

  (** The reservation comes before the elements. *)
  Lemma vec_reserves k t rd n s : P s -> pays k rd -> min_bytes h t * n <= usize_max h ->
    rd_can R (min_bytes h t * n) s <> Some false -> n * h_size h t <= h_alloc_max h ->
    exists new, log (snd (read_vec h R t rd n s)) =
      log s ++ {| al_count := n; al_size := h_size h t; al_min := min_bytes h t; al_rest := left s |} :: new.
  Proof.
    intros Hs Hrd Hu Hc Ha. unfold read_vec. rewrite (proj2 (N.ltb_ge _ _) Hu). unfold alloc. rewrite (proj2 (N.ltb_ge _ _) Ha).
    set (body := if is_prim h t then _ else _).
    assert (Hb : pays k body) by (unfold body; pay).
    destruct (ld_alloc L n (h_size h t) (min_bytes h t) s Hs) as (s1 & E1 & El & Eg).
    pose proof (mt_alloc _ _ _ K n (h_size h t) (min_bytes h t) s Hs) as (Hs1 & _). rewrite E1 in Hs1. cbn [snd] in Hs1.
    destruct (Hb s1 Hs1) as (_ & _ & new & H2 & _). exists new.
    unfold bind, require. destruct (rd_can R (min_bytes h t * n) s) as [[]|]; try contradiction;
      rewrite E1, H2, Eg, <- app_assoc; reflexivity.
  Qed.

  Lemma pays_cow k t rd n : pays k rd -> (is_prim h t = true \/ drops P left 1 rd) -> pays (S k) (read_cow h R t rd n).
  Proof.
    intros Hrd Hd. unfold read_cow. rewrite Nb. destruct (is_prim h t && no_conv h R t); apply pays_vec; assumption.
  Qed.

  Lemma pays_borrowed k n : pays k (borrowed R n).
  Proof. unfold borrowed. rewrite Nb. apply pays_fail. Qed.
  Hint Resolve pays_borrowed : pays.
  Lemma pays_collection k c key t rd n : pays k rd -> pays k (read_collection h R c key t rd n).
  Proof. intros Hrd. unfold read_collection. rewrite Nr. pay. Qed.
  Lemma pays_pair k rk rv : pays k rk -> pays k rv -> pays k (read_pair rk rv).
  Proof. intros H1 H2. unfold read_pair. pay. Qed.
  Hint Resolve pays_collection pays_pair : pays.
  Lemma pays_kv k c tk tv rk rv n : pays k rk -> pays k rv -> pays k (read_kv h R c tk tv rk rv n).
  Proof. intros H1 H2. unfold read_kv. rewrite Nr. pay. Qed.
  Hint Resolve pays_kv : pays.
  Lemma pays_read_map k c tk tv rk rv n : pays k rk -> pays k rv -> pays k (read_map h R c tk tv rk rv n).
  Proof. intros H1 H2. unfold read_map. pay. Qed.
  Lemma pays_ipv4 k : pays k (read_ipv4 h R). Proof. unfold read_ipv4. pay. Qed.
  Lemma pays_ipv6 k : pays k (read_ipv6 h R). Proof. unfold read_ipv6. pay. Qed.
  Lemma pays_duration k : pays k (read_duration h R). Proof. unfold read_duration. pay. Qed.
  Hint Resolve pays_ipv4 pays_ipv6 pays_duration : pays.
  Lemma pays_scalar k s : pays k (read_scalar h R s).
  Proof. destruct s; cbn [read_scalar]; pay. Qed.
  Lemma pays_to_str k bs : pays k (to_str (St := St) bs). Proof. unfold to_str. pay. Qed.
  Lemma pays_elem_u8 k : pays k (read_elem_u8 h R). Proof. unfold read_elem_u8. pay. Qed.
  Hint Resolve pays_to_str pays_elem_u8 : pays.
  Lemma pays_vec_u8 k n : pays (S k) (read_vec_u8 h R n).
  Proof. unfold read_vec_u8. pay. apply pays_vec; [pay|left; reflexivity]. Qed.
  Lemma pays_cow_u8 k n : pays (S k) (read_cow_u8 h R n).
  Proof. unfold read_cow_u8. pay. apply pays_cow; [pay|left; reflexivity]. Qed.
  Hint Resolve pays_vec_u8 pays_cow_u8 : pays.
  Lemma pays_constant k c : pays (S k) (read_constant h R c).
  Proof. unfold read_constant. rewrite Nb. pay. Qed.
  Lemma pays_guard k t : pays k (endianness_guard h R t). Proof. unfold endianness_guard. pay. Qed.
  Lemma pays_cast k t n b : pays k (cast_slice (St := St) h t n b). Proof. unfold cast_slice. pay. Qed.
  Hint Resolve pays_guard pays_cast : pays.
  Lemma pays_ref_slice k t n : pays k (read_ref_slice h R t n). Proof. unfold read_ref_slice. pay. Qed.
  Hint Resolve pays_ref_slice : pays.

  Lemma pays_with_length k prev a f u : f_eof a = false -> f_len a <> LEof -> (forall n, pays k (f n)) ->
    pays k (with_length h R prev a f u).
  Proof. intros He Hl Hf. unfold with_length. rewrite He. destruct (f_len a); try contradiction; pay. Qed.

  Definition paid (t : ty) : Prop := forall eof, fed h t = true -> no_eof eof t -> pays (nest t) (read h R t).

  Lemma element_drops t : takes h t = true -> drops P left 1 (read h R t).
  Proof. exact (proj1 (proj2 (drops_read P left h VH R K t))). Qed.

  Lemma paid_inner prev a v t : f_eof a = false -> paid t ->
    (forall t', match t with
                | TSeq _ t1 | TArr t1 _ | TSet _ t1 => t' = t1
                | TMap _ t1 t2 => t' = t1 \/ t' = t2
                | _ => False
                end -> paid t') ->
    fed h t = true -> no_eof (is_container t && match f_len a with LEof => true | _ => false end) t ->
    pays (nest t) (read_field_inner h R (read h R) prev a v t).
  Proof.
    intros He Ht Hs Hf Hn.
    assert (Hl : forall b, match f_len a with LEof => true | _ => false end = false -> f_len a <> LEof \/ b = true).
    { intros b E. left. intros E'. rewrite E' in E. discriminate. }
    destruct t as [[]|[]|[]| | | | | | |[]|[]| | | |]; cbn [read_field_inner]; try (eapply Ht; eassumption);
      try (destruct v; [pay|eapply Ht; eassumption]); cbn [nest fed no_eof is_container andb] in *.
    - destruct (Hl false Hn) as [Hl'|]; [|discriminate]. apply pays_with_length; auto. pay.
    - destruct (Hl false Hn) as [Hl'|]; [|discriminate]. apply pays_with_length; auto. pay.
    - destruct (Hl false Hn) as [Hl'|]; [|discriminate]. apply pays_with_length; auto. pay.
    - destruct Hn as [Hn Hn']. destruct (Hl false Hn) as [Hl'|]; [|discriminate]. apply andb_true_iff in Hf as [Hf1 Hf2].
      apply pays_with_length; auto. intros n. apply pays_map, pays_vec; [eapply (Hs _ eq_refl); eassumption|right; apply element_drops, Hf1].
    - destruct Hn as [Hn Hn']. destruct (Hl false Hn) as [Hl'|]; [|discriminate]. apply andb_true_iff in Hf as [Hf1 Hf2].
      apply pays_with_length; auto. intros n. apply pays_map, pays_cow; [eapply (Hs _ eq_refl); eassumption|right; apply element_drops, Hf1].
    - destruct Hn as [Hn Hn']. destruct (Hl false Hn) as [Hl'|]; [|discriminate].
      apply pays_bind; [pay|]. intros _. apply pays_with_length; auto. pay.
    - apply pays_map, pays_repeat. eapply (Hs _ eq_refl); eassumption.
    - destruct Hn as [Hn Hn']. destruct (Hl false Hn) as [Hl'|]; [|discriminate]. apply andb_true_iff in Hf as [Hf1 Hf2].
      apply pays_with_length; auto. intros n. apply pays_collection. eapply (Hs _ eq_refl); eassumption.
    - destruct Hn as [Hn Hn']. destruct (Hl false Hn) as [Hl'|]; [|discriminate]. apply andb_true_iff in Hf as [Hf1 Hf2].
      apply pays_with_length; auto. intros n. apply pays_collection. eapply (Hs _ eq_refl); eassumption.
    - destruct Hn as [Hn [Hn1 Hn2]]. destruct (Hl false Hn) as [Hl'|]; [|discriminate].
      apply andb_true_iff in Hf as [Hf Hf3]. apply andb_true_iff in Hf as [Hf1 Hf2].
      apply pays_with_length; auto. intros n. apply pays_kv.
      + eapply (pays_weak (nest t1)); [lia|]. eapply (Hs _ (or_introl eq_refl)); eassumption.
      + eapply (pays_weak (nest t2)); [lia|]. eapply (Hs _ (or_intror eq_refl)); eassumption.
    - destruct Hn as [Hn [Hn1 Hn2]]. destruct (Hl false Hn) as [Hl'|]; [|discriminate].
      apply andb_true_iff in Hf as [Hf Hf3]. apply andb_true_iff in Hf as [Hf1 Hf2].
      apply pays_with_length; auto. intros n. apply pays_kv.
      + eapply (pays_weak (nest t1)); [lia|]. eapply (Hs _ (or_introl eq_refl)); eassumption.
      + eapply (pays_weak (nest t2)); [lia|]. eapply (Hs _ (or_intror eq_refl)); eassumption.
  Qed.

  Lemma paid_field prev a t : f_eof a = false -> paid t -> (forall t', below t t' -> paid t') ->
    fed h t = true -> no_eof (field_eof a t) t ->
    pays (Nat.max (match f_prefix a with [] => 0 | _ => 1 end) (nest t)) (read_field h R (read h R) prev a t).
  Proof.
    intros He Ht Hb Hf Hn. unfold read_field. rewrite He. apply pays_bind.
    { destruct (f_prefix a) as [|x l]; [pay|]. eapply pays_weak; [|apply (pays_constant 0)]. lia. }
    intros _. apply (pays_weak (nest t)); [lia|]. unfold field_eof, sized_field in Hn.
    destruct (f_opaque a); [eapply Ht; eassumption|]. cbn [negb andb] in Hn.
    destruct t; try (apply paid_inner; [exact He|exact Ht|intros t' H'; apply Hb; cbn [below]; tauto|exact Hf|exact Hn]).
    apply pays_bind; [pay|]. intros x. destruct (x =? 0); [pay|]. apply pays_map. cbn [nest fed no_eof] in *. apply paid_inner; auto.
    - apply Hb. cbn [below]. auto.
    - intros t' H'. apply Hb. cbn [below]. auto.
  Qed.

  Lemma paid_fields fs : Forall (fun f => paid (snd f) /\ forall t', below (snd f) t' -> paid t') fs ->
    forallb (fun f => f_skip (fst f) || fed h (snd f)) fs = true ->
    all_fields (fun a t => f_skip a = true \/ (f_eof a = false /\ no_eof (field_eof a t) t)) fs ->
    forall prev, pays (fold_right Nat.max 0%nat (map (fun f : fattrs * ty =>
      if f_skip (fst f) then 0%nat
      else Nat.max (match f_prefix (fst f) with [] => 0 | _ => 1 end) (nest (snd f))) fs))
      (read_fields h R (read h R) prev fs).
  Proof.
    induction 1 as [|f r [Hf Hb] Hr IH]; cbn [forallb map fold_right]; intros Hx Hn prev; cbn [read_fields]; [pay|].
    apply andb_true_iff in Hx as [Hx1 Hx2]. destruct Hn as [Hn Hn2]. specialize (IH Hx2 Hn2).
    destruct (f_skip (fst f)) eqn:Es; [apply pays_map; eapply pays_weak; [|apply IH]; lia|].
    destruct Hn as [Hn|[He Hn]]; [cbn [fst] in Hn; congruence|]. apply pays_bind.
    - eapply pays_weak; [|apply paid_field; auto]. lia.
    - intros v. apply pays_bind; [eapply pays_weak; [|apply IH]; lia|]. intros vs. pay.
  Qed.

  (** Reading from a reader that lends nothing: unbacked reservations are left by failures
      only, and nested no deeper than the type. *)
  Theorem paid_read t : paid t /\ forall t', below t t' -> paid t'.
  Proof.
    induction t as [s|k|k t IH|t n IH|t n IH|t IH|t1 t2 IH1 IH2|ts IH|i t IH|k t IH|k tk tv IHk IHv|t IH|d fs IH|d vs IH|]
      using ty_ind'; (split; [intros eof Hf Hn; cbn [read]|intros t' Hl; cbn [below] in Hl]); try contradiction;
      cbn [nest fed no_eof] in *.
    - apply pays_scalar.
    - unfold read_str. destruct k; pay.
    - destruct IH as [IH _]. destruct Hn as [_ Hn]. unfold read_seq.
      assert (Hk : k <> KRef -> pays (nest t) (read h R t) /\ drops P left 1 (read h R t)).
      { intros Hk. assert (takes h t && fed h t = true) as Hx by (destruct k; try contradiction; exact Hf).
        apply andb_true_iff in Hx as [H1 H2]. split; [eapply IH; eassumption|apply element_drops, H1]. }
      destruct k; try (destruct Hk as [H1 H2]; [discriminate|]); pay; first [apply pays_vec | apply pays_cow]; auto.
    - subst. apply (proj1 IH).
    - destruct IH as [IH _]. specialize (IH _ Hf Hn). unfold read_array. pay.
    - subst. apply (proj1 IH).
    - unfold read_ref_array. pay.
    - destruct IH as [IH _]. specialize (IH _ Hf Hn). pay.
    - destruct IH as [IH1 IH2]. destruct Hl as [->|Hl]; [exact IH1|]. apply IH2.
      destruct t; try contradiction; cbn [below]; exact Hl.
    - destruct IH1 as [IH1 _]. destruct IH2 as [IH2 _]. destruct Hn as [Hn1 Hn2]. apply andb_true_iff in Hf as [Hf1 Hf2].
      specialize (IH1 _ Hf1 Hn1). specialize (IH2 _ Hf2 Hn2).
      apply pays_bind; [pay|]. intros x. destruct (x =? 0); apply pays_map;
        [eapply pays_weak; [|exact IH2]|eapply pays_weak; [|exact IH1]]; lia.
    - apply pays_map. induction IH as [|t r [IHt _] IHr IHl]; cbn [read_tuple map fold_right]; [pay|].
      cbn [forallb] in Hf. apply andb_true_iff in Hf as [Hf1 Hf2]. destruct Hn as [Hn1 Hn2].
      apply pays_bind; [eapply pays_weak; [|eapply IHt; eassumption]; lia|]. intros v.
      apply pays_bind; [eapply pays_weak; [|apply IHl; assumption]; lia|]. pay.
    - destruct IH as [IH _]. specialize (IH _ Hf Hn). pay.
    - destruct IH as [IH _]. destruct Hn as [_ Hn]. apply andb_true_iff in Hf as [_ Hf]. specialize (IH _ Hf Hn). pay.
    - subst. apply (proj1 IH).
    - destruct IHk as [IHk _]. destruct IHv as [IHv _]. destruct Hn as (_ & Hn1 & Hn2).
      apply andb_true_iff in Hf as [Hf Hf2]. apply andb_true_iff in Hf as [_ Hf1].
      specialize (IHk _ Hf1 Hn1). specialize (IHv _ Hf2 Hn2).
      apply pays_bind; [pay|]. intros n. apply pays_read_map; [eapply pays_weak; [|exact IHk]|eapply pays_weak; [|exact IHv]]; lia.
    - destruct Hl as [->| ->]; [apply (proj1 IHk)|apply (proj1 IHv)].
    - eapply (proj1 IH); eassumption.
    - apply pays_map, paid_fields; assumption.
    - apply pays_bind; [unfold read_tag; pay|]. intros tag.
      match goal with |- pays ?k _ => cut (forall i, pays k (read_variant h R (read h R) tag i vs)); [auto|] end.
      induction IH as [|v r IHv IHr IHl]; intros i; cbn [read_variant map fold_right]; [pay|].
      cbn [forallb] in Hf. apply andb_true_iff in Hf as [Hf1 Hf2]. destruct Hn as [Hn1 Hn2].
      destruct (fst v =? tag).
      + apply pays_map. eapply pays_weak; [|apply paid_fields; assumption]. lia.
      + eapply pays_weak; [|apply IHl; assumption]. lia.
    - pay.
  Qed.
End Pays.
