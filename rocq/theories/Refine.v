(* What it means for a reader-based computation to follow a decoder on plain
   byte strings, and the laws a reader has to obey. *)
From Verif Require Export VarintFacts ReadImpl.

(* ------------------------------------------------------------------ *)
(** * Simulation *)

Section Sim.
  Context {St : Type}.
  (** [rep s bs]: the bytes still to be read in state [s] are [bs].
      [io er]: an error of the underlying stream. *)
  Context (rep : St -> bytes -> Prop) (io : error -> Prop).

  Definition repo (s : St) (o : option bytes) : Prop :=
    match o with Some bs => rep s bs | None => exists bs, rep s bs end.

  (** Outcomes the decoder does not speak about. *)
  Definition escape {A} (r : res A) : Prop :=
    exists er, r = Err er /\ io er.

  Definition ended {A} (o : option bytes) (r : res A) (s' : St) : Prop :=
    exists er, r = Err er /\ is_eof er = true /\ (exists bs, rep s' bs)
               /\ (o = Some [] -> rep s' []).

  Definition post {A} (o : option bytes) (d : dres A) (r : res A) (s' : St) : Prop :=
    match d with
    | DOk a o' => r = Ok a /\ repo s' o' /\ (o = Some [] -> o' = Some [])
    | DEof => ended o r s'
    | DBad er sure =>
      (r = Err er /\ is_eof er = false) \/ (sure = false /\ ended o r s')
    | DPanic f sure => r = Fault f \/ (sure = false /\ ended o r s')
    | DUnspec => True
    end.

  Definition sim {A} (m : M St A) (d : dec A) : Prop :=
    forall s o, repo s o -> escape (fst (m s)) \/ post o (d o) (fst (m s)) (snd (m s)).

  (** [sim] for a decoder that is known to be run on inputs satisfying [P]. *)
  Lemma repo_weaken s o : repo s o -> repo s None.
  Proof. destruct o; cbn; eauto. Qed.

  Lemma escape_cast {A B} (r : res A) (r' : res B) :
    match r with Err e => r' = Err e | Fault f => r' = Fault f | Ok _ => False end ->
    escape r -> escape r'.
  Proof.
    intros H (er & -> & Hi); cbn in H; subst. unfold escape. eauto.
  Qed.

  Lemma ended_cast {A B} (o o' : option bytes) (r : res A) (r' : res B) s :
    (o' = Some [] -> o = Some []) ->
    match r with Err e => r' = Err e | _ => False end ->
    ended o r s -> ended o' r' s.
  Proof.
    intros Ho H (er & -> & He & Hb & Hs). cbn in H. subst.
    exists er. repeat split; auto.
  Qed.

  Lemma sim_ext {A} (m m' : M St A) (d d' : dec A) :
    (forall s, m s = m' s) -> (forall o, d o = d' o) -> sim m d -> sim m' d'.
  Proof. intros Hm Hd H s o Hr. rewrite <- Hm, <- Hd. auto. Qed.

  Lemma sim_ret {A} (a : A) : sim (ret a) (dret a).
  Proof. intros s o Hr. right. cbn. auto. Qed.

  Lemma sim_fail {A} er : is_eof er = false -> sim (A := A) (fail er) (dbad er).
  Proof. intros He s o Hr. right. cbn. auto. Qed.

  Lemma sim_crash {A} f : sim (A := A) (crash f) (dpanic f).
  Proof. intros s o Hr. right. cbn. auto. Qed.

  Lemma sim_unspec {A} (m : M St A) : sim m (fun _ => DUnspec).
  Proof. intros s o Hr. right. exact I. Qed.

  (** Sequencing; [Q] records what is known about a decoded intermediate. *)
  Lemma sim_bind_via {A A' B} (f : A -> A') (Q : A' -> Prop) (m : M St A) d (k : A -> M St B) k' :
    sim (mmap f m) d -> (forall o a o', d o = DOk a o' -> Q a) ->
    (forall a, Q (f a) -> sim (k a) (k' (f a))) -> sim (bind m k) (dbind d k').
  Proof.
    intros Hm HQ Hk s o Hr. unfold bind, dbind.
    specialize (Hm s o Hr). unfold mmap, bind in Hm.
    destruct (m s) as [r s'] eqn:Em. cbn [fst snd] in Hm.
    assert (Hm' : escape r \/ post o (d o) (rmap f r) s').
    { destruct r; cbn in Hm |- *; (destruct Hm as [He|Hp]; [|right; exact Hp]).
      - destruct He as (er & E & _); discriminate E.
      - left. eapply escape_cast; [|exact He]. reflexivity.
      - left. eapply escape_cast; [|exact He]. reflexivity. }
    clear Hm. destruct Hm' as [He|Hp].
    - left. destruct r as [a|e|x].
      + destruct He as (er & E & _); discriminate E.
      + cbn. eapply escape_cast; [|exact He]. reflexivity.
      + cbn. eapply escape_cast; [|exact He]. reflexivity.
    - specialize (HQ o). unfold post in Hp. destruct (d o) as [a o'| |er sure|x sure|] eqn:Ed.
      + destruct Hp as (E & Hr' & Hemp). specialize (HQ a o' eq_refl).
        apply rmap_ok in E. destruct E as (a0 & -> & ->).
        specialize (Hk a0 HQ s' o' Hr'). destruct Hk as [He|Hp]; [left; assumption|right].
        unfold post in *. destruct (k' (f a0) o') as [b o''| |er sure|x sure|].
        * destruct Hp as (? & ? & ?). auto.
        * destruct Hp as (er & ? & ? & ? & ?). exists er. auto 10.
        * destruct Hp as [?|[? (er' & ? & ? & ? & ?)]]; auto.
          right. split; [assumption|]. exists er'. auto 10.
        * destruct Hp as [?|[? (er' & ? & ? & ? & ?)]]; auto.
          right. split; [assumption|]. exists er'. auto 10.
        * exact I.
      + right. destruct Hp as (er & E & ? & ? & ?). destruct r; cbn in E; inversion E; subst.
        cbn. exists er. auto.
      + right. destruct Hp as [[E Hne]|[-> (er' & E & ? & ? & ?)]];
          destruct r; cbn in E; inversion E; subst; cbn; [left; auto|].
        right. split; [reflexivity|]. exists er'. auto.
      + right. destruct Hp as [E|[-> (er' & E & ? & ? & ?)]];
          destruct r; cbn in E; inversion E; subst; cbn; [left; reflexivity|].
        right. split; [reflexivity|]. exists er'. auto.
      + right. exact I.
  Qed.

  Lemma sim_bind_where {A B} (Q : A -> Prop) (m : M St A) d (k : A -> M St B) k' :
    sim m d -> (forall o a o', d o = DOk a o' -> Q a) ->
    (forall a, Q a -> sim (k a) (k' a)) -> sim (bind m k) (dbind d k').
  Proof.
    intros Hm. apply (sim_bind_via (fun a => a) Q).
    eapply sim_ext; [| |exact Hm]; [|reflexivity].
    intros s. unfold mmap, bind, ret. destruct (m s) as [[]]; reflexivity.
  Qed.

  Lemma sim_bind {A B} (m : M St A) d (k : A -> M St B) k' :
    sim m d -> (forall a, sim (k a) (k' a)) -> sim (bind m k) (dbind d k').
  Proof. intros. eapply (sim_bind_where (fun _ => True)); eauto. Qed.

  Lemma sim_map {A B} (f : A -> B) (m : M St A) d : sim m d -> sim (mmap f m) (dmap f d).
  Proof. intros. apply sim_bind; [assumption|]. intros. apply sim_ret. Qed.

  Lemma sim_unsure {A} (m : M St A) d : sim m d -> sim m (dunsure d).
  Proof.
    intros H s o Hr. destruct (H s o Hr) as [He|Hp]; [left; assumption|right].
    unfold dunsure, post in *. destruct (d o); auto.
    - destruct Hp as [?|[? ?]]; auto.
    - destruct Hp as [?|[? ?]]; auto.
  Qed.

  Lemma sim_repeat {A} (m : M St A) d n : sim m d -> sim (repeatM m n) (drepeat d n).
  Proof.
    intros H. induction n; cbn [repeatM drepeat]; [apply sim_ret|].
    apply sim_bind; [assumption|]. intros. apply sim_bind; [assumption|]. intros. apply sim_ret.
  Qed.

  Lemma sim_catch {A} (dflt : A) (m : M St A) d : sim m d -> (forall er, io er -> is_eof er = false) ->
    sim (catch_eof dflt m) (dcatch dflt d).
  Proof.
    intros H Hio s o Hr. unfold catch_eof, dcatch.
    specialize (H s o Hr). destruct (m s) as [r s'] eqn:Em. cbn [fst snd] in H.
    destruct H as [He|Hp].
    - left. destruct He as (er & -> & Hi). rewrite (Hio er Hi). cbn. exists er. auto.
    - right. unfold post in *. destruct (d o) as [a o'| |er sure|f sure|] eqn:Ed.
      + destruct Hp as (-> & ? & ?). cbn. auto.
      + destruct Hp as (er & -> & He & Hb & Hs). rewrite He. cbn.
        split; [reflexivity|]. destruct o as [[|b bs]|]; cbn; auto.
        split; auto. intros E; discriminate E.
      + destruct sure; [|exact I]. destruct Hp as [[-> Hne]|[? ?]]; [|discriminate].
        rewrite Hne. cbn. auto.
      + destruct sure; [|exact I]. destruct Hp as [->|[? ?]]; [|discriminate].
        cbn. auto.
      + exact I.
  Qed.

  Lemma sim_until (m : M St val) d k : sim m d -> (forall er, io er -> is_eof er = false) ->
    sim (until_eof_loop m k) (duntil_loop d k).
  Proof.
    intros H Hio. induction k as [|k IH]; intros s o Hr.
    - right. left. reflexivity.
    - cbn [duntil_loop until_eof_loop]. specialize (H s o Hr). destruct (m s) as [r s'] eqn:Em.
      cbn [fst snd] in H. destruct H as [He|Hp].
      + left. destruct He as (er & -> & Hi). rewrite (Hio er Hi). cbn. exists er. auto.
      + unfold post in Hp. destruct (d o) as [a o'| |er sure|f sure|] eqn:Ed.
        * destruct Hp as (-> & Hr' & Hemp).
          pose proof (sim_map (cons a) _ _ IH s' o' Hr') as [He|Hp]; [left; exact He|right].
          unfold post in *. cbn beta in Hp.
          destruct (dmap (cons a) (duntil_loop d k) o') as [b o''| |er sure|f sure|].
          -- destruct Hp as (? & ? & ?). auto.
          -- destruct Hp as (er & ? & ? & ? & ?). exists er. auto 10.
          -- destruct Hp as [?|[? (er' & ? & ? & ? & ?)]]; auto.
             right. split; [assumption|]. exists er'. auto 10.
          -- destruct Hp as [?|[? (er' & ? & ? & ? & ?)]]; auto.
             right. split; [assumption|]. exists er'. auto 10.
          -- exact I.
        * right. destruct Hp as (er & -> & He & Hb & Hs). rewrite He. cbn.
          split; [reflexivity|]. destruct o as [[|b bs]|]; cbn; auto.
          split; auto. intros E; discriminate E.
        * destruct sure; [|right; exact I]. right. destruct Hp as [[-> Hne]|[? ?]]; [|discriminate].
          rewrite Hne. cbn. auto.
        * destruct sure; [|right; exact I]. right. destruct Hp as [->|[? ?]]; [|discriminate].
          cbn. auto.
        * right. exact I.
  Qed.

  Lemma sim_lift {A} (r : res A) a : r = Ok a -> sim (lift r) (dret a).
  Proof. intros -> s o Hr. right. cbn. auto. Qed.
End Sim.

(* ------------------------------------------------------------------ *)
(** * The laws of a reader *)

(** [pk]: the reader may be asked to peek. *)
Record reader_ok {St} (h : host) (R : reader St) (pk : bool)
    (rep : St -> bytes -> Prop) (io : error -> Prop) : Prop := {
  ok_io : forall er, io er -> is_eof er = false;
  ok_read : forall n, sim rep io (rd_read R n) (dread n);
  ok_read_ptr : forall n, sim rep io (rd_read_ptr R n) (dread n);
  ok_peek : pk = true -> forall n, sim rep io (rd_peek R n) (dpeek (dread n));
  ok_peek_ptr : pk = true -> forall n, sim rep io (rd_peek_ptr R n) (dpeek (dread n));
  ok_skip : forall n, sim rep io (rd_skip R n) (dmap (fun _ => tt) (dread n));
  ok_can : forall n s bs, rep s bs -> rd_can R n s = None \/ rd_can R n s = Some (n <=? nlen bs);
  ok_borrow : forall b, rd_borrow R = Some b -> forall n, sim rep io (mmap snd (b n)) (dread n);
  ok_borrow_r : forall b, rd_borrow_r R = Some b -> forall n, sim rep io (b n) (dread n);
  ok_borrow_eof : forall b, rd_borrow_eof R = Some b -> sim rep io (mmap snd b) drest;
  ok_alloc : forall n size min s bs, rep s bs ->
    exists s', rd_alloc R n size min s = (Ok tt, s') /\ rep s' bs;
  ok_fuel : forall s bs, rep s bs -> rd_fuel R s = S (length bs);
  ok_small : forall s bs, rep s bs -> nlen bs <= l_usize_max (h_lim h);
  ok_lent : rd_borrow R <> None -> forall s bs, rep s bs -> nlen bs <= h_alloc_max h
}.
