(* The reading entry points follow the wire format. *)
From Verif Require Export ReaderFacts Extend.

(** What a read has to return, given what the input decodes to. *)
Definition ran_out (r : res val) : Prop := exists er, r = Err er /\ is_eof er = true.

Definition agrees (d : dres val) (r : res val) : Prop :=
  match d with
  | DOk v _ => r = Ok v
  | DEof => ran_out r
  | DBad er sure => (r = Err er /\ is_eof er = false) \/ (sure = false /\ ran_out r)
  | DPanic f sure => r = Fault f \/ (sure = false /\ ran_out r)
  | DUnspec => True
  end.

Lemma ended_ran_out {St} (rep : St -> bytes -> Prop) o (r : res val) s : ended rep o r s -> ran_out r.
Proof. intros (er & E & He & _). exists er. auto. Qed.

Lemma post_agrees {St} (rep : St -> bytes -> Prop) o d (r : res val) s : post rep o d r s -> agrees d r.
Proof.
  destruct d as [v o'| |er sure|f sure|]; cbn; auto.
  - tauto.
  - apply ended_ran_out.
  - intros [H|[-> H]]; [auto|]. right. split; [reflexivity|]. eapply ended_ran_out, H.
  - intros [H|[-> H]]; [auto|]. right. split; [reflexivity|]. eapply ended_ran_out, H.
Qed.

Section Api.
  Context (h : host) (VH : valid_host h) (e : endian).
  Notation e6 := (ipv6_order h e).
  Notation decode := (decode (h_lim h) e e6).

  (* ---------------------------------------------------------------- *)
  (** ** Buffers *)

  (** One statement for both buffer readers; [bw]: slices may be borrowed. *)
  Section Both.
    Context (bw : bool) (R : reader breader) (He : rd_endian R = e).
    Context (OK : reader_ok h R true (brep h) no_io).
    Context (Hbw : bw = true -> rd_borrow R <> None /\ rd_borrow_eof R <> None).

    Lemma br_sim t : supported h e bw true LDefault t ->
      sim (brep h) no_io (read h R t) (decl (h_lim h) e e6 len0 t).
    Proof.
      intros Hs. pose proof (read_sim h VH R bw true (brep h) no_io OK Hbw t) as H.
      rewrite He in H. apply H, Hs.
    Qed.

    Lemma br_agrees t addr bs : supported h e bw true LDefault t -> nlen bs <= h_alloc_max h ->
      min_bytes h t <= nlen bs ->
      agrees (decode t bs) (fst (fst (with_min h t R addr bs)))
      /\ (forall v rest, decode t bs = DOk v (Some rest) ->
            fst (with_min h t R addr bs) = (Ok v, nlen bs - nlen rest)).
    Proof.
      intros Hs Hl Hm. unfold with_min. destruct (N.ltb_spec (nlen bs) (min_bytes h t)); [lia|].
      assert (Hr : repo (brep h) (br_start addr bs) (Some bs)) by (split; [reflexivity|assumption]).
      pose proof (br_sim t Hs _ _ Hr) as H'.
      destruct (read h R t (br_start addr bs)) as [r s]. cbn [fst snd] in *.
      destruct H' as [(er & _ & [])|Hp]. split.
      - eapply post_agrees, Hp.
      - intros v rest E. unfold Spec.decode in E. rewrite E in Hp. destruct Hp as (-> & [Hb _] & _).
        cbn. rewrite Hb. reflexivity.
    Qed.
  End Both.

  Theorem buffer_agrees t addr bs : supported h e true true LDefault t -> nlen bs <= h_alloc_max h ->
    min_bytes h t <= nlen bs ->
    agrees (decode t bs) (read_from_buffer h e t addr bs)
    /\ (forall v rest, decode t bs = DOk v (Some rest) ->
          read_with_length_from_buffer h e t addr bs = (Ok v, nlen bs - nlen rest)).
  Proof.
    apply br_agrees; [reflexivity|apply buffer_ok, VH|]. intros _. split; discriminate.
  Qed.

  Theorem copying_agrees t bs : supported h e false true LDefault t -> nlen bs <= h_alloc_max h ->
    min_bytes h t <= nlen bs ->
    agrees (decode t bs) (read_from_buffer_copying h e t bs)
    /\ (forall v rest, decode t bs = DOk v (Some rest) ->
          read_with_length_from_buffer_copying h e t bs = (Ok v, nlen bs - nlen rest)).
  Proof.
    apply br_agrees; [reflexivity|apply copying_ok, VH|]. discriminate.
  Qed.

  Lemma buffer_small t addr bs : nlen bs < min_bytes h t ->
    read_with_length_from_buffer h e t addr bs = (Err (InputBufferIsTooSmall (nlen bs) (min_bytes h t)), 0).
  Proof.
    intros H. unfold read_with_length_from_buffer, with_min.
    destruct (N.ltb_spec (nlen bs) (min_bytes h t)); [reflexivity|lia].
  Qed.

  Lemma copying_small t bs : nlen bs < min_bytes h t ->
    read_with_length_from_buffer_copying h e t bs
    = (Err (InputBufferIsTooSmall (nlen bs) (min_bytes h t)), 0).
  Proof.
    intros H. unfold read_with_length_from_buffer_copying, with_min.
    destruct (N.ltb_spec (nlen bs) (min_bytes h t)); [reflexivity|lia].
  Qed.

  (** An input that is too short does not decode. *)
  Lemma small_undecodable t bs v o : minok h t -> nlen bs < min_bytes h t ->
    decode t bs <> DOk v o.
  Proof.
    intros Hm Hl E. pose proof (atleast_min h VH (h_lim h) e e6 t Hm (Some bs) v o E) as H.
    destruct o; lia.
  Qed.

  (* ---------------------------------------------------------------- *)
  (** ** Streams *)

  Section Stream.
    Context (mem : N -> bytes) (Hmem : forall n, n <= nlen (mem n)).
    Context (buffering pk : bool) (i : istream).
    Context (Hclean : ~ In (RErr IoUnexpectedEof) (is_sched i)).
    Context (Hlen : nlen (is_rest i) <= l_usize_max (h_lim h)).

    (** An error the stream reported; without buffering and peeking an interrupted
        read is not one. *)
    Definition stream_failed (r : res val) : Prop :=
      exists k, r = Err (IoError k) /\ In (RErr k) (is_sched i)
                /\ (buffering = false -> pk = false -> k <> IoInterrupted).

    Theorem stream_agrees t : supported h e false pk LDefault t ->
      let (r, s) := deserialize h mem buffering e t i in
      stream_failed r
      \/ (agrees (decode t (is_rest i)) r
          /\ forall v rest, decode t (is_rest i) = DOk v (Some rest) ->
               content (sr_buffer s) ++ is_rest (sr_stream s) = rest
               /\ incl (is_sched (sr_stream s)) (is_sched i)
               /\ (buffering = false -> pk = false -> is_rest (sr_stream s) = rest)).
    Proof.
      intros Hs. unfold deserialize.
      pose proof (stream_ok h e mem Hmem buffering pk (is_sched i) Hclean) as OK.
      pose proof (sr_start_rep h mem Hmem buffering pk (is_sched i) i eq_refl Hlen) as Hr.
      assert (Hbw : false = true -> rd_borrow (StreamReader mem e) <> None
                                  /\ rd_borrow_eof (StreamReader mem e) <> None) by discriminate.
      pose proof (read_sim h VH (StreamReader mem e) false pk _ _ OK Hbw t Hs _ (Some (is_rest i)) Hr) as H.
      destruct (read h (StreamReader mem e) t (sr_start mem buffering i)) as [r s]. cbn [fst snd] in H.
      destruct H as [(er & -> & k & -> & Hk)|Hp].
      - left. exists k. auto.
      - right. split; [eapply post_agrees, Hp|]. intros v rest E. unfold Spec.decode in E. cbn in Hp.
        rewrite E in Hp. destruct Hp as (_ & Hrep & _). cbn in Hrep.
        split; [exact (sp_bytes _ _ _ _ _ _ Hrep)|]. split; [exact (sp_sched _ _ _ _ _ _ Hrep)|].
        intros Hb Hk. pose proof (sp_empty _ _ _ _ _ _ Hrep Hb Hk) as H0.
        pose proof (sp_bytes _ _ _ _ _ _ Hrep) as H1. unfold unread in H1.
        assert (H2 : content (sr_buffer s) = []).
        { apply nlen_0. rewrite nlen_content. exact H0. }
        rewrite H2 in H1. exact H1.
    Qed.
  End Stream.
End Api.
