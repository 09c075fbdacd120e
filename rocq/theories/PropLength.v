(* Properties C28 and C29: lengths given by an expression, and length prefixes. *)
From Verif Require Import StructFacts.

(** Number of elements of a container, or bytes of a string. *)
Definition count (v : val) : N :=
  match v with VBytes b => nlen b | VSeq vs => nlen vs | _ => 0 end.

(** The elements one after the other, without any length. *)
Definition contents (it : list val -> list val) (e e6 : endian) (t : ty) (v : val) : res bytes :=
  match t, v with
  | TStr _, VBytes b => Ok b
  | TSeq _ t', VSeq vs => enc_all (encode it e e6 t') vs
  | TSet k t', VSeq vs => enc_all (encode it e e6 t') (iter_order it k vs)
  | TMap k tk tv, VSeq vs =>
    enc_all (enc_pair (encode it e e6 tk) (encode it e e6 tv)) (iter_order it k vs)
  | _, _ => Fault IllTyped
  end.

(** The container a field is about, and the byte before it if it is optional. *)
Inductive holds : ty -> val -> bytes -> ty -> val -> Prop :=
| holds_plain t v : is_container t = true -> holds t v [] t v
| holds_some t v : is_container t = true -> holds (TOption t) (VSome v) [x01] t v.

(** [p] is the number [n] in the requested format. *)
Definition says (e : endian) (b : basic) (p : bytes) (n : N) : Prop :=
  match b with
  | BU7 => nlen p = 1 /\ unword e p = n /\ n < 128
  | BU8 => nlen p = 1 /\ unword e p = n
  | BU16 => nlen p = 2 /\ unword e p = n
  | BU32 => nlen p = 4 /\ unword e p = n
  | BU64 => nlen p = 8 /\ unword e p = n
  | BVarint => forall rest, dvarint e (Some (p ++ rest)) = DOk n (Some rest)
  end.

(** The prefix a field asks for. *)
Definition prefix_type (lm : lenmode) : option basic :=
  match lm with LDefault => Some BU32 | LType b => Some b | _ => None end.

Lemma says_enc e b n : n <= basic_max b -> says e b (enc_basic e b n) n.
Proof.
  intros H. destruct b; cbn [says enc_basic basic_max] in *;
    try (split; [rewrite nlen_word; reflexivity|]);
    try (rewrite unword_word by (revert H; num_pow; lia)); try reflexivity.
  - split; [reflexivity|lia].
  - intros rest. apply dvarint_enc. revert H. num_pow. lia.
Qed.

Section Length.
  Context (h : host).

  (* ---------------------------------------------------------------- *)
  (** ** Too many elements *)

  Definition sized (t : ty) (v : val) : Prop :=
    match t, v with
    | TStr _, VBytes _ => True
    | (TSeq _ _ | TSet _ _ | TMap _ _ _), VSeq _ => True
    | _, _ => False
    end.

  Lemma length_refused {St} (W : writer St) b n s : basic_max b < n -> n < 2 ^ 64 ->
    write_length h W b n s = (Err OutOfRangeLength, s).
  Proof.
    intros H1 H2. revert H1 H2. destruct b; cbn [basic_max write_length]; num_pow; intros; try lia;
      match goal with |- context [?a <? ?b] => destruct (N.ltb_spec a b); [reflexivity|lia] end.
  Qed.

  (** C29: on every writer, a container of more than 2^32 - 1 elements is refused
      and nothing is written. *)
  Theorem C29_refused {St} (W : writer St) t v s : sized t v -> 2 ^ 32 - 1 < count v -> count v < 2 ^ 64 ->
    write h W t v s = (Err OutOfRangeLength, s).
  Proof.
    intros Hs H1 H2.
    assert (H : write_length h W BU32 (count v) s = (Err OutOfRangeLength, s)) by (apply length_refused; assumption).
    destruct t; try contradiction; destruct v; try contradiction; cbn [write count] in *;
      unfold write_str, write_seq, write_col, bind; rewrite H; reflexivity.
  Qed.

  (** A field with a narrower length type already at the number its type ends. *)
  Theorem C29_field_refused {St} (W : writer St) wr prev a t v s b :
    f_opaque a = false -> f_prefix a = [] -> is_container t = true -> sized t v ->
    prefix_type (f_len a) = Some b -> basic_max b < count v -> count v < 2 ^ 64 ->
    write_field h W wr prev a t v s = (Err OutOfRangeLength, s).
  Proof.
    intros Ho Hp Hc Hs Hb H1 H2.
    assert (H : write_length_body h W prev (f_len a) (count v) s = (Err OutOfRangeLength, s)).
    { destruct (f_len a); try discriminate; injection Hb as <-; apply length_refused; assumption. }
    unfold write_field. rewrite Hp, Ho.
    destruct t as [| | | | | | | | |k t'|k tk tv| | | |]; try contradiction; destruct v; try contradiction;
      destruct k; try discriminate; cbn [write_field_inner count] in *;
      unfold bind, ret; rewrite H; reflexivity.
  Qed.

  (* ---------------------------------------------------------------- *)
  (** ** Inside a struct *)

  Context (VH : valid_host h) (e : endian).
  Context (mem : N -> bytes) (Hmem : forall n, n <= nlen (mem n)).
  Notation e6 := (ipv6_order h e).
  Notation contents := (contents (h_iter h) e e6).

  Lemma container_enc l t v : is_container t = true -> valid (h_lim h) t v ->
    enc (h_iter h) e e6 l t v = rapp (enc_len e l (count v)) (contents t v).
  Proof.
    intros Hc Hv. destruct t; try discriminate; destruct v; try contradiction; reflexivity.
  Qed.

  Lemma holds_sized a t v f t' v' : f_opaque a = false -> holds t v f t' v' -> sized_field a t = true.
  Proof. intros Ho Hh. unfold sized_field. rewrite Ho. destruct Hh; cbn; [destruct t; cbn in *; congruence|assumption]. Qed.

  Lemma holds_valid t v f t' v' : holds t v f t' v' -> valid (h_lim h) t v ->
    is_container t' = true /\ valid (h_lim h) t' v'.
  Proof. destruct 1; auto. Qed.

  Lemma holds_enc prev a t v f t' v' : f_opaque a = false -> f_varint a = false -> holds t v f t' v' ->
    valid (h_lim h) t v ->
    enc_field e e6 (enc (h_iter h) e e6) prev a t v
    = rapp (Ok (f_prefix a)) (rapp (Ok f) (rapp (enc_len e (resolve false prev (f_len a)) (count v')) (contents t' v'))).
  Proof.
    intros Ho Hvar Hh Hv. unfold enc_field. rewrite Hvar, rmap_app. f_equal.
    unfold field_len. rewrite (holds_sized a t v f t' v' Ho Hh).
    destruct Hh as [t v Hc|t v Hc].
    - rewrite rapp_nil_l. apply container_enc; assumption.
    - cbn [enc]. f_equal. apply container_enc; assumption.
  Qed.

  Lemma holds_no_varint a t v f t' v' : wsup_field (wsup h) a t -> f_skip a = false ->
    holds t v f t' v' -> f_varint a = false.
  Proof.
    intros [H|[H _]] Hk Hh; [congruence|]. destruct (f_varint a); [|reflexivity].
    destruct (H eq_refl) as [_ ->]. inversion Hh; discriminate.
  Qed.

  Section InStruct.
    Context (d : sdecl) (fs1 : fields) (a : fattrs) (t : ty) (fs2 : fields)
            (vs1 : list val) (v : val) (vs2 : list val) (flag : bytes) (t' : ty) (v' : val).
    Notation T := (TStruct d (fs1 ++ (a, t) :: fs2)).
    Notation V := (VSeq (vs1 ++ v :: vs2)).
    Context (Hlen : length fs1 = length vs1) (Hskip : f_skip a = false) (Hopaque : f_opaque a = false)
            (Hw : wsup h T) (Hv : valid (h_lim h) T V) (Hh : holds t v flag t' v').

    Lemma in_struct : wsup h (TStruct d fs1) /\ valid (h_lim h) (TStruct d fs1) (VSeq vs1)
      /\ f_varint a = false /\ valid (h_lim h) t v.
    Proof.
      destruct (struct_wsup h d fs1 _ Hw) as [H1 [H2 _]].
      destruct (struct_valid h d fs1 _ vs1 _ Hlen Hv) as [H3 [H4 _]].
      split; [assumption|]. split; [assumption|]. split; [|assumption].
      eapply holds_no_varint; eassumption.
    Qed.

    (** C29: what is written has the exact number of elements in the requested
        format before them. *)
    Theorem C29_prefix_exact b out : prefix_type (f_len a) = Some b ->
      write_to_vec h mem e T V = Ok out ->
      exists b1 p c b2,
        out = b1 ++ f_prefix a ++ flag ++ p ++ c ++ b2
        /\ write_to_vec h mem e (TStruct d fs1) (VSeq vs1) = Ok b1
        /\ count v' <= basic_max b /\ says e b p (count v')
        /\ contents t' v' = Ok c.
    Proof.
      intros Hp Ho. destruct in_struct as (Hw1 & Hv1 & Hvar & Hvt).
      apply (write_to_vec_err h VH) in Ho; try assumption.
      apply (struct_split h e d fs1 a t fs2 vs1 v vs2 out Hlen Hskip) in Ho as (b1 & bf & b2 & -> & E1 & E2 & _).
      rewrite (holds_enc _ a t v flag t' v' Hopaque Hvar Hh Hvt) in E2.
      apply rapp_ok in E2 as (x1 & y1 & Ex1 & E2 & ->). injection Ex1 as <-.
      apply rapp_ok in E2 as (x2 & y2 & Ex2 & E2 & ->). injection Ex2 as <-.
      apply rapp_ok in E2 as (p & c & Ep & Ec & ->).
      assert (Hr : exists le, resolve false (visible fs1 vs1) (f_len a) = LenPrefix b le)
        by (destruct (f_len a); try discriminate; injection Hp as <-; eexists; reflexivity).
      destruct Hr as [le Hr]. rewrite Hr in Ep. cbn [enc_len] in Ep.
      destruct (N.leb_spec (count v') (basic_max b)) as [Hm|Hm]; [|discriminate]. injection Ep as <-.
      exists b1, (enc_basic e b (count v')), c, b2.
      split; [rewrite <- !app_assoc; reflexivity|].
      split; [apply (write_to_vec_ok h VH); assumption|].
      split; [assumption|]. split; [apply says_enc, Hm|assumption].
    Qed.

    (** And if it cannot be expressed, that is the error, and no buffer is
        touched. *)
    Theorem C29_struct_refused b b1 : prefix_type (f_len a) = Some b -> basic_max b < count v' ->
      write_to_vec h mem e (TStruct d fs1) (VSeq vs1) = Ok b1 ->
      write_to_vec h mem e T V = Err OutOfRangeLength
      /\ forall buffer, write_to_buffer h e T V buffer = (Err OutOfRangeLength, buffer).
    Proof.
      intros Hp Hm H1. destruct in_struct as (Hw1 & Hv1 & Hvar & Hvt).
      apply (write_to_vec_err h VH) in H1; try assumption.
      assert (He : encode (h_iter h) e e6 T V = Err OutOfRangeLength).
      { apply (struct_error h e d fs1 a t fs2 vs1 v vs2 b1 _ Hlen Hskip H1).
        rewrite (holds_enc _ a t v flag t' v' Hopaque Hvar Hh Hvt).
        assert (Hr : exists le, resolve false (visible fs1 vs1) (f_len a) = LenPrefix b le)
          by (destruct (f_len a); try discriminate; injection Hp as <-; eexists; reflexivity).
        destruct Hr as [le ->]. cbn [enc_len].
        destruct (N.leb_spec (count v') (basic_max b)); [lia|]. reflexivity. }
      destruct (derived_error h VH e T V _ I Hw Hv He) as [H2 H3]. auto.
    Qed.

    (** C28: a field with `length = expr` is written without a prefix, and only if
        it has as many elements as the expression says. *)
    Theorem C28_written f out : f_len a = LExpr f ->
      write_to_vec h mem e T V = Ok out ->
      exists b1 c b2,
        out = b1 ++ f_prefix a ++ flag ++ c ++ b2
        /\ write_to_vec h mem e (TStruct d fs1) (VSeq vs1) = Ok b1
        /\ f (visible fs1 vs1) = Some (count v')
        /\ contents t' v' = Ok c.
    Proof.
      intros Hp Ho. destruct in_struct as (Hw1 & Hv1 & Hvar & Hvt).
      apply (write_to_vec_err h VH) in Ho; try assumption.
      apply (struct_split h e d fs1 a t fs2 vs1 v vs2 out Hlen Hskip) in Ho as (b1 & bf & b2 & -> & E1 & E2 & _).
      rewrite (holds_enc _ a t v flag t' v' Hopaque Hvar Hh Hvt), Hp in E2. cbn [resolve enc_len] in E2.
      apply rapp_ok in E2 as (x1 & y1 & Ex1 & E2 & ->). injection Ex1 as <-.
      apply rapp_ok in E2 as (x2 & y2 & Ex2 & E2 & ->). injection Ex2 as <-.
      apply rapp_ok in E2 as (p & c & Ep & Ec & ->).
      destruct (f (visible fs1 vs1)) as [m|]; [|discriminate].
      destruct (N.eqb_spec (count v') m) as [Em|]; [|discriminate]. rewrite <- Em. injection Ep as <-.
      exists b1, c, b2. split; [rewrite <- !app_assoc; reflexivity|].
      split; [apply (write_to_vec_ok h VH); assumption|]. auto.
    Qed.

    (** Otherwise the mismatch is reported, before anything is written. *)
    Theorem C28_mismatch f m b1 : f_len a = LExpr f -> f (visible fs1 vs1) = Some m -> m <> count v' ->
      write_to_vec h mem e (TStruct d fs1) (VSeq vs1) = Ok b1 ->
      write_to_vec h mem e T V = Err LengthIsNotTheSameAsLengthAttribute
      /\ forall buffer, write_to_buffer h e T V buffer = (Err LengthIsNotTheSameAsLengthAttribute, buffer).
    Proof.
      intros Hp Hf Hm H1. destruct in_struct as (Hw1 & Hv1 & Hvar & Hvt).
      apply (write_to_vec_err h VH) in H1; try assumption.
      assert (He : encode (h_iter h) e e6 T V = Err LengthIsNotTheSameAsLengthAttribute).
      { apply (struct_error h e d fs1 a t fs2 vs1 v vs2 b1 _ Hlen Hskip H1).
        rewrite (holds_enc _ a t v flag t' v' Hopaque Hvar Hh Hvt), Hp. cbn [resolve]. rewrite Hf. cbn [enc_len].
        destruct (N.eqb_spec (count v') m); [congruence|]. reflexivity. }
      destruct (derived_error h VH e T V _ I Hw Hv He) as [H2 H3]. auto.
    Qed.

    (** Streams: the same error, or one of their own. *)
    Theorem C28_mismatch_stream f m b1 o : f_len a = LExpr f -> f (visible fs1 vs1) = Some m -> m <> count v' ->
      write_to_vec h mem e (TStruct d fs1) (VSeq vs1) = Ok b1 ->
      exists er, fst (write_to_stream h e T V o) = Err er
        /\ (er = LengthIsNotTheSameAsLengthAttribute \/ oserr o er).
    Proof.
      intros Hp Hf Hm H1. destruct in_struct as (Hw1 & Hv1 & Hvar & Hvt).
      apply (write_to_vec_err h VH) in H1; try assumption.
      assert (He : encode (h_iter h) e e6 T V = Err LengthIsNotTheSameAsLengthAttribute).
      { apply (struct_error h e d fs1 a t fs2 vs1 v vs2 b1 _ Hlen Hskip H1).
        rewrite (holds_enc _ a t v flag t' v' Hopaque Hvar Hh Hvt), Hp. cbn [resolve]. rewrite Hf. cbn [enc_len].
        destruct (N.eqb_spec (count v') m); [congruence|]. reflexivity. }
      unfold encode in He. pose proof (write_to_stream_spec h VH e T V Hw Hv o) as H.
      destruct (write_to_stream h e T V o) as [r o']. rewrite He in H.
      destruct H as (er & y & -> & Her & _). exists er. auto.
    Qed.
  End InStruct.

  (** C28: a successful write reads back, with every reader. *)
  Theorem C28_reads_back d fs vs b bw r :
    covered h e bw true (TStruct d fs) -> value_of h e (TStruct d fs) (VSeq vs) ->
    write_to_vec h mem e (TStruct d fs) (VSeq vs) = Ok b ->
    reading h e (TStruct d fs) b bw r -> r = Ok (norm (TStruct d fs) (VSeq vs)).
  Proof.
    intros [Hw Hs Hr] Hv Hb Hrd.
    assert (He : encode (h_iter h) e e6 (TStruct d fs) (VSeq vs) = Ok b)
      by (eapply write_to_vec_err; try eassumption; apply Hv).
    pose proof (host_round_trip h VH e _ _ b [] Hr Hv He (fun _ => eq_refl)) as Hd. rewrite app_nil_r in Hd.
    eapply reading_ok; try eassumption. eapply host_min; eassumption.
  Qed.
End Length.

Print Assumptions C28_written.
Print Assumptions C28_mismatch.
Print Assumptions C28_mismatch_stream.
Print Assumptions C28_reads_back.
Print Assumptions C29_refused.
Print Assumptions C29_field_refused.
Print Assumptions C29_prefix_exact.
Print Assumptions C29_struct_refused.

(* ------------------------------------------------------------------ *)
(** * The hypotheses are met *)

(* struct Packet { n: u16, #[speedy(length = n + 1)] data: Vec<u16>, tail: u8 } *)
Definition packet : ty :=
  TStruct (sd 20 RRust) [(plain, TP U16); (with_len (LExpr count_plus_one), TSeq KVec (TP U16)); (plain, TP U8)].
Definition packet_value (n : Z) : val := VSeq [VInt n; VSeq [VInt 7; VInt 515]; VInt 9].

Example packet_covered : covered host32 BE false true packet.
Proof. apply coveredb_sound. vm_compute. reflexivity. Qed.

Example C28_packet : write_to_vec host32 dirty BE packet (packet_value 1)
  = Ok [x00; x01; x00; x07; x02; x03; x09].
Proof. vm_compute. reflexivity. Qed.

Example C28_packet_split : exists b1 c b2,
  [x00; x01; x00; x07; x02; x03; x09] = b1 ++ [] ++ [] ++ c ++ b2
  /\ write_to_vec host32 dirty BE (TStruct (sd 20 RRust) [(plain, TP U16)]) (VSeq [VInt 1]) = Ok b1
  /\ count_plus_one [Some 1%Z] = Some 2
  /\ contents (h_iter host32) BE BE (TSeq KVec (TP U16)) (VSeq [VInt 7; VInt 515]) = Ok c.
Proof.
  eapply (C28_written host32 host32_valid BE dirty dirty_enough (sd 20 RRust) [(plain, TP U16)]
    (with_len (LExpr count_plus_one)) (TSeq KVec (TP U16)) [(plain, TP U8)] [VInt 1]
    (VSeq [VInt 7; VInt 515]) [VInt 9] [] (TSeq KVec (TP U16)) (VSeq [VInt 7; VInt 515])) with (f := count_plus_one);
    try reflexivity; try exact C28_packet; try (constructor; reflexivity).
  - apply packet_covered.
  - apply validb_sound. vm_compute. reflexivity.
Qed.

Example C28_packet_mismatch :
  write_to_vec host32 dirty BE packet (packet_value 5) = Err LengthIsNotTheSameAsLengthAttribute
  /\ forall buffer, write_to_buffer host32 BE packet (packet_value 5) buffer
                    = (Err LengthIsNotTheSameAsLengthAttribute, buffer).
Proof.
  eapply (C28_mismatch host32 host32_valid BE dirty dirty_enough (sd 20 RRust) [(plain, TP U16)]
    (with_len (LExpr count_plus_one)) (TSeq KVec (TP U16)) [(plain, TP U8)] [VInt 5]
    (VSeq [VInt 7; VInt 515]) [VInt 9] [] (TSeq KVec (TP U16)) (VSeq [VInt 7; VInt 515]));
    try reflexivity; try (constructor; reflexivity).
  - apply packet_covered.
  - apply validb_sound. vm_compute. reflexivity.
  - discriminate.
Qed.

(* struct Short { #[speedy(length_type = u8)] data: Option<Vec<u8>>, tail: u8 } *)
Definition short : ty := TStruct (sd 21 RRust) [(with_len (LType BU8), TOption (TSeq KVec (TP U8))); (plain, TP U8)].
Definition short_value (n : nat) : val := VSeq [VSome (VSeq (repeat (VInt 7) n)); VInt 9].

Example C29_short : write_to_vec host64 dirty LE short (short_value 3) = Ok [x01; x03; x07; x07; x07; x09].
Proof. vm_compute. reflexivity. Qed.

Example C29_short_exact : exists b1 p c b2,
  [x01; x03; x07; x07; x07; x09] = b1 ++ [] ++ [x01] ++ p ++ c ++ b2
  /\ write_to_vec host64 dirty LE (TStruct (sd 21 RRust) []) (VSeq []) = Ok b1
  /\ 3 <= 255 /\ says LE BU8 p 3
  /\ contents (h_iter host64) LE LE (TSeq KVec (TP U8)) (VSeq (repeat (VInt 7) 3)) = Ok c.
Proof.
  eapply (C29_prefix_exact host64 host64_valid LE dirty dirty_enough (sd 21 RRust) []
    (with_len (LType BU8)) (TOption (TSeq KVec (TP U8))) [(plain, TP U8)] []
    (VSome (VSeq (repeat (VInt 7) 3))) [VInt 9] [x01] (TSeq KVec (TP U8)) (VSeq (repeat (VInt 7) 3))) with (b := BU8);
    try reflexivity; try exact C29_short; try (constructor; reflexivity).
  - apply wsupb_sound. vm_compute. reflexivity.
  - apply validb_sound. vm_compute. reflexivity.
Qed.

(** 256 elements do not fit a `u8`. *)
Example C29_short_refused :
  write_to_vec host64 dirty LE short (short_value 256) = Err OutOfRangeLength
  /\ forall buffer, write_to_buffer host64 LE short (short_value 256) buffer = (Err OutOfRangeLength, buffer).
Proof.
  eapply (C29_struct_refused host64 host64_valid LE dirty dirty_enough (sd 21 RRust) []
    (with_len (LType BU8)) (TOption (TSeq KVec (TP U8))) [(plain, TP U8)] []
    (VSome (VSeq (repeat (VInt 7) 256))) [VInt 9] [x01] (TSeq KVec (TP U8)) (VSeq (repeat (VInt 7) 256)));
    try reflexivity; try (constructor; reflexivity).
  - apply wsupb_sound. vm_compute. reflexivity.
  - apply validb_sound. vm_compute. reflexivity.
Qed.
