(* Property C100: reading a recursive type nests no deeper than the input is
   long. *)
From Verif Require Import Depth Samples PropRecursive.

(** The ways to read a value from the bytes [bs], as functions of its type: what
    the call returns, with the number of bytes consumed or the stream it leaves. *)
Inductive entry (h : host) (e : endian) (bs : bytes) : forall A : Type, (ty -> A) -> Prop :=
| entry_buffer addr : nlen bs <= h_alloc_max h ->
    entry h e bs (res val * N) (fun t => read_with_length_from_buffer h e t addr bs)
| entry_copying : nlen bs <= h_alloc_max h ->
    entry h e bs (res val * N) (fun t => read_with_length_from_buffer_copying h e t bs)
| entry_buffered mem sched : (forall n, n <= nlen (mem n)) -> ~ In (RErr IoUnexpectedEof) sched ->
    nlen bs <= l_usize_max (h_lim h) ->
    entry h e bs (res val * istream) (fun t => read_from_stream_buffered h mem e t {| is_rest := bs; is_sched := sched |})
| entry_unbuffered mem sched : (forall n, n <= nlen (mem n)) -> ~ In (RErr IoUnexpectedEof) sched ->
    nlen bs <= l_usize_max (h_lim h) ->
    entry h e bs (res val * istream) (fun t => read_from_stream_unbuffered h mem e t {| is_rest := bs; is_sched := sched |})
| entry_mapped mem oserr sched : nlen bs <= h_alloc_max h ->
    entry h e bs (res val) (fun t => read_from_file h true mem oserr e t bs sched)
| entry_file mem oserr sched : (forall n, n <= nlen (mem n)) -> ~ In (RErr IoUnexpectedEof) sched ->
    nlen bs <= l_usize_max (h_lim h) ->
    entry h e bs (res val) (fun t => read_from_file h false mem oserr e t bs sched).

Section Depth.
  Context (h : host) (VH : valid_host h) (e : endian).

  Lemma with_min_same (R : reader breader) addr bs t t' : min_bytes h t = min_bytes h t' ->
    read h R t (br_start addr bs) = read h R t' (br_start addr bs) -> with_min h t R addr bs = with_min h t' R addr bs.
  Proof. intros E H. unfold with_min. rewrite E, H. reflexivity. Qed.

  Lemma entry_same bs A (f : ty -> A) t t' : entry h e bs A f -> min_bytes h t = min_bytes h t' ->
    (forall St (R : reader St) inv L vec_ok s, safe_reader h R inv (fun _ => True) L vec_ok -> inv s (nlen bs) ->
       read h R t s = read h R t' s) ->
    f t = f t'.
  Proof.
    intros He Em H.
    assert (Hb : forall R addr, nlen bs <= h_alloc_max h -> safe_reader h R (binv (nlen bs)) (fun _ => True) (nlen bs) (buffer_room h (nlen bs)) ->
      with_min h t R addr bs = with_min h t' R addr bs).
    { intros R addr Hl HR. apply with_min_same; [exact Em|]. apply (H _ R _ _ _ _ HR). split; [reflexivity|]. lia. }
    assert (Hc : nlen bs <= h_alloc_max h -> read_with_length_from_buffer_copying h e t bs = read_with_length_from_buffer_copying h e t' bs).
    { intros Hl. unfold read_with_length_from_buffer_copying. rewrite (Hb (CopyingBufferReader e)); [reflexivity|exact Hl|].
      apply copying_safe; [exact VH|exact Hl]. }
    assert (Hs : forall mem buffering sched, (forall n, n <= nlen (mem n)) -> ~ In (RErr IoUnexpectedEof) sched ->
      nlen bs <= l_usize_max (h_lim h) ->
      deserialize h mem buffering e t {| is_rest := bs; is_sched := sched |} = deserialize h mem buffering e t' {| is_rest := bs; is_sched := sched |}).
    { intros mem buffering sched Hm Hsc Hl. unfold deserialize.
      apply (H _ (StreamReader mem e) (sinv h buffering sched (nlen bs)) (nlen bs) (stream_room h));
        [apply stream_safe; assumption|].
      exists bs. split; [|split; [reflexivity|lia]].
      apply (sr_start_rep h mem Hm buffering true sched {| is_rest := bs; is_sched := sched |} eq_refl). exact Hl. }
    destruct He as [addr Hl|Hl|mem sched Hm Hsc Hl|mem sched Hm Hsc Hl|mem oserr sched Hl|mem oserr sched Hm Hsc Hl].
    - unfold read_with_length_from_buffer. rewrite (Hb (BufferReader e)); [reflexivity|exact Hl|].
      apply buffer_safe; [exact VH|exact Hl].
    - apply Hc, Hl.
    - unfold read_from_stream_buffered. rewrite Hs by assumption. reflexivity.
    - unfold read_from_stream_unbuffered. rewrite Hs by assumption. reflexivity.
    - unfold read_from_file, read_from_buffer_copying. destruct oserr; [reflexivity|]. rewrite Hc by exact Hl. reflexivity.
    - unfold read_from_file, read_from_stream_buffered. destruct oserr; [reflexivity|]. rewrite Hs by assumption. reflexivity.
  Qed.

  Context (d : ty) (Fd : filler h d) (G : guarded h false d).

  (** Whatever type is put below a nesting greater than the length of the input:
      every way to read gives the same result - value, error or panic - and
      consumes the same bytes.  So nothing is read down there. *)
  Theorem C100_bottom z z' n bs A (f : ty -> A) : filler h z -> filler h z' -> min_bytes h z = min_bytes h z' ->
    nlen bs < N.of_nat n -> entry h e bs A f -> f (fill z d n) = f (fill z' d n).
  Proof.
    intros F F' E Hn He. apply (entry_same bs A f); [exact He|apply fill_min; assumption|].
    intros St R inv L vec_ok s SF Hs. exact (fill_agree h VH R inv L vec_ok SF z z' d n F F' Fd E G s (nlen bs) Hs Hn).
  Qed.

  (** The unrollings of a recursive declaration: beyond the length of the input
      their depth does not matter.  [k]: from there on the least size is settled. *)
  Theorem C100_depth k n m bs A (f : ty -> A) : min_bytes h (unroll d k) = min_bytes h (unroll d (S k)) ->
    N.of_nat k + nlen bs < N.of_nat n -> (n <= m)%nat -> entry h e bs A f ->
    f (unroll d n) = f (unroll d m).
  Proof.
    intros E Hn Hm He. induction Hm as [|m Hm IH]; [reflexivity|]. rewrite IH.
    assert (Fu : forall j, filler h (unroll d j))
      by (intros j; change TBot with (unroll d 0); rewrite <- (Nat.add_0_r j), <- fill_unroll; apply filler_fill; [apply filler_bot|exact Fd]).
    replace m with (m - k + k)%nat by lia. replace (S (m - k + k))%nat with (m - k + S k)%nat by lia.
    rewrite <- !fill_unroll.
    apply (C100_bottom _ _ _ bs); auto. lia.
  Qed.

  (** So there is one result, that of the recursive type itself. *)
  Theorem C100_result k bs A (f : ty -> A) : min_bytes h (unroll d k) = min_bytes h (unroll d (S k)) -> entry h e bs A f ->
    exists r, forall n, N.of_nat k + nlen bs < N.of_nat n -> f (unroll d n) = r.
  Proof.
    intros E He. exists (f (unroll d (S (k + length bs)))). intros n Hn. symmetry. unfold nlen in Hn.
    apply (C100_depth k _ _ bs); auto; unfold nlen; lia.
  Qed.
End Depth.

Print Assumptions C100_bottom.
Print Assumptions C100_depth.
Print Assumptions C100_result.

(* ------------------------------------------------------------------ *)
(** * Examples *)

Lemma sample_filler ptr rv nat chk d z : nominal z -> layout ptr rv (unroll d 1) = layout ptr rv (plug (unroll d 1) z) ->
  is_prim (with_hole (make_host ptr rv nat chk) (unroll d 1)) z = false ->
  filler (with_hole (make_host ptr rv nat chk) (unroll d 1)) z.
Proof.
  intros Hz E Hp. constructor; [exact Hz| |exact Hp].
  assert (Ep : forall t, layout ptr rv (plug (unroll d 1) (plug TBot t)) = layout ptr rv (plug (unroll d 1) (plug z t))).
  { intros t. rewrite !plug_plug. apply layout_plug. exact E. }
  constructor; cbn [with_hole make_host h_size h_align h_offset]; intros.
  - rewrite Ep. reflexivity.
  - rewrite Ep. reflexivity.
  - unfold the_offset, field_layouts, plug_fields. do 2 f_equal. rewrite !map_map. apply map_ext. intros f. apply Ep.
Qed.

Lemma list_filler : filler list_host list_ty.
Proof. apply sample_filler; vm_compute; auto. Qed.
Lemma list_guarded : guarded list_host false list_ty.
Proof. right. split; [|split; [|exact I]]; right; [left; reflexivity|]. right. right. right. right. reflexivity. Qed.

(** `struct Other { head: u16, tail: Option<Box<u64>> }` *)
Definition other : ty := TStruct (sd 76 RRust) [(plain, TP U16); (plain, TOption (TBox (TP U64)))].
Lemma other_filler : filler list_host other.
Proof. apply sample_filler; vm_compute; auto. Qed.

Example list_depth bs n m A (f : ty -> A) : nlen bs + 1 < N.of_nat n -> (n <= m)%nat -> entry list_host BE bs A f ->
  f (unroll list_ty n) = f (unroll list_ty m).
Proof.
  intros Hn Hm He. apply (C100_depth list_host list_host_valid BE list_ty list_filler list_guarded 1 n m bs A f); auto. lia.
Qed.

Example list_bottom bs n A (f : ty -> A) : nlen bs < N.of_nat n -> entry list_host LE bs A f ->
  f (fill other list_ty n) = f (fill list_ty list_ty n).
Proof.
  intros Hn He. apply (C100_bottom list_host list_host_valid LE list_ty list_filler list_guarded other list_ty n bs A f); auto.
  - apply other_filler.
  - apply list_filler.
Qed.

(** At the bottom itself they do differ. *)
Example other_differs : fst (read_with_length_from_buffer list_host LE (fill other list_ty 1) 0 [x00; x00; x01; x00; x00; x01; x00])
  <> fst (read_with_length_from_buffer list_host LE (fill list_ty list_ty 1) 0 [x00; x00; x01; x00; x00; x01; x00]).
Proof. vm_compute. discriminate. Qed.

(** `enum Expr { Num(u32), Neg(Box<Expr>), Call(String, Vec<Expr>) }` *)
Lemma expr_filler : filler expr_host expr.
Proof. apply sample_filler; vm_compute; auto. Qed.
Lemma expr_guarded : guarded expr_host false expr.
Proof.
  assert (E : elem_fine expr_host TBot) by (right; split; [reflexivity|vm_compute; discriminate]).
  right. repeat split; right; try (left; reflexivity); right.
  - right. right. reflexivity.
  - split; [discriminate|]. split; [exact E|right; reflexivity].
Qed.

Example expr_depth bs n m A (f : ty -> A) : nlen bs + 1 < N.of_nat n -> (n <= m)%nat -> entry expr_host LE bs A f ->
  f (unroll expr n) = f (unroll expr m).
Proof.
  intros Hn Hm He. apply (C100_depth expr_host expr_host_valid LE expr expr_filler expr_guarded 1 n m bs A f); auto. lia.
Qed.

(* ------------------------------------------------------------------ *)
(** * Without anything read in between *)

(** `struct Loop { next: Box<Loop> }` has no values, but reading one is code that
    can be called: at every depth the result is that of the bottom, so reading
    [Loop] itself goes down forever. *)
Definition loop : ty := TStruct (sd 77 RRust) [(plain, TBox TBot)].
Definition loop_host : host := with_hole host64 (unroll loop 1).
Definition byte_below : ty := TStruct (sd 78 RRust) [(plain, TBox TU8)].
Definition bool_below : ty := TStruct (sd 78 RRust) [(plain, TBox (TScalar SBool))].

Lemma loop_fillers : filler loop_host loop /\ filler loop_host byte_below /\ filler loop_host bool_below.
Proof. split; [|split]; apply sample_filler; vm_compute; auto. Qed.

Lemma read_loop n : forall z s r s', read loop_host (BufferReader LE) z s = (Ok r, s') ->
  read loop_host (BufferReader LE) (fill z loop n) s = (Ok (Nat.iter n (fun v => VSeq [v]) r), s').
Proof.
  induction n as [|n IH]; intros z s r s' H; [exact H|]. specialize (IH z s r s' H).
  cbn [fill loop plug map fst snd read read_fields plain f_skip]. unfold mmap, bind at 1. unfold bind at 1.
  unfold read_field. cbn [plain f_prefix f_eof f_opaque f_varint read_field_inner read]. unfold bind at 1, ret. rewrite IH. reflexivity.
Qed.

Lemma wrap_inj n : forall v w, Nat.iter n (fun v => VSeq [v]) v = Nat.iter n (fun v => VSeq [v]) w -> v = w.
Proof. induction n as [|n IH]; intros v w H; [exact H|]. cbn in H. injection H as H. apply IH, H. Qed.

Theorem C100_guard_needed n :
  read loop_host (BufferReader LE) (fill byte_below loop n) (br_start 0 [x01])
  <> read loop_host (BufferReader LE) (fill bool_below loop n) (br_start 0 [x01]).
Proof.
  assert (H1 : exists s, read loop_host (BufferReader LE) byte_below (br_start 0 [x01]) = (Ok (VSeq [VInt 1]), s))
    by (eexists; vm_compute; reflexivity).
  assert (H2 : exists s, read loop_host (BufferReader LE) bool_below (br_start 0 [x01]) = (Ok (VSeq [VBool true]), s))
    by (eexists; vm_compute; reflexivity).
  destruct H1 as [s1 H1], H2 as [s2 H2]. rewrite (read_loop n _ _ _ _ H1), (read_loop n _ _ _ _ H2).
  intros E. injection E as E _. apply wrap_inj in E. discriminate.
Qed.

Print Assumptions C100_guard_needed.

(* ------------------------------------------------------------------ *)
(** * The nesting has no constant bound *)

(** A list of [n] zeros in front of a last one. *)
Fixpoint zeros (n : nat) : bytes := match n with O => [x00; x00; x00] | S n' => x00 :: x00 :: x01 :: zeros n' end.
Fixpoint nested (n : nat) : val :=
  VSeq [VInt 0; match n with O => VNone | S n' => VSome (nested n') end].

Definition at_rest (a : N) (l : list allocation) (bs : bytes) : breader := {| br_addr := a; br_rest := bs; br_log := l |}.

Lemma read_head a l rest : read list_host (BufferReader LE) (TP U16) (at_rest a l (x00 :: x00 :: rest))
  = (Ok (VInt 0), at_rest (a + 2) l rest).
Proof.
  assert (E : 2 <=? nlen (x00 :: x00 :: rest) = true) by (apply N.leb_le; unfold nlen; cbn [length]; lia).
  cbn [read TP read_scalar]. unfold read_prim, read_uint, bind, require, ret.
  cbn [psize BufferReader rd_can rd_read_ptr rd_endian]. unfold br_can, br_read, at_rest. cbn [br_rest].
  change (N.of_nat 2) with 2. rewrite E. cbn [br_rest]. rewrite E. reflexivity.
Qed.

Lemma read_flag a l b rest : read_u8 (BufferReader LE) (at_rest a l (b :: rest)) = (Ok (Byte.to_N b), at_rest (a + 1) l rest).
Proof.
  assert (E : 1 <=? nlen (b :: rest) = true) by (apply N.leb_le; unfold nlen; cbn [length]; lia).
  unfold read_u8, bind, require, ret. cbn [BufferReader rd_can rd_read_ptr]. unfold br_can, br_read, at_rest. cbn [br_rest].
  rewrite E. cbn [br_rest]. rewrite E. destruct b; reflexivity.
Qed.

Lemma read_list_cell u a l b rest :
  read list_host (BufferReader LE) (plug u list_ty) (at_rest a l (x00 :: x00 :: b :: rest))
  = if Byte.to_N b =? 0 then (Ok (VSeq [VInt 0; VNone]), at_rest (a + 2 + 1) l rest)
    else match read list_host (BufferReader LE) u (at_rest (a + 2 + 1) l rest) with
         | (Ok v, s') => (Ok (VSeq [VInt 0; VSome v]), s')
         | (Err er, s') => (Err er, s')
         | (Fault f, s') => (Fault f, s')
         end.
Proof.
  change (plug u list_ty) with (TStruct (sd 50 RRust) [(plain, TP U16); (plain, TOption (TBox u))]).
  cbn [read]. unfold read_fields, read_field. cbn [fst snd plain f_skip f_prefix f_eof f_opaque f_varint TP read_field_inner].
  pose proof (read_head a l (b :: rest)) as E1. pose proof (read_flag (a + 2) l b rest) as E2.
  unfold mmap, bind, ret. cbn [read]. rewrite E1, E2.
  destruct (Byte.to_N b =? 0); [reflexivity|]. cbn [read].
  destruct (read list_host (BufferReader LE) u _) as [[v|er|f] s']; reflexivity.
Qed.

Lemma read_zeros n : forall a l, exists s, read list_host (BufferReader LE) (unroll list_ty (S n)) (at_rest a l (zeros n)) = (Ok (nested n), s).
Proof.
  induction n as [|n IH]; intros a l; cbn [zeros unroll]; rewrite read_list_cell; [eexists; reflexivity|].
  change (plug (unroll list_ty n) list_ty) with (unroll list_ty (S n)). cbn [Byte.to_N N.eqb].
  destruct (IH (a + 2 + 1) l) as [s ->]. eexists. reflexivity.
Qed.

Lemma read_too_shallow n : forall a l, exists s, read list_host (BufferReader LE) (unroll list_ty n) (at_rest a l (zeros n)) = (Fault IllTyped, s).
Proof.
  induction n as [|n IH]; intros a l; [eexists; reflexivity|]. cbn [zeros unroll]. rewrite read_list_cell. cbn [Byte.to_N N.eqb].
  destruct (IH (a + 2 + 1) l) as [s ->]. eexists. reflexivity.
Qed.

Lemma zeros_length n : nlen (zeros n) = 3 * N.of_nat n + 3.
Proof. induction n as [|n IH]; [reflexivity|]. cbn [zeros]. unfold nlen in *. cbn [length]. lia. Qed.

(** Three bytes buy one level: the code has no bound of its own on the nesting,
    an input of 3 * n + 3 bytes drives it [n] calls deep. *)
Theorem C100_unbounded n : exists bs, nlen bs = 3 * N.of_nat n + 3
  /\ read_from_buffer list_host LE (unroll list_ty (S n)) 0 bs = Ok (nested n)
  /\ read_from_buffer list_host LE (unroll list_ty n) 0 bs = Fault IllTyped.
Proof.
  exists (zeros n). split; [apply zeros_length|].
  assert (Hm : forall j, min_bytes list_host (unroll list_ty j) <= 3) by (intros [|j]; vm_compute; discriminate).
  assert (E : forall j, nlen (zeros n) <? min_bytes list_host (unroll list_ty j) = false)
    by (intros j; apply N.ltb_ge; rewrite zeros_length; specialize (Hm j); lia).
  unfold read_from_buffer, read_with_length_from_buffer, with_min. rewrite !E.
  destruct (read_zeros n 0 []) as [s H]. destruct (read_too_shallow n 0 []) as [s' H'].
  unfold br_start, at_rest in *. rewrite H, H'. split; reflexivity.
Qed.

Print Assumptions C100_unbounded.
