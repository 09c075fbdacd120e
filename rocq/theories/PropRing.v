(* Properties C11 and C12: the ring buffer of src/circular_buffer.rs. *)
From Verif Require Import RingFacts.

(** The histories of a ring buffer, next to the queue a user has in mind: bytes
    are added at the end and taken from the front.  [mem n] is what a fresh
    allocation of at least [n] bytes contains. *)
Inductive history (mem : N -> bytes) : cbuf -> bytes -> Prop :=
| h_new n : history mem (with_capacity mem n) []
| h_reserve n c c' q : history mem c q -> reserve mem n c = Ok c' -> history mem c' q
| h_append size data r c c' q :      (* the callback stores [data] in the slice it is given *)
    history mem c q -> append_slot mem size c = Ok (r, c') -> nlen data <= r_len r ->
    history mem (append_done r data c') (q ++ data)
| h_append_failed size r c c' q :    (* the callback fails *)
    history mem c q -> append_slot mem size c = Ok (r, c') -> history mem c' q
| h_consume n c c' q :
    history mem c q -> n <= nlen q -> consume n c = Ok c' -> history mem c' (ndrop n q)
| h_consume_into n out c c' q :
    history mem c q -> n <= nlen q -> consume_into n c = Ok (out, c') -> history mem c' (ndrop n q).

Lemma history_inv mem c q : (forall n, n <= nlen (mem n)) ->
  history mem c q -> cb_inv c /\ content c = q.
Proof.
  intros Hmem H. induction H.
  - pose proof (with_capacity_ok mem Hmem n). tauto.
  - destruct IHhistory as [Hi Hc]. destruct (reserve_ok mem Hmem n c Hi) as (c1 & E & ? & ? & _).
    rewrite E in H0. injection H0 as <-. split; congruence.
  - destruct IHhistory as [Hi Hc].
    destruct (append_slot_ok mem Hmem size c Hi) as (r1 & c1 & E & _ & _ & _ & _ & _ & _ & Hd).
    rewrite E in H0. injection H0 as <- <-. destruct (Hd data H1) as [? ->]. split; congruence.
  - destruct IHhistory as [Hi Hc].
    destruct (append_slot_ok mem Hmem size c Hi) as (r1 & c1 & E & ? & ? & _).
    rewrite E in H0. injection H0 as <- <-. split; congruence.
  - destruct IHhistory as [Hi Hc].
    assert (Hl : n <= cb_length c) by (rewrite <- nlen_content, Hc; assumption).
    destruct (N.eq_dec (nlen (cb_buffer c)) 0) as [E0|E0].
    + unfold consume in H1. destruct (N.leb_spec n (cb_length c)); [|lia].
      rewrite E0 in H1. discriminate.
    + destruct (consume_ok n c Hi Hl E0) as (c1 & E & ? & ? & _).
      rewrite E in H1. injection H1 as <-. split; congruence.
  - destruct IHhistory as [Hi Hc].
    assert (Hl : n <= cb_length c) by (rewrite <- nlen_content, Hc; assumption).
    destruct (consume_into_ok n c Hi Hl) as (c1 & E & ? & ? & _).
    rewrite E in H1. injection H1 as <- <-. split; congruence.
Qed.

(** C11: after every history the bytes in the buffer are the bytes of the queue,
    in order, and every operation whose precondition holds ends without a
    panic and shows the front of the queue. *)
Theorem C11_ring_buffer_is_a_queue mem c q :
  (forall n, n <= nlen (mem n)) -> history mem c q ->
  cb_len c = nlen q
  /\ (forall n, exists c', reserve mem n c = Ok c' /\ cb_capacity c' >= nlen q + n)
  /\ (forall n, exists r c', append_slot mem n c = Ok (r, c') /\ r_len r <= n)
  /\ (exists a b, as_slices c = Ok (a, b) /\ a ++ match b with Some b => b | None => [] end = q)
  /\ (forall n, n <= nlen q ->
        rbind (as_slices_of_length n c) (join n) = Ok (ntake n q)
        /\ (exists c', consume_into n c = Ok (ntake n q, c'))
        /\ (cb_capacity c <> 0 -> exists c', consume n c = Ok c')).
Proof.
  intros Hmem H. destruct (history_inv mem c q Hmem H) as [Hi Hc]. subst q.
  rewrite nlen_content. split; [reflexivity|]. split; [|split; [|split]].
  - intros n. destruct (reserve_ok mem Hmem n c Hi) as (c' & E & _ & _ & _ & ? & _).
    exists c'. split; [assumption|]. unfold cb_capacity. lia.
  - intros n. destruct (append_slot_ok mem Hmem n c Hi) as (r & c' & E & _ & _ & _ & _ & ? & _).
    eauto.
  - destruct (as_slices_ok c Hi) as (a & b & E & ->). eauto.
  - intros n Hn. split; [|split].
    + destruct (as_slices_of_length_ok n c Hi Hn) as (ab & -> & Hj). exact Hj.
    + destruct (consume_into_ok n c Hi Hn) as (c' & E & _). eauto.
    + intros H0. destruct (consume_ok n c Hi Hn H0) as (c' & E & _). eauto.
Qed.
Print Assumptions C11_ring_buffer_is_a_queue.

(** The documented precondition of `consume` is only that so many bytes are
    there; on a buffer of capacity zero even `consume( 0 )` panics (remainder by
    zero). *)
Theorem C11_consume_nothing_refuted :
  exists mem c, (forall n, n <= nlen (mem n)) /\ history mem c [] /\ consume 0 c = Fault PanicDivZero.
Proof.
  exists (fun n => repeat x00 (N.to_nat n)), (with_capacity (fun n => repeat x00 (N.to_nat n)) 0).
  split; [|split; [apply h_new|reflexivity]].
  intros n. unfold nlen. rewrite repeat_length. lia.
Qed.
Print Assumptions C11_consume_nothing_refuted.

(** C12: whoever asks for room gets at least one byte, after every history. *)
Theorem C12_append_makes_progress mem c q size :
  (forall n, n <= nlen (mem n)) -> history mem c q -> 0 < size ->
  exists r c', append_slot mem size c = Ok (r, c') /\ 0 < r_len r /\ r_len r <= size.
Proof.
  intros Hmem H Hs. destruct (history_inv mem c q Hmem H) as [Hi _].
  destruct (append_slot_ok mem Hmem size c Hi) as (r & c' & E & _ & _ & _ & _ & ? & Hp & _).
  exists r, c'. auto.
Qed.
Print Assumptions C12_append_makes_progress.

(** A history that wraps around: capacity 4, three bytes in, two out, two more
    in; the content [3; 4; 5] then lies in two pieces. *)
Definition rx_mem (n : N) : bytes := repeat xff (N.to_nat n).

Definition rx_after {A} (r : res (A * cbuf)) : cbuf :=
  match r with Ok (_, c) => c | _ => with_capacity rx_mem 0 end.
Definition rx_push (size : N) (data : bytes) (c : cbuf) : cbuf :=
  match append_slot rx_mem size c with
  | Ok (r, c') => append_done r data c' | _ => with_capacity rx_mem 0
  end.

Definition rx_c3 : cbuf := rx_push 3 [x01; x02; x03] (with_capacity rx_mem 4).
Definition rx_c1 : cbuf := rx_after (consume_into 2 rx_c3).
Definition rx_c2 : cbuf := rx_push 1 [x04] rx_c1.
Definition rx_cw : cbuf := rx_push 2 [x05] rx_c2.

Example rx_wraps : as_slices rx_cw = Ok ([x03; x04], Some [x05]).
Proof. vm_compute. reflexivity. Qed.

Example rx_history : history rx_mem rx_cw [x03; x04; x05].
Proof.
  assert (H3 : history rx_mem rx_c3 [x01; x02; x03]).
  { unfold rx_c3, rx_push.
    destruct (append_slot rx_mem 3 (with_capacity rx_mem 4)) as [[r c']| |] eqn:E;
      [|vm_compute in E; discriminate E..].
    apply (h_append rx_mem 3 [x01; x02; x03] r (with_capacity rx_mem 4) c' [] (h_new rx_mem 4) E).
    vm_compute in E. injection E as <- <-. vm_compute. discriminate. }
  assert (H1 : history rx_mem rx_c1 [x03]).
  { unfold rx_c1.
    destruct (consume_into 2 rx_c3) as [[o c']| |] eqn:E; [|vm_compute in E; discriminate E..].
    cbn [rx_after]. apply (h_consume_into rx_mem 2 o rx_c3 c' _ H3); [vm_compute; discriminate|exact E]. }
  assert (H2 : history rx_mem rx_c2 [x03; x04]).
  { unfold rx_c2, rx_push.
    destruct (append_slot rx_mem 1 rx_c1) as [[r c']| |] eqn:E; [|vm_compute in E; discriminate E..].
    apply (h_append rx_mem 1 [x04] r rx_c1 c' _ H1 E).
    vm_compute in E. injection E as <- <-. vm_compute. discriminate. }
  unfold rx_cw, rx_push.
  destruct (append_slot rx_mem 2 rx_c2) as [[r c']| |] eqn:E; [|vm_compute in E; discriminate E..].
  apply (h_append rx_mem 2 [x05] r rx_c2 c' _ H2 E).
  vm_compute in E. injection E as <- <-. vm_compute. discriminate.
Qed.
