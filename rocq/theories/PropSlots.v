(* C58: containers that fail half way drop exactly what they have read. *)
From Verif Require Import Slots Hosts Samples Api.

(** The values an element reader produces when called at most [n] times, how
    it stops early, and the state it leaves. *)
Inductive stop := Complete | Failed (er : error) | Panicked (f : fault).

Fixpoint attempts {St} (rd : M St val) (n : nat) (s : St) : list val * stop * St :=
  match n with
  | O => ([], Complete, s)
  | S n' =>
    match rd s with
    | (Ok v, s') => let '(vs, st, s'') := attempts rd n' s' in (v :: vs, st, s'')
    | (Err er, s') => ([], Failed er, s')
    | (Fault f, s') => ([], Panicked f, s')
    end
  end.

Section Facts.
  Context {St : Type} (rd : M St val).

  (** Memory after [vs] have been stored, with room for [n] more. *)
  Definition filled (vs : list val) (n : nat) : mem :=
    {| m_slots := map Live vs ++ repeat Uninit n; m_dropped := [] |}.

  Lemma fresh_filled n : fresh n = filled [] n.
  Proof. reflexivity. Qed.

  Lemma set_filled vs n v :
    set_slot (map Live vs ++ repeat Uninit (S n)) (length vs) (Live v)
    = Some (map Live (vs ++ [v]) ++ repeat Uninit n).
  Proof.
    induction vs as [|x vs IH]; [reflexivity|]. cbn [map app length set_slot]. rewrite IH. reflexivity.
  Qed.

  Lemma store_filled vs n v i : i = nlen vs ->
    mem_store (filled vs (S n)) i v = Some (filled (vs ++ [v]) n).
  Proof.
    intros ->. unfold mem_store, filled. cbn [m_slots m_dropped]. unfold nlen. rewrite Nat2N.id, set_filled. reflexivity.
  Qed.

  Lemma take_filled vs l : take_slots (map Live vs ++ l) (length vs) = Some (repeat Gone (length vs) ++ l, vs).
  Proof. induction vs as [|x vs IH]; [destruct l; reflexivity|]. cbn. rewrite IH. reflexivity. Qed.

  Lemma drop_filled vs l : drop_slots (map Live vs ++ l) (length vs) = Some (repeat Gone (length vs) ++ l, vs).
  Proof. induction vs as [|x vs IH]; [destruct l; reflexivity|]. cbn. rewrite IH. reflexivity. Qed.

  Lemma left_gone k n : left_over (repeat Gone k ++ repeat Uninit n) = [].
  Proof.
    induction k as [|k IH]; [|exact IH]. cbn. induction n as [|n IH]; [reflexivity|exact IH].
  Qed.

  Lemma left_filled vs n : left_over (map Live vs ++ repeat Uninit n) = vs.
  Proof.
    induction vs as [|v vs IH]; [|cbn; rewrite IH; reflexivity]. cbn.
    induction n as [|n IH]; [reflexivity|exact IH].
  Qed.

  Lemma hand_out_filled vs n (s : St) : n = nlen vs -> hand_out (filled vs 0) n s = Done (Ok vs) s [] [].
  Proof.
    intros ->. unfold hand_out, filled, nlen. cbn [m_slots m_dropped]. rewrite Nat2N.id, take_filled.
    unfold release. cbn [m_slots m_dropped]. rewrite left_gone. reflexivity.
  Qed.

  Lemma drop_mem_filled vs k n : n = nlen vs ->
    mem_drop (filled vs k) n = Some {| m_slots := repeat Gone (length vs) ++ repeat Uninit k; m_dropped := vs |}.
  Proof.
    intros ->. unfold mem_drop, filled, nlen. cbn [m_slots m_dropped]. rewrite Nat2N.id, drop_filled. reflexivity.
  Qed.

  Lemma vec_loop_spec size base length k : size <> 0 -> forall vs s, nlen vs + N.of_nat k = length ->
    vec_loop rd size base length k (base + nlen vs * size) (base + length * size) (nlen vs) (filled vs k) s
    = let '(us, st, s') := attempts rd k s in
      match st with
      | Complete => Done (Ok (vs ++ us)) s' [] []
      | Failed er => Done (Err er) s' (vs ++ us) []
      | Panicked f => Done (Fault f) s' [] (vs ++ us)
      end.
  Proof.
    intros Hz. induction k as [|k IH]; intros vs s Hl; cbn [vec_loop attempts].
    - destruct (N.ltb_spec (base + nlen vs * size) (base + length * size)) as [C|_]; [exfalso; nia|].
      rewrite app_nil_r. apply hand_out_filled. lia.
    - destruct (N.ltb_spec (base + nlen vs * size) (base + length * size)) as [_|C]; [|exfalso; nia].
      destruct (rd s) as [[v|er|f] s1] eqn:Er.
      + replace (base + nlen vs * size - base) with (nlen vs * size) by lia.
        rewrite N.div_mul by assumption. rewrite (store_filled vs k v) by reflexivity.
        specialize (IH (vs ++ [v]) s1). rewrite nlen_app, nlen_cons, nlen_nil in IH.
        replace (base + nlen vs * size + size) with (base + (nlen vs + (0 + 1)) * size) by lia.
        replace (nlen vs + 1) with (nlen vs + (0 + 1)) by lia. rewrite IH by lia.
        destruct (attempts rd k s1) as [[us st] s']. rewrite <- app_assoc. reflexivity.
      + unfold drop_vec. rewrite drop_mem_filled by reflexivity. unfold release. cbn [m_slots m_dropped].
        rewrite left_gone, app_nil_r. reflexivity.
      + unfold release, filled. cbn [m_slots m_dropped]. rewrite left_filled, app_nil_r. reflexivity.
  Qed.

  Lemma arr_loop_spec n k : forall vs s, nlen vs + N.of_nat k = n ->
    arr_loop rd n k (nlen vs) (filled vs k) s
    = let '(us, st, s') := attempts rd k s in
      match st with
      | Complete => Done (Ok (vs ++ us)) s' [] []
      | Failed er => Done (Err er) s' (vs ++ us) []
      | Panicked f => Done (Fault f) s' (vs ++ us) []
      end.
  Proof.
    induction k as [|k IH]; intros vs s Hl; cbn [arr_loop attempts].
    - destruct (N.ltb_spec (nlen vs) n) as [C|_]; [exfalso; lia|].
      rewrite app_nil_r. apply hand_out_filled. lia.
    - destruct (N.ltb_spec (nlen vs) n) as [_|C]; [|exfalso; lia].
      destruct (rd s) as [[v|er|f] s1] eqn:Er.
      + rewrite (store_filled vs k v) by reflexivity.
        specialize (IH (vs ++ [v]) s1). rewrite nlen_app, nlen_cons, nlen_nil in IH.
        replace (nlen vs + 1) with (nlen vs + (0 + 1)) by lia. rewrite IH by lia.
        destruct (attempts rd k s1) as [[us st] s']. rewrite <- app_assoc. reflexivity.
      + unfold drop_state. rewrite drop_mem_filled by reflexivity. unfold release. cbn [m_slots m_dropped].
        rewrite left_gone, app_nil_r. reflexivity.
      + unfold drop_state. rewrite drop_mem_filled by reflexivity. unfold release. cbn [m_slots m_dropped].
        rewrite left_gone, app_nil_r. reflexivity.
  Qed.

  (** C58 for vectors of elements with a size: whatever the element reader does,
      no slot is misused; on success the vector holds exactly the values read; on
      failure exactly the values read are dropped, once each and in order; if an
      element panics they are lost, but not dropped. *)
  Theorem C58_vec size base length s : size <> 0 ->
    vec_slots rd size base length s
    = let '(vs, st, s') := attempts rd (N.to_nat length) s in
      match st with
      | Complete => Done (Ok vs) s' [] []
      | Failed er => Done (Err er) s' vs []
      | Panicked f => Done (Fault f) s' [] vs
      end.
  Proof.
    intros Hz. unfold vec_slots. rewrite fresh_filled.
    pose proof (vec_loop_spec size base length (N.to_nat length) Hz [] s) as H.
    rewrite nlen_nil in H. rewrite N.mul_0_l, N.add_0_r in H. rewrite H by lia.
    reflexivity.
  Qed.

  (** C58 for arrays, of elements of any size: the guard drops what has been read even if an
      element panics. *)
  Theorem C58_array n s :
    arr_slots rd n s
    = let '(vs, st, s') := attempts rd n s in
      match st with
      | Complete => Done (Ok vs) s' [] []
      | Failed er => Done (Err er) s' vs []
      | Panicked f => Done (Fault f) s' vs []
      end.
  Proof.
    unfold arr_slots. rewrite fresh_filled. exact (arr_loop_spec (N.of_nat n) n [] s eq_refl).
  Qed.

  (** The loops of the model ([repeatM] in [read_vec] and [read_array]) give the
      same results. *)
  Lemma attempts_repeat n : forall s,
    repeatM rd n s = let '(vs, st, s') := attempts rd n s in
                     (match st with Complete => Ok vs | Failed er => Err er | Panicked f => Fault f end, s').
  Proof.
    induction n as [|n IH]; intros s; [reflexivity|]. cbn [repeatM attempts]. unfold bind at 1.
    destruct (rd s) as [[v|er|f] s1]; try reflexivity. unfold bind. rewrite IH.
    destruct (attempts rd n s1) as [[vs st] s2]. destruct st; reflexivity.
  Qed.

  Theorem C58_vec_result size base length s r s' : size <> 0 ->
    repeatM rd (N.to_nat length) s = (r, s') ->
    exists dropped lost, vec_slots rd size base length s = Done r s' dropped lost.
  Proof.
    intros Hz E. rewrite C58_vec by assumption. rewrite attempts_repeat in E.
    destruct (attempts rd (N.to_nat length) s) as [[vs st] s2]. destruct st; injection E as <- <-; eauto.
  Qed.

  Theorem C58_array_result n s r s' : repeatM rd n s = (r, s') ->
    exists dropped, arr_slots rd n s = Done r s' dropped [].
  Proof.
    intros E. rewrite C58_array. rewrite attempts_repeat in E.
    destruct (attempts rd n s) as [[vs st] s2]. destruct st; injection E as <- <-; eauto.
  Qed.
End Facts.

(** C58 fails for elements without size: the vector is given its length although
    no element has been read, so values nobody made are handed out (and later
    dropped). *)
Theorem C58_conjured_refuted : exists (rd : M breader val) base length s,
  vec_slots rd 0 base length s = Bad.
Proof.
  exists (read host64 (BufferReader LE) (TStruct (sd 1 RRust) [])), 0, 1, (br_start 0 []).
  reflexivity.
Qed.

Print Assumptions C58_vec.
Print Assumptions C58_array.
Print Assumptions C58_vec_result.
Print Assumptions C58_array_result.
Print Assumptions C58_conjured_refuted.

(* ------------------------------------------------------------------ *)
(** * Concrete runs *)

(* Three strings announced, the second is not UTF-8. *)
Definition bad_strings : bytes := [x01; x00; x00; x00; x61; x01; x00; x00; x00; xff; x00; x00; x00; x00].
Definition string_reader : M breader val := read host64 (BufferReader LE) (TStr KString).

Example C58_failed : match vec_slots string_reader 24 4096 3 (br_start 0 bad_strings) with
                     | Done (Err InvalidUtf8) _ [VBytes [x61]] [] => True | _ => False end.
Proof. vm_compute. exact I. Qed.
Example C58_failed_array : match arr_slots string_reader 3 (br_start 0 bad_strings) with
                           | Done (Err InvalidUtf8) _ [VBytes [x61]] [] => True | _ => False end.
Proof. vm_compute. exact I. Qed.
(* A duration whose seconds overflow panics: an array drops its first element, a
   vector loses it. *)
Definition bad_durations : bytes :=
  repeat x00 12 ++ repeat xff 12.
Definition duration_reader : M breader val := read host64 (BufferReader LE) (TScalar SDuration).
Example C58_panicked : match vec_slots duration_reader 16 4096 2 (br_start 0 bad_durations) with
                       | Done (Fault PanicExplicit) _ [] [VSeq [VInt 0; VInt 0]] => True | _ => False end.
Proof. vm_compute. exact I. Qed.
Example C58_panicked_array : match arr_slots duration_reader 2 (br_start 0 bad_durations) with
                             | Done (Fault PanicExplicit) _ [VSeq [VInt 0; VInt 0]] [] => True | _ => False end.
Proof. vm_compute. exact I. Qed.
