(* Property C113: reading and writing files releases what it takes from the system,
   reports its errors, and what becomes of files that are there already. *)
From Verif Require Import Samples Entry Files PropReaders PropWrite.

(* ------------------------------------------------------------------ *)
(** * What is held *)

Fixpoint without {A} (eqb : A -> A -> bool) (x : A) (l : list A) : option (list A) :=
  match l with
  | [] => None
  | y :: r => if eqb x y then Some r else option_map (cons y) (without eqb x r)
  end.
Definition region_eqb (x y : N * N) : bool := (fst x =? fst y) && (snd x =? snd y).

(** The descriptors and mappings held after the calls; [None] if a call uses, closes or
    unmaps something that is not held, or maps nothing. *)
Fixpoint held (l : list call) (fds : list N) (maps : list (N * N)) : option (list N * list (N * N)) :=
  match l with
  | [] => Some (fds, maps)
  | COpen (inr fd) :: r => held r (fd :: fds) maps
  | COpen (inl _) :: r => held r fds maps
  | CStat fd _ :: r => if existsb (N.eqb fd) fds then held r fds maps else None
  | CMap fd size x :: r =>
    if existsb (N.eqb fd) fds && negb (size =? 0)
    then held r fds (match x with inr addr => (addr, size) :: maps | inl _ => maps end) else None
  | CAdvise addr size _ _ :: r => if existsb (region_eqb (addr, size)) maps then held r fds maps else None
  | CUnmap addr size :: r =>
    match without region_eqb (addr, size) maps with Some maps' => held r fds maps' | None => None end
  | CClose fd :: r => match without N.eqb fd fds with Some fds' => held r fds' maps | None => None end
  end.

(** The error a call ended in. *)
Definition refused (c : call) : option io_kind :=
  match c with
  | COpen (inl k) | CStat _ (inl k) | CMap _ _ (inl k) | CAdvise _ _ _ (Some k) => Some k
  | _ => None
  end.

Section Files.
  Context (h : host) (VH : valid_host h) (e : endian).

  Lemma region_refl x : region_eqb x x = true.
  Proof. unfold region_eqb. rewrite !N.eqb_refl. reflexivity. Qed.

  Ltac run := unfold finally, bind, system, ret, fail, crash, lift, answer, checked; cbn [fst snd app].

  (** The courses a read of a mapped file can take. *)
  Lemma mapped_cases a t content :
    let (r, l) := read_file_mapped h e a t content [] in
    match an_open a with
    | inl k => r = Err (IoError k) /\ l = [COpen (inl k)]
    | inr fd =>
      match an_stat a with
      | inl k => r = Err (IoError k) /\ l = [COpen (inr fd); CStat fd (inl k); CClose fd]
      | inr size =>
        if usize_max h <? size then r = Err OutOfRangeUsize /\ l = [COpen (inr fd); CStat fd (inr size); CClose fd]
        else if size =? 0 then
          r = read_from_buffer_copying h e t [] /\ l = [COpen (inr fd); CStat fd (inr 0); CClose fd]
        else
          match an_map a with
          | inl k => r = Err (IoError k) /\ l = [COpen (inr fd); CStat fd (inr size); CMap fd size (inl k); CClose fd]
          | inr addr =>
            let l0 := [COpen (inr fd); CStat fd (inr size); CMap fd size (inr addr); CAdvise addr size Sequential (an_sequential a)] in
            match an_sequential a with
            | Some k => r = Err (IoError k) /\ l = l0 ++ [CUnmap addr size; CClose fd]
            | None =>
              let l1 := l0 ++ [CAdvise addr size WillNeed (an_willneed a); CUnmap addr size; CClose fd] in
              match an_willneed a with
              | Some k => r = Err (IoError k) /\ l = l1
              | None =>
                r = match mapped size content with
                    | Some bs => read_from_buffer_copying h e t bs
                    | None => Fault UbInvalid
                    end /\ l = l1
              end
            end
          end
      end
    end.
  Proof.
    unfold read_file_mapped, mmap_open, mmap_madvise, mmap_drop. run.
    destruct (an_open a) as [k|fd]; [split; reflexivity|]. cbn [app].
    destruct (an_stat a) as [k|size]; [split; reflexivity|]. cbn [app].
    destruct (usize_max h <? size); [split; reflexivity|].
    destruct (N.eqb_spec size 0) as [->|Hz].
    { cbn [fst snd N.eqb]. assert (E : mapped 0 content = Some []).
      { unfold mapped. destruct (N.leb_spec 0 ((nlen content + (page - 1)) / page * page)); [|lia]. reflexivity. }
      rewrite E. split; reflexivity. }
    cbn [app]. destruct (an_map a) as [k|addr]; [split; reflexivity|]. cbn [app fst snd].
    rewrite (proj2 (N.eqb_neq _ _) Hz).
    destruct (an_sequential a) as [k|]; [split; reflexivity|]. cbn [app].
    destruct (an_willneed a) as [k|]; [split; reflexivity|]. cbn [app].
    destruct (mapped size content); split; reflexivity.
  Qed.

  Ltac courses a t content :=
    pose proof (mapped_cases a t content) as H; destruct (read_file_mapped h e a t content []) as [r l];
    destruct (an_open a) as [?k|fd];
    [|destruct (an_stat a) as [?k|size];
      [|destruct (usize_max h <? size) eqn:Eu;
        [|destruct (N.eqb_spec size 0) as [Ez|Ez];
          [|destruct (an_map a) as [?k|addr];
            [|destruct (an_sequential a) as [?k|];
              [|destruct (an_willneed a) as [?k|]]]]]]]; destruct H as [-> ->].

  (** C113: whatever the system answers and however the reading ends, every descriptor
      and every mapping is given back, once, and none is used outside its life. *)
  Theorem C113_released a t content : held (snd (read_file_mapped h e a t content [])) [] [] = Some ([], []).
  Proof.
    courses a t content; cbn [snd app]; cbn [held existsb without];
      rewrite ?N.eqb_refl; cbn [orb andb]; try reflexivity;
      rewrite (proj2 (N.eqb_neq _ _) Ez); cbn [negb]; cbn [existsb without]; rewrite ?region_refl; cbn [orb]; rewrite ?region_refl, ?N.eqb_refl; reflexivity.
  Qed.
  Theorem C113_released_streamed a mem t content sched :
    held (snd (read_file_streamed h e a mem t content sched [])) [] [] = Some ([], []).
  Proof.
    unfold read_file_streamed. run. destruct (an_open a) as [k|fd]; [reflexivity|]. cbn. rewrite N.eqb_refl. reflexivity.
  Qed.

  (** C113: an error of the system is what is returned, and the only one. *)
  Theorem C113_errors a t content k : 
    let (r, l) := read_file_mapped h e a t content [] in
    In (Some k) (map refused l) -> r = Err (IoError k).
  Proof.
    courses a t content; cbn [map refused app In];
      intros Hin; repeat (destruct Hin as [Hin|Hin]; [try discriminate; congruence|]); try contradiction.
  Qed.

  (** C113: without errors, and if the size is still right, the file is read as a buffer
      with its content would be; also if it is empty, which cannot be mapped. *)
  Theorem C113_reads a t content : an_stat a = inr (nlen content) -> nlen content <= l_usize_max (h_lim h) ->
    let (r, l) := read_file_mapped h e a t content [] in
    (forall k, ~ In (Some k) (map refused l)) -> r = read_from_buffer_copying h e t content.
  Proof.
    intros Hs Hl.
    assert (Hm : mapped (nlen content) content = Some content).
    { unfold mapped. destruct (N.leb_spec (nlen content) ((nlen content + (page - 1)) / page * page)) as [H|H].
      - rewrite take_app_exact by reflexivity. reflexivity.
      - exfalso. unfold page in H. pose proof (N.div_mod (nlen content + (4096 - 1)) 4096 ltac:(lia)).
        pose proof (N.mod_lt (nlen content + (4096 - 1)) 4096 ltac:(lia)). lia. }
    pose proof (mapped_cases a t content) as H; destruct (read_file_mapped h e a t content []) as [r l].
    rewrite Hs in H. destruct (an_open a) as [k|fd].
    { destruct H as [-> ->]. intros Hn. destruct (Hn k). cbn. auto. }
    destruct (N.ltb_spec (usize_max h) (nlen content)) as [Hx|_]; [unfold usize_max in Hx; lia|].
    destruct (N.eqb_spec (nlen content) 0) as [Ez|Ez].
    { destruct H as [-> ->]. intros _. destruct content; [reflexivity|]. unfold nlen in Ez. cbn [length] in Ez. lia. }
    destruct (an_map a) as [k|addr].
    { destruct H as [-> ->]. intros Hn. destruct (Hn k). cbn. auto. }
    destruct (an_sequential a) as [k|].
    { destruct H as [-> ->]. intros Hn. destruct (Hn k). cbn. auto. }
    destruct (an_willneed a) as [k|].
    { destruct H as [-> ->]. intros Hn. destruct (Hn k). cbn. auto 10. }
    destruct H as [-> ->]. intros _. rewrite Hm. reflexivity.
  Qed.

  (** C113: this is what [read_from_file] stands for elsewhere. *)
  Theorem C113_file a t content mem sched : an_stat a = inr (nlen content) -> nlen content <= l_usize_max (h_lim h) ->
    let (r, l) := read_file_mapped h e a t content [] in
    exists oserr, (oserr = None -> forall k, ~ In (Some k) (map refused l))
      /\ (forall k, oserr = Some k -> In (Some k) (map refused l))
      /\ r = read_from_file h true mem oserr e t content sched.
  Proof.
    intros Hs Hl. pose proof (C113_reads a t content Hs Hl) as H1. pose proof (fun k => C113_errors a t content k) as H2.
    destruct (read_file_mapped h e a t content []) as [r l].
    assert (Hd : (exists k, In (Some k) (map refused l)) \/ forall k, ~ In (Some k) (map refused l)).
    { clear. induction l as [|c l IH]; [right; intros k []|]. destruct (refused c) as [k|] eqn:E.
      - left. exists k. cbn. auto.
      - destruct IH as [(k & Hk)|IH]; [left; exists k; cbn; auto|]. right. intros k [Hk|Hk]; [congruence|exact (IH k Hk)]. }
    destruct Hd as [(k & Hk)|Hn].
    - exists (Some k). split; [discriminate|]. split; [intros k' E; injection E as <-; exact Hk|]. cbn. apply H2, Hk.
    - exists None. split; [auto|]. split; [discriminate|]. cbn. apply H1, Hn.
  Qed.

  (** C113: if the file cannot be created, what was there is kept and the error is
      returned; otherwise the path holds a prefix of the encoding, whatever it held. *)
  Theorem C113_kept k t v old sched : write_path h e (Some k) t v old sched = (Err (IoError k), old).
  Proof. reflexivity. Qed.

  Theorem C113_replaced t v b old sched r new : wsup h t -> valid (h_lim h) t v ->
    encode (h_iter h) e (ipv6_order h e) t v = Ok b ->
    write_path h e None t v old sched = (r, new) ->
    exists p q, new = Some p /\ b = p ++ q /\ (well_behaved sched -> r = Ok tt /\ q = []).
  Proof.
    intros Hs Hv He H. unfold write_path in H. destruct (write_to_file h None e t v sched) as [r' o] eqn:E.
    injection H as <- <-. destruct (C44_file_prefix_partial h VH e t v b sched r' o Hs Hv He E) as (q & Eb & Hw).
    exists (os_out o), q. auto.
  Qed.
End Files.

Print Assumptions C113_released.
Print Assumptions C113_released_streamed.
Print Assumptions C113_errors.
Print Assumptions C113_reads.
Print Assumptions C113_file.
Print Assumptions C113_kept.
Print Assumptions C113_replaced.

(* ------------------------------------------------------------------ *)
(** * Cases *)

Definition fine (size : N) : answers :=
  {| an_open := inr 3; an_stat := inr size; an_map := inr 4096; an_sequential := None; an_willneed := None |}.

(** A file of four bytes; one whose second advice is refused; an empty one. *)
Example courses :
  read_file_mapped host64 LE (fine 4) (TP U32) [x01; x02; x00; x00] []
  = (Ok (VInt 513), [COpen (inr 3); CStat 3 (inr 4); CMap 3 4 (inr 4096); CAdvise 4096 4 Sequential None;
                     CAdvise 4096 4 WillNeed None; CUnmap 4096 4; CClose 3])
  /\ read_file_mapped host64 LE {| an_open := inr 3; an_stat := inr 4; an_map := inr 4096;
                                   an_sequential := None; an_willneed := Some (IoOther 22) |} (TP U32) [x01; x02; x00; x00] []
     = (Err (IoError (IoOther 22)), [COpen (inr 3); CStat 3 (inr 4); CMap 3 4 (inr 4096); CAdvise 4096 4 Sequential None;
                     CAdvise 4096 4 WillNeed (Some (IoOther 22)); CUnmap 4096 4; CClose 3])
  /\ read_file_mapped host64 LE (fine 0) (TP U32) [] []
     = (Err (InputBufferIsTooSmall 0 4), [COpen (inr 3); CStat 3 (inr 0); CClose 3]).
Proof. vm_compute. auto. Qed.

(** A device or a pipe, whose size is reported as zero, has its content read where files
    are streams and nothing where they are mapped. *)
Theorem C113_device_refuted : exists t content v, 
  fst (read_file_streamed host64 LE (fine 0) dirty t content [] []) = Ok v
  /\ fst (read_file_mapped host64 LE (fine 0) t content []) = Err (InputBufferIsTooSmall 0 4).
Proof. exists (TP U32), [x01; x02; x00; x00], (VInt 513). vm_compute. auto. Qed.

(** A file that was shortened after it was asked for its size: the bytes that are gone
    are read as zeros, or the read faults. *)
Theorem C113_shortened_refuted :
  fst (read_file_mapped host64 LE (fine 4) (TP U32) [x01] []) = Ok (VInt 1)
  /\ fst (read_file_mapped host64 LE (fine 4) (TP U32) [] []) = Fault UbInvalid
  /\ fst (read_file_streamed host64 LE (fine 4) dirty (TP U32) [x01] [] []) = Err UnexpectedEndOfInput.
Proof. vm_compute. auto. Qed.

(** A value that cannot be written destroys what was there: the length that the attribute
    demands is not the vector's. *)
Definition counted : ty :=
  TStruct (sd 93 RRust) [(plain, TP U8); (with_len (LExpr count_plus_one), TSeq KVec (TP U8))].
Theorem C113_destroyed_refuted :
  write_path host64 LE None counted (VSeq [VInt 1; VSeq [VInt 5]]) (Some [x00; x07]) []
  = (Err LengthIsNotTheSameAsLengthAttribute, Some [x01]).
Proof. vm_compute. reflexivity. Qed.

Print Assumptions C113_device_refuted.
Print Assumptions C113_shortened_refuted.
Print Assumptions C113_destroyed_refuted.
