(* Collections with an order, an equality and hashes of the user's: `Ord`, `Eq` and `Hash` of the
   keys of src/readable_impl.rs 28-97 and src/writable_impl.rs 27-123 are type parameters.
   `Types.collect` has the derived ones.  User code that panics is not modelled. *)
From Verif Require Export Impls.

(** What a collection makes of the items it is given (`FromIterator`), and the items it hands
    out (`IntoIterator`).  Its value is the list of its items in some fixed order. *)
Record collection := {
  co_build : list val -> list val;
  co_walk : list val -> list val
}.

Section Collections.
  Context (h : host).

  (** The items that `collect()` is given in src/reader.rs 641-660 [read_collection], of
      elements that have a size. *)
  Definition read_listed {St} (R : reader St) (t : ty) (rd : M St val) (length : N) : M St (list val) :=
    if is_prim h t && no_conv h R t then
      let bytesize := length * h_size h t in
      if usize_max h <? bytesize then fail OutOfRangeUsize else
      match rd_borrow_r R with
      | Some borrow =>
        bs <- borrow bytesize ;;
        ret (map (mem_read h t) (chunks (N.to_nat (h_size h t)) (N.to_nat length) bs))
      | None => repeatM rd (N.to_nat length)
      end
    else repeatM rd (N.to_nat length).

  (** The same for src/reader.rs 663-686 [read_key_value_collection]. *)
  Definition read_paired {St} (R : reader St) (tk tv : ty) (rk rv : M St val) (length : N) : M St (list val) :=
    if is_prim h tk && is_prim h tv
       && (((h_size h tk =? 1) && (h_size h tv =? 1))
           || negb (conversion_necessary (h_native h) (rd_endian R))) then
      let bytesize := length * h_size h (pair_ty tk tv) in
      if usize_max h <? bytesize then fail OutOfRangeUsize else
      match rd_borrow_r R with
      | Some borrow =>
        bs <- borrow bytesize ;;
        ret (map (mem_read h (pair_ty tk tv)) (chunks (N.to_nat (h_size h (pair_ty tk tv))) (N.to_nat length) bs))
      | None => repeatM (read_pair rk rv) (N.to_nat length)
      end
    else repeatM (read_pair rk rv) (N.to_nat length).

  (** src/readable_impl.rs 28-97, src/writable_impl.rs 27-123, ext_indexmap.rs: length and items.
      [rd] reads the items, [X] writes them. *)
  Definition collected (size : N) (co : collection) (rd : forall St, reader St -> N -> M St (list val)) (X : impl) : impl :=
    {| i_size := size; i_only := VUnit; i_min := 4;
       i_read := fun St R => n <- read_length h R BU32 ;; xs <- rd St R n ;; ret (VSeq (co_build co xs));
       i_write := fun St W v =>
         match v with
         | VSeq vs => write_length h W BU32 (nlen vs) ;;; write_each (i_write X W) (co_walk co vs)
         | _ => ill
         end;
       i_needed := fun v =>
         match v with
         | VSeq vs =>
           rbind (is_length (nlen vs)) (fun _ => rmap (N.add 4) (rsum (rmapM (i_needed X) (co_walk co vs))))
         | _ => Fault IllTyped
         end |}.

  (** Of hand-written elements, or pairs of them as tuples. *)
  Definition items_of (size : N) (co : collection) (X : impl) : impl :=
    collected size co (fun St R n => repeatM (i_read X R) (N.to_nat n)) X.
  (** Of types of the model. *)
  Definition set_by (size : N) (co : collection) (t : ty) : impl :=
    collected size co (fun St R => read_listed R t (read h R t)) (of_ty h t).
  Definition map_by (size : N) (co : collection) (tk tv : ty) : impl :=
    collected size co (fun St R => read_paired R tk tv (read h R tk) (read h R tv)) (tuple_of 0 [of_ty h tk; of_ty h tv]).
End Collections.

(* ------------------------------------------------------------------ *)
(** * What std and indexmap make of the user's comparisons *)

(** `BTreeSet`, `BTreeMap`: `from_iter` sorts and keeps the last of equal ones. *)
Section Ordered.
  Context (cmp : val -> val -> comparison) (key : val -> val).

  Fixpoint ordered_insert (x : val) (l : list val) : list val :=
    match l with
    | [] => [x]
    | y :: r =>
      match cmp (key x) (key y) with
      | Lt => x :: y :: r
      | Eq => x :: r
      | Gt => y :: ordered_insert x r
      end
    end.
  Definition ordered_build (xs : list val) : list val := fold_left (fun l x => ordered_insert x l) xs [].
  Definition btree : collection := {| co_build := ordered_build; co_walk := fun l => l |}.
End Ordered.

(** `HashSet`, `HashMap`, `IndexSet`, `IndexMap`: the first of equal keys stays where it is, and
    gets the value of the last. *)
Section Hashed.
  Context (same : val -> val -> bool) (merge : val -> val -> val) (key : val -> val).

  Fixpoint place (x : val) (l : list val) : list val :=
    match l with
    | [] => [x]
    | y :: r => if same (key y) (key x) then merge y x :: r else y :: place x r
    end.
  Definition place_all (xs : list val) : list val := fold_left (fun l x => place x l) xs [].
  Definition index_table : collection := {| co_build := place_all; co_walk := fun l => l |}.

  (** The order of a hash table is not part of its value: its items are listed in an order that
      the values alone determine. *)
  Definition hash_table (h : host) : collection :=
    {| co_build := fun xs => collect CHash id (place_all xs); co_walk := h_iter h |}.
End Hashed.

(** `insert` of an equal element of a set, and of an equal key of a map. *)
Definition keep_old (old new : val) : val := old.
Definition keep_key (old new : val) : val :=
  match old, new with VSeq (k :: _), VSeq (_ :: v) => VSeq (k :: v) | _, _ => old end.
