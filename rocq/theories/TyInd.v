(* Structural induction over types, with hypotheses for nested lists. *)
From Verif Require Export Types.

Section Ind.
  Context (P : ty -> Prop)
    (Hscalar : forall s, P (TScalar s))
    (Hstr : forall k, P (TStr k))
    (Hseq : forall k t, P t -> P (TSeq k t))
    (Harr : forall t n, P t -> P (TArr t n))
    (Hrefarr : forall t n, P t -> P (TRefArr t n))
    (Hoption : forall t, P t -> P (TOption t))
    (Hresult : forall t1 t2, P t1 -> P t2 -> P (TResult t1 t2))
    (Htuple : forall ts, Forall P ts -> P (TTuple ts))
    (Hrange : forall i t, P t -> P (TRange i t))
    (Hset : forall k t, P t -> P (TSet k t))
    (Hmap : forall k tk tv, P tk -> P tv -> P (TMap k tk tv))
    (Hbox : forall t, P t -> P (TBox t))
    (Hstruct : forall d fs, Forall (fun f => P (snd f)) fs -> P (TStruct d fs))
    (Henum : forall d vs, Forall (fun v => Forall (fun f => P (snd f)) (snd v)) vs -> P (TEnum d vs))
    (Hbot : P TBot).

  Fixpoint ty_rect' (t : ty) : P t :=
    match t with
    | TScalar s => Hscalar s
    | TStr k => Hstr k
    | TSeq k t => Hseq k t (ty_rect' t)
    | TArr t n => Harr t n (ty_rect' t)
    | TRefArr t n => Hrefarr t n (ty_rect' t)
    | TOption t => Hoption t (ty_rect' t)
    | TResult t1 t2 => Hresult t1 t2 (ty_rect' t1) (ty_rect' t2)
    | TTuple ts =>
      Htuple ts ((fix go l : Forall P l :=
        match l with [] => Forall_nil _ | t :: r => Forall_cons _ (ty_rect' t) (go r) end) ts)
    | TRange i t => Hrange i t (ty_rect' t)
    | TSet k t => Hset k t (ty_rect' t)
    | TMap k tk tv => Hmap k tk tv (ty_rect' tk) (ty_rect' tv)
    | TBox t => Hbox t (ty_rect' t)
    | TStruct d fs =>
      Hstruct d fs ((fix go l : Forall (fun f => P (snd f)) l :=
        match l with [] => Forall_nil _ | f :: r => Forall_cons _ (ty_rect' (snd f)) (go r) end) fs)
    | TEnum d vs =>
      Henum d vs ((fix gov l : Forall (fun v => Forall (fun f => P (snd f)) (snd v)) l :=
        match l with
        | [] => Forall_nil _
        | v :: r =>
          Forall_cons _
            ((fix go l : Forall (fun f => P (snd f)) l :=
                match l with [] => Forall_nil _ | f :: r => Forall_cons _ (ty_rect' (snd f)) (go r) end)
               (snd v)) (gov r)
        end) vs)
    | TBot => Hbot
    end.
End Ind.

Lemma ty_ind' (P : ty -> Prop)
    (Hscalar : forall s, P (TScalar s))
    (Hstr : forall k, P (TStr k))
    (Hseq : forall k t, P t -> P (TSeq k t))
    (Harr : forall t n, P t -> P (TArr t n))
    (Hrefarr : forall t n, P t -> P (TRefArr t n))
    (Hoption : forall t, P t -> P (TOption t))
    (Hresult : forall t1 t2, P t1 -> P t2 -> P (TResult t1 t2))
    (Htuple : forall ts, Forall P ts -> P (TTuple ts))
    (Hrange : forall i t, P t -> P (TRange i t))
    (Hset : forall k t, P t -> P (TSet k t))
    (Hmap : forall k tk tv, P tk -> P tv -> P (TMap k tk tv))
    (Hbox : forall t, P t -> P (TBox t))
    (Hstruct : forall d fs, Forall (fun f => P (snd f)) fs -> P (TStruct d fs))
    (Henum : forall d vs, Forall (fun v => Forall (fun f => P (snd f)) (snd v)) vs -> P (TEnum d vs))
    (Hbot : P TBot) : forall t, P t.
Proof. intros. apply ty_rect'; assumption. Qed.
