(* Types whose encoding depends on neither the byte order of IPv6 addresses nor
   the iteration order of hash tables. *)
From Verif Require Import BaseFacts SpecFacts EncFacts TyInd.
From Verif Require Export Spec Supported.

Fixpoint portable (t : ty) : Prop :=
  match t with
  | TScalar s => match s with SIpv6 | SIpAddr => False | _ => True end
  | TStr _ | TBot => True
  | TSeq _ t' | TArr t' _ | TRefArr t' _ | TOption t' | TBox t' | TRange _ t' => portable t'
  | TResult t1 t2 => portable t1 /\ portable t2
  | TSet k t' => k <> CHash /\ portable t'
  | TMap k t1 t2 => k <> CHash /\ portable t1 /\ portable t2
  | TTuple ts => all_tys portable ts
  | TStruct _ fs => all_fields (fun a t' => f_skip a = true \/ portable t') fs
  | TEnum _ vs => all_variants (all_fields (fun a t' => f_skip a = true \/ portable t')) vs
  end.

Section Portable.
  Context (it1 it2 : list val -> list val) (e s1 s2 : endian).

  Definition pe (t : ty) : Prop := forall l v, portable t -> enc it1 e s1 l t v = enc it2 e s2 l t v.

  Lemma enc_all_ext (f g : val -> res bytes) vs : (forall v, f v = g v) -> enc_all f vs = enc_all g vs.
  Proof. intros H. induction vs as [|v vs IH]; [reflexivity|]. rewrite !enc_all_cons, H, IH. reflexivity. Qed.

  Lemma portable_scalar s v : portable (TScalar s) -> enc_scalar e s1 s v = enc_scalar e s2 s v.
  Proof. destruct s; cbn; intros H; try contradiction; destruct v; reflexivity. Qed.

  Lemma portable_fields fs : Forall (fun f => pe (snd f)) fs ->
    all_fields (fun a t' => f_skip a = true \/ portable t') fs -> forall prev vs,
    enc_fields e s1 (enc it1 e s1) prev fs vs = enc_fields e s2 (enc it2 e s2) prev fs vs.
  Proof.
    induction 1 as [|[a t] fs Hf _ IH]; intros Hp prev [|v vs]; cbn [enc_fields]; try reflexivity.
    destruct Hp as [Hp Hps]. cbn [fst snd] in *. destruct (f_skip a) eqn:Es; [apply IH, Hps|].
    destruct Hp as [?|Hp]; [congruence|]. rewrite (IH Hps). f_equal. unfold enc_field.
    destruct (f_varint a); [reflexivity|]. rewrite Hf by assumption. reflexivity.
  Qed.

  Lemma portable_enc t : pe t.
  Proof.
    induction t as [s|k|k t IH|t n IH|t n IH|t IH|t1 t2 IH1 IH2|ts IH|i t IH|k t IH|k tk tv IHk IHv|t IH|d fs IH|d vs IH|]
      using ty_ind'; intros l v Hp.
    - destruct v; apply portable_scalar; exact Hp.
    - destruct v; reflexivity.
    - destruct v; try reflexivity. cbn [enc]. f_equal. apply enc_all_ext. intros; apply IH, Hp.
    - destruct v; try reflexivity. cbn [enc]. apply enc_all_ext. intros; apply IH, Hp.
    - destruct v; try reflexivity. cbn [enc]. apply enc_all_ext. intros; apply IH, Hp.
    - destruct v; try reflexivity. cbn [enc]. f_equal. apply IH, Hp.
    - destruct Hp as [Hp1 Hp2]. destruct v; try reflexivity; cbn [enc]; f_equal; auto.
    - destruct v; try reflexivity. cbn [enc]. cbn in Hp. revert vs Hp.
      induction IH as [|t ts IHt _ IHts]; intros [|v vs] Hp; cbn [enc_tuple]; try reflexivity.
      destruct Hp. f_equal; auto.
    - destruct v as [| | | |[|a [|b vs]]| | | | |]; try reflexivity. cbn [enc]. f_equal; apply IH, Hp.
    - destruct v; try reflexivity. cbn [enc]. destruct Hp as [Hk Hp]. f_equal.
      destruct k; [|congruence|]; apply enc_all_ext; intros; apply IH, Hp.
    - destruct v; try reflexivity. cbn [enc]. destruct Hp as (Hk & Hp1 & Hp2). f_equal.
      destruct k; [|congruence|]; apply enc_all_ext; intros [| | | |[|x [|y [|]]]| | | | |]; try reflexivity;
        cbn [enc_pair]; rewrite IHk, IHv by assumption; reflexivity.
    - destruct v; apply IH; exact Hp.
    - destruct v; try reflexivity. cbn [enc]. apply portable_fields; assumption.
    - destruct v as [| | | | | | | | |i us]; try reflexivity. cbn [enc]. cbn in Hp. revert i Hp.
      induction IH as [|[tag fs] vs IHf _ IHvs]; intros [|i] Hp; cbn [enc_variant]; try reflexivity.
      + f_equal. apply portable_fields; [exact IHf|apply Hp].
      + apply IHvs, Hp.
    - destruct v; reflexivity.
  Qed.
End Portable.
