(* Property C131: the texts of errors. *)
From Coq Require Import DecimalString DecimalN DecimalFacts Decimal.
From Verif Require Import Messages.
Open Scope string_scope.

(* ------------------------------------------------------------------ *)
(** * Decimal numbers *)

Fixpoint all_digits (s : string) : bool :=
  match s with
  | EmptyString => true
  | String c r => ((48 <=? Ascii.N_of_ascii c)%N && (Ascii.N_of_ascii c <=? 57)%N && all_digits r)%bool
  end.

Lemma uint_digits d : all_digits (NilEmpty.string_of_uint d) = true.
Proof. induction d; cbn [NilEmpty.string_of_uint all_digits]; try rewrite IHd; reflexivity. Qed.

Lemma decimal_digits n : all_digits (decimal n) = true.
Proof. unfold decimal. destruct (N.to_uint n) eqn:E; [reflexivity|..]; apply (uint_digits (_ _)). Qed.

Lemma decimal_inj n m : decimal n = decimal m -> n = m.
Proof.
  unfold decimal. intros H. apply DecimalN.Unsigned.to_uint_inj.
  assert (Hn : forall n, N.to_uint n <> Nil) by (intros [|p]; [discriminate|]; apply DecimalPos.Unsigned.to_uint_nonnil).
  apply (f_equal NilZero.uint_of_string) in H. rewrite !NilZero.usu in H by apply Hn. congruence.
Qed.

(** Numbers end where something else begins. *)
Lemma digits_stop a : forall b c d x y, all_digits a = true -> all_digits b = true ->
  all_digits (String x EmptyString) = false -> all_digits (String y EmptyString) = false ->
  a ++ String x c = b ++ String y d -> a = b /\ String x c = String y d.
Proof.
  induction a as [|p a IH]; intros [|q b] c d x y Ha Hb Hx Hy E; cbn [append] in E.
  - auto.
  - injection E as -> E. cbn [all_digits] in *. rewrite Bool.andb_true_r in Hx. apply andb_prop in Hb as [Hb _]. congruence.
  - injection E as -> E. cbn [all_digits] in *. rewrite Bool.andb_true_r in Hy. apply andb_prop in Ha as [Ha _]. congruence.
  - injection E as -> E. cbn [all_digits] in *. apply andb_prop in Ha as [_ Ha]. apply andb_prop in Hb as [_ Hb].
    destruct (IH b c d x y Ha Hb Hx Hy E) as [-> ->]. auto.
Qed.

Lemma append_inj_l p a b : p ++ a = p ++ b -> a = b.
Proof. induction p as [|c p IH]; cbn [append]; [auto|]. intros [= E]. auto. Qed.

Lemma append_len a b : String.length (a ++ b) = (String.length a + String.length b)%nat.
Proof. induction a as [|c a IH]; cbn [append String.length]; [reflexivity|]. rewrite IH. reflexivity. Qed.

Lemma append_inj_r s a : forall b, a ++ s = b ++ s -> a = b.
Proof.
  induction a as [|c a IH]; intros b E.
  - destruct b; [reflexivity|]. apply (f_equal String.length) in E. cbn [append String.length] in E. rewrite append_len in E. lia.
  - destruct b as [|d b].
    + apply (f_equal String.length) in E. cbn [append String.length] in E. rewrite append_len in E. lia.
    + cbn [append] in E. injection E as -> E. rewrite (IH b E). reflexivity.
Qed.

(* ------------------------------------------------------------------ *)
(** * C131 *)

(** What can be told from a text: everything but the bytes of a constant. *)
Definition alike (x y : error_kind) : Prop :=
  x = y \/ exists c d, x = KExpectedConstant c /\ y = KExpectedConstant d /\ nlen c = nlen d.

(** C131: the text of an error of the crate tells which one it is. *)
Theorem C131_tells x y : source x = None -> source y = None -> shown x = shown y -> alike x y.
Proof.
  assert (Htwo : forall p a e a' e', p ++ decimal e ++ " bytes, got " ++ decimal a = p ++ decimal e' ++ " bytes, got " ++ decimal a' ->
    a = a' /\ e = e').
  { intros p a e a' e' E. apply append_inj_l in E. cbn [append] in E.
    apply digits_stop in E as [E1 E2]; [|apply decimal_digits|apply decimal_digits|reflexivity|reflexivity].
    injection E2 as E2. split; apply decimal_inj; assumption. }
  intros Hx Hy E. destruct x as [| | | | | | | | |a e|a e|f|c| | |s]; try discriminate Hx;
    destruct y as [| | | | | | | | |a' e'|a' e'|f'|c'| | |s']; try discriminate Hy; try discriminate E; try (left; reflexivity);
    cbn [shown] in E.
  - apply Htwo in E as [-> ->]. left. reflexivity.
  - apply Htwo in E as [-> ->]. left. reflexivity.
  - apply append_inj_l, append_inj_r in E as ->. left. reflexivity.
  - right. exists c, c'. split; [reflexivity|]. split; [reflexivity|]. apply append_inj_l in E. cbn [append] in E.
    apply digits_stop in E as [E _]; [|apply decimal_digits|apply decimal_digits|reflexivity|reflexivity]. apply decimal_inj, E.
Qed.

(** C131: two constants of the same length cannot be told apart. *)
Theorem C131_constants_refuted : exists x y, source x = None /\ source y = None /\ shown x = shown y /\ x <> y.
Proof. exists (KExpectedConstant [x01]), (KExpectedConstant [x02]). repeat split. discriminate. Qed.

(** C131: on the way to `std::io::Error` and back nothing is said differently; errors
    of streams and custom ones keep their kind and text. *)
Theorem C131_there_and_back x :
  shown (of_std (into_std x)) = shown x /\ is_eof (in_short (of_std (into_std x))) = is_eof (in_short x)
  /\ into_std (of_std (into_std x)) = into_std x.
Proof.
  destruct x as [| | | | | | | | |a e|a e|f|c| | |s]; repeat split.
Qed.

Theorem C131_custom m : shown (custom_error m) = m /\ se_text (into_std (custom_error m)) = m
  /\ is_eof (in_short (custom_error m)) = false.
Proof. repeat split. Qed.

(** C131: there is a source exactly for errors of streams and custom ones, and it
    prints the same. *)
Theorem C131_source x : match source x with
  | Some s => x = of_std s /\ shown x = se_text s
  | None => forall s, x <> of_std s
  end.
Proof. destruct x; cbn; auto; discriminate. Qed.

(** C131: the errors of the model are these without names and texts. *)
Theorem C131_in_short x : in_short (custom_error "") = custom /\ (forall s, in_short (of_std s) = from_io_error (se_kind s))
  /\ se_kind (into_std x) = io_error_from (in_short x).
Proof. split; [reflexivity|]. split; [reflexivity|]. destruct x; reflexivity. Qed.

(** C131: fields of a declaration, all with or all without a name, are called
    different names. *)
Theorem C131_fields (n n' : option string) i i' : (n = None <-> n' = None) -> (n = n' -> i = i' \/ n = None) ->
  shown (KLengthIsNotTheSameAsLengthAttribute (var_name n i)) = shown (KLengthIsNotTheSameAsLengthAttribute (var_name n' i')) ->
  n = n' /\ i = i'.
Proof.
  intros Hb Hd E. cbn [shown] in E. apply append_inj_l, append_inj_r in E. destruct n as [n|]; destruct n' as [n'|]; cbn [var_name] in E.
  - subst. destruct (Hd eq_refl); [auto|discriminate].
  - destruct Hb as [_ Hb]. discriminate (Hb eq_refl).
  - destruct Hb as [Hb _]. discriminate (Hb eq_refl).
  - apply append_inj_l in E. split; [reflexivity|]. apply decimal_inj, E.
Qed.

(** The sizes in the texts about buffers, each in its place. *)
Theorem C131_sizes actual expected :
  let sizes := "expected at least " ++ decimal expected ++ " bytes, got " ++ decimal actual in
  shown (KInputBufferIsTooSmall actual expected) = "input buffer is too small; " ++ sizes
  /\ shown (KOutputBufferIsTooSmall actual expected) = "output buffer is too small; " ++ sizes.
Proof. split; reflexivity. Qed.

Print Assumptions C131_tells.
Print Assumptions C131_constants_refuted.
Print Assumptions C131_there_and_back.
Print Assumptions C131_custom.
Print Assumptions C131_source.
Print Assumptions C131_in_short.
Print Assumptions C131_fields.
Print Assumptions C131_sizes.

Example C131_texts :
  shown (KInputBufferIsTooSmall 3 1024) = "input buffer is too small; expected at least 1024 bytes, got 3"
  /\ shown (KExpectedConstant [x00; x01]) = "expected a predefined 2 bytes(s) long constant"
  /\ shown (KLengthIsNotTheSameAsLengthAttribute (var_name None 0)) = "the length of 't0' is not the same as its 'length' attribute"
  /\ shown (KLengthIsNotTheSameAsLengthAttribute (var_name (Some "data") 3)) = "the length of 'data' is not the same as its 'length' attribute"
  /\ into_std KUnexpectedEndOfInput = {| se_kind := IoUnexpectedEof; se_text := "unexpected end of input" |}.
Proof. repeat split. Qed.

(** Errors of streams print what they like, also what the crate prints. *)
Example C131_streams : shown (custom_error "invalid enum variant") = shown KInvalidEnumVariant.
Proof. reflexivity. Qed.
