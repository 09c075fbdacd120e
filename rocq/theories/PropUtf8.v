(* Property C108: which byte strings are text, and which numbers are characters. *)
From Verif Require Import Samples SpecFacts Entry PropUntil PropBulk Spelling.

(** The scalar values of Unicode. *)
Definition unicode (c : N) : Prop := c <= 0xD7FF \/ (0xE000 <= c /\ c <= 0x10FFFF).

(** The characters [cs] one after the other in UTF-8. *)
Inductive spells : list N -> list N -> Prop :=
| spells_nil : spells [] []
| spells_cons c cs b bs : unicode c -> utf8_of c b -> spells cs bs -> spells (c :: cs) (b ++ bs).

(* ------------------------------------------------------------------ *)
(** * The check *)

Lemma scalar_unicode c : is_scalar c = true <-> unicode c.
Proof. unfold is_scalar, unicode. lia. Qed.

Ltac split_range :=
  repeat match goal with
  | H : _ && _ = true |- _ => apply andb_prop in H as [? ?]
  | H : in_range _ _ _ = true |- _ => unfold in_range in H
  | H : is_cont _ = true |- _ => unfold is_cont in H
  | H : (_ <=? _) = true |- _ => apply N.leb_le in H
  end.

Lemma valid_spells n : forall bs, (length bs <= n)%nat -> utf8_valid bs = true -> exists cs, spells cs (map b2n bs).
Proof.
  induction n as [|n IH]; intros bs Hn H.
  { destruct bs; [|cbn in Hn; lia]. exists []. constructor. }
  destruct bs as [|b0 r0]; [exists []; constructor|]. cbn [length] in Hn. cbn [utf8_valid] in H.
  destruct (N.ltb_spec (b2n b0) 0x80) as [H0|H0].
  { destruct (IH r0) as (cs & Hc); [lia|exact H|]. exists (b2n b0 :: cs).
    apply (spells_cons _ _ [b2n b0]); [unfold unicode; lia|constructor; lia|exact Hc]. }
  destruct r0 as [|b1 r1]; [discriminate|]. cbn [length] in Hn.
  destruct (in_range (b2n b0) 0xC2 0xDF) eqn:E0.
  { split_range. destruct (IH r1) as (cs & Hc); [lia|assumption|].
    exists (64 * (b2n b0 - 192) + (b2n b1 - 128) :: cs).
    replace (map b2n (b0 :: b1 :: r1)) with ([192 + (b2n b0 - 192); 128 + (b2n b1 - 128)] ++ map b2n r1)
      by (cbn [map app]; f_equal; [lia|f_equal; lia]).
    constructor; [unfold unicode; lia|constructor; lia|exact Hc]. }
  destruct r1 as [|b2 r2]; [discriminate|]. cbn [length] in Hn.
  destruct (in_range (b2n b0) 0xE0 0xEF) eqn:E1.
  { clear E0. split_range. destruct (IH r2) as (cs & Hc); [lia|assumption|].
    assert (Hb : 128 <= b2n b1 <= 191 /\ (b2n b0 = 224 -> 160 <= b2n b1) /\ (b2n b0 = 237 -> b2n b1 <= 159)).
    { destruct (N.eqb_spec (b2n b0) 0xE0); [|destruct (N.eqb_spec (b2n b0) 0xED)]; split_range; lia. }
    exists (4096 * (b2n b0 - 224) + 64 * (b2n b1 - 128) + (b2n b2 - 128) :: cs).
    replace (map b2n (b0 :: b1 :: b2 :: r2))
      with ([224 + (b2n b0 - 224); 128 + (b2n b1 - 128); 128 + (b2n b2 - 128)] ++ map b2n r2)
      by (cbn [map app]; f_equal; [lia|f_equal; [lia|f_equal; lia]]).
    constructor; [unfold unicode; lia|constructor; lia|exact Hc]. }
  destruct r2 as [|b3 r3]; [discriminate|]. cbn [length] in Hn.
  destruct (in_range (b2n b0) 0xF0 0xF4) eqn:E2; [|discriminate].
  clear E0 E1. split_range. destruct (IH r3) as (cs & Hc); [lia|assumption|].
  assert (Hb : 128 <= b2n b1 <= 191 /\ (b2n b0 = 240 -> 144 <= b2n b1) /\ (b2n b0 = 244 -> b2n b1 <= 143)).
  { destruct (N.eqb_spec (b2n b0) 0xF0); [|destruct (N.eqb_spec (b2n b0) 0xF4)]; split_range; lia. }
  exists (262144 * (b2n b0 - 240) + 4096 * (b2n b1 - 128) + 64 * (b2n b2 - 128) + (b2n b3 - 128) :: cs).
  replace (map b2n (b0 :: b1 :: b2 :: b3 :: r3))
    with ([240 + (b2n b0 - 240); 128 + (b2n b1 - 128); 128 + (b2n b2 - 128); 128 + (b2n b3 - 128)] ++ map b2n r3)
    by (cbn [map app]; f_equal; [lia|f_equal; [lia|f_equal; [lia|f_equal; lia]]]).
  constructor; [unfold unicode; lia|constructor; lia|exact Hc].
Qed.

Lemma map_app_inv {A B} (f : A -> B) l a b : map f l = a ++ b -> exists x y, l = x ++ y /\ map f x = a /\ map f y = b.
Proof. intros H. apply map_eq_app in H as (x & y & -> & <- & <-). eauto. Qed.

Ltac decide_tests :=
  repeat match goal with
  | |- context [?x <? ?y] => destruct (N.ltb_spec x y); try lia
  | |- context [?x =? ?y] => destruct (N.eqb_spec x y); try lia
  | |- context [in_range ?x ?lo ?hi] =>
    first [replace (in_range x lo hi) with true by (unfold in_range; symmetry; apply andb_true_intro; split; apply N.leb_le; lia)
          |replace (in_range x lo hi) with false
             by (unfold in_range; symmetry; apply andb_false_iff;
                 first [left; apply N.leb_gt; lia | right; apply N.leb_gt; lia])]
  | |- context [is_cont ?b] =>
    replace (is_cont b) with true by (unfold is_cont, in_range; symmetry; apply andb_true_intro; split; apply N.leb_le; lia)
  end.

Lemma spells_valid cs l : spells cs l -> forall bs, map b2n bs = l -> utf8_valid bs = true.
Proof.
  induction 1 as [|c cs b bs' Hu Hc _ IH]; intros bs Hb.
  { destruct bs; [reflexivity|discriminate]. }
  apply map_app_inv in Hb as (x & y & -> & Hx & Hy). specialize (IH y Hy). clear Hy.
  unfold unicode in Hu.
  destruct Hc as [a Ha|a b Ha Hb Hl|a b d Ha Hb Hd Hl|a b d w Ha Hb Hd Hw Hl];
    repeat match goal with
    | H : map b2n ?l = _ :: _ |- _ => destruct l as [|? ?]; [discriminate H|]; cbn [map] in H; injection H as ? H
    | H : map b2n ?l = [] |- _ => destruct l as [|? ?]; [|discriminate H]; clear H
    end; cbn [app utf8_valid]; cbv zeta; rewrite ?IH; decide_tests; reflexivity.
Qed.

(** C108: what passes the check is exactly the UTF-8 of sequences of characters: no
    other byte, no shorter or longer form, no surrogates, nothing past the end. *)
Theorem C108_text bs : utf8_valid bs = true <-> exists cs, spells cs (map b2n bs).
Proof.
  split; [apply (valid_spells (length bs)); lia|]. intros (cs & H). exact (spells_valid cs _ H bs eq_refl).
Qed.

Print Assumptions C108_text.

(** C108: no two texts are the same bytes. *)
Theorem C108_unique cs cs' bs : spells cs bs -> spells cs' bs -> cs = cs'.
Proof.
  intros H. revert cs'. induction H as [|c cs b bs Hu Hc _ IH]; intros cs' H'.
  { inversion H' as [|c cs2 b bs Hu Hc Hr Hx Hy]; [reflexivity|]. destruct Hc; discriminate. }
  inversion H' as [|c' cs2 b' bs' Hu' Hc' Hr Hx Hy]; subst.
  { destruct Hc; discriminate. }
  assert (c = c' /\ bs = bs') as [-> ->].
  { destruct Hc, Hc'; cbn [app] in Hy; injection Hy; intros; subst; (split; [lia|reflexivity || (exfalso; lia)]) || (exfalso; lia). }
  f_equal. apply IH. exact Hr.
Qed.

Print Assumptions C108_unique.

(* ------------------------------------------------------------------ *)
(** * Reading *)

Section Text.
  Context (h : host) (VH : valid_host h) (e : endian).
  Notation e6 := (ipv6_order h e).
  Notation decode := (decode (h_lim h) e e6).

  Lemma decode_text k b rest : k <> KRegex -> nlen b < 2 ^ 32 -> nlen b <= h_alloc_max h ->
    decode (TStr k) (word e 4 (nlen b) ++ b ++ rest)
    = if utf8_valid b then DOk (VBytes b) (Some rest) else DBad InvalidUtf8 true.
  Proof.
    intros Hk Hn Ha. unfold Spec.decode. cbn [decl dlen len0]. unfold dbind at 1.
    rewrite (length_first h VH) by exact Hn. unfold dbind, dsized.
    rewrite (vh_fits h VH). rewrite (vh_prim h VH).
    destruct (N.leb_spec (nlen b * N.of_nat (psize U8)) (h_alloc_max h)) as [_|H]; [|cbn in H; lia].
    unfold dunsure. rewrite (dread_app b rest). unfold dstr. destruct (utf8_valid b); [|reflexivity].
    destruct k; try reflexivity. congruence.
  Qed.

  (** C108: a string with its length in front is read as it is if it is the UTF-8 of
      some characters, and is refused if it is not; whatever follows it. *)
  Theorem C108_read k b rest bw r : k <> KRegex -> supported h e bw true LDefault (TStr k) ->
    nlen b < 2 ^ 32 -> nlen b <= h_alloc_max h ->
    reading h e (TStr k) (word e 4 (nlen b) ++ b ++ rest) bw r ->
    ((exists cs, spells cs (map b2n b)) -> r = Ok (VBytes b))
    /\ (~ (exists cs, spells cs (map b2n b)) -> r = Err InvalidUtf8).
  Proof.
    intros Hk Hs Hn Ha Hr.
    destruct (reading_agrees h VH e _ _ _ _ Hs Hr) as [[H _]|H].
    { exfalso. pose proof (prefix_long e (nlen b) (b ++ rest)). cbn [min_bytes] in H. lia. }
    rewrite decode_text in H by assumption. pose proof (C108_text b) as Ht.
    destruct (utf8_valid b); cbn [agrees] in H.
    - split; [intros _; exact H|]. intros Hx. destruct Hx. apply Ht. reflexivity.
    - split; [intros Hx; apply Ht in Hx; discriminate|]. intros _. destruct H as [[H _]|[H _]]; [exact H|discriminate].
  Qed.

  (** C108: and the same to the end of the input. *)
  Theorem C108_read_rest k b bw r : k = KString \/ k = KCowStr \/ (k = KRefStr /\ bw = true) ->
    reading h e (rest_of (TStr k)) b bw r ->
    ((exists cs, spells cs (map b2n b)) -> r = Ok (VSeq [VBytes b]))
    /\ (~ (exists cs, spells cs (map b2n b)) -> r = Err InvalidUtf8).
  Proof.
    intros Hk Hr.
    assert (Hs : supported h e bw true LDefault (rest_of (TStr k))).
    { cbn. split; [|exact I]. right. split; [discriminate|]. split; [apply N.le_0_l|].
      destruct Hk as [-> |[-> |[-> ->]]]; cbn; auto. intros n []. }
    assert (E : decode (rest_of (TStr k)) b = if utf8_valid b then DOk (VSeq [VBytes b]) (Some []) else DBad InvalidUtf8 true).
    { rewrite rest_of_decode by (destruct Hk as [-> |[-> |[-> ->]]]; reflexivity).
      cbn [decl dlen]. unfold dbind, drest, dstr. destruct (utf8_valid b); [|reflexivity].
      destruct Hk as [-> |[-> |[-> ->]]]; reflexivity. }
    destruct (reading_agrees h VH e _ _ _ _ Hs Hr) as [[H _]|H].
    { exfalso. replace (min_bytes h (rest_of (TStr k))) with 0 in H by (destruct Hk as [-> |[-> |[-> ->]]]; reflexivity). lia. }
    rewrite E in H. pose proof (C108_text b) as Ht.
    destruct (utf8_valid b); cbn [agrees] in H.
    - split; [intros _; exact H|]. intros Hx. destruct Hx. apply Ht. reflexivity.
    - split; [intros Hx; apply Ht in Hx; discriminate|]. intros _. destruct H as [[H _]|[H _]]; [exact H|discriminate].
  Qed.

  (** C108: a `char` is read from the number of a character and from no other. *)
  Theorem C108_char n rest bw r : n < 2 ^ 32 -> reading h e (TScalar SChar) (word e 4 n ++ rest) bw r ->
    (unicode n -> r = Ok (VInt (Z.of_N n))) /\ (~ unicode n -> r = Err InvalidChar).
  Proof.
    intros Hn Hr. assert (Hs : supported h e bw true LDefault (TScalar SChar)) by exact I.
    destruct (reading_agrees h VH e _ _ _ _ Hs Hr) as [[H _]|H].
    { exfalso. pose proof (prefix_long e n rest). cbn [min_bytes scalar_min] in H. lia. }
    unfold Spec.decode in H. cbn [decl dec_scalar] in H. unfold dbind in H.
    rewrite (dword_word e 4) in H by (num_pow; lia). pose proof (scalar_unicode n) as Hu.
    destruct (is_scalar n); cbn in H.
    - split; [intros _; exact H|]. intros Hx. destruct Hx. apply Hu. reflexivity.
    - split; [intros Hx; apply Hu in Hx; discriminate|]. intros _. destruct H as [[H _]|[H _]]; [exact H|discriminate].
  Qed.
End Text.

Print Assumptions C108_read.
Print Assumptions C108_read_rest.
Print Assumptions C108_char.

(** "aé€😀", and the same with the last byte missing, an overlong slash, a surrogate
    and a byte that UTF-8 never uses. *)
Definition greeting : bytes := [x61; xc3; xa9; xe2; x82; xac; xf0; x9f; x98; x80].
Example greeting_spells : spells [0x61; 0xE9; 0x20AC; 0x1F600] (map b2n greeting).
Proof.
  apply (spells_cons _ _ [0x61]); [unfold unicode; lia|constructor; lia|].
  apply (spells_cons (64 * 3 + 41) _ [192 + 3; 128 + 41]); [unfold unicode; lia|constructor; lia|].
  apply (spells_cons (4096 * 2 + 64 * 2 + 44) _ [224 + 2; 128 + 2; 128 + 44]); [unfold unicode; lia|constructor; lia|].
  apply (spells_cons (262144 * 0 + 4096 * 31 + 64 * 24 + 0) _ [240 + 0; 128 + 31; 128 + 24; 128 + 0]);
    [unfold unicode; lia|constructor; lia|constructor].
Qed.
Example greeting_read : forall r,
  reading host64 LE (TStr KString) (word LE 4 10 ++ greeting ++ [x07]) false r -> r = Ok (VBytes greeting).
Proof.
  intros r Hr. apply (C108_read host64 host64_valid LE KString greeting [x07] false r); try discriminate; try reflexivity.
  - exact Hr.
  - exists [0x61; 0xE9; 0x20AC; 0x1F600]. exact greeting_spells.
Qed.
Example not_text :
  map (fun b => read_from_buffer host64 LE (TStr KString) 0 (word LE 4 (nlen b) ++ b))
      [[x61; xc3]; [xc0; xaf]; [xed; xa0; x80]; [xff]; [xf4; x90; x80; x80]]
  = [Err InvalidUtf8; Err InvalidUtf8; Err InvalidUtf8; Err InvalidUtf8; Err InvalidUtf8].
Proof. vm_compute. reflexivity. Qed.
Example not_char :
  map (fun n => read_from_buffer host64 BE (TScalar SChar) 0 (word BE 4 n)) [0xD7FF; 0xD800; 0xDFFF; 0xE000; 0x10FFFF; 0x110000]
  = [Ok (VInt 0xD7FF); Err InvalidChar; Err InvalidChar; Ok (VInt 0xE000); Ok (VInt 0x10FFFF); Err InvalidChar].
Proof. vm_compute. reflexivity. Qed.
