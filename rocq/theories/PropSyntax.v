(* Properties C91-C96: from the spelling of a declaration to the generated code. *)
From Verif Require Import Spelling PropField PropErrors Checker Samples Entry.

(* ------------------------------------------------------------------ *)
(** * What is recognised is what is denoted *)

Section Recognised.
  Context (user : spelled -> option rust_ty).
  Notation denote := (denote user).
  Notation kind_types := (kind_types user).

  Lemma prim_named_not p name : prim_named name = Some p -> forall x, prim_named x = None -> (name =? x)%string = false.
  Proof. intros H x Hx. apply String.eqb_neq. intros ->. congruence. Qed.

  Lemma cow_collection u t k : cow_of (denote u) = Some (Sized t) -> parse_cow_collection u = Some k ->
    exists k', kind_types k = Some k' /\ kind_ty k' = t.
  Proof.
    unfold parse_cow_collection. destruct u as [[] [] [|[name args] [|]]| | | | | | | | |]; try discriminate.
    cbn [fst snd]. destruct args as [|[] args|]; try discriminate.
    destruct (name =? "HashSet")%string eqn:E1; [apply String.eqb_eq in E1 as ->|].
    { destruct args as [|[|u| |] [|]]; try discriminate. cbn. intros Hd H. injection H as <-.
      destruct (sized (denote u)) as [t'|] eqn:Eu; [|discriminate]. cbn in *. rewrite Eu. cbn. injection Hd as <-. eauto. }
    destruct (name =? "BTreeSet")%string eqn:E2; [apply String.eqb_eq in E2 as ->|].
    { destruct args as [|[|u| |] [|]]; try discriminate. cbn. intros Hd H. injection H as <-.
      destruct (sized (denote u)) as [t'|] eqn:Eu; [|discriminate]. cbn in *. rewrite Eu. cbn. injection Hd as <-. eauto. }
    destruct (name =? "HashMap")%string eqn:E3; [apply String.eqb_eq in E3 as ->|].
    { destruct args as [|[|u| |] [|[|w| |] [|]]]; try discriminate. cbn. intros Hd H. injection H as <-. cbn.
      destruct (sized (denote u)) as [t1|]; [|discriminate]. destruct (sized (denote w)) as [t2|]; [|discriminate].
      injection Hd as <-. eauto. }
    destruct (name =? "BTreeMap")%string eqn:E4; [apply String.eqb_eq in E4 as ->|discriminate].
    destruct args as [|[|u| |] [|[|w| |] [|]]]; try discriminate. cbn. intros Hd H. injection H as <-. cbn.
    destruct (sized (denote u)) as [t1|]; [|discriminate]. destruct (sized (denote w)) as [t2|]; [|discriminate].
    injection Hd as <-. eauto.
  Qed.

  Lemma bare_denotes u name : is_bare_ty u name = true -> u = bare_name name.
  Proof.
    unfold is_bare_ty. destruct u as [[] [] [|[x args] [|]]| | | | | | | | |]; try discriminate. cbn [fst snd].
    intros H. apply andb_prop in H as [H1 H2]. apply String.eqb_eq in H1 as ->. destruct args; try discriminate. reflexivity.
  Qed.

  Lemma recognised y k t : parse_special_ty y = Some k -> sized (denote y) = Some t ->
    exists k', kind_types k = Some k' /\ kind_ty k' = t.
  Proof.
    unfold parse_special_ty. destruct (parse_primitive_ty y) as [p|] eqn:Ep.
    - intros H. injection H as <-. unfold parse_primitive_ty in Ep.
      destruct y as [[] [] [|[name args] [|]]| | | | | | | | |]; try discriminate. cbn [fst] in Ep.
      assert (En : forall x, prim_named x = None -> (name =? x)%string = false) by exact (prim_named_not p name Ep).
      intros Hd. exists (TyPrimitive p). split; [reflexivity|]. cbn [kind_ty]. cbn [denote] in Hd.
      destruct args as [|tf [|[l|u|x u|ids] [|[l'|w|x' w|ids'] [|]]]|]; rewrite ?Ep, ?En in Hd by reflexivity;
        cbn in Hd; congruence.
    - destruct y as [[] [] [|[name args] [|]]|u|u n|ts|l m u|u|u|u| |ids]; try discriminate.
      + unfold parse_primitive_ty in Ep. cbn [fst snd] in *.
        destruct args as [|[] args|]; try discriminate.
        * destruct (name =? "String")%string eqn:E; [|discriminate]. apply String.eqb_eq in E as ->. intros H. injection H as <-.
          cbn. intros H. injection H as <-. eauto.
        * destruct (name =? "Vec")%string eqn:E1; [apply String.eqb_eq in E1 as ->|].
          { destruct args as [|[|u| |] [|]]; try discriminate. cbn. intros H. injection H as <-. intros Hd. cbn.
            destruct (sized (denote u)) as [t'|]; [|discriminate]. injection Hd as <-. cbn. eauto. }
          destruct (name =? "HashSet")%string eqn:E2; [apply String.eqb_eq in E2 as ->|].
          { destruct args as [|[|u| |] [|]]; try discriminate. cbn. intros H. injection H as <-. intros Hd. cbn.
            destruct (sized (denote u)) as [t'|]; [|discriminate]. injection Hd as <-. cbn. eauto. }
          destruct (name =? "BTreeSet")%string eqn:E3; [apply String.eqb_eq in E3 as ->|].
          { destruct args as [|[|u| |] [|]]; try discriminate. cbn. intros H. injection H as <-. intros Hd. cbn.
            destruct (sized (denote u)) as [t'|]; [|discriminate]. injection Hd as <-. cbn. eauto. }
          destruct (name =? "Cow")%string eqn:E4; [apply String.eqb_eq in E4 as ->|].
          { destruct args as [|[l| | |] [|[|u| |] [|]]]; try discriminate. cbn [extract_lifetime_and_inner_ty].
            intros H Hd. cbn in Hd. destruct (extract_slice_inner_ty u) as [w|] eqn:Es.
            - destruct u as [| w'| | | | | | | |]; try discriminate. injection Es as ->. injection H as <-. cbn in *.
              destruct (denote w) as [[t'| |]|]; try discriminate. cbn in *. injection Hd as <-. eauto.
            - destruct (is_bare_ty u "str") eqn:Eb.
              + apply bare_denotes in Eb as ->. injection H as <-. cbn in *. injection Hd as <-. eauto.
              + apply (cow_collection u t k); [|exact H]. destruct (cow_of (denote u)) as [[]|]; try discriminate.
                cbn in Hd. congruence. }
          destruct (name =? "HashMap")%string eqn:E5; [apply String.eqb_eq in E5 as ->|].
          { destruct args as [|[|u| |] [|[|w| |] [|]]]; try discriminate. cbn. intros H. injection H as <-. intros Hd. cbn.
            destruct (sized (denote u)) as [t1|]; [|discriminate]. destruct (sized (denote w)) as [t2|]; [|discriminate].
            injection Hd as <-. cbn. eauto. }
          destruct (name =? "BTreeMap")%string eqn:E6; [apply String.eqb_eq in E6 as ->|discriminate].
          destruct args as [|[|u| |] [|[|w| |] [|]]]; try discriminate. cbn. intros H. injection H as <-. intros Hd. cbn.
          destruct (sized (denote u)) as [t1|]; [|discriminate]. destruct (sized (denote w)) as [t2|]; [|discriminate].
          injection Hd as <-. cbn. eauto.
      + destruct n as [n []| |]; try discriminate. destruct (n <? 2 ^ 32); [|discriminate]. intros H. injection H as <-.
        cbn. destruct (sized (denote u)) as [t'|]; [|discriminate]. cbn. intros H. injection H as <-. eauto.
      + destruct l as [l|]; [|discriminate]. destruct m; [discriminate|]. cbn [denote].
        destruct (is_bare_ty u "str") eqn:Eb.
        * apply bare_denotes in Eb as ->. intros H. injection H as <-. cbn. intros H. injection H as <-. eauto.
        * destruct (extract_slice_inner_ty u) as [w|] eqn:Es; [|discriminate].
          destruct u as [|w'| | | | | | | |]; try discriminate. injection Es as ->.
          destruct (is_bare_ty w "u8") eqn:E8.
          -- apply bare_denotes in E8 as ->. intros H. injection H as <-. cbn. intros H. injection H as <-. eauto.
          -- intros H. injection H as <-. cbn. destruct (denote w) as [[t'| |]|]; try discriminate. cbn.
             intros H. injection H as <-. eauto.
  Qed.

  Lemma parse_ty_types y t : sized (denote y) = Some t ->
    exists k, kind_types (parse_ty y) = Some k /\ kind_ty k = t /\ (is_opaque k = true <-> parse_special_ty y = None).
  Proof.
    intros Hd. unfold parse_ty. destruct (parse_special_ty y) as [k|] eqn:E.
    - destruct (recognised y k t E Hd) as (k' & H1 & H2). exists k'. repeat split; auto; [|discriminate].
      intros Ho. exfalso. destruct k'; try discriminate. clear H2.
      destruct k as [|a| a| |a b|a|a b|a|a b|a|a b|a| |a| |a n|p|a]; cbn in H1; try discriminate;
        try (destruct (sized (denote a)); try discriminate; destruct (sized (denote b)); discriminate);
        try (destruct (sized (denote a)); discriminate).
      clear - E. unfold parse_special_ty in E. destruct (parse_primitive_ty y); [discriminate|].
      destruct y as [[] [] [|[name args] [|]]|u|u n|ts|l m u|u|u|u| |ids]; try discriminate.
      + cbn [fst snd] in E. destruct args as [|[] args|]; try discriminate.
        * destruct (name =? "String")%string; discriminate.
        * repeat match type of E with
                 | (if ?b then _ else _) = _ => destruct b
                 | omap _ ?o = _ => destruct o; discriminate
                 | match ?o with _ => _ end = _ => destruct o
                 end; try discriminate.
          unfold parse_cow_collection in E.
          repeat match type of E with
                 | (if ?b then _ else _) = _ => destruct b
                 | omap _ ?o = _ => destruct o; discriminate
                 | match ?o with _ => _ end = _ => destruct o
                 end; discriminate.
      + destruct n as [n []| |]; try discriminate. destruct (n <? 2 ^ 32); discriminate.
      + destruct l; [|discriminate]. destruct m; [discriminate|]. destruct (is_bare_ty u "str"); [discriminate|].
        destruct (extract_slice_inner_ty u) as [w|]; [|discriminate]. destruct (is_bare_ty w "u8"); discriminate.
    - exists (TyTy t). cbn. rewrite Hd. cbn. tauto.
  Qed.

  (** A field's type as the macro sees it denotes the field's type. *)
  Lemma field_types y t : sized (denote y) = Some t ->
    exists o, opt_types user (parse_field_ty y) = Some o /\ opt_ty o = t.
  Proof.
    intros Hd. unfold parse_field_ty. destruct (extract_option_inner_ty y) as [u|] eqn:E.
    - unfold extract_option_inner_ty in E. destruct y as [[] [] [|[name args] [|]]| | | | | | | | |]; try discriminate.
      cbn [fst snd] in E. destruct (name =? "Option")%string eqn:En; [|discriminate]. apply String.eqb_eq in En as ->.
      destruct args as [|[] [|[|w| |] [|]]|]; try discriminate. injection E as ->. cbn in Hd.
      destruct (sized (denote u)) as [t'|] eqn:Eu; [|discriminate]. cbn in Hd. injection Hd as <-.
      destruct (parse_ty_types u t' Eu) as (k & H1 & H2 & _). exists (Opt k). cbn. rewrite H1, H2. auto.
    - destruct (parse_ty_types y t Hd) as (k & H1 & H2 & _). exists (Plain k). cbn. rewrite H1. auto.
  Qed.
End Recognised.

(* ------------------------------------------------------------------ *)
(** * C91: the spelling of a field's type does not matter *)

(** A reader that stores as many bytes as it was asked for. *)
Record exact_reader {St} (R : reader St) : Prop := {
  er_read : forall n s b s', rd_read_ptr R n s = (Ok b, s') -> nlen b = n;
  er_borrow : forall f n s b s', rd_borrow R = Some f -> f n s = (Ok b, s') -> nlen (snd b) = n
}.

(** The expression of a `length` attribute has type usize. *)
Definition usize_length (h : host) (a : fattrs) : Prop :=
  match f_len a with LExpr f => forall prev n, f prev = Some n -> n <= l_usize_max (h_lim h) | _ => True end.

Section Code.
  Context (h : host) (VH : valid_host h) (RA : rust_alignment h).

  Lemma u8_size : h_size h (TP U8) = 1.
  Proof. exact (vh_prim h VH U8). Qed.

  Lemma u8_view (b : bytes) : map (mem_read h (TP U8)) (chunks 1 (length b) b) = map (fun x => of_n (b2n x)) b.
  Proof.
    induction b as [|x b IH]; [reflexivity|]. cbn [chunks length map firstn skipn]. rewrite IH. f_equal.
    cbn [mem_read]. unfold of_n. assert (E : of_ne (h_native h) [x] = b2n x).
    { destruct (h_native h); cbn [of_ne rev app le_num]; lia. }
    change (VInt (Z.of_N (of_ne (h_native h) [x])) = VInt (Z.of_N (b2n x))). rewrite E. reflexivity.
  Qed.

  Section Reading.
    Context {St : Type} (R : reader St).

    Lemma cast_u8 n b (s : St) : nlen (snd b) = n -> cast_slice h (TP U8) n b s = ret (VSeq (map (fun x => of_n (b2n x)) (snd b))) s.
    Proof.
      intros Hn. unfold cast_slice. rewrite (ra_byte h RA U8 eq_refl), u8_size, N.mod_1_r, N.eqb_refl.
      change (N.to_nat 1) with 1%nat. rewrite <- Hn. unfold nlen. rewrite Nnat.Nat2N.id.
      assert (E : forall l, forallb (mem_ok h (TP U8)) l = true) by (induction l; [reflexivity|assumption]).
      rewrite E, u8_view. reflexivity.
    Qed.

    Lemma length_bound b s n s' : exact_reader R -> read_length h R b s = (Ok n, s') -> n <= l_usize_max (h_lim h).
    Proof.
      intros ER. pose proof (vh_usize_lo h VH) as Hlo. revert Hlo. num_pow. intros Hlo.
      assert (Hu : forall w s0 s1, read_uint h R w s0 = (Ok n, s1) -> n < 256 ^ N.of_nat w).
      { intros w s0 s1. unfold read_uint, bind. destruct (require R (N.of_nat w) s0) as [[] s2]; try discriminate.
        destruct (rd_read_ptr R (N.of_nat w) s2) as [[d| |] s3] eqn:Ed; try discriminate. unfold ret.
        intros H. injection H as <- _. apply PropErrors.swap_if_lt. rewrite <- (er_read R ER _ _ _ _ Ed).
        destruct (h_native h); cbn [of_ne]; [apply le_num_lt|]. rewrite <- nlen_rev. apply le_num_lt. }
      assert (H8 : forall s0 s1, read_u8 R s0 = (Ok n, s1) -> n < 256).
      { intros s0 s1. unfold read_u8, bind. destruct (require R 1 s0) as [[] s2]; try discriminate.
        destruct (rd_read_ptr R 1 s2) as [[d| |] s3] eqn:Ed; try discriminate. unfold ret.
        intros H. injection H as <- _. pose proof (le_num_lt d) as Hd. rewrite (er_read R ER _ _ _ _ Ed) in Hd. exact Hd. }
      destruct b; cbn [read_length].
      - unfold bind. destruct (read_u8 R s) as [[m| |] s1] eqn:E; try discriminate.
        destruct (0x7F <? m) eqn:E7; [discriminate|]. unfold ret. intros H. injection H as <- _.
        apply N.ltb_ge in E7. lia.
      - intros H. specialize (H8 _ _ H). lia.
      - intros H. specialize (Hu _ _ _ H). revert Hu. num_pow. cbn [N.of_nat]. intros Hu. change (256 ^ N.of_nat 2) with 65536 in Hu. lia.
      - intros H. specialize (Hu _ _ _ H). change (256 ^ N.of_nat 4) with 4294967296 in Hu. lia.
      - unfold bind. destruct (read_uint h R 8 s) as [[m| |] s1] eqn:E; try discriminate.
        destruct (_ <? m) eqn:E7; [discriminate|]. unfold ret. intros H. injection H as <- _.
        apply N.ltb_ge in E7. unfold usize_max in E7. lia.
      - unfold bind. destruct (read_varint h R s) as [[m| |] s1] eqn:E; try discriminate.
        destruct (_ <? m) eqn:E7; [discriminate|]. unfold ret. intros H. injection H as <- _.
        apply N.ltb_ge in E7. unfold usize_max in E7. lia.
    Qed.

    Lemma with_length_ext prev a k1 k2 u1 u2 s : exact_reader R -> usize_length h a ->
      (forall n s', n <= l_usize_max (h_lim h) -> k1 n s' = k2 n s') -> (forall s', u1 s' = u2 s') ->
      with_length h R prev a k1 u1 s = with_length h R prev a k2 u2 s.
    Proof.
      intros ER Hu Hk He. unfold with_length, usize_length in *.
      assert (Hl : forall b, bind (if f_eof a then catch_eof 0 (read_length h R b) else read_length h R b) k1 s
                             = bind (if f_eof a then catch_eof 0 (read_length h R b) else read_length h R b) k2 s).
      { intros b. unfold bind.
        destruct ((if f_eof a then catch_eof 0 (read_length h R b) else read_length h R b) s) as [[n| |] s'] eqn:E; try reflexivity.
        apply Hk. destruct (f_eof a).
        - unfold catch_eof in E. destruct (read_length h R b s) as [[m|er|] s1] eqn:E1; try discriminate.
          + injection E as -> ->. exact (length_bound _ _ _ _ ER E1).
          + destruct (is_eof er); [|discriminate]. injection E as <- _. lia.
        - exact (length_bound _ _ _ _ ER E). }
      destruct (f_len a) as [|b|f|]; try apply Hl.
      - destruct (f prev) as [n|] eqn:Ef; [|reflexivity]. apply Hk. exact (Hu _ _ Ef).
      - apply He.
    Qed.

    Lemma read_kind_same rd prev a k s : (k = TyRefSliceU8 -> exact_reader R) -> usize_length h a -> is_opaque k = false ->
      read_kind h R rd prev a k s = read_field_inner h R rd prev a (f_varint a) (kind_ty k) s.
    Proof.
      intros ER Hu Ho. destruct k; try discriminate; try reflexivity.
      - specialize (ER eq_refl). cbn [read_kind kind_ty read_field_inner]. unfold endianness_guard. rewrite u8_size. cbn [N.eqb negb andb].
        change (bind (ret tt) ?k s) with (k tt s). cbn beta. apply with_length_ext; [exact ER|exact Hu| |].
        + intros n s' Hn. unfold read_ref_slice. rewrite u8_size, N.mul_1_r.
          unfold usize_max. destruct (N.ltb_spec (l_usize_max (h_lim h)) n); [lia|]. unfold bind.
          destruct (borrowed R n s') as [[b| |] s1] eqn:E; try reflexivity. symmetry. apply cast_u8.
          unfold borrowed in E. destruct (rd_borrow R) as [f|] eqn:Ef; [|discriminate]. exact (er_borrow R ER f _ _ _ _ Ef E).
        + intros s'. apply bind_ext. intros b s1. cbn [N.eqb]. symmetry. apply cast_u8. rewrite N.div_1_r. reflexivity.
      - cbn [read_kind kind_ty read_field_inner]. unfold endianness_guard.
        destruct (negb (h_size h t =? 1) && conversion_necessary (h_native h) (rd_endian R)); reflexivity.
    Qed.

    (** The code for a field is that of [read_field]. *)
    Lemma read_body_same prev a o s : (opt_inner o = TyRefSliceU8 -> exact_reader R) -> usize_length h a -> f_opaque a = is_opaque (opt_inner o) ->
      (f_varint a = true -> o = Plain (TyPrimitive U64)) ->
      read_field_body h R (read h R) prev a o s = read_field h R (read h R) prev a (opt_ty o) s.
    Proof.
      intros ER Hu Ho Hv. unfold read_field_body, read_field.
      assert (E : forall s, (match f_prefix a with
                             | [] => match o with
                                     | Plain k => read_kind h R (read h R) prev a k
                                     | Opt k => flag <- read_u8 R;; (if flag =? 0 then ret VNone else mmap VSome (read_kind h R (read h R) prev a k))
                                     end
                             | p => read_constant h R p ;;; match o with
                                     | Plain k => read_kind h R (read h R) prev a k
                                     | Opt k => flag <- read_u8 R;; (if flag =? 0 then ret VNone else mmap VSome (read_kind h R (read h R) prev a k))
                                     end
                             end) s
                          = ((match f_prefix a with [] => ret tt | p => read_constant h R p end) ;;;
                             (if f_opaque a then read h R (opt_ty o) else
                                match opt_ty o with
                                | TOption t' => flag <- read_u8 R;; (if flag =? 0 then ret VNone
                                                 else mmap VSome (read_field_inner h R (read h R) prev a false t'))
                                | _ => read_field_inner h R (read h R) prev a (f_varint a) (opt_ty o)
                                end)) s).
      { assert (B : forall s, (match o with
                               | Plain k => read_kind h R (read h R) prev a k
                               | Opt k => flag <- read_u8 R;; (if flag =? 0 then ret VNone else mmap VSome (read_kind h R (read h R) prev a k))
                               end) s
                              = (if f_opaque a then read h R (opt_ty o) else
                                   match opt_ty o with
                                   | TOption t' => flag <- read_u8 R;; (if flag =? 0 then ret VNone
                                                    else mmap VSome (read_field_inner h R (read h R) prev a false t'))
                                   | _ => read_field_inner h R (read h R) prev a (f_varint a) (opt_ty o)
                                   end) s).
        { clear s. intros s. destruct o as [k|k]; cbn [opt_inner opt_ty] in *.
          - destruct (is_opaque k) eqn:Ek; rewrite Ho.
            + destruct k; try discriminate. reflexivity.
            + rewrite (read_kind_same _ _ _ _ _ ER Hu Ek). destruct k; try discriminate; reflexivity.
          - assert (Ev : f_varint a = false) by (destruct (f_varint a); [discriminate (Hv eq_refl)|reflexivity]).
            destruct (is_opaque k) eqn:Ek; rewrite Ho.
            + destruct k; try discriminate. reflexivity.
            + apply bind_ext. intros flag s'. destruct (flag =? 0); [reflexivity|]. apply mmap_ext.
              rewrite (read_kind_same _ _ _ _ _ ER Hu Ek), Ev. reflexivity. }
        clear s. intros s. destruct (f_prefix a) as [|c p].
        - rewrite B. reflexivity.
        - apply bind_ext. intros [] s'. apply B. }
      destruct (f_eof a).
      - unfold catch_eof. rewrite E. reflexivity.
      - apply E.
    Qed.
  End Reading.

  Section Writing.
    Context {St : Type} (W : writer St).

    Lemma write_kind_same wr prev a k v s : is_opaque k = false ->
      write_kind h W wr prev a k v s = write_field_inner h W wr prev (f_len a) (f_varint a) (kind_ty k) v s.
    Proof. intros Ho. destruct k; try discriminate; reflexivity. Qed.

    Lemma write_body_same prev a o v s : f_opaque a = is_opaque (opt_inner o) ->
      (f_varint a = true -> o = Plain (TyPrimitive U64)) ->
      write_field_body h W (write h W) prev a o v s = write_field h W (write h W) prev a (opt_ty o) v s.
    Proof.
      intros Ho Hv. unfold write_field_body, write_field.
      assert (B : forall s, (match o with
                             | Plain k => write_kind h W (write h W) prev a k v
                             | Opt k => match v with
                                        | VSome u => wr_u8 W 1 ;;; write_kind h W (write h W) prev a k u
                                        | VNone => wr_u8 W 0
                                        | _ => ill
                                        end
                             end) s
                            = (if f_opaque a then write h W (opt_ty o) v else
                                 match opt_ty o with
                                 | TOption t' => match v with
                                                 | VSome u => wr_u8 W 1 ;;; write_field_inner h W (write h W) prev (f_len a) false t' u
                                                 | VNone => wr_u8 W 0
                                                 | _ => ill
                                                 end
                                 | _ => write_field_inner h W (write h W) prev (f_len a) (f_varint a) (opt_ty o) v
                                 end) s).
      { clear s. intros s. destruct o as [k|k]; cbn [opt_inner opt_ty] in *.
        - destruct (is_opaque k) eqn:Ek; rewrite Ho.
          + destruct k; try discriminate. reflexivity.
          + rewrite (write_kind_same _ _ _ _ _ _ Ek). destruct k; try discriminate; reflexivity.
        - assert (Ev : f_varint a = false) by (destruct (f_varint a); [discriminate (Hv eq_refl)|reflexivity]).
          destruct (is_opaque k) eqn:Ek; rewrite Ho.
          + destruct k; try discriminate. destruct v; reflexivity.
          + destruct v; try reflexivity. apply bind_ext. intros [] s'. rewrite (write_kind_same _ _ _ _ _ _ Ek), Ev. reflexivity. }
      destruct (f_prefix a) as [|c p].
      - rewrite B. reflexivity.
      - apply bind_ext. intros [] s'. apply B.
    Qed.
  End Writing.

  Lemma minimum_same a o : f_opaque a = is_opaque (opt_inner o) -> (f_varint a = true -> o = Plain (TyPrimitive U64)) ->
    match get_minimum_bytes (min_bytes h) a o (opt_ty o) with Some n => n | None => 0 end
    = field_min (min_bytes h) (a, opt_ty o).
  Proof.
    intros Ho Hv. unfold get_minimum_bytes, field_min. cbn [fst snd].
    assert (E : match f_len a with LExpr _ | LEof => true | _ => false end
                = negb match f_len a with LDefault | LType _ => true | _ => false end) by (destruct (f_len a); reflexivity).
    rewrite E. destruct (_ || _ || _); [reflexivity|].
    assert (B : match o with
                | Opt _ => 1
                | Plain k =>
                  match k with
                  | TyArray t n => min_bytes h t * n
                  | TyPrimitive _ => if f_varint a then 1 else min_bytes h (opt_ty o)
                  | TyTy _ => min_bytes h (opt_ty o)
                  | _ => match (match f_len a with LType b => b | _ => BU32 end) with
                         | BU7 | BU8 | BVarint => 1 | BU16 => 2 | BU32 => 4 | BU64 => 8
                         end
                  end
                end
                = (if f_opaque a then min_bytes h (opt_ty o)
                   else match opt_ty o with
                        | TOption _ => 1
                        | TArr t n => min_bytes h t * N.of_nat n
                        | _ => if is_container (opt_ty o) then basic_size (length_type (f_len a))
                               else if f_varint a then 1 else min_bytes h (opt_ty o)
                        end)).
    { rewrite Ho. destruct o as [k|k]; cbn [opt_inner opt_ty].
      - destruct k; try reflexivity. cbn [kind_ty is_opaque]. rewrite Nnat.N2Nat.id. reflexivity.
      - destruct (is_opaque k); reflexivity. }
    rewrite <- B. destruct (f_prefix a); [rewrite N.add_0_r|]; reflexivity.
  Qed.
End Code.

(** The type is an array, or an optional one. *)
Definition is_array (t : ty) : bool := match t with TArr _ _ | TOption (TArr _ _) => true | _ => false end.

(** The type is `&[u8]`, or an optional one. *)
Definition is_byte_view (t : ty) : bool := match t with TSeq KRef (TScalar (SPrim U8)) | TOption (TSeq KRef (TScalar (SPrim U8))) => true | _ => false end.

Definition set_opaque (b : bool) (a : fattrs) : fattrs :=
  {| f_eof := f_eof a; f_skip := f_skip a; f_varint := f_varint a; f_opaque := b; f_len := f_len a;
     f_prefix := f_prefix a; f_default := f_default a |}.

Lemma kind_view k : opt_inner k = TyRefSliceU8 -> is_byte_view (opt_ty k) = true.
Proof. destruct k as [k|k]; cbn [opt_inner]; intros ->; reflexivity. Qed.

Lemma array_kind a k : is_array (opt_ty k) = false -> array_field a (opt_ty k) = None.
Proof.
  unfold array_field, is_array. destruct (f_opaque a); [reflexivity|].
  destruct (opt_ty k) as [| | | | | t| | | | | | | | |]; try reflexivity; try discriminate. destruct t; try reflexivity. discriminate.
Qed.

Section C91.
  Context (user : spelled -> option rust_ty) (h : host).

  (** C91, reading: however the type of a field without attributes is spelled, the code
      generated for it does what the type's own implementation does, on every reader in
      every state.  (For `&[u8]` the reader has to store as many bytes as it was asked
      for; arrays: see C26.) *)
  Theorem C91_read y t : valid_host h -> rust_alignment h -> sized (denote user y) = Some t -> is_array t = false ->
    exists o, opt_types user (parse_field_ty y) = Some o
      /\ forall St (R : reader St) prev a s, (is_byte_view t = true -> exact_reader R) -> bare a ->
         read_field_body h R (read h R) prev a o s = read h R t s.
  Proof.
    intros VH RA Hd Ha. destruct (field_types user y t Hd) as (o & Ho & Et). exists o. split; [exact Ho|].
    intros St R prev a s ER Hb. set (a' := set_opaque (is_opaque (opt_inner o)) a).
    assert (Hb' : bare a') by exact Hb.
    change (read_field_body h R (read h R) prev a o s) with (read_field_body h R (read h R) prev a' o s).
    rewrite (read_body_same h VH RA R).
    - rewrite Et. apply C26_read; [exact Hb'|]. rewrite <- Et in *. apply array_kind, Ha.
    - intros E. apply ER. rewrite <- Et. apply kind_view, E.
    - destruct Hb' as (_ & _ & _ & Hl & _). unfold usize_length. rewrite Hl. exact I.
    - reflexivity.
    - destruct Hb' as (_ & _ & Hv & _). rewrite Hv. discriminate.
  Qed.

  (** Writing. *)
  Theorem C91_write y t : sized (denote user y) = Some t -> is_array t = false ->
    exists o, opt_types user (parse_field_ty y) = Some o
      /\ forall St (W : writer St) prev a v s, bare a ->
         write_field_body h W (write h W) prev a o v s = write h W t v s.
  Proof.
    intros Hd Ha. destruct (field_types user y t Hd) as (o & Ho & Et). exists o. split; [exact Ho|].
    intros St W prev a v s Hb. set (a' := set_opaque (is_opaque (opt_inner o)) a).
    assert (Hb' : bare a') by exact Hb.
    change (write_field_body h W (write h W) prev a o v s) with (write_field_body h W (write h W) prev a' o v s).
    rewrite (write_body_same h W).
    - rewrite Et. apply C26_write; [exact Hb'|]. rewrite <- Et in *. apply array_kind, Ha.
    - reflexivity.
    - destruct Hb' as (_ & _ & Hv & _). rewrite Hv. discriminate.
  Qed.

  (** The minimum length announced for the field is that of its type. *)
  Theorem C91_minimum y t : sized (denote user y) = Some t ->
    exists o, opt_types user (parse_field_ty y) = Some o
      /\ forall a, bare a -> get_minimum_bytes (min_bytes h) a o t = Some (min_bytes h t).
  Proof.
    intros Hd. destruct (field_types user y t Hd) as (o & Ho & Et). exists o. split; [exact Ho|].
    intros a (He & Hs & Hv & Hl & Hp). unfold get_minimum_bytes. rewrite He, Hs, Hl, Hp, Hv. cbn [orb]. f_equal.
    subst t. destruct o as [k|k]; [|reflexivity]. destruct k; try reflexivity.
    cbn [opt_ty kind_ty min_bytes]. rewrite Nnat.N2Nat.id. reflexivity.
  Qed.
End C91.

(** The readers over buffers store what they are asked for. *)
Lemma buffer_exact e : exact_reader (BufferReader e).
Proof.
  constructor.
  - cbn [BufferReader rd_read_ptr]. intros n s b s'. unfold br_read. destruct (N.leb_spec n (nlen (br_rest s))); [|discriminate].
    intros H'. injection H' as <- _. rewrite nlen_take. lia.
  - cbn [BufferReader rd_borrow]. intros f n s b s' Hf. injection Hf as <-. unfold br_borrow.
    destruct (N.leb_spec n (nlen (br_rest s))); [|discriminate]. intros H'. injection H' as <- _. cbn [snd]. rewrite nlen_take. lia.
Qed.

Print Assumptions C91_read.
Print Assumptions C91_write.
Print Assumptions C91_minimum.

(** Five ways to spell `Option<Vec<u8>>`, only the first recognised in full. *)
Definition vec_u8 : spelled := name_with "Vec" [GType (bare_name "u8")].
Definition long_vec : spelled := YPath false false [("std", NoArgs); ("vec", NoArgs); ("Vec", Angle false [GType (bare_name "u8")])].
Definition spellings : list spelled :=
  [name_with "Option" [GType vec_u8]; name_with "Option" [GType long_vec]; name_with "Option" [GType (YParen vec_u8)];
   YGroup (name_with "Option" [GType vec_u8]); YPath false false [("Option", Angle true [GType vec_u8])]].
Definition std_paths (y : spelled) : option rust_ty :=
  match y with
  | YPath false false [("std"%string, NoArgs); ("vec"%string, NoArgs); ("Vec"%string, Angle false [GType u])] =>
    match parse_primitive_ty u with Some p => Some (Sized (TSeq KVec (TP p))) | None => None end
  | _ => None
  end.
Example C91_same : Forall (fun y => sized (denote std_paths y) = Some (TOption (TSeq KVec (TP U8)))) spellings.
Proof. repeat constructor. Qed.
Example C91_differ : map (fun y => match parse_field_ty y with Opt (TyVec _) => 0 | Opt _ => 1 | Plain _ => 2 end) spellings = [0; 1; 1; 2; 2].
Proof. reflexivity. Qed.

(* ------------------------------------------------------------------ *)
(** * C92: declarations as spelled are those of the model *)

Section C92.
  Context (user : spelled -> option rust_ty) (eval : sexpr -> list (option Z) -> option N).

  (** The description of a field that Derive.v starts from: its attributes, its type,
      and whether the type, or the one inside an `Option`, is not recognised. *)
  Definition describes (f : sfield) (r : rfield) : Prop :=
    parse_field_attrs eval (sf_attrs f) = Parsed (rf_attrs r)
    /\ sized (denote user (sf_ty f)) = Some (rf_ty r)
    /\ rf_opaque r = is_opaque (opt_inner (parse_field_ty (sf_ty f)))
    /\ rf_default r = sf_default f.

  (** The types behind what the macro makes of a field. *)
  Definition typed (d : field) (f : tfield) : Prop :=
    fd_attrs d = tf_attrs f /\ opt_types user (fd_kind d) = Some (tf_kind f)
    /\ sized (denote user (fd_raw d)) = Some (tf_raw f).

  (** What the code relies on. *)
  Definition sound_field (f : tfield) : Prop :=
    opt_ty (tf_kind f) = tf_raw f /\ f_opaque (tf_attrs f) = is_opaque (opt_inner (tf_kind f))
    /\ (f_varint (tf_attrs f) = true -> tf_kind f = Plain (TyPrimitive U64)).

  Lemma kind_opaque k k' : kind_types user k = Some k' -> is_opaque k' = is_opaque k /\ is_sequence k' = is_sequence k.
  Proof.
    destruct k as [|a|a| |a b|a|a b|a|a b|a|a b|a| |a| |a n|p|a]; cbn [kind_types];
      try (intros H; injection H as <-; split; reflexivity);
      try (destruct (sized (denote user a)); [|discriminate]; cbn [omap]; intros H; injection H as <-; split; reflexivity);
      (destruct (sized (denote user a)); [|discriminate]; destruct (sized (denote user b)); [|discriminate];
       intros H; injection H as <-; split; reflexivity).
  Qed.

  Lemma sequence_container (k : kind ty) : is_opaque k = false -> is_container (kind_ty k) = is_sequence k.
  Proof. destruct k; try discriminate; reflexivity. Qed.

  Lemma kind_primitive k p : kind_types user k = Some (TyPrimitive p) -> k = TyPrimitive p.
  Proof.
    destruct k as [|a|a| |a b|a|a b|a|a b|a|a b|a| |a| |a n|p'|a]; cbn [kind_types]; try discriminate;
      try (destruct (sized (denote user a)); discriminate);
      try (destruct (sized (denote user a)); [|discriminate]; destruct (sized (denote user b)); discriminate).
    intros H. injection H as <-. reflexivity.
  Qed.

  Lemma special_primitive y p : parse_special_ty y = Some (TyPrimitive p) -> parse_primitive_ty y = Some p.
  Proof.
    unfold parse_special_ty. destruct (parse_primitive_ty y); [intros H; injection H as <-; reflexivity|]. intros E. exfalso.
    destruct y as [[] [] [|[name args] [|]]|u|u n|ts|l m u|u|u|u| |ids]; try discriminate.
    - cbn [fst snd] in E. destruct args as [|[] args|]; try discriminate.
      + destruct (name =? "String")%string; discriminate.
      + repeat match type of E with
               | (if ?b then _ else _) = _ => destruct b
               | omap _ ?o = _ => destruct o; discriminate
               | match ?o with _ => _ end = _ => destruct o
               end; try discriminate.
        unfold parse_cow_collection in E.
        repeat match type of E with
               | (if ?b then _ else _) = _ => destruct b
               | omap _ ?o = _ => destruct o; discriminate
               | match ?o with _ => _ end = _ => destruct o
               end; discriminate.
    - destruct n as [n []| |]; try discriminate. destruct (n <? 2 ^ 32); discriminate.
    - destruct l; [|discriminate]. destruct m; [discriminate|]. destruct (is_bare_ty u "str"); [discriminate|].
      destruct (extract_slice_inner_ty u) as [w|]; [|discriminate]. destruct (is_bare_ty w "u8"); discriminate.
  Qed.

  Section Field.
    Context (f : sfield) (r : rfield) (o : opt (kind ty)).
    Context (Hr : describes f r) (Ho : opt_types user (parse_field_ty (sf_ty f)) = Some o) (Et : opt_ty o = rf_ty r).

    Lemma same_opaque : is_opaque (opt_inner o) = rf_opaque r.
    Proof.
      destruct Hr as (_ & _ & Hop & _). rewrite Hop. clear - Ho. destruct (parse_field_ty (sf_ty f)) as [k|k]; cbn in Ho;
        destruct (kind_types user k) as [k'|] eqn:E; try discriminate; injection Ho as <-; apply (kind_opaque k k' E).
    Qed.

    Lemma same_varint : (match parse_primitive_ty (sf_ty f) with Some U64 => true | _ => false end)
                        = negb (rf_opaque r) && is_u64 (rf_ty r).
    Proof.
      pose proof same_opaque as Hop. destruct Hr as (_ & Hd & _ & _).
      destruct (parse_primitive_ty (sf_ty f)) as [p|] eqn:Ep.
      - assert (E : parse_field_ty (sf_ty f) = Plain (TyPrimitive p)).
        { unfold parse_field_ty. assert (En : extract_option_inner_ty (sf_ty f) = None).
          { unfold parse_primitive_ty, extract_option_inner_ty in *. destruct (sf_ty f) as [[] [] [|[name args] [|]]| | | | | | | | |]; try reflexivity.
            cbn [fst snd] in *. rewrite (prim_named_not p name Ep "Option") by reflexivity. reflexivity. }
          rewrite En. unfold parse_ty, parse_special_ty. rewrite Ep. reflexivity. }
        rewrite E in Ho. injection Ho as <-. cbn [opt_ty kind_ty opt_inner is_opaque] in *. rewrite <- Hop, <- Et.
        destruct p; reflexivity.
      - symmetry. apply Bool.not_true_is_false. intros H. apply andb_prop in H as [H1 H2].
        rewrite <- Hop in H1. destruct o as [k|k]; cbn [opt_inner opt_ty] in *; rewrite <- Et in H2; [|discriminate].
        destruct k; try discriminate. cbn in H2. destruct p; try discriminate.
        unfold parse_field_ty in Ho. destruct (extract_option_inner_ty (sf_ty f)).
        + cbn in Ho. destruct (kind_types user (parse_ty _)); discriminate.
        + cbn in Ho. destruct (kind_types user (parse_ty (sf_ty f))) as [k|] eqn:Ek; [|discriminate].
          injection Ho as ->. apply kind_primitive in Ek. unfold parse_ty in Ek.
          destruct (parse_special_ty (sf_ty f)) eqn:Es; [|discriminate]. subst k. apply special_primitive in Es. congruence.
    Qed.

    Lemma same_attrs l s : sadd_attrs (sf_ty f) l s = add_attrs r l s.
    Proof.
      pose proof same_varint as Hv. revert s. induction l as [|a l IH]; intros s; [reflexivity|]. cbn [sadd_attrs add_attrs].
      assert (E : sadd_attr (sf_ty f) a s = add_attr r a s).
      { destruct a; cbn [sadd_attr add_attr]; try reflexivity. rewrite <- Hv.
        destruct (parse_primitive_ty (sf_ty f)) as [[]|]; reflexivity. }
      rewrite E. destruct (add_attr r a s) as [s'|]; [apply IH|reflexivity].
    Qed.

    Lemma same_sequence : length_allowed r = match parse_field_ty (sf_ty f) with Plain k => is_sequence k | Opt _ => false end
                          /\ length_type_allowed r = is_sequence (opt_inner (parse_field_ty (sf_ty f))).
    Proof.
      pose proof same_opaque as Hop. unfold length_allowed, length_type_allowed. rewrite <- Hop, <- Et. clear Hr.
      destruct (parse_field_ty (sf_ty f)) as [k|k]; cbn in Ho; destruct (kind_types user k) as [k'|] eqn:Ek; try discriminate;
        injection Ho as <-; destruct (kind_opaque k k' Ek) as [H1 H2]; cbn [opt_inner opt_ty] in *; rewrite <- H2.
      - destruct (is_opaque k') eqn:Eo; [destruct k'; try discriminate; split; reflexivity|].
        rewrite sequence_container by exact Eo. split; [reflexivity|]. destruct k'; try discriminate; reflexivity.
      - cbn [is_container]. rewrite Bool.andb_false_r. split; [reflexivity|].
        destruct (is_opaque k') eqn:Eo; [destruct k'; try discriminate; reflexivity|]. apply sequence_container, Eo.
    Qed.

    Lemma same_finish s : add_attrs r (rf_attrs r) no_attrs = Some s ->
      match finish_field f s with
      | Some d => get_field r = Some (fd_attrs d, rf_ty r) /\ fd_kind d = parse_field_ty (sf_ty f) /\ fd_raw d = sf_ty f
                  /\ f_opaque (fd_attrs d) = is_opaque (opt_inner o) /\ f_varint (fd_attrs d) = as_varint s
      | None => get_field r = None
      end.
    Proof.
      intros Hs. unfold get_field. rewrite Hs. unfold finish_field. destruct same_sequence as [H1 H2]. rewrite H1, H2.
      pose proof same_opaque as Hop. destruct Hr as (_ & _ & Hopr & Hdef).
      destruct (as_length s) as [lm|], (as_type s) as [b|]; try reflexivity;
        repeat match goal with |- context [match parse_field_ty (sf_ty f) with Plain _ => _ | Opt _ => _ end] => destruct (parse_field_ty (sf_ty f)) end;
        repeat match goal with |- context [if ?b then _ else _] => destruct b end; try reflexivity;
        cbn [fd_attrs fd_kind fd_raw f_opaque f_varint]; rewrite ?Hdef, ?Hop, <- ?Hopr; auto.
    Qed.

    Lemma varint_only s : add_attrs r (rf_attrs r) no_attrs = Some s -> as_varint s = true -> o = Plain (TyPrimitive U64).
    Proof.
      intros Hs Hv. assert (Hvr : negb (rf_opaque r) && is_u64 (rf_ty r) = true).
      { revert Hs Hv. assert (H0 : as_varint no_attrs = true -> negb (rf_opaque r) && is_u64 (rf_ty r) = true) by discriminate.
        revert H0. generalize no_attrs as s0. generalize (rf_attrs r) as l.
        induction l as [|a l IH]; intros s0 H0; cbn [add_attrs]; [intros H; injection H as <-; exact H0|].
        destruct (add_attr r a s0) as [s1|] eqn:E; [|discriminate]. apply IH. clear - H0 E.
        destruct a; cbn [add_attr] in E;
          repeat match type of E with
                 | (if ?b then _ else _) = _ => let E' := fresh in destruct b eqn:E'
                 | match ?x with _ => _ end = _ => destruct x
                 end; try discriminate; injection E as <-; auto. }
      apply andb_prop in Hvr as [H1 H2]. rewrite <- same_opaque in H1. rewrite <- Et in H2. destruct o as [k|k]; [|discriminate].
      cbn [opt_ty opt_inner] in *. destruct k; try discriminate. destruct p; try discriminate. reflexivity.
    Qed.
  End Field.

  (** C92: a declaration is accepted exactly if Derive.v accepts its description, and
      then both agree on attributes and types. *)
  Lemma accepted_from seen l rs : Forall2 describes l rs ->
    match parse_fields_from eval seen l with
    | Parsed ds => exists fs, Forall2 typed ds fs /\ Forall sound_field fs
                   /\ get_fields_from seen rs = Some (map (fun f => (tf_attrs f, tf_raw f)) fs)
    | _ => get_fields_from seen rs = None
    end.
  Proof.
    intros H. revert seen. induction H as [|f r l rs Hr _ IH]; intros seen.
    - exists []. auto.
    - cbn [parse_fields_from get_fields_from]. destruct seen; [reflexivity|].
      destruct (field_types user (sf_ty f) (rf_ty r)) as (o & Ho & Et); [apply Hr|].
      unfold parse_field. pose proof (proj1 Hr) as Ha. rewrite Ha, (same_attrs f r o Hr Ho Et).
      destruct (add_attrs r (rf_attrs r) no_attrs) as [s|] eqn:Es; [|unfold get_field; rewrite Es; reflexivity].
      pose proof (same_finish f r o Hr Ho Et s Es) as Hf. destruct (finish_field f s) as [d|]; [|rewrite Hf; reflexivity].
      destruct Hf as (Hg & Hk & Hraw & Hop & Hv). rewrite Hg. specialize (IH (is_until_eof (fd_attrs d))).
      destruct (parse_fields_from eval (is_until_eof (fd_attrs d)) l) as [ds| |]; [|rewrite IH; reflexivity..].
      destruct IH as (fs & IH1 & IH2 & IH3). rewrite IH3.
      exists ({| tf_attrs := fd_attrs d; tf_kind := o; tf_raw := rf_ty r |} :: fs). split; [|split; [|reflexivity]].
      + constructor; [|exact IH1]. split; [reflexivity|]. cbn [tf_kind tf_raw]. rewrite Hk, Hraw. split; [exact Ho|apply Hr].
      + constructor; [|exact IH2]. split; [exact Et|]. split; [exact Hop|]. cbn [tf_attrs tf_kind]. rewrite Hv.
        exact (varint_only f r o Hr Ho Et s Es).
  Qed.

  Theorem C92_accepted l rs : Forall2 describes l rs ->
    match parse_fields eval l with
    | Parsed ds => exists fs, Forall2 typed ds fs /\ Forall sound_field fs
                   /\ get_fields rs = Some (map (fun f => (tf_attrs f, tf_raw f)) fs)
    | _ => get_fields rs = None
    end.
  Proof. apply accepted_from. Qed.

End C92.

Section C92_code.
  Context (h : host).
  Notation model f := (tf_attrs f, tf_raw f).

  (** The code generated for the fields is that of the model of structs: reading, *)
  Theorem C92_read fs : valid_host h -> rust_alignment h -> Forall sound_field fs -> Forall (fun f => usize_length h (tf_attrs f)) fs ->
    forall St (R : reader St), (Exists (fun f => is_byte_view (tf_raw f) = true) fs -> exact_reader R) ->
    forall prev s, readable_body h R (read h R) prev fs s
                   = read_fields h R (read h R) prev (map (fun f => model f) fs) s.
  Proof.
    intros VH RA Hs Hu St R ER. induction fs as [|f fs IH]; intros prev s; [reflexivity|].
    inversion_clear Hs as [|? ? Hf Hs']. inversion_clear Hu as [|? ? Hl Hu'].
    cbn [readable_body read_fields map fst snd]. specialize (IH Hs' Hu').
    assert (ER' : Exists (fun f => is_byte_view (tf_raw f) = true) fs -> exact_reader R) by (intros H; apply ER; right; exact H).
    specialize (IH ER'). destruct (f_skip (tf_attrs f)).
    - unfold mmap, bind. fold (readable_body h R (read h R)). fold (read_fields h R (read h R)). rewrite IH. reflexivity.
    - destruct Hf as (Ht & Ho & Hv). unfold bind at 1 3. rewrite (read_body_same h VH RA R); auto.
      + rewrite Ht. destruct (read_field h R (read h R) prev (tf_attrs f) (tf_raw f) s) as [[v| |] s']; try reflexivity.
        fold (readable_body h R (read h R)). fold (read_fields h R (read h R)). unfold bind. rewrite IH. reflexivity.
      + intros E. apply ER. left. rewrite <- Ht. apply kind_view, E.
  Qed.

  (** writing, *)
  Theorem C92_write fs : Forall sound_field fs ->
    forall St (W : writer St) prev vs s, writable_body h W (write h W) prev fs vs s
                                         = write_fields h W (write h W) prev (map (fun f => model f) fs) vs s.
  Proof.
    intros Hs St W. induction fs as [|f fs IH]; intros prev vs s; [reflexivity|].
    inversion_clear Hs as [|? ? Hf Hs']. cbn [writable_body write_fields map fst snd]. specialize (IH Hs').
    destruct vs as [|v vs]; [reflexivity|]. destruct (f_skip (tf_attrs f)); [apply IH|].
    destruct Hf as (Ht & Ho & Hv). unfold bind. rewrite (write_body_same h W) by auto. rewrite Ht.
    destruct (write_field h W (write h W) prev (tf_attrs f) (tf_raw f) v s) as [[[]| |] s']; try reflexivity. apply IH.
  Qed.

  (** and the announced minimum. *)
  Theorem C92_minimum fs d : Forall sound_field fs ->
    minimum_sum (min_bytes h) fs = min_bytes h (TStruct d (map (fun f => model f) fs)).
  Proof.
    intros Hs. cbn [min_bytes]. unfold minimum_sum, nsum. induction fs as [|f fs IH]; [reflexivity|].
    inversion_clear Hs as [|? ? Hf Hs']. destruct Hf as (Ht & Ho & Hv). cbn [flat_map map fold_right].
    rewrite <- (IH Hs'). rewrite <- Ht, <- (minimum_same h (tf_attrs f) (tf_kind f) Ho Hv), Ht.
    destruct (get_minimum_bytes (min_bytes h) (tf_attrs f) (tf_kind f) (tf_raw f)); [reflexivity|]. reflexivity.
  Qed.
End C92_code.

Print Assumptions C92_accepted.
Print Assumptions C92_read.
Print Assumptions C92_write.
Print Assumptions C92_minimum.

(* ------------------------------------------------------------------ *)
(** * C93: the bounds of the generated impls *)

(** A type that is found not to use any of the names uses none. *)
Theorem C93_generic gs x y : possibly_uses_generic_ty gs y = false -> In x gs -> ~ occurs x y.
Proof.
  intros Hf Hx Ho. assert (Ht : possibly_uses_generic_ty gs y = true); [|congruence]. clear Hf.
  assert (Hn : named gs x = true) by (apply existsb_exists; exists x; split; [exact Hx|apply String.eqb_refl]).
  induction Ho as [q c l args Hi|c l|q c l name tf args u Hi Ha _ IH|q c l name tf args z u Hi Ha _ IH
                  |q c l name tf args ids Hi Ha _|q c l name ids Hi _|u _ IH|u n _ IH|u ids _|l u Hi _ IH
                  |l m u _ IH|u _ IH|u _ IH|u _ IH|ids _]; cbn [possibly_uses_generic_ty]; try exact IH; try reflexivity;
    try (destruct q; [reflexivity|]; destruct c; [reflexivity|]; apply existsb_exists; eexists; split; [exact Hi|]; cbn [fst snd];
         apply Bool.orb_true_iff).
  - left. exact Hn.
  - right. apply existsb_exists. eexists; split; [exact Ha|exact IH].
  - right. apply existsb_exists. eexists; split; [exact Ha|exact IH].
  - right. apply existsb_exists. eexists; split; [exact Ha|reflexivity].
  - right. reflexivity.
  - rewrite IH. reflexivity.
  - apply Bool.orb_true_r.
  - apply existsb_exists. eexists; split; [exact Hi|exact IH].
Qed.

(** The types whose implementations exist whatever the parameters are: numbers, and
    what is spelled without naming a parameter; and those a list of bounds promises. *)
Definition available (user : spelled -> option rust_ty) (g : sgenerics) (bounds : list spelled) (t : ty) : Prop :=
  (exists p, t = TP p)
  \/ exists u, sized (denote user u) = Some t
       /\ (In u bounds \/ forall x, In x (sg_types g) -> ~ occurs x u).

(** No optional field of an unrecognised type. *)
Definition no_opaque_option (d : field) : Prop := match fd_kind d with Opt (TyTy _) => False | _ => True end.

Section C93.
  Context (user : spelled -> option rust_ty) (g : sgenerics).

  Lemma promised tr (types : list spelled) u t : (tr = ForReadable \/ tr = ForWritable) -> In u types ->
    sized (denote user u) = Some t -> available user g (constraints g tr types) t.
  Proof.
    intros Htr Hu Hd. right. exists u. split; [exact Hd|]. destruct (possibly_uses_generic_ty (sg_types g) u) eqn:E.
    - left. apply filter_In. split; [exact Hu|]. destruct Htr as [-> | ->]; exact E.
    - right. intros x. apply C93_generic, E.
  Qed.

  (** The implementations the code of a field uses. *)
  Definition used (o : opt (kind ty)) : list ty :=
    match opt_inner o with
    | TyVec t | TyCowSlice t | TyHashSet t | TyBTreeSet t | TyCowHashSet t | TyCowBTreeSet t | TyRefSlice t | TyArray t _ | TyTy t => [t]
    | TyHashMap k v | TyBTreeMap k v | TyCowHashMap k v | TyCowBTreeMap k v => [k; v]
    | TyRefSliceU8 => [TP U8]
    | TyPrimitive p => [TP p]
    | TyString | TyCowStr | TyRefStr => []
    end.

  Lemma read_uses h St (R : reader St) rd1 rd2 prev a o : (forall t, In t (used o) -> rd1 t = rd2 t) ->
    read_field_body h R rd1 prev a o = read_field_body h R rd2 prev a o.
  Proof.
    intros H. unfold read_field_body.
    assert (E : read_kind h R rd1 prev a (opt_inner o) = read_kind h R rd2 prev a (opt_inner o)).
    { unfold used in H. destruct (opt_inner o); cbn [read_kind]; rewrite ?H by (cbn; auto); reflexivity. }
    destruct o; cbn [opt_inner] in E; rewrite E; reflexivity.
  Qed.

  Lemma write_uses h St (W : writer St) wr1 wr2 prev a o v : (forall t, In t (used o) -> wr1 t = wr2 t) ->
    write_field_body h W wr1 prev a o v = write_field_body h W wr2 prev a o v.
  Proof.
    intros H. unfold write_field_body.
    assert (E : forall v, write_kind h W wr1 prev a (opt_inner o) v = write_kind h W wr2 prev a (opt_inner o) v).
    { intros u. unfold used in H. destruct (opt_inner o); cbn [write_kind]; rewrite ?H by (cbn; auto); reflexivity. }
    destruct o; cbn [opt_inner] in E.
    - rewrite E. reflexivity.
    - destruct v; try reflexivity. rewrite E. reflexivity.
  Qed.

  Lemma used_bound d f t : typed user d f -> sized (denote user (fd_raw d)) = Some (opt_ty (tf_kind f)) -> no_opaque_option d ->
    In t (used (tf_kind f)) -> (exists p, t = TP p) \/ exists u, In u (bound_types d) /\ sized (denote user u) = Some t.
  Proof.
    intros (_ & Hk & _) Hraw Hno. revert Hk Hraw. generalize (tf_kind f) as o. intros o Hk Hraw. unfold bound_types, used, no_opaque_option in *. destruct (fd_kind d) as [k|k]; cbn [opt_types opt_inner] in *.
    - destruct (kind_types user k) as [k'|] eqn:Ek; [|discriminate]. injection Hk as <-. cbn [opt_inner opt_ty] in *.
      destruct k as [|u|u| |u w|u|u w|u|u w|u|u w|u| |u| |u n|p|u]; cbn [kind_types] in Ek;
        try (injection Ek as <-; cbn [In]; intros [<-|[]]; eauto; fail);
        try (injection Ek as <-; contradiction);
        try (destruct (sized (denote user u)) as [t1|] eqn:E1; [|discriminate]; injection Ek as <-; cbn [In];
             intros [<-|[]]; right; exists u; auto; fail);
        try (destruct (sized (denote user u)) as [t1|] eqn:E1; [|discriminate]; destruct (sized (denote user w)) as [t2|] eqn:E2; [|discriminate];
             injection Ek as <-; cbn [In]; intros [<-|[<-|[]]]; right; [exists u|exists w]; auto; fail).
      destruct (sized (denote user u)) as [t1|] eqn:E1; [|discriminate]; injection Ek as <-; cbn [In].
      intros [<-|[]]; right; exists (fd_raw d); split; [left; reflexivity|exact Hraw].
    - destruct (kind_types user k) as [k'|] eqn:Ek; [|discriminate]. injection Hk as <-. cbn [opt_inner opt_ty] in *.
      destruct k as [|u|u| |u w|u|u w|u|u w|u|u w|u| |u| |u n|p|u]; cbn [kind_types] in Ek; try contradiction;
        try (injection Ek as <-; cbn [In]; intros [<-|[]]; eauto; fail);
        try (injection Ek as <-; contradiction);
        try (destruct (sized (denote user u)) as [t1|] eqn:E1; [|discriminate]; injection Ek as <-; cbn [In];
             intros [<-|[]]; right; exists u; auto; fail);
        try (destruct (sized (denote user u)) as [t1|] eqn:E1; [|discriminate]; destruct (sized (denote user w)) as [t2|] eqn:E2; [|discriminate];
             injection Ek as <-; cbn [In]; intros [<-|[<-|[]]]; right; [exists u|exists w]; auto; fail).
  Qed.

  (** C93: apart from optional fields of unrecognised types, the generated reader uses
      no implementation but those that exist anyway and those its bounds ask for. *)
  Theorem C93_read ds fs : Forall2 (typed user) ds fs -> Forall sound_field fs -> Forall no_opaque_option ds ->
    forall h St (R : reader St) rd1 rd2, (forall t, available user g (readable_bounds g ds) t -> rd1 t = rd2 t) ->
    forall prev s, readable_body h R rd1 prev fs s = readable_body h R rd2 prev fs s.
  Proof.
    intros Ht Hs Hno h St R rd1 rd2 Hrd. unfold readable_bounds in Hrd.
    assert (Hsub : forall d u, In d ds -> In u (bound_types d) -> In u (flat_map bound_types ds))
      by (intros d u Hd Hu; apply in_flat_map; eauto).
    revert Hrd Hsub. generalize (flat_map bound_types ds) as types. intros types Hrd Hsub.
    induction Ht as [|d f ds fs Hdf Hrest IH]; intros prev s; [reflexivity|].
    inversion_clear Hs as [|? ? Hf Hs']. inversion_clear Hno as [|? ? Hn Hno'].
    assert (IH' : forall prev s, readable_body h R rd1 prev fs s = readable_body h R rd2 prev fs s).
    { apply IH; auto. intros d' u Hd'. apply Hsub. right. exact Hd'. }
    cbn [readable_body]. fold (readable_body h R rd1). fold (readable_body h R rd2). destruct (f_skip (tf_attrs f)).
    - unfold mmap, bind. rewrite IH'. reflexivity.
    - rewrite (read_uses h St R rd1 rd2).
      + apply bind_ext. intros v s'. unfold bind. rewrite IH'. reflexivity.
      + intros t Hu. apply Hrd. destruct Hf as (Hf & _).
        destruct (used_bound d f t Hdf) as [[p ->]|(u & Hb & Hd)]; auto; [rewrite Hf; apply Hdf|left; eauto|].
        eapply promised; eauto. apply (Hsub d); [left; reflexivity|exact Hb].
  Qed.

  (** The same for the generated writer, whose bounds leave out the skipped fields. *)
  Theorem C93_write ds fs : Forall2 (typed user) ds fs -> Forall sound_field fs -> Forall no_opaque_option ds ->
    forall h St (W : writer St) wr1 wr2, (forall t, available user g (writable_bounds g ds) t -> wr1 t = wr2 t) ->
    forall prev vs s, writable_body h W wr1 prev fs vs s = writable_body h W wr2 prev fs vs s.
  Proof.
    intros Ht Hs Hno h St W wr1 wr2 Hrd. unfold writable_bounds in Hrd.
    assert (Hsub : forall d u, In d ds -> f_skip (fd_attrs d) = false -> In u (bound_types d) ->
                               In u (flat_map bound_types (filter (fun d => negb (f_skip (fd_attrs d))) ds))).
    { intros d u Hd Hk Hu. apply in_flat_map. exists d. split; [|exact Hu]. apply filter_In. rewrite Hk. auto. }
    revert Hrd Hsub. generalize (flat_map bound_types (filter (fun d => negb (f_skip (fd_attrs d))) ds)) as types. intros types Hrd Hsub.
    induction Ht as [|d f ds fs Hdf Hrest IH]; intros prev vs s; [reflexivity|].
    inversion_clear Hs as [|? ? Hf Hs']. inversion_clear Hno as [|? ? Hn Hno'].
    assert (IH' : forall prev vs s, writable_body h W wr1 prev fs vs s = writable_body h W wr2 prev fs vs s).
    { apply IH; auto. intros d' u Hd'. apply Hsub. right. exact Hd'. }
    cbn [writable_body]. fold (writable_body h W wr1). fold (writable_body h W wr2). destruct vs as [|v vs]; [reflexivity|].
    destruct (f_skip (tf_attrs f)) eqn:Ek; [apply IH'|].
    rewrite (write_uses h St W wr1 wr2).
    - apply bind_ext. intros [] s'. apply IH'.
    - intros t Hu. apply Hrd. destruct Hf as (Hf & _).
      destruct (used_bound d f t Hdf) as [[p ->]|(u & Hb & Hd)]; auto; [rewrite Hf; apply Hdf|left; eauto|].
      eapply promised; eauto. apply (Hsub d); [left; reflexivity| |exact Hb]. rewrite (proj1 Hdf). exact Ek.
  Qed.
End C93.

Print Assumptions C93_generic.
Print Assumptions C93_read.
Print Assumptions C93_write.

(** A declaration `struct S<T> { … }` of one field. *)
Definition only_t : sgenerics := {| sg_lifetimes := []; sg_types := ["T"%string]; sg_consts := [] |}.
Definition param_t (t : ty) (y : spelled) : option rust_ty :=
  match y with YPath false false [("T"%string, NoArgs)] => Some (Sized t) | _ => None end.
Definition plain_field (l : list (string * avalue)) (y : spelled) : sfield := {| sf_attrs := l; sf_ty := y; sf_default := VUnit |}.
Definition no_eval (_ : sexpr) (_ : list (option Z)) : option N := None.
Definition parsed_field (l : list (string * avalue)) (y : spelled) : field :=
  match parse_field no_eval (plain_field l y) with
  | Parsed d => d
  | _ => {| fd_attrs := plain; fd_kind := Plain (TyTy y); fd_raw := y |}
  end.
Definition t_ty : spelled := bare_name "T".

(** `Vec<T>`: the bound is `T: Readable`. *)
Example C93_vec : readable_bounds only_t [parsed_field [] (name_with "Vec" [GType t_ty])] = [t_ty].
Proof. reflexivity. Qed.

(** Only spellings with T in them denote what T is, if that is a type like `Uuid`. *)
Lemma only_by_t u : sized (denote (param_t (TScalar SUuid)) u) = Some (TScalar SUuid) -> occurs "T" u.
Proof.
  assert (Hu : forall y r, param_t (TScalar SUuid) y = Some r -> occurs "T" y).
  { intros y r. destruct y as [[] [] [|[name [| |]] [|]]|u'|u' n|ts|l m u'|u'|u'|u'| |ids]; try discriminate; unfold param_t;
      try (repeat (let a := fresh in destruct name as [|[[] [] [] [] [] [] [] []] name]; try discriminate)); intros; 
      econstructor; left; reflexivity. }
  assert (Hc : forall r, cow_of r <> Some (Sized (TScalar SUuid))) by
    (intros [[[]|u'|]|]; try discriminate; destruct k; discriminate).
  assert (Hb : forall r, box_of r <> Some (Sized (TScalar SUuid))) by (intros [[]|]; discriminate).
  assert (Hr : forall r, ref_to r <> Some (Sized (TScalar SUuid))) by (intros [[[]| |]|]; discriminate).
  assert (H1 : forall o f, with1 o f = Some (Sized (TScalar SUuid)) -> exists t, f t = TScalar SUuid)
    by (intros [t|] f H; [injection H; eauto|discriminate]).
  assert (H2 : forall o1 o2 f, with2 o1 o2 f = Some (Sized (TScalar SUuid)) -> exists t1 t2, f t1 t2 = TScalar SUuid)
    by (intros [t1|] [t2|] f H; try discriminate; injection H; eauto).
  assert (Hs : forall o, sized o = Some (TScalar SUuid) -> o = Some (Sized (TScalar SUuid)))
    by (intros [[]|] H; try discriminate; injection H as ->; reflexivity).
  induction u as [q c l|u IH|u IH n|ts|l m u IH|u IH|u IH|u IH| |ids]; intros H; apply Hs in H; cbn [denote] in H.
  - destruct q; [eapply Hu, H|]. destruct c; [eapply Hu, H|]. destruct l as [|[name args] [|]]; [eapply Hu, H| |].
    2: destruct args as [|tf [|[l1|u|x1 u|ids1] [|[l2|w|x2 w|ids2] [|]]]|]; eapply Hu, H.
    destruct args as [|tf args|]; [|destruct args as [|[l1|u|x1 u|ids1] [|[l2|w|x2 w|ids2] [|]]]|];
      repeat match type of H with
             | (if ?b then _ else _) = _ => destruct b
             | match prim_named name with _ => _ end = _ => destruct (prim_named name)
             end; try discriminate; try (eapply Hu, H);
      try (apply H1 in H as [? H]; discriminate); try (apply H2 in H as (? & ? & H); discriminate).
    + elim (Hc _ H).
    + elim (Hb _ H).
  - destruct (denote _ u) as [[]|]; discriminate.
  - destruct n; [apply H1 in H as [? H]; discriminate|eapply Hu, H..].
  - destruct ts as [|u ts]; [discriminate|]. destruct (all_some _); discriminate.
  - destruct m; [discriminate|]. elim (Hr _ H).
  - discriminate.
  - constructor. apply IH. rewrite H. reflexivity.
  - constructor. apply IH. rewrite H. reflexivity.
  - discriminate.
  - eapply Hu, H.
Qed.

Definition no_input : breader := {| br_addr := 0; br_rest := [x01]; br_log := [] |}.
Definition not_uuid (a b : M breader val) (t : ty) : M breader val := match t with TScalar SUuid => a | _ => b end.

(** Refuted for `Option<T>`: the bound is `Option<T>: Readable`, but the code uses the
    implementation of T, which neither exists anyway nor is asked for. *)
Theorem C93_option_refuted : exists d f,
  typed (param_t (TScalar SUuid)) d f /\ sound_field f
  /\ fd_raw d = name_with "Option" [GType t_ty]
  /\ exists rd1 rd2 : ty -> M breader val,
     (forall t, available (param_t (TScalar SUuid)) only_t (readable_bounds only_t [d]) t -> rd1 t = rd2 t)
     /\ fst (readable_body host64 (BufferReader LE) rd1 [] [f] no_input)
        <> fst (readable_body host64 (BufferReader LE) rd2 [] [f] no_input).
Proof.
  pose (d := parsed_field [] (name_with "Option" [GType t_ty])).
  exists d, {| tf_attrs := fd_attrs d; tf_kind := Opt (TyTy (TScalar SUuid)); tf_raw := TOption (TScalar SUuid) |}.
  split; [repeat split|]. split; [split; [reflexivity|split; [reflexivity|discriminate]]|]. split; [reflexivity|].
  exists (not_uuid (ret VUnit) (ret VUnit)), (not_uuid (fail Unsized) (ret VUnit)). split.
  - intros t Ha. destruct t as [s| | | | | | | | | | | | | |]; try reflexivity. destruct s; try reflexivity. exfalso.
    destruct Ha as [[p Hp]|(u & Hd & [Hi|Hn])]; [discriminate| |].
    + change (readable_bounds only_t [d]) with [name_with "Option" [GType t_ty]] in Hi. destruct Hi as [<-|[]]. discriminate.
    + apply (Hn "T"%string); [left; reflexivity|]. apply only_by_t, Hd.
  - discriminate.
Qed.

(** Another defect: a skipped field still puts its type among the bounds of the reader,
    though the code uses no implementation at all. *)
Theorem C93_skip_refuted : exists d f,
  typed (param_t (TScalar SUuid)) d f /\ sound_field f
  /\ readable_bounds only_t [d] = [t_ty] /\ writable_bounds only_t [d] = []
  /\ forall h St (R : reader St) rd1 rd2 prev, readable_body h R rd1 prev [f] = readable_body h R rd2 prev [f].
Proof.
  pose (d := parsed_field [("skip"%string, NoValue)] t_ty).
  exists d, {| tf_attrs := fd_attrs d; tf_kind := Plain (TyTy (TScalar SUuid)); tf_raw := TScalar SUuid |}.
  split; [repeat split|]. split; [split; [reflexivity|split; [reflexivity|discriminate]]|].
  split; [reflexivity|]. split; [reflexivity|]. reflexivity.
Qed.

Print Assumptions C93_option_refuted.
Print Assumptions C93_skip_refuted.

(* ------------------------------------------------------------------ *)
(** * C94: recursion and zero-copy bounds *)

(** A type found not to be recursive contains no name but the standard ones. *)
Theorem C94_names x y : is_guaranteed_non_recursive y = true -> occurs x y -> In x known_names.
Proof.
  intros Hg Ho. revert Hg.
  induction Ho as [q c l args Hi|c l|q c l name tf args u Hi Ha _ IH|q c l name tf args z u Hi Ha _ IH
                  |q c l name tf args ids Hi Ha _|q c l name ids Hi _|u _ IH|u n _ IH|u ids _|l u Hi _ IH
                  |l m u _ IH|u _ IH|u _ IH|u _ IH|ids _]; cbn [is_guaranteed_non_recursive]; try exact IH; try discriminate;
    try (destruct q; [discriminate|]; destruct c; [discriminate|]; destruct l as [|s0 [|]]; [contradiction| |discriminate];
         destruct Hi as [->|[]]; cbn [fst snd]; intros H; apply andb_prop in H as [H1 H2]; try discriminate).
  - unfold named in H1. apply existsb_exists in H1 as (z & Hz & E). apply String.eqb_eq in E as ->. exact Hz.
  - rewrite forallb_forall in H2. exact (IH (H2 _ Ha)).
  - rewrite forallb_forall in H2. exact (IH (H2 _ Ha)).
  - rewrite forallb_forall in H2. discriminate (H2 _ Ha).
  - intros H. apply andb_prop in H as [H _]. exact (IH H).
  - intros H. apply andb_prop in H as [_ H]. discriminate.
  - intros H. rewrite forallb_forall in H. exact (IH (H _ Hi)).
Qed.

(** These are the names of integers and of those standard types whose elements are counted
    by a length, so that their minimal size does not depend on them. *)
Definition integer_names : list string := ["u8"; "u16"; "u32"; "u64"; "i8"; "i16"; "i32"; "i64"; "usize"; "isize"].
Definition counted_names : list string := ["str"; "String"; "Vec"; "HashSet"; "HashMap"; "BTreeSet"; "BTreeMap"].

Theorem C94_standard x y : is_guaranteed_non_recursive y = true -> occurs x y -> In x (integer_names ++ counted_names).
Proof.
  intros Hg Ho. pose proof (C94_names x y Hg Ho) as H. unfold known_names in H. cbn [In] in H.
  repeat (destruct H as [<-|H]; [cbn; auto 20|]). destruct H.
Qed.

Section C94.
  Context (user : spelled -> option rust_ty) (g : sgenerics).

  Lemma simple_typed d f : typed user d f -> sound_field f -> fd_kind d = parse_field_ty (fd_raw d) ->
    is_simple (tf_attrs f, tf_raw f) = match parse_primitive_ty (fd_raw d) with Some _ => true | None => false end.
  Proof.
    intros (Ha & Hk & Hd) (Ht & Ho & _) E. unfold is_simple. cbn [fst snd]. rewrite Ho, <- Ht. rewrite E in Hk.
    destruct (parse_primitive_ty (fd_raw d)) as [p|] eqn:Ep.
    - assert (E' : parse_field_ty (fd_raw d) = Plain (TyPrimitive p)).
      { unfold parse_field_ty. assert (En : extract_option_inner_ty (fd_raw d) = None).
        { unfold parse_primitive_ty, extract_option_inner_ty in *. destruct (fd_raw d) as [[] [] [|[name args] [|]]| | | | | | | | |]; try reflexivity.
          cbn [fst snd] in *. rewrite (prim_named_not p name Ep "Option") by reflexivity. reflexivity. }
        rewrite En. unfold parse_ty, parse_special_ty. rewrite Ep. reflexivity. }
      rewrite E' in Hk. injection Hk as <-. reflexivity.
    - unfold parse_field_ty in Hk. destruct (extract_option_inner_ty (fd_raw d)) as [u|].
      + cbn in Hk. destruct (kind_types user (parse_ty u)) as [k|]; [|discriminate]. injection Hk as <-. cbn [opt_ty].
        apply Bool.andb_false_r.
      + cbn in Hk. destruct (kind_types user (parse_ty (fd_raw d))) as [k|] eqn:Ek; [|discriminate]. injection Hk as <-.
        cbn [opt_inner opt_ty]. destruct k; try reflexivity. exfalso. apply kind_primitive in Ek. unfold parse_ty in Ek.
        destruct (parse_special_ty (fd_raw d)) eqn:Es; [|discriminate]. subst. apply special_primitive in Es. congruence.
  Qed.

  (** C94, zero-copy: the `ZeroCopyable` impl of a struct exists exactly under the
      conditions of the model: it is generated, and all the bounds it carries hold. *)
  Theorem C94_zero_copy native (d : sdecl) ds fs : Forall2 (typed user) ds fs -> Forall sound_field fs ->
    Forall (fun d => fd_kind d = parse_field_ty (fd_raw d)) ds ->
    let ms := map (fun f => (tf_attrs f, tf_raw f)) fs in
    zero_copy native (TStruct d ms) = true <->
    (is_packed d || is_transparent d ms || sd_forced d) = true
    /\ forall u, In u (zero_copy_bounds g (is_packed d) (sd_forced d) ds) ->
       exists t, sized (denote user u) = Some t /\ zero_copy native t = true.
  Proof.
    intros Ht Hs Hk. cbn [zero_copy]. rewrite Bool.andb_true_iff. apply and_iff_compat_l.
    unfold zero_copy_bounds, constraints. destruct (sd_forced d); cbn [orb negb].
    - split; [|reflexivity]. intros _ u Hu. apply filter_In in Hu as [_ Hu]. discriminate.
    - rewrite forallb_forall. split.
      + intros H u Hu. apply filter_In in Hu as [Hu Hp]. apply in_map_iff in Hu as (x & <- & Hx).
        assert (Hf : exists f, In f fs /\ typed user x f /\ sound_field f).
        { clear - Ht Hs Hx. induction Ht as [|a f ds fs H1 _ IH]; [contradiction|]. inversion_clear Hs.
          destruct Hx as [->|Hx]; [exists f; cbn; auto|]. destruct IH as (f' & ? & ?); auto. exists f'. cbn. auto. }
        destruct Hf as (f & Hf & Htf & Hsf). exists (tf_raw f). split; [apply Htf|].
        specialize (H (tf_attrs f, tf_raw f)). rewrite (simple_typed x f Htf Hsf) in H by (rewrite Forall_forall in Hk; auto).
        apply Bool.negb_true_iff in Hp. rewrite Hp in H. apply H. apply in_map_iff. exists f. auto.
      + intros H m Hm. apply in_map_iff in Hm as (f & <- & Hf).
        assert (Hx : exists x, In x ds /\ typed user x f /\ sound_field f).
        { clear - Ht Hs Hf. induction Ht as [|a f' ds fs H1 _ IH]; [contradiction|]. inversion_clear Hs.
          destruct Hf as [->|Hf]; [exists a; cbn; auto|]. destruct IH as (x & ? & ?); auto. exists x. cbn. auto. }
        destruct Hx as (x & Hx & Htf & Hsf). rewrite (simple_typed x f Htf Hsf) by (rewrite Forall_forall in Hk; auto).
        destruct (is_packed d && match parse_primitive_ty (fd_raw x) with Some _ => true | None => false end) eqn:E; [reflexivity|].
        destruct (H (fd_raw x)) as (t & Hd & Hz).
        { apply filter_In. split; [apply in_map, Hx|]. rewrite E. reflexivity. }
        destruct Htf as (_ & _ & Htf). rewrite Htf in Hd. injection Hd as <-. exact Hz.
  Qed.
End C94.

Print Assumptions C94_names.
Print Assumptions C94_standard.
Print Assumptions C94_zero_copy.

(* ------------------------------------------------------------------ *)
(** * C95: `repr` *)

(** The items of the last `repr( … )`. *)
Lemma check_repr_last attrs v : check_repr attrs v = true ->
  exists before after, attrs = before ++ {| sa_path := "repr"; sa_list := Some [v] |} :: after
    /\ Forall (fun a => sa_path a = "repr"%string -> sa_list a = None) after.
Proof.
  unfold check_repr. induction attrs as [|a attrs IH] using rev_ind; [discriminate|]. rewrite fold_left_app. cbn [fold_left].
  destruct (sa_path a =? "repr")%string eqn:E.
  - apply String.eqb_eq in E. destruct a as [path [l|]]; cbn [sa_path sa_list] in *; subst path.
    + intros H. destruct l as [|x [|]]; try discriminate. apply String.eqb_eq in H as ->.
      exists attrs, []. split; [reflexivity|constructor].
    + intros H. destruct (IH H) as (b & f & -> & Hf). exists b, (f ++ [{| sa_path := "repr"; sa_list := None |}]).
      split; [rewrite <- app_assoc; reflexivity|]. apply Forall_app. split; [exact Hf|]. constructor; [reflexivity|constructor].
  - intros H. destruct (IH H) as (b & f & -> & Hf). exists b, (f ++ [a]).
    split; [rewrite <- app_assoc; reflexivity|]. apply Forall_app. split; [exact Hf|]. constructor; [|constructor].
    intros Hp. rewrite Hp in E. discriminate.
Qed.

(** C95: what is taken for a packed, transparent or C struct is one. *)
Theorem C95_sound attrs :
  (spelled_packed attrs = true -> In ["packed"%string] (reprs attrs))
  /\ (spelled_transparent attrs = true -> In ["transparent"%string] (reprs attrs))
  /\ (spelled_c attrs = true -> In ["C"%string] (reprs attrs)).
Proof.
  assert (H : forall v, (v =? ",")%string = false -> check_repr attrs v = true -> In [v] (reprs attrs)).
  { intros v Hv Hc. destruct (check_repr_last attrs v Hc) as (b & f & -> & _). unfold reprs. apply in_flat_map.
    exists {| sa_path := "repr"; sa_list := Some [v] |}. split; [apply in_elt|]. cbn. rewrite Hv. left. reflexivity. }
  repeat split; apply H; reflexivity.
Qed.

(** No struct is taken for two of them, so [repr_of] says it all. *)
Theorem C95_one attrs :
  spelled_packed attrs = (match repr_of attrs with RPacked => true | _ => false end)
  /\ spelled_transparent attrs = (match repr_of attrs with RTransparent => true | _ => false end)
  /\ spelled_c attrs = (match repr_of attrs with RC => true | _ => false end).
Proof.
  assert (H : forall v w, check_repr attrs v = true -> check_repr attrs w = true -> v = w).
  { unfold check_repr. intros v w. induction attrs as [|a attrs' IH] using rev_ind; [discriminate|].
    rewrite !fold_left_app. cbn [fold_left]. destruct (sa_path a =? "repr")%string; [|exact IH].
    destruct (sa_list a) as [[|x [|]]|]; try discriminate; [|exact IH]. intros Hv Hw.
    apply String.eqb_eq in Hv, Hw. congruence. }
  unfold repr_of, spelled_packed, spelled_transparent, spelled_c.
  destruct (check_repr attrs "packed") eqn:E1, (check_repr attrs "transparent") eqn:E2, (check_repr attrs "C") eqn:E3;
    try (exfalso; discriminate (H _ _ E1 E2)); try (exfalso; discriminate (H _ _ E1 E3)); try (exfalso; discriminate (H _ _ E2 E3));
    auto.
Qed.

(** A single `repr` of one item is seen. *)
Theorem C95_complete before after v :
  (forall a, In a (before ++ after) -> sa_path a = "repr"%string -> sa_list a = None) ->
  check_repr (before ++ {| sa_path := "repr"; sa_list := Some [v] |} :: after) v = true.
Proof.
  intros H. unfold check_repr. rewrite fold_left_app. cbn [fold_left sa_path sa_list]. rewrite String.eqb_refl. cbn [String.eqb].
  change (("repr" =? "repr")%string) with true. cbn match.
  assert (Ha : forall a, In a after -> sa_path a = "repr"%string -> sa_list a = None) by (intros; apply H; auto; apply in_or_app; auto).
  clear H. revert Ha. rewrite String.eqb_refl.
  induction after as [|a after IH]; intros Ha; [reflexivity|]. cbn [fold_left].
  assert (E : (if (sa_path a =? "repr")%string then match sa_list a with
                 | Some tokens => match tokens with [x] => (x =? v)%string | _ => false end | None => true end else true) = true).
  { destruct (sa_path a =? "repr")%string eqn:E; [|reflexivity]. apply String.eqb_eq in E.
    rewrite (Ha a (or_introl eq_refl) E). reflexivity. }
  rewrite E. apply IH. intros; apply Ha; auto. right. assumption.
Qed.

(** Refuted in general: `repr(C, packed)`, `repr(packed(1))` (a different item), and
    `repr(packed)` before another `repr( … )` are packed and not seen to be. *)
Theorem C95_refuted : exists attrs1 attrs2,
  In ["packed"%string] (reprs attrs1) /\ spelled_packed attrs1 = false
  /\ In ["packed"%string] (reprs attrs2) /\ spelled_packed attrs2 = false
  /\ length attrs1 = 1%nat.
Proof.
  exists [{| sa_path := "repr"; sa_list := Some ["C"; ","; "packed"]%string |}],
         [{| sa_path := "repr"; sa_list := Some ["packed"]%string |}; {| sa_path := "repr"; sa_list := Some ["C"]%string |}].
  vm_compute. repeat split; auto.
Qed.

Print Assumptions C95_sound.
Print Assumptions C95_one.
Print Assumptions C95_complete.
Print Assumptions C95_refuted.

(* ------------------------------------------------------------------ *)
(** * C96: `constant_prefix` *)

Lemma char_bytes c : is_scalar c = true -> utf8_of c (map b2n (utf8_char c)).
Proof.
  intros Hs. unfold is_scalar in Hs. unfold utf8_char. rewrite map_map.
  assert (Hm : c <= 1114111).
  { apply Bool.orb_prop in Hs as [Hs|Hs]; [apply N.ltb_lt in Hs; lia|]. apply andb_prop in Hs as [_ Hs]. apply N.leb_le in Hs. lia. }
  clear Hs. pose proof (N.div_mod c 64) as D1. pose proof (N.mod_lt c 64) as L1.
  pose proof (N.div_mod (c / 64) 64) as D2. pose proof (N.mod_lt (c / 64) 64) as L2.
  pose proof (N.div_mod (c / 64 / 64) 64) as D3. pose proof (N.mod_lt (c / 64 / 64) 64) as L3.
  rewrite !N.div_div in * by discriminate. change (64 * 64) with 4096 in *. change (64 * 4096) with 262144 in *.
  change (4096 * 64) with 262144 in *.
  destruct (N.ltb_spec c 0x80) as [H1|H1]; [|destruct (N.ltb_spec c 0x800) as [H2|H2]; [|destruct (N.ltb_spec c 0x10000) as [H3|H3]]];
    cbn [map]; rewrite !n2b_small by lia.
  - constructor. exact H1.
  - replace c with (64 * (c / 64) + c mod 64) at 1 by lia. constructor; lia.
  - replace c with (4096 * (c / 4096) + 64 * (c / 64 mod 64) + c mod 64) at 1 by lia. constructor; lia.
  - replace c with (262144 * (c / 262144) + 4096 * (c / 4096 mod 64) + 64 * (c / 64 mod 64) + c mod 64) at 1 by lia. constructor; lia.
Qed.

(** C96: the accepted constants stand for the bytes they spell. *)
Theorem C96_bytes e b : (forall c, e = ELit (LChar c) -> is_scalar c = true) ->
  parse_constant e = Parsed b -> constant_bytes e b.
Proof.
  intros Hc. destruct e as [[s|s|x|c|x|n suffix| |]|[[s|s|x|c|x|n suffix| |]| | |]| |]; cbn [parse_constant]; try discriminate.
  - intros H. injection H as <-. constructor.
  - intros H. injection H as <-. constructor.
  - intros H. injection H as <-. constructor.
  - intros H. injection H as <-. constructor. apply char_bytes, Hc. reflexivity.
  - intros H. injection H as <-. constructor.
  - destruct (suffix =? "u8")%string eqn:E; [|discriminate]. apply String.eqb_eq in E as ->.
    destruct (N.ltb_spec n 256); [|discriminate]. intros H'. injection H' as <-. constructor. assumption.
  - destruct (suffix =? "i8")%string eqn:E; [|discriminate]. apply String.eqb_eq in E as ->.
    destruct (N.ltb_spec n 128); [|discriminate]. intros H'. injection H' as <-. constructor; [lia|].
    rewrite b2n_n2b, N.mod_mod by discriminate. unfold of_bits. cbn [psigned andb]. change (pmod I8) with 256. change (256 / 2) with 128.
    destruct (N.eq_dec n 0) as [->|Hn]; [reflexivity|]. rewrite N.mod_small by lia.
    destruct (N.leb_spec 128 (256 - n)); lia.
Qed.

(** Refuted in general: two numbers that fit panic or are rejected, and one that does
    not panics inside the macro instead of being reported. *)
Theorem C96_refuted :
  (constant_bytes (ENeg (ELit (LInt 128 "i8"))) [x80] /\ parse_constant (ENeg (ELit (LInt 128 "i8"))) = MacroPanics)
  /\ (constant_bytes (ELit (LInt 5 "i8")) [x05] /\ parse_constant (ELit (LInt 5 "i8")) = Rejected)
  /\ parse_constant (ELit (LInt 300 "u8")) = MacroPanics.
Proof.
  split; [split|split; [split|]]; try reflexivity.
  - constructor; [discriminate|reflexivity].
  - exact (cb_i8 5 eq_refl).
Qed.

(** Every other constant is accepted. *)
Theorem C96_accepted e b : constant_bytes e b ->
  e = ENeg (ELit (LInt 128 "i8")) \/ (exists n, e = ELit (LInt n "i8")) \/ exists b', parse_constant e = Parsed b'.
Proof.
  intros H. destruct H as [b|b|b|c b H|b|n H|n H|n b Hn H]; cbn [parse_constant]; eauto.
  - right; right. change ("u8" =? "u8")%string with true. cbn match. destruct (N.ltb_spec n 256); [eauto|lia].
  - change ("i8" =? "i8")%string with true. cbn match. destruct (N.ltb_spec n 128); [eauto|]. left. f_equal. f_equal. f_equal. lia.
Qed.

Print Assumptions C96_bytes.
Print Assumptions C96_refuted.
Print Assumptions C96_accepted.

(* ------------------------------------------------------------------ *)
(** * Concrete cases *)

(** `struct Packet { len: u16, #[speedy(length = len)] data: Vec<u8>,
    #[speedy(varint)] id: u64, #[speedy(length_type = u8)] name: Option<String>, rest: std::vec::Vec<u8> }` *)
Definition eval_len (e : sexpr) (prev : list (option Z)) : option N :=
  match e, prev with EName "len"%string, Some z :: _ => Some (Z.to_N (Z.min z 65535)) | _, _ => None end.
Definition packet : list sfield :=
  [plain_field [] (bare_name "u16");
   plain_field [("length"%string, Value (EName "len"))] vec_u8;
   plain_field [("varint"%string, NoValue)] (bare_name "u64");
   plain_field [("length_type"%string, Value (EName "u8"))] (name_with "Option" [GType (bare_name "String")]);
   plain_field [] long_vec].
Definition described (f : sfield) : rfield :=
  {| rf_attrs := match parse_field_attrs eval_len (sf_attrs f) with Parsed l => l | _ => [] end;
     rf_opaque := is_opaque (opt_inner (parse_field_ty (sf_ty f)));
     rf_ty := match sized (denote std_paths (sf_ty f)) with Some t => t | None => TBot end;
     rf_default := sf_default f |}.
Example packet_described : Forall2 (describes std_paths eval_len) packet (map described packet).
Proof. repeat constructor. Qed.
Example packet_accepted : exists ds, parse_fields eval_len packet = Parsed ds
  /\ map (fun d => f_opaque (fd_attrs d)) ds = [false; false; false; false; true].
Proof. eexists. split; reflexivity. Qed.
Example packet_lengths a : In a (map (fun d => fd_attrs d) (match parse_fields eval_len packet with Parsed ds => ds | _ => [] end)) ->
  usize_length host64 a.
Proof.
  cbn. intros [<-|[<-|[<-|[<-|[<-|[]]]]]]; try exact I. intros prev n. cbn. destruct prev as [|[z|] prev]; try discriminate.
  intros H. injection H as <-. lia.
Qed.

(** The same with `length` on the optional field, or behind a path, is rejected. *)
Example rejected1 : parse_field no_eval (plain_field [("length"%string, Value (EName "len"))] (name_with "Option" [GType vec_u8])) = Rejected.
Proof. reflexivity. Qed.
Example rejected2 : parse_field no_eval (plain_field [("length"%string, Value (EName "len"))] long_vec) = Rejected.
Proof. reflexivity. Qed.
Example rejected3 : parse_field no_eval (plain_field [("varint"%string, NoValue)] (YGroup (bare_name "u64"))) = Rejected.
Proof. reflexivity. Qed.

(** C94: a list of numbers is not recursive; a list of `Node`s may be. *)
Example C94_case : is_guaranteed_non_recursive (YTuple [vec_u8; YRef (Some "a"%string) false (bare_name "str")]) = true
  /\ is_guaranteed_non_recursive (name_with "Vec" [GType (bare_name "Node")]) = false.
Proof. split; reflexivity. Qed.

(** C94: a packed struct of a u32 and a byte pair can be borrowed in every context as far
    as its own impl goes; the bound left is on the pair. *)
Example C94_bounds : zero_copy_bounds only_t true false [parsed_field [] (bare_name "u32"); parsed_field [] (bare_name "Pair")]
                     = [bare_name "Pair"].
Proof. reflexivity. Qed.

(** C95 *)
Example C95_case : repr_of [{| sa_path := "derive"; sa_list := Some ["Clone"]%string |}; {| sa_path := "repr"; sa_list := Some ["packed"]%string |}] = RPacked.
Proof. reflexivity. Qed.

(** C96: the euro sign, and -1. *)
Example C96_case : parse_constant (ELit (LChar 0x20AC)) = Parsed [xe2; x82; xac]
  /\ parse_constant (ENeg (ELit (LInt 1 "i8"))) = Parsed [xff].
Proof. split; reflexivity. Qed.
