(* A type that uses most features, with a value, for use in examples. *)
From Verif Require Export Hosts Checker.

(* #[derive(Readable, Writable)]
   #[speedy(tag_type = u16)]
   enum Shape { #[speedy(tag = 3)] Dot, Line(u8, f32), Named { name: String } } *)
Definition shape : ty :=
  TEnum {| e_tag := BU16; e_peek := false |}
    [(3, []); (4, [(plain, TP U8); (plain, TP F32)]); (5, [(plain, TStr KString)])].

Definition with_len (lm : lenmode) : fattrs :=
  {| f_eof := false; f_skip := false; f_varint := false; f_opaque := false; f_len := lm; f_prefix := []; f_default := VUnit |}.
Definition with_varint : fattrs :=
  {| f_eof := false; f_skip := false; f_varint := true; f_opaque := false; f_len := LDefault; f_prefix := []; f_default := VInt 0 |}.
Definition with_skip (v : val) : fattrs :=
  {| f_eof := false; f_skip := true; f_varint := false; f_opaque := false; f_len := LDefault; f_prefix := []; f_default := v |}.
Definition with_prefix (b : bytes) : fattrs :=
  {| f_eof := false; f_skip := false; f_varint := false; f_opaque := false; f_len := LDefault; f_prefix := b; f_default := VUnit |}.
Definition with_default (v : val) : fattrs :=
  {| f_eof := true; f_skip := false; f_varint := false; f_opaque := false; f_len := LDefault; f_prefix := []; f_default := v |}.

Definition sd (n : N) (r : repr) : sdecl := {| sd_id := n; sd_repr := r; sd_forced := false; sd_generic := false |}.

(* #[repr(C)] struct Point { x: u16, y: i16 }: plain data *)
Definition point : ty := TStruct (sd 1 RC) [(plain, TP U16); (plain, TP I16)].

(** `length = count + 1`, the length expression of the example; [count] is the
    first field. *)
Definition count_plus_one (prev : list (option Z)) : option N :=
  match prev with Some z :: _ => Some (Z.to_N (z + 1)) | _ => None end.

(* struct Sample {
     count: u8,
     #[speedy(varint)] size: u64,
     #[speedy(skip)] cache: u32,
     #[speedy(length_type = u8)] samples: Vec<u16>,
     #[speedy(length = count + 1)] raw: Vec<u8>,
     names: HashMap<u8, String>,
     points: Vec<Point>,
     #[speedy(constant_prefix = "SH")] shape: Option<Shape>,
     pair: Box<(char, i64)>,
     result: Result<[u16; 2], bool>,
   } *)
Definition sample : ty :=
  TStruct (sd 2 RRust)
    [ (plain, TP U8); (with_varint, TP U64); (with_skip (VInt 0), TP U32);
      (with_len (LType BU8), TSeq KVec (TP U16)); (with_len (LExpr count_plus_one), TSeq KVec (TP U8));
      (plain, TMap CHash (TP U8) (TStr KString)); (plain, TSeq KVec point);
      (with_prefix [x53; x48], TOption shape); (plain, TBox (TTuple [TScalar SChar; TP I64]));
      (plain, TResult (TArr (TP U16) 2) (TScalar SBool)) ].

Definition sample_value : val :=
  VSeq [ VInt 2; VInt 300; VInt 77;
         VSeq [VInt 1; VInt 515]; VSeq [VInt 7; VInt 8; VInt 9];
         VSeq [VSeq [VInt 1; VBytes [x61]]; VSeq [VInt 2; VBytes [x62; x63]]];
         VSeq [VSeq [VInt 258; VInt (-2)]; VSeq [VInt 3; VInt 4]];
         VSome (VVar 1 [VInt 5; VInt 1065353216]); VSeq [VInt 8364; VInt (-1)];
         VOk (VSeq [VInt 1; VInt 2]) ].

(** What is left of it after a round trip: `cache` becomes 0. *)
Definition sample_back : val :=
  VSeq [ VInt 2; VInt 300; VInt 0;
         VSeq [VInt 1; VInt 515]; VSeq [VInt 7; VInt 8; VInt 9];
         VSeq [VSeq [VInt 1; VBytes [x61]]; VSeq [VInt 2; VBytes [x62; x63]]];
         VSeq [VSeq [VInt 258; VInt (-2)]; VSeq [VInt 3; VInt 4]];
         VSome (VVar 1 [VInt 5; VInt 1065353216]); VSeq [VInt 8364; VInt (-1)];
         VOk (VSeq [VInt 1; VInt 2]) ].

(** Little endian on a little-endian host, little endian on a big-endian one,
    big endian on a little-endian one; with different layouts and pointers. *)
Lemma sample_covered64 : covered host64 LE false false sample.
Proof. apply coveredb_sound. vm_compute. reflexivity. Qed.
Lemma sample_covered32be : covered host32be LE false false sample.
Proof. apply coveredb_sound. vm_compute. reflexivity. Qed.
Lemma sample_covered32 : covered host32 BE false false sample.
Proof. apply coveredb_sound. vm_compute. reflexivity. Qed.

Lemma sample_value64 : value_of host64 LE sample sample_value.
Proof. apply value_ofb_sound. vm_compute. reflexivity. Qed.
Lemma sample_value32be : value_of host32be LE sample sample_value.
Proof. apply value_ofb_sound. vm_compute. reflexivity. Qed.
Lemma sample_value32 : value_of host32 BE sample sample_value.
Proof. apply value_ofb_sound. vm_compute. reflexivity. Qed.

(** Fresh memory is not zero. *)
Definition dirty (n : N) : bytes := repeat xaa (N.to_nat n).
Lemma dirty_enough n : n <= nlen (dirty n).
Proof. unfold dirty, nlen. rewrite repeat_length. lia. Qed.

Definition sample_bytes64 : bytes :=
  match encode (h_iter host64) LE LE sample sample_value with Ok b => b | _ => [] end.
Definition sample_bytes32be : bytes :=
  match encode (h_iter host32be) LE BE sample sample_value with Ok b => b | _ => [] end.
Definition sample_bytes32 : bytes :=
  match encode (h_iter host32) BE BE sample sample_value with Ok b => b | _ => [] end.
