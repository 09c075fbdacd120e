(* The errors of src/error.rs with everything they carry, and their texts.  [Base.error]
   leaves out the name of the field and the text of errors of std. *)
From Coq Require Export String.
From Coq Require Import Decimal DecimalString.
From Verif Require Export Errors.
Open Scope string_scope.

(** `std::io::Error`: its kind and what it prints. *)
Record std_error := { se_kind : io_kind; se_text : string }.

(** src/error.rs 7-38 [ErrorKind] *)
Inductive error_kind :=
| KInvalidChar
| KInvalidEnumVariant
| KInvalidUtf8
| KInvalidSystemTime
| KZeroNonZero
| KOutOfRangeLength
| KOutOfRangeUsize
| KUnexpectedEndOfInput
| KUnexpectedEndOfOutputBuffer
| KInputBufferIsTooSmall (actual_size expected_size : N)
| KOutputBufferIsTooSmall (actual_size expected_size : N)
| KLengthIsNotTheSameAsLengthAttribute (field_name : string)
| KExpectedConstant (constant : bytes)
| KUnsized
| KEndiannessMismatch
| KIoError (error : std_error).

(** What [Base.error] keeps of it. *)
Definition in_short (k : error_kind) : error :=
  match k with
  | KInvalidChar => InvalidChar
  | KInvalidEnumVariant => InvalidEnumVariant
  | KInvalidUtf8 => InvalidUtf8
  | KInvalidSystemTime => InvalidSystemTime
  | KZeroNonZero => ZeroNonZero
  | KOutOfRangeLength => OutOfRangeLength
  | KOutOfRangeUsize => OutOfRangeUsize
  | KUnexpectedEndOfInput => UnexpectedEndOfInput
  | KUnexpectedEndOfOutputBuffer => UnexpectedEndOfOutputBuffer
  | KInputBufferIsTooSmall a e => InputBufferIsTooSmall a e
  | KOutputBufferIsTooSmall a e => OutputBufferIsTooSmall a e
  | KLengthIsNotTheSameAsLengthAttribute _ => LengthIsNotTheSameAsLengthAttribute
  | KExpectedConstant c => ExpectedConstant c
  | KUnsized => Unsized
  | KEndiannessMismatch => EndiannessMismatch
  | KIoError e => IoError (se_kind e)
  end.

(** `{}` of a `usize` *)
Definition decimal (n : N) : string := NilZero.string_of_uint (N.to_uint n).

(** src/error.rs 87-111 `impl Display for Error` *)
Definition shown (k : error_kind) : string :=
  match k with
  | KInvalidChar => "out of range char"
  | KInvalidEnumVariant => "invalid enum variant"
  | KInvalidUtf8 => "encountered invalid utf-8"
  | KInvalidSystemTime => "encountered invalid system time object"
  | KZeroNonZero => "a field which is supposed to be non-zero is zero"
  | KOutOfRangeLength => "out of range length"
  | KOutOfRangeUsize => "value cannot fit into an usize on this architecture"
  | KUnexpectedEndOfInput => "unexpected end of input"
  | KUnexpectedEndOfOutputBuffer => "unexpected end of output buffer"
  | KInputBufferIsTooSmall a e =>
    "input buffer is too small; expected at least " ++ decimal e ++ " bytes, got " ++ decimal a
  | KOutputBufferIsTooSmall a e =>
    "output buffer is too small; expected at least " ++ decimal e ++ " bytes, got " ++ decimal a
  | KLengthIsNotTheSameAsLengthAttribute f =>
    "the length of '" ++ f ++ "' is not the same as its 'length' attribute"
  | KExpectedConstant c => "expected a predefined " ++ decimal (nlen c) ++ " bytes(s) long constant"
  | KUnsized => "type is unsized hence requires zero-copy deserialization; use `read_from_buffer` or similar to deserialize it"
  | KEndiannessMismatch => "endianness mismatch"
  | KIoError e => se_text e
  end.

(** src/error.rs 46-53 [custom]; [message] is what the argument prints. *)
Definition custom_error (message : string) : error_kind :=
  KIoError {| se_kind := IoOther 0; se_text := message |}.
(** 55-61 [from_io_error] *)
Definition of_std (e : std_error) : error_kind := KIoError e.
(** 64-80 `impl From< Error > for std::io::Error`; an error of std made with a text
    prints that text. *)
Definition into_std (k : error_kind) : std_error :=
  match k with
  | KIoError e => e
  | _ =>
    let kind := if is_eof (in_short k) then IoUnexpectedEof else IoInvalidData in
    {| se_kind := kind; se_text := shown k |}
  end.
(** 113-121 [source] *)
Definition source (k : error_kind) : option std_error :=
  match k with KIoError e => Some e | _ => None end.

(** speedy-derive/src/lib.rs 766-772 [var_name], 1713: the name in
    [KLengthIsNotTheSameAsLengthAttribute]. *)
Definition var_name (name : option string) (index : N) : string :=
  match name with Some n => n | None => "t" ++ decimal index end.
