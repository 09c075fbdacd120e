# Design

Subject: `koute/speedy` as pinned in `/repo` (crate `speedy` and the derive crate
`speedy-derive`).  The code is read as text; nothing in `/repo` is built, run or changed.
Prover: Rocq/Coq 8.16.1, standard library only.

Contents: 1 layers and files, 2 modelling decisions, 3 what is modelled and what is not,
4 trusted base, 5 conditions of the theorems, 6 findings, 7 per-property plan and status,
8 how the theorems are tested.

## 1. Layers and files

All sources are in `rocq/theories`; the build order is in `rocq/_CoqProject`.

1. **Model**: total, computable Gallina definitions, one per Rust function (or per method of
   a trait), each with a comment citing file and lines.  Panics and undefined behaviour are
   explicit results (`Fault`), never partiality.

   | File | Code |
   |------|------|
   | `Base` | bytes, words, `Error`, `IsEof`, byte swapping, UTF-8 validity, the result monad |
   | `Types` | Rust types as data (`ty`), values (`val`), field attributes, the host, collections |
   | `TypeInfo` | `speedy_is_primitive`, `minimum_bytes_needed`, endianness flipping, memory images of plain data |
   | `Reader`, `Varint`, `Writer` | the `Reader` and `Writer` traits, `VarInt64` |
   | `ReadImpl`, `WriteImpl` | all `Readable` / `Writable` implementations and the code derive generates |
   | `CircularBuffer`, `Ring`, `Readers`, `Writers` | ring buffer (`Ring`: what only its tests use, and its debug assertions); the three readers; the writers; input and output streams; `bytes_needed` |
   | `Api` | the entry points `read_from_*`, `write_to_*` |
   | `Derive` | the front end of the derive macro: attributes, tags, what is rejected |
   | `Syntax` | the same from syntax trees: recognition of type spellings, attribute values, `repr`, bounds, and the code generated for each kind of field |
   | `Declaration` | whole declarations from syntax trees: attributes of structs, enums and variants, discriminants, the `match` around the fields |
   | `Slots` | the element loops of vectors and arrays with initialised and uninitialised memory, and what they drop |
   | `Errors`, `Messages` | conversions of errors; the methods of `Endianness`; errors with all they carry, and their texts |
   | `ZeroCopy` | which types implement `ZeroCopyable`, and which uses of borrowed slices the compiler accepts |
   | `Recursive` | recursive types as the family of their finite unrollings |
   | `Nominal` | systems of named declarations and the calls of `minimum_bytes_needed` among them |
   | `AnyRead` | StreamReader over any safe `Read`, with the memory it is handed |
   | `OwnExact` | the same over a stream that overrides `read_exact` |
   | `AnyWrite` | WritingCollector over any safe `Write` |
   | `Counting` | `bytes_needed` in the arithmetic of `usize`, and the entry points that use it |
   | `MinCounted` | `minimum_bytes_needed` in the arithmetic of `usize`, with the entry points and `read_vec` that use it |
   | `Scope` | the names in generated code: which variables the length expressions and the code of each field see |
   | `Header` | the headers of the generated impls: parameters, arguments, where-clauses |
   | `Moving` | writing a value that is not what it was when it was measured (atomics) |
   | `Changing` | `read_from_file` of a mapped file whose bytes change while it is read (`SeenReader`: a run is a run over the bytes it saw) |
   | `Custom` | readers and writers written by users: the required methods, with the provided ones |
   | `Lending` | readers written by users that override the borrowing methods or `skip_bytes`; what the crate does with a lent slice of any length |
   | `Files` | `read_from_file` with its system calls; `write_to_file` on a path that holds a file |
   | `Contexts` | reading with an error type of the user's: its `is_eof` is a parameter |
   | `Programs` | `Readable` and `Writable` implementations written by users, as programs over the methods of `Reader` and `Writer` |
   | `UserOrder` | sets and maps with the user's `Ord`, `Eq` and `Hash`, and any other `FromIterator` |
   | `Impls` | implementations as values: hand-written types as elements of containers and as fields of derived types |
   | `Host`, `Hosts` | what is assumed of a platform (`valid_host`); concrete platforms |

2. **Spec** (`Spec`): a small description of the wire format (`encode` / `decode` on plain byte
   strings), of valid values and of the normal form a round trip gives.  It knows nothing of
   readers, writers, buffers, streams, memory layouts, fast paths or native byte order.  It
   shares with the model only the vocabulary in `Base` and `Types` (types, values, the order
   on values, UTF-8 validity; C108 pins down UTF-8, C122
   the digits of numbers, C123 the order of sets and maps).  `Spelling` says what spellings of types, `repr` attributes and
   literals mean in Rust, for the theorems about the derive macro.  `Same` says which values of
   different types are the same data, without mentioning bytes (C103).  `Evolve` says which
   types are later versions of a type (`widens`, `extends`, C121).  `Formats` composes wire
   formats from arbitrary ones, for types that contain hand-written ones (C118).

3. **Proofs**: `*Facts`, `Refine`, `ReadSim`, `WriteSim`, `Extend`, `RoundTrip`, `Lock`, `Safe`,
   `Keep`, … : the model refines the spec on every lawful reader and writer; each reader and
   writer of the crate is lawful; two readers move in lock step; what reading guarantees
   for arbitrary input; `Depth`: what a reader cannot reach is not looked at; `Weight`: how large
   a decoded value can be; `Calls`: how often a reader is called; `Reserve`: what memory is reserved
   for; `Closed`, `ClosedWrite`: any relation between two readers or writers of streams that
   `read` and `write` preserve; `Replay`: a stream as the list of what its calls did.

4. **Properties** (`Prop*`): the theorems the manifest names, on the API functions of the model
   and the spec only, each followed by `Print Assumptions` and by examples that meet its
   hypotheses.  `Checker`, `CalmCheck`, `Sane` contain sound boolean checkers for the
   hypotheses so that examples are by computation.

## 2. Modelling decisions

* Bytes are `Coq.Init.Byte.byte`; numbers are `N`/`Z`; every wrap or overflow test the code
  performs is explicit.
* **Host.**  A record: native byte order, `usize::MAX`, whether overflow checks are compiled in,
  `size_of` / `align_of` / field offsets of every type as the compiler chooses them, the
  iteration order of hash tables, the largest allocation, `Vec::with_capacity`.  Theorems
  quantify over all hosts with `valid_host`: pointers of 32 to 64 bits, sizes of the numeric
  types, fields inside their struct and not overlapping, `repr(transparent)` and `repr(C)` as
  the Rust reference says, complete iteration of hash tables, and that `with_capacity( n )`
  allocates exactly `n` elements (`vh_capacity`; std documents "at least", and `read_vec`
  depends on equality, see F24).  `Hosts` shows a 64-bit little endian, a 32-bit big endian and a
  32-bit little endian host, with either direction of field reordering, to satisfy it.
* **Types** are a deep embedding: scalars (all integers, floats as bit patterns, `usize`, `bool`,
  `char`, `()`, non-zero and atomic numbers, network and time types, glam, uuid), strings,
  slices, arrays, references to arrays, tuples, `Option`, `Result`, ranges, sets, maps, boxes,
  derived structs and enums with all field attributes.  Values are an untyped tree `val`; `valid`
  says which values a type has.  Theorems are by induction over `ty`, so they hold for
  every nesting.
* **Field attributes**: `skip`, `default_on_eof`, `varint`, `length`, `length_type`, `constant_prefix`,
  with the field's `Default` value and whether the macro recognises the spelling of the type
  (`f_opaque`; if not, the type's own implementation is used).  A length expression is a
  function of the preceding fields, as integers or as their lengths (`keys.len()`), which may have no value (a
  panic); `Scope` has it with names, and C134 says when that is the same.
* **Readers** are records of the methods an implementation may override over a state; the
  default methods are defined once on top.  `BufferReader`, `CopyingBufferReader` and
  `StreamReader` are instances.  An input stream is its remaining content and an arbitrary
  schedule of chunk sizes, interruptions and errors.  A buffer has an address (for alignment) and a
  ghost log of allocations.
* **Writers** likewise; an output stream is an arbitrary schedule of partial writes,
  interruptions and errors; `BufWriter` is modelled with its buffer and its `Drop`.
* **Faults**: panics (division by zero, overflow, assertion, explicit, capacity), undefined behaviour
  (misaligned reference, invalid bit pattern, `unreachable_unchecked`), divergence, and `IllTyped` (a value that does
  not belong to the type: a Rust compile error).
* **Derive.**  The generated code is the interpretation of the attributes in `ReadImpl` / `WriteImpl`.
  `Derive` models the front end from parsed attributes to that form and what it rejects.

## 3. What is modelled and what is not

Modelled, function by function (line numbers at the definitions):

| Source | Modelled | Not modelled |
|--------|----------|--------------|
| `endianness.rs`, `context.rs` | everything in `endianness.rs`; the three contexts as byte orders; contexts with an error type of the user's (`Contexts`: its conversion and its `is_eof` are arbitrary functions) | contexts that change during a read, except under implementations written by users (`Programs`); conversions that panic |
| `error.rs` | everything: errors as data, `is_eof`, `custom`, conversion from and to `std::io::Error` (its kind and text), texts (`Messages`) | `Debug`; outside `Messages`, the field name inside length errors and the texts of stream errors |
| `varint.rs` | everything reading, writing, peeking, sizes, conversions | `Debug`, `Ord` and operator forwarding |
| `reader.rs` | all methods with their fast and slow paths, `read_vec`, `read_cow`, collections, until-EOF loops | initialised-ness of memory is modelled for the element loops (`Slots`), elsewhere only by which bytes are copied |
| `writer.rs` | all methods | – |
| `readable_impl.rs`, `writable_impl.rs`, `readable_unsized_impl.rs`, `private.rs`, `utils.rs` | all implementations | atomics' memory ordering (`Moving` has atomics that change between measuring and writing); `HashMap`'s hasher; allocation failure |
| `ext_*.rs` | chrono `DateTime`, glam, indexmap, smallvec, regex, uuid; which patterns `Regex::new` accepts and which times chrono accepts without a panic are arbitrary predicates of the platform | internals of those crates |
| `circular_buffer.rs` | everything: index arithmetic, debug assertions, also the methods that only tests use | – |
| `readable.rs`, `writable.rs` | the three readers, the four writers, all entry points, the system calls of `read_from_file` | paths and open flags; mapped files that get shorter while they are read (the process gets a signal), except before the first byte is touched; for a mapped file whose bytes change (`Changing`), that the compiler loads each byte once per copy in the source |
| `speedy-derive` | attributes and their conflicts, tag numbering, acceptance (`get_fields`, `Enum::new`), plain-data detection, minimum sizes, generated readers and writers, `peek_tag`; from syntax trees: `parse_special_ty` and its helpers, field attributes with their values, `check_repr`, `bound_types`, `possibly_uses_generic_ty`, `is_guaranteed_non_recursive`, the bounds of `common_tokens`; `parse_attributes` on structs, enums, variants and fields, `Enum::new`, `check_is_primitive`, the enum parts of `impl_readable` and `impl_writable` | tokenisation (`syn`), spans and messages; that the compiler accepts the generated code (but see C107, C136) |

Simplifications, beyond what is listed as not modelled:

* A reader that never lends its input has `rd_borrow = None`, instead of a method returning
  `None`.
* A `Read` implementation obeys its contract: it never claims more bytes than it was given room for,
  and an empty read means the end of input for good.  Likewise for `Write` (`AnyWrite` has any safe
  `Write`, for C128).  (`AnyRead` has any safe
  `Read`, for C102 and C127; there a stream that claims more than its slice holds makes later
  subtractions panic even without overflow checks.  C127: the streams of `Readers` stand for all that
  obey.)  `read_exact` and `write_all` are std's default methods.  A stream may override `read_exact` and after an unexpected end
  leave another part of the input unread than the default method would: `OwnExact`, C130.
* Sums of sizes inside `Writers.bytes_needed` are unbounded; `Counting` has them in `usize`, and C129
  says when that makes a difference (a value made of shared references can have an encoding that
  does not fit the address space).  In the same way `min_bytes` is unbounded; `MinCounted` has it in
  `usize`, and C133 says when that makes a difference (vectors inside a type still use the unbounded one).
* `Vec::push` while reading to the end of the input does not panic for lack of capacity.
* Floats are their bit patterns; NaN payloads are preserved, as on all tier-1 targets other than
  x87.
* Collections in `ty` and `Impls` use the derived order and equality of values.  `UserOrder` has
  them with any others, but not as fields with attributes and not with code that panics; what std and
  indexmap do with a comparison is stated there as their contract.
* Recursive types in `ty`: one declaration that mentions itself, any number of times, through any
  container; mutual recursion only after inlining.  `Nominal` has mutually recursive declarations
  by name, for `minimum_bytes_needed` only; C132 says what it gives in terms of the types written out.  C119 has mutually recursive declarations over `Impls`.
* Implementations written by users (`Programs`) pass errors of the reader and the writer on (`?`),
  except that they may turn an end of input in `read_value` into a value.  They may call every method
  of `Reader` and `Writer`; collections of a given length go into sets and maps only (any
  `FromIterator` in the code).  They do not stand inside `ty`; `Impls`
  has the containers and the derived code again with implementations for their type parameters,
  where these are not primitive (as hand-written types never are), and C118 shows that both
  agree where both apply.

## 4. Trusted base

* Coq's kernel (8.16.1), including `vm_compute` for examples and refutations by witness.
* `Print Assumptions` stands under every property theorem and says "Closed under the global
  context" for each of them: no axioms at all, not even the standard library's.  (A listing
  of the axioms of all loaded libraries, as `coqchk -o` gives, also names axioms that ship inside
  the standard library's ssreflect files, `Coq.ssr.ssrunder.Under_rel.*`, which some library file
  loads; no theorem here depends on them.)
* That the model says what the code does (section 3), and that the wire format in `Spec` is the
  documented one.  The properties that compare two implementations (readers with readers,
  fast with slow paths, bytes with sizes) do not depend on the latter.
* There are no axioms, parameters, admitted proofs, plugins, module types or functors here.

## 5. Conditions of the theorems

Everything a condition excludes is either impossible in Rust or a place where the code departs from
its documentation; the latter are the findings of section 6, each with a `_refuted` theorem.

| Condition | Meaning | File |
|-----------|---------|------|
| `valid_host h` | what Rust promises about platforms | `Host` |
| `valid lim t v`, `value_of h e t v` | `v` is a value of `t` (with `peek_tag`: the fields begin with the tag) | `Spec`, `Conditions` |
| `wsup h t` | writing: `varint` only on `u64`, tags fit their type, plain data has the layout it claims | `WriteSim` |
| `supported h e bw pk lm t` | reading: plain data has the layout it claims (`honest`), zero-sized elements have empty encodings (F4, F5), lengths times sizes fit (F20, F25), borrowed elements need no alignment (F10) and no byte order conversion | `Supported` |
| `rtok lim e e6 eof t` | the format can be read back: until-EOF parts last (F26), distinct tags | `Wellformed` |
| `covered` | `wsup`, `supported` and `rtok` | `Conditions` |
| `sane`, `calm` | hostile input: which types can produce which fault | `Sane`, `Safe` |
| `views P t` | `P` holds for the elements of every borrowed slice or array in `t` | `Undefined` |
| `accepted native P t`, `compiles` | the trait bounds of the generated code hold; `P` stands for what a field `&'a [T]` should ask | `ZeroCopy` |
| `rust_alignment h` | alignments the Rust reference promises for bytes, `packed` and `transparent` | `ZeroCopy` |
| `canonical` | types with one encoding per value | `PropCanonical` |
| `ordinary t` | can be read off the declaration: no references, `repr(transparent)`, `repr(packed)`, `unsafe_is_primitive`, `peek_tag`, `default_on_eof` or length expressions; length prefixes of at most 32 bits; distinct tags in range; slices of zero-sized types only if their encoding is empty | `Ordinary` |
| `host_64 h` | a valid 64-bit host on which only types made of nothing have size zero and packed pairs are in order (`host64_64`: the sample host is one) | `Ordinary`, `OrdinaryHost` |
| `compact h t` | elements of slices, sets and maps take at most 2 GiB each | `Ordinary` |
| `timeless t`, `defaults_valid lim t` | no `Duration`, `SystemTime` or `DateTime`; defaults of skipped fields are values of their types | `Ordinary` |

`Ordinary.v` derives all the other conditions from `ordinary` and `compact` on a 64-bit host, so that the
theorems C65 to C73 have no other conditions.

Limitation: `fits` asks that every length a container may be given times the size of its plain-data
elements is a `usize`.  On 32-bit hosts this leaves sets, maps, `Cow` and borrowed slices of plain data larger
than a byte outside `covered` (also on 64-bit hosts with a 64-bit `length_type`).

## 6. Findings

Places where the pinned code does not do what its documentation (or the property as first stated) says.
Each is proved by a theorem with a concrete witness.

| # | What | Theorems / properties |
|---|------|-----------------------|
| F1 | conversion `i64`/`VarInt64` does not invert for negative numbers | C18 |
| F2 | `peek_u64_varint` reads the tail from the first byte again | C21, C51 |
| F3 | `minimum_bytes_needed` of `peek_tag` enums is not a lower bound, so buffers refuse what streams accept | C08, C09, C15, C50 |
| F4 | `read_vec` of a zero-sized type with a non-empty encoding reads nothing | PropExclusions |
| F5 | derived empty structs are plain data of size zero: division by zero, and sets of them are lost | C07, C25, C36, C38 |
| F6 | `repr(transparent)` structs with field attributes are copied as memory inside slices | C26, C32, C33, C34, C36 |
| F7 | `Cow<[T]>` of wrappers in the foreign byte order reaches `unreachable_unchecked` or wrong results | C07, C25 |
| F8 | seconds overflow in `Duration` panics | C25, C48 |
| F9 | lengths times sizes overflow in borrowed reads on 32-bit hosts | C07, C25 |
| F10 | `&[T]` and `&[T; N]` are created at unaligned addresses | C25, C36, C49 |
| F11 | a struct length expression that overflows panics | C25 |
| F12, F15, F22 | streams: data is lost after a caught end of input; interrupted reads are not retried by the buffered reader; `UnexpectedEof` errors of the stream count as end of input | C08, C09, C31, C41, C42 |
| F13 | until-EOF: an incomplete last element is dropped; `Vec<()>` never ends | C35 |
| F14 | `write_to_file` ignores a failing final flush | C44 |
| F16 | inputs that are no encodings are accepted (bool, Option, overlong varints, …) | C46 |
| F17 | `repr(packed)` without `C`: field order is not checked | C36, C37 |
| F18 | an exhausted `RangeInclusive` comes back fresh | PropExclusions |
| F19 | IPv6 addresses on big endian hosts have the bytes of the other byte order | C03, C62 |
| F20 | 32-bit hosts: minimum size times length overflows and valid streams are refused | PropExclusions |
| F24 | `read_vec` reads `capacity * size` bytes, correct only if capacity equals length: spare room would be filled from what follows | C125 (C125_capacity, C125_refuted); elsewhere assumption `vh_capacity` |
| F25 | plain-data sets and maps refuse lengths before reading anything | PropExclusions |
| F26 | an until-EOF struct nested in the middle of another is accepted by derive | PropExclusions |
| F27, F28 | uninhabited enums: `Vec` of them is conjured up | C24, C25 |
| F29, F30 | `default_on_eof` swallows half-read fields | C30, C31 |
| F32 | `bytes_needed` of a `Vec<()>` with 2^63-1 or more elements reaches `unreachable_unchecked` | C61 |
| F33 | a vector of zero-sized elements hands out values nobody made; elements leak if one panics | C58 |
| F34 | a set or map with `length = <expression>` accepts duplicates and then cannot be written | C63 |
| F35 | a derived field `&'a [T]` puts no bound on `T`: `&'a [bool]` and `&'a [String]` compile, and input bytes become invalid values | C89 |
| F36 | `repr(packed)` structs implement `ZeroCopyable` whatever the attributes of their fields | C90 |
| F37 | `constant_prefix`: `-128i8` and `300u8` make the macro panic (`unwrap`); `5i8` is rejected | C96 |
| F38 | a field `Option<T>` with a type parameter `T` gets the bound `Option<T>: Readable` while the code needs `T: Readable`; the derive does not compile (likewise `Writable`) | C93 |
| F39 | a skipped field of generic type still demands `Readable` of it (not `Writable`) | C93 |
| F40 | `repr(C, packed)`, and `repr(packed)` followed by another `repr(…)`, are not recognised as packed; the generated writer then takes references to packed fields, which the compiler rejects | C95 |
| F41 | types passed through a `$t:ty` of `macro_rules!`, or parenthesised, are not recognised, so `varint`, `length` and `length_type` are rejected on them | C92 (examples) |
| F31 | `[Box<Self>; 0]` makes `minimum_bytes_needed` recurse forever | C101 |
| F42 | how deep reading a recursive type nests is bounded only by the length of the input (three bytes a level for a list): hostile input can exhaust the stack | C100 |
| F43 | the slices handed to `Read::read` are uninitialised memory: a safe `Read` that overstates what it stored, or looks at the slice, gives old memory contents to the caller (undefined behaviour reachable from safe code) | C102 |
| F44 | elements that take no bytes (all fields skipped, unit) make four bytes of input read as up to 2^32 - 1 elements, and the memory for them; nothing limits the count | C105 |
| F45 | the suffix of a tag literal is not looked at: `tag = 300u8` is the tag 300 | C106 (C106_enum_case) |
| F46 | `skip` on a field of an enum variant makes the derived writer's pattern leave the field out without `..`, which the compiler rejects | C107 |
| F47 | a vector of structs whose fields are all `default_on_eof` is read at the end of the input as often as its length prefix says: four bytes announce up to 2^32 - 1 elements, each of which costs a read | C112 (C112_unfed_refuted) |
| F48 | `read_from_file` maps as many bytes as `fstat` says: devices, pipes and the files of procfs report 0 and are read as empty on x86-64 Linux, while elsewhere they are read as streams | C113 (C113_device_refuted) |
| F49 | a file that is shortened between `fstat` and the read is read with zeros to the end of the page; behind that the process is killed (SIGBUS) | C113 (C113_shortened_refuted) |
| F50 | `write_to_file` empties the file before it writes: a value that cannot be written (length attribute) destroys what was there and leaves a fragment | C113 (C113_destroyed_refuted) |
| F51 | a hand-written `Writable` that asks the writer for its context can be written to streams only: `bytes_needed`, `write_to_vec` and `write_to_buffer` panic (`writable.rs` 133-141) | C115 (C115_any_refuted) |
| F52 | a hand-written `Writable` whose length depends on `endianness()` is measured in the host's byte order: in the other one `write_to_vec` fails, or its assertion does (`writable.rs` 128-131, 217) | C115 (C115_any_refuted) |
| F53 | elements without size are never read by `read_vec` (`reader.rs` 548-569): a hand-written unit-like type that writes bytes is written element by element into a `Vec` but not read, and what follows is misread | C118 (C118_unsized_refuted) |
| F54 | `default_on_eof` makes a field optional only at the end of the input: added to the elements of a list it takes bytes of the next element, and old data are misread without an error | C121 (C121_inside_refuted) |
| F55 | `StreamReader` does not override `can_read_at_least`, so a length read from a stream is reserved before anything shows that the bytes exist: four bytes can make a read reserve 32 GiB. Buffers are checked first (C40) | C124 (C124_announced, C124_refuted) |
| F56 | `bytes_needed` adds in `usize` without a check: a value made of shared references (`Vec<&str>`) can need more than `usize::MAX` bytes on a 32-bit host; write_to_vec and write_to_buffer then panic (overflow checks) or fail with UnexpectedEndOfOutputBuffer, or report a wrapped size as `expected`, although write_to_stream works. Nothing is ever truncated | C129 (C129_shared_refuted, C129_only_whole) |
| F57 | What `default_on_eof` gives on a truncated stream depends on how much a failed `read_exact` takes from it, which std leaves open: for two `default_on_eof` fields `u32`, `u8` on two bytes, a stream whose `read_exact` takes nothing on failure gives the second field the first byte; std's default method gives it its default | C130 (C130_content_refuted) |
| F58 | `minimum_bytes_needed` adds and multiplies in `usize` without a check. On a 32-bit host an empty `Vec<[[[E; 1024]; 1024]; 1024]>` with `enum E { A, B }` (an array of 1 GiB that needs 4 GiB of input) cannot be read: the computation panics with overflow checks. Without them it gives 0, and the check before the allocation of a vector lets any length pass: 1 GiB is allocated from no input. | C133_empty_vector_refuted, C133_allocation_refuted |
| F59 | a length expression that mentions a skipped field is accepted: the generated reader uses the default of the field, the generated writer does not have the variable and does not compile | C134 |
| F60 | a field called `_reader_` hides the reader from the fields after it, one called `_writer_` hides the writer from all: the generated code does not compile (or calls methods of the field, should it have them) | C134 |
| F61 | parameters of a declaration that are constants are left out of the generated impls (`Name` without its argument), so types with `const N: usize` cannot be derived | C136 |
| F62 | a lifetime parameter with bounds (`struct V< 'a, 'b: 'a >`) is printed with its bounds also as an argument and in the where-clause, where Rust does not allow them; as a where-clause of the user's it works | C136 |
| F63 | `read_from_file` on x86-64 Linux of a file with a `peek_tag` enum that is changed meanwhile can return a variant whose first field does not hold the tag that selected it, a value no file encodes | C137_peek_refuted |
| F64 | `Reader` is a safe trait, but sets, maps, `&[T]` and `&[T; N]` trust the length of the slices it lends: a reader in safe code that lends fewer bytes than asked for makes the crate read behind the slice (`read_cow` compares the lengths and panics) | C138_refuted, C138_collection, C138_ref_slice, C138_ref_array |

## 7. Properties

Statements are in `properties.jsonl`, theorem names and remarks in `MANIFEST.json`.  "partial"
means that the property as stated is false of the code (refuted by a theorem) and that the
rest is proved, unless the note says otherwise.

| Id | Title | Status | File | Theorems |
|----|-------|--------|------|----------|
| C01 | Round trip through a buffer | partial | PropExclusions, PropRoundTrip | 10 |
| C02 | Exact consumption | partial | PropExclusions, PropRoundTrip | 3 |
| C03 | Documented wire format | partial | PropWrite | 3 |
| C04 | bytes_needed is exact | partial | PropExclusions, PropWrite | 4 |
| C05 | write_to_buffer touches only its bytes | partial | PropExclusions, PropWrite | 2 |
| C06 | All writers agree | partial | PropExclusions, PropStream, PropWrite | 4 |
| C07 | Zero-copy and copying buffer reads agree | partial | PropReaders | 5 |
| C08 | Buffered stream reads agree with buffer reads | partial | PropReaders | 5 |
| C09 | Unbuffered stream reads agree with buffer reads | partial | PropReaders | 5 |
| C10 | Unbuffered reads take nothing extra from the stream | partial | PropExclusions, PropReaders | 3 |
| C100 | Reading nests no deeper than the input is long | proved | PropDepth | 5 |
| C101 | minimum_bytes_needed ends for recursive declarations | proved | PropNominal | 3 |
| C102 | Old memory contents do not show through streams that obey the rules | proved | PropAnyRead | 4 |
| C103 | The same data has the same encoding in interchangeable types | proved | PropSame | 4 |
| C104 | Readers and writers written by users work if they keep a simple contract | proved | PropCustom | 6 |
| C105 | What is read is not larger than the input allows | proved | PropWeight | 3 |
| C106 | Whole declarations are understood as written | proved | PropDeclaration | 9 |
| C107 | Accepted enums give writers that name all fields | partial | PropDeclaration | 2 |
| C108 | Text is exactly UTF-8, characters are exactly Unicode's | proved | PropUtf8 | 5 |
| C109 | Buffered streams are read at most 8192 bytes ahead | proved | PropAhead | 3 |
| C11 | Ring buffer is a FIFO queue | proved | PropRing | 2 |
| C110 | What is sent or saved is received as it was or not at all | proved | PropLink | 5 |
| C111 | The whole ring buffer is a queue and its assertions hold | proved | PropQueue | 2 |
| C112 | Reading calls the reader at most linearly often | proved | PropCalls | 4 |
| C113 | Files and the system | proved | PropFiles | 10 |
| C114 | A context with the user's own error type reads as the crate's does, if it tells the end of the input | proved | PropContexts | 7 |
| C115 | Hand-written Writable implementations: measured once, written once, and what must agree | proved | PropPrograms | 8 |
| C116 | Hand-written Readable implementations read alike from every source | proved | PropReadPrograms | 6 |
| C117 | An unbuffered stream is read at most eight bytes ahead, peeked tags included | proved | PropUnbuffered | 3 |
| C118 | Hand-written types keep their format inside containers and derived types | proved | PropImpls | 24 |
| C119 | Recursive and mutually recursive types with hand-written parts have one meaning | proved | PropNesting | 6 |
| C12 | Refilling always makes progress | proved | PropRing | 1 |
| C120 | A value is read as soon as its bytes have arrived, without waiting for more | proved | PropWait | 3 |
| C121 | Versions of a program exchange data when enums get variants and messages get optional fields | proved | PropEvolve | 5 |
| C122 | Numbers, lengths and tags stand on the wire as their digits to the base 256 | proved | PropDigits | 6 |
| C123 | Sets and maps: the order of their elements | proved | PropOrder | 7 |
| C124 | What reading from a stream reserves memory for | proved | PropReserve | 3 |
| C125 | Spare capacity of a vector would be filled from the input | proved | PropCapacity | 2 |
| C126 | Sets and maps compared by the user's Ord, Eq and Hash come back | proved | PropUserOrder | 16 |
| C127 | Any well-behaved Read is a list of chunks and errors | proved | PropAnyStream | 5 |
| C128 | Any well-behaved Write gets the encoding or the start of it | proved | PropAnyWrite | 4 |
| C129 | Sizes counted in usize never shorten the output | proved | PropCounting | 7 |
| C13 | Truncated input is rejected | partial | PropExclusions, PropRoundTrip | 5 |
| C130 | Streams with a read_exact of their own | proved | PropOwnExact | 4 |
| C131 | The texts of errors tell which error it is | proved | PropMessages | 8 |
| C132 | The minimum of types declared by name is that of the types written out | proved | PropNominalMin | 2 |
| C133 | Minimum sizes computed in usize never refuse what can be read | proved | PropMinCounted | 9 |
| C134 | Names in generated code mean the fields they name | proved | PropScope | 12 |
| C135 | Atomics may change while a value is written | proved | PropMoving | 8 |
| C136 | The headers of the generated impls | proved | PropHeader | 6 |
| C137 | A mapped file that changes while it is read | proved | PropChanging | 9 |
| C138 | Readers of the user's that lend | proved | PropLending | 16 |
| C14 | Truncation is reported as end of input | partial | PropExclusions, PropRoundTrip | 4 |
| C15 | minimum_bytes_needed is a lower bound | partial | PropSafe | 5 |
| C16 | Variable-length integers round trip | proved | PropVarint | 4 |
| C17 | Variable-length integers are shortest | proved | PropVarint | 5 |
| C18 | Signed conversion to VarInt64 is invertible | partial | PropVarintConv | 2 |
| C19 | Signed narrow conversions are injective | proved | PropVarintConv | 3 |
| C20 | Peeking fixed-width integers does not consume | proved | PropPeek | 3 |
| C21 | Peeking a variable-length integer | partial | PropVarint | 6 |
| C22 | Skipping equals reading and discarding | proved | PropPeek | 2 |
| C23 | Invalid scalar encodings are rejected | proved | PropScalar | 6 |
| C24 | Reads only ever produce valid values | partial | PropSafe | 2 |
| C25 | Reading never panics | partial | PropSafe | 10 |
| C26 | Field special-casing is transparent | partial | PropField | 6 |
| C27 | Enum tags are unique and in range | proved | PropTags | 6 |
| C28 | Length attribute is checked when writing | proved | PropLength | 4 |
| C29 | Length prefixes never truncate | proved | PropLength | 4 |
| C30 | default_on_eof | partial | PropDefault | 7 |
| C31 | Readers agree after a caught end of input | partial | PropDefault, PropReaders | 7 |
| C32 | Skipped fields | partial | PropAttrs | 8 |
| C33 | Constant prefixes | partial | PropAttrs | 6 |
| C34 | Until-EOF collections | partial | PropAttrs | 3 |
| C35 | Until-EOF reading accounts for all input | partial | PropUntil | 8 |
| C36 | Bulk fast paths equal element-wise coding | partial | PropBulk | 15 |
| C37 | Plain-data structs have no padding and declaration order | partial | PropPlain | 8 |
| C38 | Maps and sets | partial | PropCollections | 4 |
| C39 | usize is range checked | proved | PropScalar | 2 |
| C40 | Hostile lengths do not cause large allocations from buffers | proved | PropUntil | 2 |
| C41 | Stream errors are reported | partial | PropReaders | 3 |
| C42 | Interrupted reads are retried | partial | PropReaders | 3 |
| C43 | Failed stream writes leave a prefix | proved | PropStream, PropWrite | 2 |
| C44 | write_to_file reports all failures | partial | PropStream, PropWrite | 3 |
| C45 | Encodings are injective | partial | PropExclusions, PropRoundTrip | 5 |
| C46 | Encodings are canonical | partial | PropCanonical | 17 |
| C47 | Byte order of scalars | proved | PropScalar | 6 |
| C48 | Times before the epoch and out-of-range times | partial | PropScalar | 5 |
| C49 | Borrowed slices | partial | PropBorrowed | 11 |
| C50 | Reading files | partial | PropReaders | 4 |
| C51 | Peeked enums | partial | PropPeeked | 5 |
| C52 | Recursive types | partial | PropExclusions, PropRecursive | 5 |
| C53 | Round trip of covered types | proved | PropRecursive, PropRoundTrip | 3 |
| C54 | Exact consumption of covered types | proved | PropReaders, PropRoundTrip | 4 |
| C55 | Truncation of covered types | proved | PropRoundTrip | 7 |
| C56 | Injectivity of covered types | proved | PropRoundTrip | 3 |
| C57 | Writers agree on faithful types | proved | PropStream, PropWrite | 6 |
| C58 | Containers that fail half way drop exactly what they have read | proved | PropSlots | 5 |
| C59 | Methods of Endianness | proved | PropErrors | 4 |
| C60 | Conversions between errors | proved | PropErrors | 5 |
| C61 | Writing panics only in length expressions | proved | PropNoPanic | 7 |
| C62 | What one host writes another host reads | proved | PropInterop | 4 |
| C63 | What is accepted can be written and is then stable | proved | PropStable | 3 |
| C64 | Which integers survive the two conversions to and from VarInt64 | proved | PropVarintConv | 1 |
| C65 | Ordinary types round trip | proved | PropOrdinary | 7 |
| C66 | All writers of ordinary types agree | proved | PropOrdinary | 2 |
| C67 | All readers of ordinary types agree | proved | PropOrdinary | 3 |
| C68 | The minimum number of bytes of ordinary types is a minimum | proved | PropOrdinary | 4 |
| C69 | What is read of ordinary types is valid and stable | proved | PropOrdinary | 2 |
| C70 | Reading and writing ordinary types does not panic | proved | PropOrdinary | 4 |
| C71 | Fast paths and special cases of ordinary types change nothing | proved | PropOrdinary | 8 |
| C72 | Sets and maps of ordinary types are read as sets and maps | proved | PropOrdinary | 2 |
| C73 | 64-bit hosts exchange ordinary types | proved | PropOrdinary | 2 |
| C74 | Which errors of an input stream are seen | proved | PropRestated | 2 |
| C75 | What is in a file after write_to_file | proved | PropRestated | 1 |
| C76 | Which variable-length integers can be peeked | proved | PropRestated | 2 |
| C77 | System times, completely | proved | PropRestated | 2 |
| C78 | Borrowed slices and alignment, completely | proved | PropRestated | 2 |
| C79 | Enums with peek_tag | proved | PropRestated | 1 |
| C80 | default_on_eof in structs of ordinary fields | proved | PropRestated | 3 |
| C81 | Skipped fields, for every reader and writer | proved | PropRestated | 5 |
| C82 | Constant prefixes in structs of ordinary fields | proved | PropRestated | 3 |
| C83 | Containers that reach to the end of the input | proved | PropRestated | 5 |
| C84 | Types whose encodings are canonical | proved | PropRestated | 2 |
| C85 | Plain-data structs checked by the macro | proved | PropPlain | 4 |
| C86 | Readers agree on inputs that end early | proved | PropRestated | 1 |
| C87 | Where undefined behaviour can come from when reading | proved | PropUndefined | 7 |
| C88 | ZeroCopyable types accept every bit pattern | proved | PropUndefined | 3 |
| C89 | The compiler keeps invalid values out of borrowed slices | partial | PropUndefined | 3 |
| C90 | Borrowing a slice gives what was written | partial | PropUndefined | 2 |
| C91 | The spelling of a field's type does not matter | proved | PropSyntax | 3 |
| C92 | Declarations as spelled are those of the model | proved | PropSyntax | 4 |
| C93 | The bounds of the generated impls suffice | partial | PropSyntax | 5 |
| C94 | Recursion and zero-copy bounds | proved | PropSyntax | 3 |
| C95 | The layout attribute of a struct is recognised | partial | PropSyntax | 4 |
| C96 | Constant prefixes | partial | PropSyntax | 3 |
| C97 | The bounds suffice apart from optional fields of unrecognised types | proved | PropSyntax | 3 |
| C98 | What is recognised as the layout of a struct is its layout | proved | PropSyntax | 3 |
| C99 | Accepted constant prefixes stand for their bytes | proved | PropSyntax | 2 |

## 8. How the theorems are tested

`seeded/LOG.jsonl` records deliberate bugs: in a scratch copy one definition of the model is edited as
a realistic bug would, everything is rebuilt, each proof that fails is replaced by a marker
axiom, and the theorems of the manifest that then depend on the marker (directly or through lemmas)
are the ones that noticed.  A bug that falsifies a property but leaves its theorem provable means the
statement is too weak; such theorems are tightened and the entry says so.
