{"id": "C01", "title": "Round trip through a buffer", "statement": "Reading back the bytes produced by write_to_vec_with_ctx with read_from_buffer_with_ctx under the same context yields the original value, with every `#[speedy(skip)]` field replaced by its default; this holds for every supported type, including arbitrarily nested derived structs and enums with field attributes.", "quantifier": "every supported type, every value of it whose write succeeds, both context endiannesses, both host endiannesses, every struct layout the compiler may choose", "why_tests_cant": "The set of types is open (derives nest without bound) and the tests fix one value per type on one little-endian host.", "anchors": ["src/readable.rs: Readable::read_from_buffer_with_ctx", "src/writable.rs: Writable::write_to_vec_with_ctx", "src/readable_impl.rs", "src/writable_impl.rs", "speedy-derive/src/lib.rs: impl_readable, impl_writable"]}
{"id": "C02", "title": "Exact consumption", "statement": "read_with_length_from_buffer_with_ctx on a valid encoding followed by any trailing bytes reports exactly the number of bytes of the encoding and never looks at the trailing bytes (they do not influence the value).", "quantifier": "every supported type without until-EOF/default-on-EOF parts, every value, every trailing byte string", "why_tests_cant": "Trailing data is unbounded and adversarial; tests only ever read exact buffers.", "anchors": ["src/readable.rs: read_with_length_from_buffer_with_ctx, BufferReader"]}
{"id": "C03", "title": "Documented wire format", "statement": "The bytes written for a value are exactly those of the documented format table (fixed-width scalars in the context's byte order, u32 length prefixes, one-byte flags, tags, ...), whatever the endianness of the host and whatever fast path is taken.", "quantifier": "every supported type and value, every pair of host and context endianness", "why_tests_cant": "Tests run on a little-endian host only and compare a few literal byte strings.", "anchors": ["README.md: format table", "src/writer.rs: write_slice", "src/writable_impl.rs", "src/endianness.rs"]}
{"id": "C04", "title": "bytes_needed is exact", "statement": "Whenever writing a value succeeds, bytes_needed returned exactly the number of bytes that are written.", "quantifier": "every supported type and value, every context endianness", "why_tests_cant": "write_to_vec trusts bytes_needed with set_len on uninitialised memory; one wrong value for one type leaks or truncates, and the types are unbounded.", "anchors": ["src/writable.rs: bytes_needed, SizeCalculatorCollector", "src/writable_impl.rs: bytes_needed overrides"]}
{"id": "C05", "title": "write_to_buffer touches only its bytes", "statement": "write_to_buffer succeeds exactly when the buffer has at least bytes_needed bytes and the value is writable; it then replaces the first bytes_needed bytes by the encoding and leaves every later byte unchanged; if the buffer is too short it is left entirely unchanged and the error reports the two sizes.", "quantifier": "every type, value, and destination buffer of any length and content", "why_tests_cant": "Buffer lengths and contents are unbounded; tests check one undersized buffer.", "anchors": ["src/writable.rs: write_to_buffer_with_ctx_mut, BufferCollector"]}
{"id": "C06", "title": "All writers agree", "statement": "write_to_vec, write_to_buffer and write_to_stream produce the same bytes for the same value and context, however the stream splits its write calls.", "quantifier": "every type and value, every schedule of partial or interrupted writes of the stream", "why_tests_cant": "Schedules of partial writes are unbounded.", "anchors": ["src/writable.rs: write_to_vec_with_ctx_mut, write_to_stream_with_ctx, WritingCollector"]}
{"id": "C07", "title": "Zero-copy and copying buffer reads agree", "statement": "read_from_buffer and read_from_buffer_copying_data return the same value (or both fail) and consume the same number of bytes for every input.", "quantifier": "every type without borrowed references, every byte string (valid or not), every alignment of the buffer", "why_tests_cant": "Alignment decides between borrowing and copying; inputs are unbounded.", "anchors": ["src/readable.rs: BufferReader, CopyingBufferReader", "src/reader.rs: read_cow, read_collection"]}
{"id": "C08", "title": "Buffered stream reads agree with buffer reads", "statement": "read_from_stream_buffered returns the same value as reading the stream's whole content from a buffer, and fails exactly when that fails, however the stream chops the data into chunks.", "quantifier": "every type without borrowed references, every stream content, every chunk schedule", "why_tests_cant": "The chunk schedule is an unbounded adversary which exercises wrap-around of the ring buffer.", "anchors": ["src/readable.rs: StreamReader, read_from_stream_buffered_with_ctx", "src/circular_buffer.rs"]}
{"id": "C09", "title": "Unbuffered stream reads agree with buffer reads", "statement": "read_from_stream_unbuffered returns the same value as reading the stream's whole content from a buffer, and fails exactly when that fails, however the stream chops the data into chunks.", "quantifier": "every type without borrowed references, every stream content, every chunk schedule", "why_tests_cant": "Same adversarial schedule, different code path (peeked bytes live in the ring buffer).", "anchors": ["src/readable.rs: StreamReader, read_from_stream_unbuffered_with_ctx"]}
{"id": "C10", "title": "Unbuffered reads take nothing extra from the stream", "statement": "After a successful read_from_stream_unbuffered of a type that does not peek, exactly the bytes of the encoding have been taken from the stream, so a sequence of values can be read with consecutive calls.", "quantifier": "every type without peek_tag, every value, every following stream content, every chunk schedule", "why_tests_cant": "Depends on all possible chunkings and on what follows in the stream.", "anchors": ["src/readable.rs: read_from_stream_unbuffered_with_ctx"]}
{"id": "C11", "title": "Ring buffer is a FIFO queue", "statement": "For every history of appends, partial appends, reserves, peeks and consumes, the bytes that come out of the circular buffer are the bytes that went in, in order, and no operation panics while its documented precondition holds.", "quantifier": "every history of operations, every capacity the allocator may return, every wrap-around position", "why_tests_cant": "Histories are unbounded; the unit tests try a handful.", "anchors": ["src/circular_buffer.rs: CircularBuffer"]}
{"id": "C12", "title": "Refilling always makes progress", "statement": "When the ring buffer is asked to append and has free space (or is asked to grow), the slice offered to the stream is never empty, so a zero-length read can only mean end of stream.", "quantifier": "every reachable ring buffer state", "why_tests_cant": "A rare wrap-around state offering an empty slice would be taken for end of input.", "anchors": ["src/circular_buffer.rs: empty, try_append_with", "src/readable.rs: read_bytes_slow, peek_bytes"]}
{"id": "C13", "title": "Truncated input is rejected", "statement": "No strict prefix of a valid encoding is accepted by any reader (so encodings of one type are prefix-free).", "quantifier": "every type without until-EOF/default-on-EOF parts, every value, every cut point, every reader", "why_tests_cant": "All cut points of all encodings of all types.", "anchors": ["src/reader.rs", "src/readable.rs"]}
{"id": "C14", "title": "Truncation is reported as end of input", "statement": "Reading a strict prefix of a valid encoding fails with an error for which is_eof() holds, or, at the buffer entry points when fewer bytes than the type's minimum are present, with InputBufferIsTooSmall carrying the actual and the minimum size.", "quantifier": "every type without until-EOF/default-on-EOF parts, every value, every cut point, every reader", "why_tests_cant": "All cut points; an early length check could report a different error.", "anchors": ["src/error.rs: is_eof", "src/readable.rs: read_with_length_from_buffer_with_ctx"]}
{"id": "C15", "title": "minimum_bytes_needed is a lower bound", "statement": "No successful read of a type consumes fewer bytes than minimum_bytes_needed, so the early rejections based on it (buffer entry points, vector lengths) never refuse an input that could have been read.", "quantifier": "every type, every input", "why_tests_cant": "Quantifies over all inputs of all types.", "anchors": ["src/readable.rs: minimum_bytes_needed", "src/reader.rs: read_vec", "speedy-derive/src/lib.rs: get_minimum_bytes, min"]}
{"id": "C16", "title": "Variable-length integers round trip", "statement": "Writing any u64 as a VarInt64 and reading it back gives the same number, in either endianness, from any reader, consuming exactly the bytes written.", "quantifier": "every u64, both endiannesses", "why_tests_cant": "2^64 values.", "anchors": ["src/varint.rs: write_to, read_from"]}
{"id": "C17", "title": "Variable-length integers are shortest", "statement": "The encoding of a number is between 1 and 9 bytes, its length is the documented function of the number (7 payload bits per byte, 8 full bytes in the 9-byte form), no shorter accepted encoding of the same number exists, and the encoding does not depend on the endianness.", "quantifier": "every u64, every byte string accepted by the decoder", "why_tests_cant": "2^64 values; shortness quantifies over all alternative encodings.", "anchors": ["src/varint.rs: get_length, write_to, impl_read"]}
{"id": "C18", "title": "Signed conversion to VarInt64 is invertible", "statement": "Converting any i64 to a VarInt64 and back yields the same number.", "quantifier": "every i64", "why_tests_cant": "2^64 values; the existing tests only cover the unsigned direction.", "anchors": ["src/varint.rs: From<i64> for VarInt64, From<VarInt64> for i64"]}
{"id": "C19", "title": "Signed narrow conversions are injective", "statement": "Distinct i8/i16/i32/i64 numbers are converted to distinct VarInt64 numbers, small magnitudes to small numbers (zig-zag), independent of the width used.", "quantifier": "every signed integer of each width", "why_tests_cant": "Whole value ranges.", "anchors": ["src/varint.rs: From<i64>, From<i32>, From<i16>, From<i8>"]}
{"id": "C20", "title": "Peeking fixed-width integers does not consume", "statement": "peek_u8 \u2026 peek_f64 return exactly what the next read of the same width returns and do not change what any later read returns; they fail exactly when that read would fail.", "quantifier": "every reader kind, every reader state, every chunk schedule, every width", "why_tests_cant": "On streams a peek refills and regrows the ring buffer; states are unbounded.", "anchors": ["src/reader.rs: peek_u8 \u2026 peek_f64", "src/readable.rs: peek_bytes"]}
{"id": "C21", "title": "Peeking a variable-length integer", "statement": "peek_u64_varint returns what the next read_u64_varint would return.", "quantifier": "every reader state whose next bytes hold a variable-length integer", "why_tests_cant": "Only a zero byte is ever peeked in tests.", "anchors": ["src/varint.rs: peek_from", "src/reader.rs: peek_u64_varint"]}
{"id": "C22", "title": "Skipping equals reading and discarding", "statement": "skip_bytes(n) leaves the reader as if n bytes had been read, and fails exactly when reading them would fail.", "quantifier": "every n, every reader kind, every chunk schedule", "why_tests_cant": "n spans the 1024-byte chunking boundary and all schedules.", "anchors": ["src/reader.rs: skip_bytes"]}
{"id": "C23", "title": "Invalid scalar encodings are rejected", "statement": "Reading a char succeeds only for Unicode scalar values, a NonZero only for non-zero numbers, an Endianness or IpAddr only for tags 0 and 1, and an enum only for one of its tags; everything else is the documented error, never another value.", "quantifier": "every byte string", "why_tests_cant": "All 2^32 char encodings, all tag values.", "anchors": ["src/readable_impl.rs: char, NonZero, Endianness, IpAddr", "speedy-derive/src/lib.rs: impl_readable"]}
{"id": "C24", "title": "Reads only ever produce valid values", "statement": "Whatever the input, a value returned by a read is a valid value of its type: integers in range, strings valid UTF-8, chars scalar values, NonZero non-zero, arrays of the declared length, sets and maps without duplicate keys (sorted for the B-tree ones), nanoseconds below 10^9.", "quantifier": "every type, every byte string, every reader", "why_tests_cant": "All inputs; invalid values of several of these types are undefined behaviour in Rust.", "anchors": ["src/readable_impl.rs", "src/private.rs: vec_to_string"]}
{"id": "C25", "title": "Reading never panics", "statement": "Reading any byte string as any type terminates with a value or an error, never with a panic.", "quantifier": "every type, every byte string, every reader", "why_tests_cant": "All inputs.", "anchors": ["src/readable_impl.rs: Duration", "src/reader.rs: read_cow, RawCopyIter", "speedy-derive/src/lib.rs: speedy_flip_endianness", "src/ext_chrono.rs"]}
{"id": "C26", "title": "Field special-casing is transparent", "statement": "A derived field without attributes is encoded exactly like the field type's own implementation, although the derive emits separate code for String, Vec, Cow, sets, maps, arrays and Option.", "quantifier": "every field type, every value, every input", "why_tests_cant": "Two code paths over an unbounded family of types.", "anchors": ["speedy-derive/src/lib.rs: read_field_body, write_field_body, parse_ty"]}
{"id": "C27", "title": "Enum tags are unique and in range", "statement": "For every enum accepted by the derive, no two variants have the same tag, every tag fits the tag type, explicit tags are used as given and implicit ones follow the preceding variant; hence reading a tag selects at most one variant.", "quantifier": "every sequence of variants with or without explicit tags/discriminants, every tag type", "why_tests_cant": "All enum declarations.", "anchors": ["speedy-derive/src/lib.rs: Enum::new"]}
{"id": "C28", "title": "Length attribute is checked when writing", "statement": "A field with `length = expr` is written without a prefix, the write fails with LengthIsNotTheSame when the collection's length differs from the expression's value, and a successful write reads back.", "quantifier": "every struct with such fields, every value", "why_tests_cant": "All expressions and values.", "anchors": ["speedy-derive/src/lib.rs: write_field_body", "src/private.rs: are_lengths_the_same"]}
{"id": "C29", "title": "Length prefixes never truncate", "statement": "A collection longer than its length_type (or the default u32) can express is refused with OutOfRangeLength; otherwise the prefix is exactly its length in the requested width.", "quantifier": "every collection length, every length type", "why_tests_cant": "Lengths around 2^32 are impractical to test.", "anchors": ["src/private.rs: write_length_u7 \u2026 write_length_u64_varint"]}
{"id": "C30", "title": "default_on_eof", "statement": "When the input ends exactly before a default_on_eof field, the field and all default_on_eof fields after it get their defaults and the read succeeds; when it ends inside the last field that field gets its default; all other errors are still reported.", "quantifier": "every struct, every value prefix, every reader", "why_tests_cant": "All structs and all cut points.", "anchors": ["speedy-derive/src/lib.rs: default_on_eof_body"]}
{"id": "C31", "title": "Readers agree after a caught end of input", "statement": "After a default_on_eof field ran into the end of the input part-way, all readers see the same remaining input for the following fields.", "quantifier": "every struct, every input, every reader", "why_tests_cant": "Cross product of readers and cut points.", "anchors": ["src/readable.rs: BufferReader, StreamReader::read_bytes", "speedy-derive/src/lib.rs: default_on_eof_body"]}
{"id": "C32", "title": "Skipped fields", "statement": "A `skip` field contributes no bytes and reads back as its default, wherever it is placed.", "quantifier": "every struct, value and input", "why_tests_cant": "All placements.", "anchors": ["speedy-derive/src/lib.rs: read_field_body, write_field_body"]}
{"id": "C33", "title": "Constant prefixes", "statement": "A constant_prefix is written verbatim before its field; reading succeeds only if the same bytes are present, otherwise ExpectedConstant (or end of input) is reported and no value is produced.", "quantifier": "every prefix, every value, every input", "why_tests_cant": "All inputs.", "anchors": ["src/private.rs: read_constant", "speedy-derive/src/lib.rs: write_field_body"]}
{"id": "C34", "title": "Until-EOF collections", "statement": "A trailing collection with `length = ..` reads back exactly the elements written when the input ends after it.", "quantifier": "every element type that consumes at least one byte, every list of elements, every reader", "why_tests_cant": "All lists.", "anchors": ["src/reader.rs: read_vec_until_eof, read_collection_until_eof"]}
{"id": "C35", "title": "Until-EOF reading accounts for all input", "statement": "A successful until-EOF read has consumed the whole input, and it terminates.", "quantifier": "every element type, every input", "why_tests_cant": "All inputs.", "anchors": ["src/reader.rs: read_vec_until_eof"]}
{"id": "C36", "title": "Bulk fast paths equal element-wise coding", "statement": "Writing or reading a slice, vector, array, Cow, set or map of plain-data elements through the memory-copy fast path gives the same bytes and values as handling each element separately.", "quantifier": "every plain-data element type, every length, both endiannesses of host and context, every alignment", "why_tests_cant": "The fast path is chosen by layout and endianness; tests only see one host.", "anchors": ["src/reader.rs: read_vec, read_cow, read_collection, read_key_value_collection", "src/writer.rs: write_slice"]}
{"id": "C37", "title": "Plain-data structs have no padding and declaration order", "statement": "When a derived struct is treated as plain data, its memory image is exactly the concatenation of its fields in declaration order, for every layout the compiler may choose.", "quantifier": "every struct, every legal layout (order, padding)", "why_tests_cant": "The compiler's layout choice is outside the tests' control.", "anchors": ["speedy-derive/src/lib.rs: generate_is_primitive"]}
{"id": "C38", "title": "Maps and sets", "statement": "Reading a map keeps for every key the last value in the input; reading a set keeps each element once; the result of writing and reading back does not depend on the iteration order of hash tables.", "quantifier": "every list of entries, every iteration order", "why_tests_cant": "All orders; hash iteration order is random.", "anchors": ["src/reader.rs: read_collection, read_key_value_collection", "src/readable_impl.rs: maps and sets"]}
{"id": "C39", "title": "usize is range checked", "statement": "A usize is written as u64 and reading a number above the host's usize::MAX is OutOfRangeUsize, never a truncated number.", "quantifier": "every u64, every pointer width", "why_tests_cant": "32-bit hosts are not tested.", "anchors": ["src/readable_impl.rs: usize", "src/writable_impl.rs: usize"]}
{"id": "C40", "title": "Hostile lengths do not cause large allocations from buffers", "statement": "When reading from a buffer, every vector allocation requested is at most (size of the element / minimum encoding of the element) times the number of remaining input bytes, whatever the length prefix says.", "quantifier": "every type whose vector elements have a non-zero minimum, every input", "why_tests_cant": "All inputs; length prefixes up to 2^64.", "anchors": ["src/reader.rs: read_vec"]}
{"id": "C41", "title": "Stream errors are reported", "statement": "If the stream reports an I/O error, the read either does not need the bytes or fails with that error; it never returns a value different from the one the error-free stream would give.", "quantifier": "every type, every content, every schedule of chunks and errors", "why_tests_cant": "All error positions.", "anchors": ["src/readable.rs: StreamReader"]}
{"id": "C42", "title": "Interrupted reads are retried", "statement": "A stream read that returns ErrorKind::Interrupted is retried and does not fail the operation.", "quantifier": "every schedule with interruptions, both stream readers", "why_tests_cant": "All schedules.", "anchors": ["src/readable.rs: read_bytes_slow, peek_bytes"]}
{"id": "C43", "title": "Failed stream writes leave a prefix", "statement": "If the output stream fails, the error is returned and the bytes delivered before it are a prefix of the encoding.", "quantifier": "every type, value and failure schedule", "why_tests_cant": "All failure points.", "anchors": ["src/writable.rs: WritingCollector"]}
{"id": "C44", "title": "write_to_file reports all failures", "statement": "If write_to_file returns Ok, the file holds the whole encoding.", "quantifier": "every value, every failure schedule of the file system", "why_tests_cant": "Needs a failing disk at the last flush.", "anchors": ["src/writable.rs: write_to_file_with_ctx"]}
{"id": "C45", "title": "Encodings are injective", "statement": "Two values of one type have the same encoding only if they are equal (up to skipped fields), and a sequence of encodings splits uniquely.", "quantifier": "every type, every pair of values", "why_tests_cant": "All pairs.", "anchors": ["src/writable_impl.rs"]}
{"id": "C46", "title": "Encodings are canonical", "statement": "Every accepted input is the encoding of the value it decodes to.", "quantifier": "every type, every accepted input", "why_tests_cant": "All inputs.", "anchors": ["src/readable_impl.rs: bool, Option, Result", "src/varint.rs"]}
{"id": "C47", "title": "Byte order of scalars", "statement": "The big-endian encoding of a scalar is the reversal of its little-endian encoding and swapping twice is the identity; Uuid, strings and varints are unaffected by the context's byte order.", "quantifier": "every scalar value", "why_tests_cant": "Up to 2^128 values.", "anchors": ["src/endianness.rs", "src/utils.rs: SwapBytes", "src/ext_uuid.rs"]}
{"id": "C48", "title": "Times before the epoch and out-of-range times", "statement": "Writing a SystemTime before the epoch fails with InvalidSystemTime; reading one that the platform cannot represent fails with InvalidSystemTime; all others round trip to the nanosecond.", "quantifier": "every SystemTime, every encoded duration", "why_tests_cant": "All times.", "anchors": ["src/readable_impl.rs: SystemTime", "src/writable_impl.rs: SystemTime"]}
{"id": "C49", "title": "Borrowed slices", "statement": "Reading &[T] or &[T; N] from a buffer yields the elements if the context's byte order is the host's (or elements are one byte), an EndiannessMismatch error otherwise, Unsized from non-borrowing readers, and is always memory safe.", "quantifier": "every plain-data element type, every buffer address", "why_tests_cant": "Depends on the address of the buffer.", "anchors": ["src/readable_unsized_impl.rs"]}
{"id": "C50", "title": "Reading files", "statement": "read_from_file gives the same result as reading the file's content from a buffer.", "quantifier": "every type, every file content", "why_tests_cant": "All contents.", "anchors": ["src/readable.rs: read_from_file_with_ctx"]}
{"id": "C51", "title": "Peeked enums", "statement": "An enum with peek_tag writes no tag of its own and reads back whenever the fields of the variant begin with the encoding of its tag.", "quantifier": "every such enum and value", "why_tests_cant": "All enums and values.", "anchors": ["speedy-derive/src/lib.rs: impl_readable, impl_writable (peek_tag)"]}
{"id": "C52", "title": "Recursive types", "statement": "A recursive derived type (through Box, Option, Vec) round trips at every nesting depth.", "quantifier": "every recursive declaration, every depth", "why_tests_cant": "Depth is unbounded.", "anchors": ["speedy-derive/src/lib.rs: is_guaranteed_non_recursive"]}
{"id": "C53", "title": "Round trip of covered types", "statement": "Reading back the bytes produced by write_to_vec with read_from_buffer under the same context yields the original value with skipped fields defaulted, and exactly the original value if no field is skipped.", "quantifier": "every valid host, byte order, buffer address, every type (covered) i.e. excluding: zero-sized types with a non-empty encoding and empty structs as elements, exhausted inclusive ranges, until-EOF parts that are not last, plain data whose layout is not the declared one, borrowed slices that need alignment or conversion, and plain data containers whose largest possible length does not fit the address space, every value", "why_tests_cant": "All nestings of types.", "anchors": ["src/readable.rs", "src/writable.rs", "speedy-derive/src/lib.rs"]}
{"id": "C54", "title": "Exact consumption of covered types", "statement": "Reading an encoding followed by anything takes exactly the encoding, from a buffer, a copied buffer or an unbuffered stream, and consecutive values are read by consecutive calls.", "quantifier": "every valid host, every covered type without until-EOF or default-on-EOF parts, every value, every continuation, every chunk schedule", "why_tests_cant": "All continuations and schedules.", "anchors": ["src/readable.rs: read_with_length_from_buffer_with_ctx, StreamReader"]}
{"id": "C55", "title": "Truncation of covered types", "statement": "No strict prefix of an encoding is accepted by any reader; the error is an end of input, or InputBufferIsTooSmall with the two sizes at the buffer entry points; encodings are prefix free.", "quantifier": "every valid host, every covered type without until-EOF or default-on-EOF parts, every value and cut point", "why_tests_cant": "All cut points of all encodings.", "anchors": ["src/readable.rs", "src/error.rs: IsEof"]}
{"id": "C56", "title": "Injectivity of covered types", "statement": "Values of one covered type with the same encoding have the same normal form (skipped fields defaulted), and a concatenation of non-empty encodings splits uniquely.", "quantifier": "every valid host, every covered type, every pair of values", "why_tests_cant": "All pairs of values.", "anchors": ["src/writable_impl.rs"]}
{"id": "C57", "title": "Writers agree on faithful types", "statement": "For types whose plain data has the layout it claims (wsup), bytes_needed is exact, write_to_buffer touches exactly its bytes or nothing, and vector, buffer and stream receive the same bytes however the stream splits the writes.", "quantifier": "every valid host, every wsup type, every value, buffer and schedule", "why_tests_cant": "All schedules and buffers.", "anchors": ["src/writable.rs", "src/writer.rs"]}
{"id": "C58", "title": "Containers that fail half way drop exactly what they have read", "statement": "While a vector (element by element) or an array is being read, no slot of its memory is read before it is written, overwritten or released twice; on success the container holds exactly the values read; if an element fails, exactly the values read before it are dropped, once each and in order; if an element panics, an array drops them and a vector loses them without dropping any twice.", "quantifier": "every element reader whatever it returns, every point of failure, vectors of elements that occupy memory, arrays of any elements", "why_tests_cant": "The failure point and the element reader are arbitrary; double drops and uses of uninitialised memory are not observable by assertions.", "anchors": ["src/reader.rs: read_vec", "src/readable_impl.rs: arrays"]}
{"id": "C59", "title": "Methods of Endianness", "statement": "read_u16 .. read_f64 return the number the wire format assigns to a slice of the right length and panic for any other length; swapping a number makes its bytes in memory those of the wire format and is its own inverse; swap_slice_* swaps every element.", "quantifier": "both native byte orders, both contexts, every numeric type, every slice and value", "why_tests_cant": "The tests run on one native byte order.", "anchors": ["src/endianness.rs"]}
{"id": "C60", "title": "Conversions between errors", "statement": "An error is an end of input exactly if the std::io::Error made from it has the kind UnexpectedEof; errors of streams come back unchanged; every other error becomes InvalidData; going to std::io::Error and back preserves is_eof and the kind; custom errors are never an end of input.", "quantifier": "every error", "why_tests_cant": "The tests look at single errors.", "anchors": ["src/error.rs"]}
{"id": "C61", "title": "Writing panics only in length expressions", "statement": "Writing a value of a type to a stream or a file panics only if a length expression of the type does (overflow while evaluating a `length = ...` attribute), and reaches no undefined behaviour; the same holds for vectors, buffers and bytes_needed if no list in the value has 2^63-1 or more elements.", "quantifier": "every host, every supported type, every valid value, every stream behaviour, every output buffer", "why_tests_cant": "Absence of panics over all values and types cannot be shown by running some.", "anchors": ["src/writable.rs", "src/writable_impl.rs", "src/private.rs: unsafe_is_length!", "speedy-derive/src/lib.rs: impl_writable"]}
{"id": "C62", "title": "What one host writes another host reads", "statement": "A value written on one host and read on another with the same context comes back the same if both can represent it, although the hosts may differ in byte order, pointer size, memory layout and hash order; a value that the reading host cannot represent is refused and never turned into another value.  Types that contain IPv6 addresses need hosts of the same byte order.", "quantifier": "every two hosts, every supported type, every value, buffers at any address and streams that split or interrupt reads", "why_tests_cant": "The tests run writer and reader on one host.", "anchors": ["src/writable_impl.rs", "src/readable_impl.rs", "src/utils.rs"]}
{"id": "C63", "title": "What is accepted can be written and is then stable", "statement": "A value accepted from any bytes can be written; the bytes written are not longer than the bytes it was read from; every reader reads the same value from them, whatever follows; and writing that value again gives the same bytes.  This holds for every supported type without peek_tag, default_on_eof and `length = ..` fields in which no set or map takes its length from an expression.", "quantifier": "every host, every such type, every input, every entry point, every stream behaviour", "why_tests_cant": "The inputs are arbitrary, also ones no writer produces (duplicate keys, over-long varints, any non-zero flag).", "anchors": ["src/readable_impl.rs", "src/writable_impl.rs", "speedy-derive/src/lib.rs: read_field_body, write_field_body"]}
{"id": "C64", "title": "Which integers survive the two conversions to and from VarInt64", "statement": "Converting an i64 to VarInt64 and back gives the same number exactly when it is a non-negative multiple of 2^48; every other i64 comes back changed.", "quantifier": "every i64", "why_tests_cant": "2^64 inputs; the exact set of fixed points of two shift-and-xor formulas cannot be enumerated.", "anchors": ["src/varint.rs: From<i64> for VarInt64, From<VarInt64> for i64"]}
{"id": "C65", "title": "Ordinary types round trip", "statement": "For an ordinary type on a 64-bit host: with anything behind the encoding of a value both buffer readers return the value (skipped fields reset) and the size of the encoding; every entry point returns the value; an unbuffered stream is left just behind the encoding, however often it is interrupted; a strict prefix of an encoding is refused by every entry point; no encoding is a prefix of another one; values with the same encoding are equal up to skipped fields.", "quantifier": "every 64-bit host, every ordinary type whose slice elements are at most 2 GiB, every value, every suffix, every stream behaviour", "why_tests_cant": "Quantifies over all declarations, values, suffixes and stream schedules.", "anchors": ["src/readable_impl.rs", "src/writable_impl.rs", "src/readable.rs", "src/writable.rs", "speedy-derive/src/lib.rs"]}
{"id": "C66", "title": "All writers of ordinary types agree", "statement": "If writing a value of an ordinary type to a vector gives b, bytes_needed is the length of b, a buffer that is long enough receives b at its start and keeps the rest, a shorter one is left unchanged with an error that states both sizes, and a stream that accepts what it is given receives b. If writing to a vector fails, writing to a buffer or stream fails too.", "quantifier": "every 64-bit host, every ordinary type, every value, every buffer, every stream", "why_tests_cant": "Quantifies over all declarations, values, buffers and streams.", "anchors": ["src/writable.rs: write_to_buffer, write_to_vec, write_to_stream, bytes_needed", "src/writer.rs"]}
{"id": "C67", "title": "All readers of ordinary types agree", "statement": "For an ordinary type the two buffer readers return the same result and length for every input at every address; any two entry points (both buffers, both streams) return the same value or none does; reading a file, mapped or streamed, is reading its content.", "quantifier": "every 64-bit host, every ordinary type, every input up to the largest allocation, every stream behaviour without errors", "why_tests_cant": "Quantifies over all declarations, inputs and stream schedules.", "anchors": ["src/readable.rs", "src/reader.rs", "src/readable_unsafe_impl.rs"]}
{"id": "C68", "title": "The minimum number of bytes of ordinary types is a minimum", "statement": "Reading a value of an ordinary type consumes at least minimum_bytes_needed bytes, from a buffer or a stream; so the check at the buffer entry points and the check before a vector is allocated refuse no input that could be read.", "quantifier": "every 64-bit host, every ordinary type with valid defaults, every input", "why_tests_cant": "Quantifies over all declarations and inputs.", "anchors": ["src/readable.rs: minimum_bytes_needed", "src/reader.rs: read_vec", "speedy-derive/src/lib.rs: get_minimum_bytes"]}
{"id": "C69", "title": "What is read of ordinary types is valid and stable", "statement": "Whatever the input, a value that an entry point returns for an ordinary type is a value of that type; it can be written, in no more bytes than were given, and every entry point reads the same value from these bytes, whatever follows.", "quantifier": "every 64-bit host, every ordinary type with valid defaults, every input", "why_tests_cant": "The inputs are arbitrary, also ones no writer produces.", "anchors": ["src/readable_impl.rs", "src/writable_impl.rs"]}
{"id": "C70", "title": "Reading and writing ordinary types does not panic", "statement": "Reading an ordinary type without Duration, SystemTime and DateTime neither panics nor has undefined behaviour, whatever the input and through every entry point, so all entry points have the same outcome, a value or an error; with these types the only panic is the one of Duration::new. Writing a value of an ordinary type never panics.", "quantifier": "every 64-bit host, every ordinary type with valid defaults, every input; every value of fewer than 2^63 elements", "why_tests_cant": "Quantifies over all declarations and hostile inputs.", "anchors": ["src/reader.rs", "src/readable_impl.rs", "src/writable.rs"]}
{"id": "C71", "title": "Fast paths and special cases of ordinary types change nothing", "statement": "A struct of one field without attributes is written and read like the field; a sequence, array, set or map is written as its length and what is written for its elements one by one, and a sequence or array is read as its elements read one by one, although memory is copied for plain data.", "quantifier": "every 64-bit host, every ordinary element type, both byte orders, every value and input", "why_tests_cant": "Quantifies over all element types, values and inputs in both byte orders.", "anchors": ["src/reader.rs: read_vec", "src/writer.rs: write_slice", "src/readable_impl.rs", "speedy-derive/src/lib.rs: read_field_body, write_field_body"]}
{"id": "C72", "title": "Sets and maps of ordinary types are read as sets and maps", "statement": "A set or map is accepted exactly when its elements can be read one by one; the set holds each element once and no others; the map holds each key once, with the value that came last for it.", "quantifier": "every 64-bit host, every ordinary element type, every input", "why_tests_cant": "Quantifies over all element types and inputs with repeated keys in any position.", "anchors": ["src/readable_impl.rs: BTreeSet, HashSet, BTreeMap, HashMap"]}
{"id": "C73", "title": "64-bit hosts exchange ordinary types", "statement": "Two 64-bit hosts, of any byte order and with any layout of structs in memory, write the same bytes for a value of an ordinary type without IPv6 addresses and hash tables; with hash tables, what one host wrote the other reads.", "quantifier": "every pair of 64-bit hosts, every ordinary type, every value, both byte orders", "why_tests_cant": "Tests run on one host with one layout.", "anchors": ["src/endianness.rs", "src/writable_impl.rs", "src/readable_impl.rs"]}
{"id": "C74", "title": "Which errors of an input stream are seen", "statement": "When a stream returns an error other than UnexpectedEof while a value is read from it, the read returns that error, or returns what it would have returned from a stream without errors; without peek_tag and without buffering, interruptions never change the result.", "quantifier": "every type, content, schedule of chunks and errors, both stream entry points, both byte orders, any valid host", "why_tests_cant": "Errors can come between any two chunks; schedules are unbounded.", "anchors": ["src/readable.rs: StreamReader, read_from_stream_buffered, read_from_stream_unbuffered"]}
{"id": "C75", "title": "What is in a file after write_to_file", "statement": "The file holds a prefix of the bytes a stream would have received, and all of them if the file accepts them; the result is that of writing to a stream or an error that the file reported.", "quantifier": "every type, value and schedule of partial writes and errors", "why_tests_cant": "Failures can come at any write of any value.", "anchors": ["src/writable.rs: write_to_file_with_ctx"]}
{"id": "C76", "title": "Which variable-length integers can be peeked", "statement": "Peeking a variable-length integer returns the number that was written exactly when all bytes of its encoding are equal; numbers below 128 are one byte.", "quantifier": "every number below 2^64, every continuation of the input, both buffer readers", "why_tests_cant": "2^64 numbers.", "anchors": ["src/varint.rs: peek_from"]}
{"id": "C77", "title": "System times, completely", "statement": "Reading 12 bytes as a SystemTime gives, depending only on the seconds after carrying the nanoseconds, the time, InvalidSystemTime or a panic; writing a time fails exactly before the epoch, and otherwise every entry point reads it back to the nanosecond.", "quantifier": "every 12 bytes or more of input, every time the host can represent", "why_tests_cant": "2^96 inputs; the carry matters at single values.", "anchors": ["src/readable_impl.rs: SystemTime", "src/writable_impl.rs: SystemTime"]}
{"id": "C78", "title": "Borrowed slices and alignment, completely", "statement": "In the byte order of the host a borrowed slice or array equals what reading its elements one by one returns if the bytes lie where elements may lie, and creating it is undefined behaviour if they do not.", "quantifier": "every plain-data element type, every length below 2^32, input and address", "why_tests_cant": "Alignment depends on the address of the input buffer, which tests do not control.", "anchors": ["src/readable_unsized_impl.rs", "src/reader.rs: read_zero_copy"]}
{"id": "C79", "title": "Enums with peek_tag", "statement": "An enum with peek_tag whose tag is not a varint is written as the fields of its variant; if these begin with the tag, every entry point returns the variant, whatever follows in the input.", "quantifier": "every enum with ordinary fields, variant, value, continuation, entry point; 64-bit hosts", "why_tests_cant": "Unbounded values; all readers.", "anchors": ["speedy-derive/src/lib.rs: impl_readable, impl_writable (peek_tag)"]}
{"id": "C80", "title": "default_on_eof in structs of ordinary fields", "statement": "If the input ends where trailing default_on_eof fields begin they have their defaults, if it ends inside the last one that one has its default, and if the input is complete they have their values.", "quantifier": "every struct of ordinary fields followed by default_on_eof fields that notice the end of the input, every value, every entry point; 64-bit hosts", "why_tests_cant": "Where the input ends and where the defaults begin are unbounded.", "anchors": ["speedy-derive/src/lib.rs: default_on_eof_body"]}
{"id": "C81", "title": "Skipped fields, for every reader and writer", "statement": "A struct or enum writes as if its skipped fields were not declared, whatever their values; it reads as if they were not declared, with their defaults filled in.", "quantifier": "every struct and enum, value, input, reader and writer (write_to_vec and read_from_buffer spelled out), any host", "why_tests_cant": "All field types and positions.", "anchors": ["speedy-derive/src/lib.rs: read_field_body, write_field_body"]}
{"id": "C82", "title": "Constant prefixes in structs of ordinary fields", "statement": "The constant is written before its field and nothing else changes; where anything else stands in the input no value is returned and the error names the constant (or the input is too short); a value is returned only if the constant was there.", "quantifier": "every struct of ordinary fields, position of the constant, value, input, entry point; 64-bit hosts", "why_tests_cant": "All inputs that are wrong in some byte.", "anchors": ["src/private.rs: read_constant", "speedy-derive/src/lib.rs: write_field_body"]}
{"id": "C83", "title": "Containers that reach to the end of the input", "statement": "A struct of ordinary fields whose last is a container without length reads back what was written; on any input below 4 GiB reading it ends without a panic; the elements returned stand one after the other in the input and only a rest that is no element is left over.", "quantifier": "every struct of ordinary fields, container with elements that begin with a byte, value, input, entry point; 64-bit hosts", "why_tests_cant": "Termination on all inputs cannot be tested.", "anchors": ["src/reader.rs: read_vec_until_eof, read_collection_until_eof"]}
{"id": "C84", "title": "Types whose encodings are canonical", "statement": "For ordinary types without bool, Option, Result, varints, times, sets and maps, an input that is read as a value is the encoding of that value followed by what was not read.", "quantifier": "every such type and input, every entry point; 64-bit hosts", "why_tests_cant": "All inputs.", "anchors": ["src/readable_impl.rs", "src/writable_impl.rs"]}
{"id": "C85", "title": "Plain-data structs checked by the macro", "statement": "A struct that the macro treats as plain data without being repr(packed) or unsafe_is_primitive, and whose single transparent field has no attributes, is laid out in the order of declaration without padding; its memory is the concatenation of that of its fields.", "quantifier": "every such struct, value and bytes, any valid host", "why_tests_cant": "All layouts a compiler may choose.", "anchors": ["speedy-derive/src/lib.rs: generate_is_primitive"]}
{"id": "C86", "title": "Readers agree on inputs that end early", "statement": "If only the last field of a struct of ordinary fields is default_on_eof and slices in it have elements that cannot be malformed, all entry points return the same value from every input, wherever it ends.", "quantifier": "every such struct, every input, every two entry points; 64-bit hosts", "why_tests_cant": "All inputs and where they end.", "anchors": ["src/readable.rs: BufferReader, StreamReader::read_bytes", "speedy-derive/src/lib.rs: default_on_eof_body"]}
{"id": "C87", "title": "Where undefined behaviour can come from when reading", "statement": "Reading has no undefined behaviour of the modelled kinds (misaligned references, invalid values, reaching unreachable_unchecked) other than by turning input bytes into a borrowed slice or array: none without borrowed slices, none if the entry point copies, no misalignment if the elements have alignment 1, no invalid value if the elements are numbers or structs of numbers, and unreachable_unchecked is never reached.", "quantifier": "every type including forced and transparent structs, every input up to the address space, every address, stream schedule and entry point, both byte orders, any valid host", "why_tests_cant": "Undefined behaviour need not show; whether a cast is valid depends on addresses and bit patterns of arbitrary input.", "anchors": ["src/reader.rs: read_vec, read_cow, read_vec_borrowed paths", "src/readable_unsized_impl.rs 34-80", "speedy-derive/src/lib.rs 1574-1606"]}
{"id": "C88", "title": "ZeroCopyable types accept every bit pattern", "statement": "Any bytes of the right size are a value of a type that implements ZeroCopyable, so a borrowed slice of such elements is never invalid; in contexts other than the native one the elements also have alignment 1, so that borrowing is free of undefined behaviour. Types with unsafe_is_primitive are excepted.", "quantifier": "every type, every byte string, every position of the slice, every host that obeys the Rust reference on alignment", "why_tests_cant": "The set of types is open and the bit patterns are all of them.", "anchors": ["src/utils.rs 20-33", "speedy-derive/src/lib.rs 308-319, 2119-2143, 2229-2236"]}
{"id": "C89", "title": "The compiler keeps invalid values out of borrowed slices", "statement": "If a type with derived Readable compiles without unsafe_is_primitive, reading it never makes a value of invalid bit pattern.", "quantifier": "every type the derive macro and the compiler accept, every input, entry point and host", "why_tests_cant": "It quantifies over programs.", "anchors": ["speedy-derive/src/lib.rs 284-347, 782-806, 1574-1606"]}
{"id": "C90", "title": "Borrowing a slice gives what was written", "statement": "If T implements ZeroCopyable without unsafe_is_primitive, a slice of T written and then read as &[T] in the host's byte order at a suitable address gives the values written.", "quantifier": "every such T, all values, all suitable addresses, any valid host", "why_tests_cant": "It relates memory layouts to generated code for an open set of types.", "anchors": ["speedy-derive/src/lib.rs 2119-2143, 2229-2236", "src/readable_unsized_impl.rs 34-60", "src/writable_impl.rs: [T]"]}
{"id": "C91", "title": "The spelling of a field's type does not matter", "statement": "For a field without attributes, the code the derive macro generates reads, writes and measures exactly as the implementations of the field's type do, however the type is spelled: by a recognised name, a longer path, in parentheses, through a macro, or through an alias.", "quantifier": "every spelling that denotes a type other than an array (or an optional array), every reader and writer in every state, every value, any valid host", "why_tests_cant": "There is no end to the spellings of a type, and each takes one of eighteen code paths in the macro.", "anchors": ["speedy-derive/src/lib.rs 257-282, 992-1182, 1266-1270", "speedy-derive/src/lib.rs 1402-1678, 1709-1815, 1972-2028"]}
{"id": "C92", "title": "Declarations as spelled are those of the model", "statement": "A list of fields, given as syntax trees with attributes, is accepted by the macro exactly if its description (attributes, types, and whether each spelling is recognised) is accepted by the model of Derive.v; both then agree on attributes and types, and the generated reader, writer and minimum size are those of the model of structs.", "quantifier": "every list of fields whose attributes parse and whose types mean something, every length expression, reader, writer, value and state, any valid host", "why_tests_cant": "It is about all declarations.", "anchors": ["speedy-derive/src/lib.rs 857-943, 1184-1390", "speedy-derive/src/lib.rs 1680-1707, 1817-1847, 2030-2041"]}
{"id": "C93", "title": "The bounds of the generated impls suffice", "statement": "The generated reader and writer of a generic declaration use no implementation of Readable or Writable other than those of numbers, of types that name no type parameter, and those their where-clauses ask for; and the where-clauses ask for nothing that is not used.", "quantifier": "every list of type parameters, every list of fields, every reader and writer", "why_tests_cant": "Whether an impl compiles for all type arguments cannot be seen from the instances a test uses.", "anchors": ["speedy-derive/src/lib.rs 77-125, 284-347, 782-806, 1680-1707, 1817-1847"]}
{"id": "C94", "title": "Recursion and zero-copy bounds", "statement": "A type the macro takes for non-recursive contains no names but those of standard types; and the ZeroCopyable impl of a struct holds exactly if it is generated and all the bounds it carries hold, which is the condition of the model.", "quantifier": "every spelling, every list of fields, every context", "why_tests_cant": "It quantifies over declarations.", "anchors": ["speedy-derive/src/lib.rs 161-216, 306-320, 2119-2143, 2229-2236"]}
{"id": "C95", "title": "The layout attribute of a struct is recognised", "statement": "The macro takes a struct for packed, transparent or C exactly if a repr attribute asks the compiler for that.", "quantifier": "every list of attributes", "why_tests_cant": "Attributes can be combined and split in any way.", "anchors": ["speedy-derive/src/lib.rs 566-592"]}
{"id": "C96", "title": "Constant prefixes", "statement": "Every string, character, boolean or one-byte number is accepted as constant_prefix and stands for its bytes; others are reported as errors.", "quantifier": "every expression", "why_tests_cant": "The interesting numbers are at the ends of the ranges of two types.", "anchors": ["speedy-derive/src/lib.rs 888-934"]}
{"id": "C97", "title": "The bounds suffice apart from optional fields of unrecognised types", "statement": "If no field is an Option of a type the macro does not recognise, the generated reader and writer use no implementation other than those of numbers, of types that name no type parameter, and those their where-clauses ask for.", "quantifier": "every list of type parameters, every such list of fields, every reader and writer", "why_tests_cant": "Whether an impl compiles for all type arguments cannot be seen from the instances a test uses.", "anchors": ["speedy-derive/src/lib.rs 77-125, 284-347, 782-806, 1680-1707, 1817-1847"]}
{"id": "C98", "title": "What is recognised as the layout of a struct is its layout", "statement": "What the macro takes for packed, transparent or C is asked for by a repr attribute; at most one of the three is recognised; and a single repr attribute with that one item is recognised.", "quantifier": "every list of attributes", "why_tests_cant": "Attributes can be combined and split in any way.", "anchors": ["speedy-derive/src/lib.rs 566-592"]}
{"id": "C99", "title": "Accepted constant prefixes stand for their bytes", "statement": "A constant that is accepted stands for the bytes it spells (UTF-8 for characters, two's complement for negative numbers); every string, character, boolean, u8 number and negative number above -128i8 is accepted.", "quantifier": "every expression", "why_tests_cant": "The interesting numbers are at the ends of the ranges of two types.", "anchors": ["speedy-derive/src/lib.rs 888-934"]}
{"id": "C100", "title": "Reading nests no deeper than the input is long", "statement": "When a recursive type is read whose every way back to itself passes something that consumes input, the nesting of the calls never exceeds the length of the input (plus the depth at which the least size settles): whatever type is put below that depth, every entry point gives the same result and consumes the same bytes, so the result of the recursive type is that of any sufficiently deep unrolling. There is no bound independent of the input.", "quantifier": "every guarded recursive declaration, every input, every entry point and reader, any valid host, both byte orders", "why_tests_cant": "Any test reads finitely many inputs with finitely many nestings; a deeper input may run differently.", "anchors": ["speedy-derive/src/lib.rs 1402-1707, 2256-2341", "src/readable_impl.rs 341-377, 651-680"]}
{"id": "C101", "title": "minimum_bytes_needed ends for recursive declarations", "statement": "For any set of mutually recursive declarations, the call `minimum_bytes_needed()` on a type returns if the type is an enum, or if the type has values without resorting to arrays of length zero. With arrays of length zero it need not: `struct Empty { x: [Box<Empty>; 0] }` has a value, yet the call recurses for ever.", "quantifier": "every system of declarations (structs, enums with any tag and peek_tag, aliases, user-written types), every spelling of a type in it, any sizes and constants", "why_tests_cant": "The call graph of the generated functions depends on all declarations of a program and there is no bound on the length of a cycle through them.", "anchors": ["speedy-derive/src/lib.rs 161-216, 733-735, 808-810, 1972-2054, 2266-2270, 2305-2311", "src/readable_impl.rs 645, 661"]}
{"id": "C102", "title": "Old memory contents do not show through streams that obey the rules", "statement": "Reading any type from a `std::io::Read` stream gives the same result, and leaves the stream in the same state, whatever the freshly allocated and never initialised memory held before, provided the stream stores as many bytes as it claims and does not look at the old content of the slices it is given. Without that proviso it is false: a safe `Read` which overstates what it stored, or looks at the slice, gives the content of uninitialised memory to the caller.", "quantifier": "every type, every stream with any state and any behaviour obeying the rules (errors, interruptions, short reads, reads after the end, panics), both endiannesses, buffered and unbuffered, any memory contents", "why_tests_cant": "The memory a test runs with holds one particular content, mostly zeros; and streams are arbitrary code.", "anchors": ["src/readable.rs 292-416, 538-546", "src/circular_buffer.rs 217-231, 252-297, 344-386", "src/reader.rs 521-573"]}
{"id": "C103", "title": "The same data has the same encoding in interchangeable types", "statement": "Values of different types that hold the same data are written to the same bytes, and what was written as a value of one such type is read back as the same data of the other. Interchangeable are: all kinds of strings, and strings with byte sequences; all kinds of slices; a set with the vector of its elements in iteration order and a map with the vector of its entries; arrays, array references and tuples; ranges and pairs; newtypes and boxes with what they contain; structs of bare fields and tuples; `Option<T>` and `Result<T, ()>`; numbers of one width (whether signed, `NonZero`, atomic, `usize` or `char`), `bool` and `u8`, `Ipv4Addr` and `u32`, `IpAddr` and an enum, `Duration`, `SystemTime` and `DateTime` with pairs, `Uuid` and glam types with arrays; structs that differ in skipped fields, in `varint` fields against `VarInt64` fields, or in a count field with a `length` expression against a length prefix; and variants with the same tag of different enums, wherever they stand; all of this nested in any way. An IPv6 address and a `u128` are not interchangeable.", "quantifier": "all types and values related by any nesting and chaining of these rules, both endiannesses, every valid host (every entry point and any following bytes for ordinary types on 64-bit hosts)", "why_tests_cant": "The rules combine in infinitely many ways, and each pair of types needs its own program.", "anchors": ["src/readable_impl.rs", "src/writable_impl.rs", "speedy-derive/src/lib.rs 1402-1678, 2145-2477"]}
{"id": "C104", "title": "Readers and writers written by users work if they keep a simple contract", "statement": "An implementation of `Reader` that provides only the required methods (and possibly `can_read_at_least`) and keeps this contract: `read_bytes` gives the next bytes or, if there are not enough, an end-of-input error; `peek_bytes` gives the same and leaves them there; `can_read_at_least` answers truthfully - reads a value from its bytes if and only if the crate's own copying buffer reader does, and then stands exactly behind it; the only other outcome is an error of its own. An implementation of `Writer` whose `write_bytes` delivers the bytes, or fails having delivered a first part, delivers exactly the encoding, or a first part of it together with its error, and fails where writing to a vector fails. A value written through one and read through the other comes back. Without the contract for `peek_bytes` it is false.", "quantifier": "every implementation with any state and any behaviour keeping the contract, every supported type that does not ask for the end of the input, all inputs, both endiannesses, every valid host", "why_tests_cant": "Implementations are arbitrary code of users.", "anchors": ["src/reader.rs 55-112", "src/writer.rs 8-51"]}
{"id": "C105", "title": "What is read is not larger than the input allows", "statement": "For every type whose containers have elements that take at least one byte each, there is a factor, computed from the type alone, such that every value read from any input of n bytes through any entry point has at most factor * (n + 1) nodes and bytes. If elements may take no bytes this is false: four bytes read as `Vec<S>`, where all fields of S are skipped, give as many elements as the four bytes say, up to 2^32 - 1.", "quantifier": "every such supported type without default_on_eof, all inputs, all entry points, both endiannesses, every valid host", "why_tests_cant": "Inputs and types are unbounded; a hostile input is one nobody thought of.", "anchors": ["src/reader.rs 521-573", "src/readable_impl.rs 19-60", "speedy-derive/src/lib.rs 1402-1678"]}
{"id": "C106", "title": "Whole declarations are understood as written", "statement": "The attributes of a struct, enum, variant or field are accepted exactly if every #[speedy] among them is a list of the items its place allows, with values of the right form; other attributes are ignored, and spreading items over several #[speedy] changes nothing. A struct or enum so read is accepted exactly if the description made of its attributes, discriminants and types is, and gets the same type; the match and the tag code generated around the fields read, write and announce what the model of that type does; check_is_primitive on the spellings is the model's.", "quantifier": "all attribute lists, fields, variants, discriminants, generics; every reader, writer and state; every valid host", "why_tests_cant": "There are unboundedly many declarations; a macro test shows one expansion.", "anchors": ["speedy-derive/src/lib.rs 391-692", "speedy-derive/src/lib.rs 709-732", "speedy-derive/src/lib.rs 1855-1970", "speedy-derive/src/lib.rs 2119-2143", "speedy-derive/src/lib.rs 2250-2311", "speedy-derive/src/lib.rs 2420-2455"]}
{"id": "C107", "title": "Accepted enums give writers that name all fields", "statement": "For every enum the macro accepts, the patterns in the generated writer name every field of every variant, so that the compiler accepts the generated match.", "quantifier": "all enum declarations the macro accepts", "why_tests_cant": "The tests skip a field of a struct only; the failure is a compile error in the user's crate.", "anchors": ["speedy-derive/src/lib.rs 1817-1841", "speedy-derive/src/lib.rs 2431-2453"]}
{"id": "C108", "title": "Text is exactly UTF-8, characters are exactly Unicode's", "statement": "The bytes of a string are accepted if and only if they are the UTF-8 of some sequence of Unicode scalar values (shortest forms, no surrogates, nothing above U+10FFFF, no truncated character), and no two sequences have the same bytes; a string that is not is refused with InvalidUtf8, with a length in front or to the end of the input, whatever follows. A char is read from the number of a scalar value and refused with InvalidChar for every other number.", "quantifier": "all byte strings of all lengths, all 32-bit numbers, all string types except Regex, all entry points, byte orders and hosts", "why_tests_cant": "there are infinitely many byte strings and the invalid ones near the edges of the table (overlong forms, surrogates, U+110000) are easily missed by samples", "anchors": ["src/readable_impl.rs 116-126", "src/readable_impl.rs 200-230", "src/private.rs 33-56", "src/readable_unsized_impl.rs 10-25"]}
{"id": "C109", "title": "Buffered streams are read at most 8192 bytes ahead", "statement": "The buffer of read_from_stream_buffered holds 8192 bytes and does not grow, whatever type is read and however the read ends. After a value has been read, the stream has lost the bytes of the value and at most 8192 bytes behind it, from the front and without gaps; the rest is still in the stream.", "quantifier": "all types (no sequence to the end of the input for the second part), all values, all input, all ways the stream delivers it without errors, byte orders, hosts", "why_tests_cant": "how far the stream is read ahead depends on the chunks it delivers and on the order of peeks and reads; no set of chunkings is all of them", "anchors": ["src/readable.rs 399-419", "src/readable.rs 300-345", "src/circular_buffer.rs 210-300"]}
{"id": "C110", "title": "What is sent or saved is received as it was or not at all", "statement": "If values are written to a stream one after another until a write fails, in whatever way, then reading the same types one after another without buffering from what has arrived gives the first of the values, unchanged, at least all whose writing succeeded, and then an end of input; all of them if no write fails. A file that write_to_file left behind, completely or not and whether or not the error was reported, is read by read_from_file as the value that was to be written or is not read.", "quantifier": "all sequences of values of covered types without sequences to the end of the input, all write and read schedules (for reading: interruptions for streams, any error but UnexpectedEof for files), byte orders, hosts, mapped and streamed files", "why_tests_cant": "a connection can break after any byte of any message and a disk can be full at any point; all of these have to leave a prefix that cannot be taken for another message", "anchors": ["src/writable.rs 221-241", "src/readable.rs 536-546", "src/readable.rs 548-657"]}
{"id": "C111", "title": "The whole ring buffer is a queue and its assertions hold", "statement": "After any sequence of calls of any methods of CircularBuffer (new, with_capacity, reserve, reserve_exact, extend_from_slice, try_append_with, consume, consume_into), len, is_empty, to_vec, as_slices and as_slices_of_length show the bytes added and not yet taken, in order; reserve_exact gives exactly the capacity asked for if the allocator does; no call used as intended panics; none of the debug assertions fails.", "quantifier": "all sequences of calls of any length, all sizes and contents, all contents of fresh memory", "why_tests_cant": "the crate's tests have four sequences of calls; positions, wrap-arounds and resizing in other states are never met", "anchors": ["src/circular_buffer.rs 9-387"]}
{"id": "C112", "title": "Reading calls the reader at most linearly often", "statement": "For every type in which whatever is repeated takes at least one byte, there are two numbers, computed from the type alone, such that reading any input makes at most the first number of calls of the reader's methods plus the second number for every byte of the input, whatever the outcome; with either buffer reader and with streams, buffered or not, that deliver their bytes in any pieces.", "quantifier": "all hosts, both byte orders, all types that satisfy the computable condition, all inputs, all schedules of a stream without errors", "why_tests_cant": "A test sees the time of chosen inputs on one machine; a hostile input that makes the work grow faster than its length has to be thought of first.", "anchors": ["src/reader.rs:519-712", "src/readable_impl.rs", "src/private.rs:131-253", "speedy-derive/src/lib.rs:1392-1707"]}
{"id": "C113", "title": "Files and the system", "statement": "Whatever the operating system answers and however the reading ends, read_from_file gives back every descriptor and every mapping it has taken, once, and uses none outside its life; an error of the system is what it returns; without errors a file is read as a buffer with its content would be, also an empty one, which is not mapped. write_to_file keeps what was there and returns the error if the file cannot be created; otherwise the path holds a prefix of the encoding of the value, all of it if the system accepts every write, whatever it held before.", "quantifier": "all hosts, both byte orders, all types, all contents, all answers of the system; for writing all values and all schedules of partial writes and errors", "why_tests_cant": "Tests do not make fstat, mmap or madvise fail, and do not see a descriptor that is left open.", "anchors": ["src/readable.rs:548-657", "src/writable.rs:232-242"]}
{"id": "C114", "title": "A context with the user's own error type reads as the crate's does, if it tells the end of the input", "statement": "For every error type made from the crate's errors by any conversion: if its is_eof, after the conversion, answers as the crate's does, every type is read from every reader with the crate's result, the errors converted, and leaves the reader alike. Types without default_on_eof fields and without fields read until the end of the input never ask, and read so with any error type at all. An error type that never tells the end reads no struct with a field that is read until the end, and default_on_eof has no effect on the fields of its structs; one that takes every error for the end reads a struct of default_on_eof fields without an error from any input. So not any error type will do: the first cannot read what the crate wrote, the second loses the rest of a damaged list without an error.", "quantifier": "all hosts, readers and their states, types, conversions and is_eof functions, inputs, addresses, byte orders, stream schedules", "why_tests_cant": "the error type is a parameter of every generic function; tests use the crate's own error type, or one or two others", "anchors": ["src/context.rs:3-6", "src/error.rs:123-139", "src/reader.rs:580-592", "src/reader.rs:688-700", "speedy-derive/src/lib.rs:1392-1400"]}
{"id": "C115", "title": "Hand-written Writable implementations: measured once, written once, and what must agree", "statement": "For every body that a user may write over the methods of Writer: bytes_needed is the length of what the body says in the host's byte order without a context. write_to_vec gives exactly what the body means in the given context if that is as long as what was measured; if it is longer the write fails, and if it is shorter the debug assertion fails, or without it the shorter bytes are returned. A body that cannot be measured is never run by write_to_vec and write_to_buffer, which leaves the buffer alone. Streams get what the body means, or a prefix of it and the stream's error. A body that asks neither for the byte order nor for the context always measures right, so that all entry points agree on the bytes; writing a value of a derived type this way gives the bytes of write_to_vec of that value.", "quantifier": "all hosts, contexts, bodies (any number of calls, with any values of any types), buffers, memory contents, stream schedules", "why_tests_cant": "the body is a parameter of the trait; tests know a few bodies, and the length check depends on every path through one", "anchors": ["src/writable.rs:27-142", "src/writable.rs:175-251", "src/writer.rs:8-128"]}
{"id": "C116", "title": "Hand-written Readable implementations read alike from every source", "statement": "For every body that a user may write over the methods of Reader (reads and peeks of bytes and numbers, skips, values, vectors, cows, strings, sets and maps of a given length or to the end of the input, slices borrowed where the reader can lend them, contexts that change on the way), a small interpreter on plain bytes says what it makes of them. Reading from either kind of buffer gives that and reports how many bytes were used; reading from a stream gives that and leaves the rest, however the stream hands out its bytes, unless the stream fails. If minimum_bytes_needed is truthful, buffers and streams deliver the same values. A writing and a reading body that are inverse on bytes round-trip through every entry point. A body that does not read the same bytes in another way when no slice can be borrowed is bound to one reader.", "quantifier": "all hosts, contexts, bodies, minimum sizes, inputs, addresses, memory contents, stream schedules, buffering or not", "why_tests_cant": "the body is a parameter of the trait; agreement of four readers on every sequence of calls is not testable", "anchors": ["src/readable.rs:27-398", "src/readable.rs:400-426", "src/readable.rs:499-546", "src/reader.rs:56-713"]}
{"id": "C117", "title": "An unbuffered stream is read at most eight bytes ahead, peeked tags included", "statement": "The buffer of an unbuffered stream reader never holds more than eight bytes, whatever type is read from whatever stream and however that ends. After a successful read_from_stream_unbuffered of any type, including enums with peek_tag, at most eight of the bytes behind the value have been taken from the stream, and all others are still there.", "quantifier": "all hosts, both byte orders, all types, all streams (for the first part including streams with errors), all schedules of chunks", "why_tests_cant": "The number of bytes taken depends on how the stream divides its bytes and on where tags are peeked at in arbitrarily nested types.", "anchors": ["src/readable.rs:287-399", "speedy-derive/src/lib.rs:2282-2296"]}
{"id": "C118", "title": "Hand-written types keep their format inside containers and derived types", "statement": "Take hand-written implementations whose minimum_bytes_needed does not exceed what they read, and put them inside Vec, sets, maps, arrays, Option, Result, tuples, Box, derived structs (with length, prefix, default_on_eof and skip attributes) and derived enums (with all tag types and peek_tag), nested in any way. The result is written and read as the composition of the formats of its parts: write_to_vec, write_to_buffer and write_to_stream give the bytes of that format (and fail where it has none, with nothing written past the buffer), bytes_needed gives their number, reading from buffers, copied buffers and streams gives what the format says, all sources agree, and values come back.", "quantifier": "all valid hosts, both byte orders, all implementations with the stated properties, all compositions of any depth, all values, all inputs and streams", "why_tests_cant": "The implementations are those of users, not of the crate: no test of the crate can contain them, and their compositions are unbounded.", "anchors": ["src/reader.rs:519-686", "src/readable_impl.rs:28-680", "src/writable_impl.rs:28-714", "speedy-derive/src/lib.rs:1392-1847", "speedy-derive/src/lib.rs:1972-2028", "speedy-derive/src/lib.rs:2145-2455", "src/writable.rs:175-230", "src/readable.rs:402-546"]}
{"id": "C119", "title": "Recursive and mutually recursive types with hand-written parts have one meaning", "statement": "Take any family of declarations that mention each other through containers, Box, Option, derived structs and enums, with hand-written parts, such that every way around reads at least one byte. Reading an input of n bytes never nests deeper than n: beyond that the depth of nesting allowed (and anything that could be there instead) makes no difference, on any reader. Every value of such a type is written to the same bytes at every depth that reaches it, these bytes are read back to it with anything behind them, and a value that cannot be written is not reported as written.", "quantifier": "all valid hosts, both byte orders, all families of declarations with the stated properties, all values, all inputs, all depths", "why_tests_cant": "Recursion is unbounded in the values, and the declarations are those of users.", "anchors": ["src/readable_impl.rs:651-662", "src/writable_impl.rs:702-714", "src/reader.rs:519-573", "speedy-derive/src/lib.rs:1392-1847", "speedy-derive/src/lib.rs:2145-2455"]}
{"id": "C120", "title": "A value is read as soon as its bytes have arrived, without waiting for more", "statement": "If the bytes b are enough to read a value from a buffer, then a stream that delivers b, followed by anything or nothing, gives the same value to read_from_stream_buffered and read_from_stream_unbuffered, in whatever pieces it delivers and whatever errors it meets - unless it fails when part of b is still undelivered, and then with its own error. So nothing is asked of the stream after the last byte of the value has come: a peer that waits for an answer before sending more is not waited for.", "quantifier": "all valid hosts, both byte orders, all supported types without default_on_eof or until-end lengths, all inputs, all bytes behind them, all schedules of pieces and errors, both stream readers", "why_tests_cant": "Needs every split of every input with an error at every position after it; the refill loop of the ring stops at the right place only because of a comparison that no round trip can observe.", "anchors": ["src/readable.rs:296-400", "src/circular_buffer.rs:1-200", "src/reader.rs:60-686"]}
{"id": "C121", "title": "Versions of a program exchange data when enums get variants and messages get optional fields", "statement": "Let a later version of a type have further variants at the end of its enums (anywhere inside), and further default_on_eof fields at the very end of what is read (in structs, in variants, inside Option and Box). What the old version writes the new one reads, with the defaults in the new fields. What the new version writes the old one reads without the new fields, if it has the variants, and with anything behind it; if it does not have them it reports InvalidEnumVariant (or an end of input where lengths are checked first) and never takes the data for another value. With new variants only, both versions write the same bytes for the values they share, and the new one reads every input the old one reads to the same value.", "quantifier": "all valid hosts, both byte orders, all covered types and all such later versions of them, all values, all entry points, all inputs", "why_tests_cant": "All pairs of versions of all types, nested without bound.", "anchors": ["speedy-derive/src/lib.rs:1392-1847", "speedy-derive/src/lib.rs:2145-2455", "src/readable_impl.rs:28-680", "src/writable_impl.rs:28-714"]}
{"id": "C122", "title": "Numbers, lengths and tags stand on the wire as their digits to the base 256", "statement": "Every number of a primitive type (ranges in a table) can be written, as exactly as many bytes as its type has (a table), and these bytes are the digits of the number to the base 256 (of the number plus 256^w if it is negative), least significant first or last as the context says. Every sequence of that many bytes is read as the number in the type's range that it stands for. Containers begin with the digits of the number of their elements, in four bytes or in as many as length_type says; enums with the digits of the tag in as many bytes as tag_type says; of a slice or string as many elements are read as the digits say.", "quantifier": "all valid hosts, both byte orders, all primitive types and numbers, all containers, structs with a length_type field, enums, all entry points for reading", "why_tests_cant": "Number types have up to 2^128 values; hosts of the other byte order are rarely tested.", "anchors": ["src/endianness.rs:7-125", "src/reader.rs:109-487", "src/writer.rs:20-90", "src/readable_impl.rs:129-184", "src/writable_impl.rs:125-166"]}
{"id": "C123", "title": "Sets and maps: the order of their elements", "statement": "before is the order that derive(Ord) and std give, by rules. It is a strict total order on the values of every type. What is read as a BTreeSet or BTreeMap ascends strictly, and a BTreeSet or BTreeMap is written as its number of elements and then the elements (entries as pairs) from the least to the greatest. An IndexSet or IndexMap that is read has its elements or keys in the order in which they first stand in the input.", "quantifier": "all valid hosts, both byte orders, all types of elements, keys and values, all sets and maps, all inputs, all entry points", "why_tests_cant": "All types nested without bound, and inputs with repeated keys in all orders.", "anchors": ["src/readable_impl.rs:28-110", "src/readable_impl.rs:262-312", "src/writable_impl.rs:28-124", "src/writable_impl.rs:305-356", "src/ext_indexmap.rs:1-100"]}
{"id": "C124", "title": "What reading from a stream reserves memory for", "statement": "When a value is read from a stream, every reservation of memory made on the way was for no more elements than there were bytes left to read, and these are no more than the input has. When the read fails, at most as many reservations exceed this as reserving containers are nested in the type. Unlike for buffers (C40), what a length announces is reserved before any element is read, however little follows, so no bound by the input holds for failing reads.", "quantifier": "all valid hosts, both byte orders, buffered and unbuffered streams, all schedules without errors, all inputs; types of which everything repeated takes at least one byte and nothing is read until the end of the input or replaced by a default there", "why_tests_cant": "All inputs and ways to deliver them, including lengths up to 2^32 that cannot be allocated in a test.", "anchors": ["src/reader.rs:519-573", "src/reader.rs:93-96", "src/readable.rs:291-400", "src/private.rs:159-165"]}
{"id": "C125", "title": "Spare capacity of a vector would be filled from the input", "statement": "A vector of n numbers of a primitive type is read correctly, leaving what follows, if Vec::with_capacity(n) gives room for exactly n. If it gives room for more, which its documentation allows, the vector is still right, but as many further elements as there is spare room are taken from what follows and lost; if less than that follows, the read fails.", "quantifier": "all valid hosts with any capacity of at least n instead, both byte orders, all primitive types, all n below 2^32, all contents, everything that may follow", "why_tests_cant": "The allocator path of today's standard library gives exactly what is asked, so no test can show the dependence.", "anchors": ["src/reader.rs:519-543"]}
{"id": "C126", "title": "Sets and maps compared by the user's Ord, Eq and Hash come back", "statement": "A set or map is what it makes of the items it is given and the items it hands out. For every such pair, and elements that are hand-written or types of the library (primitive ones are copied out of the input), writing puts down a length and the items, reading rebuilds the collection from them, bytes_needed is exact, and what was written is read back from every source whenever the items handed out give the collection back. B-trees under any lawful order do, hash and index tables under any equivalence do, in whatever order the table hands out its items. Whatever was read is ascending, or has no equal keys. Of equal items on the wire a B-tree keeps the last, a hash or index set the first, a hash or index map the first key with the last value. An order that is not lawful may bring back something else.", "quantifier": "all hosts, lawful orders, equivalences, element types and implementations, collections, byte orders, inputs, readers and writers", "why_tests_cant": "the comparison is a type parameter; tests try the derived ones", "anchors": ["src/readable_impl.rs:28-97", "src/writable_impl.rs:27-123", "src/reader.rs:20-54", "src/reader.rs:641-686", "src/ext_indexmap.rs:1-80"]}
{"id": "C127", "title": "Any well-behaved Read is a list of chunks and errors", "statement": "Reading from any std::io::Read that keeps the rules of the trait (it stores what it claims, independently of the slice's old content, does not panic and fails only with errors of std::io) gives what reading from the list of its calls' outcomes gives: the events (how much was delivered, or which error) and the bytes, all of which are used up. The stream may be endless, react to the size of the slice or go on after having reported an end. For types that never catch the end of the input this holds without condition, an error other than an interruption is what reading fails with, and a value that is read is what the delivered bytes decode to, without buffering and peeking with nothing left over. For all types it holds if the stream ends for good. A stream that goes on after its end and a field with default_on_eof give a value that no list of chunks gives.", "quantifier": "all hosts, streams (any state, any safe code that keeps the rules), types, byte orders, buffered or not, memory contents", "why_tests_cant": "the stream is a type parameter with arbitrary code; tests use files, cursors and a few mocks", "anchors": ["src/readable.rs:292-416", "src/readable.rs:527-546", "src/circular_buffer.rs:289-297"]}
{"id": "C128", "title": "Any well-behaved Write gets the encoding or the start of it", "statement": "Writing to any std::io::Write that keeps the rules of the trait (it claims no more than it was given, does not panic and fails only with errors of std::io) does what writing to the list of its calls' outcomes does: same result, same bytes taken. For every type and value the stream has taken exactly the bytes a stream that takes everything gets, with the same result, or a part of them from the start and its error (WriteZero if it took nothing) is returned; an error or an empty write is always reported and an interruption never. A stream that always takes something gets everything, with at most one call of write per byte. For valid values of covered types these bytes are the wire format's.", "quantifier": "all hosts, streams (any state, any safe code that keeps the rules), types, values, byte orders", "why_tests_cant": "the stream is a type parameter with arbitrary code; tests use Vec<u8> and files", "anchors": ["src/writable.rs:59-85", "src/writable.rs:221-230"]}
{"id": "C129", "title": "Sizes counted in usize never shorten the output", "statement": "`bytes_needed` adds and multiplies in `usize`. For every type and value it gives the exact sum if this fits, and otherwise panics (overflow checks) or gives the sum modulo the size of `usize`; an error or a panic inside stays what it is or becomes the overflow panic. So write_to_vec gives exactly the encoding whenever that can be allocated and no bytes at all otherwise (a panic, or UnexpectedEndOfOutputBuffer), and write_to_buffer succeeds only with the whole encoding at the start of the buffer and the rest unchanged; a wrapped size never leads to truncated or overflowing output.", "quantifier": "all hosts (32 and 64 bit, with and without overflow checks), types, values, byte orders, buffers, contents of fresh memory", "why_tests_cant": "a value larger than the address space needs shared references and a 32-bit target; tests run on 64 bits", "anchors": ["src/writable.rs:87-142", "src/writable.rs:175-219", "src/writable_impl.rs:261-276"]}
{"id": "C130", "title": "Streams with a read_exact of their own", "statement": "A stream may override Read::read_exact. If that method keeps the rules (on success the whole slice is filled, independently of its old content; no panics; errors of std::io other than interruptions; nothing is assumed of what a failure leaves in the stream), reading from the stream gives what reading from the list of its calls' outcomes gives, a successful read_exact being one delivery and a failed one an error. For types that never catch the end of the input this holds without condition and a value that is read is what the delivered bytes decode to; for all types it holds if nothing follows the end that `read` reports. The bytes of the stream and its `read` do not determine the value, though: with default_on_eof it depends on how much a failed read_exact has taken from the stream.", "quantifier": "all hosts, streams (any state, any safe code that keeps the rules), types, byte orders, buffered or not, memory contents", "why_tests_cant": "std leaves open what a failed read_exact consumes; tests use one version of a few streams", "anchors": ["src/readable.rs:300-341", "src/readable.rs:347-354", "src/readable.rs:402-416"]}
{"id": "C131", "title": "The texts of errors tell which error it is", "statement": "The text (Display) of an error that the crate makes itself determines the error, with the sizes and the field name in it; only the bytes of a constant that was expected are not told. Texts about buffers that are too small name the size that is needed before the size that is there. Converting to std::io::Error and back keeps text, end-of-input property and kind; custom errors print their message; source() is present exactly for errors of streams and custom ones and prints the same. The field name in a length error is different for different fields of a declaration. The errors of the rest of the model are these with names and texts left out.", "quantifier": "every error, all sizes, field names, constants and texts of errors of streams", "why_tests_cant": "no test looks at the texts; sizes, names and texts are unbounded", "anchors": ["src/error.rs:6-139", "speedy-derive/src/lib.rs:766-772", "speedy-derive/src/lib.rs:1709-1719"]}
{"id": "C132", "title": "The minimum of types declared by name is that of the types written out", "statement": "For declarations that refer to one another by name, whatever `minimum_bytes_needed()` returns after calls nested less than k deep equals the minimum of the type one gets by writing the declarations out k times in place of their names - however deep the recursion of the declarations goes, through aliases, generic wrappers, boxes, tuples, arrays with literal or constant length, references and hand-written types. So a successful read of the type takes at least the number of bytes the generated code announces, wherever the minimum of the type written out is a lower bound (C15, C68).", "quantifier": "all sets of declarations, all spellings of types, all depths of calls and of unfolding (the unfolding deeper than the calls), all lengths given by constants, all hosts; for reads: all inputs and addresses", "why_tests_cant": "a test evaluates the minimum of particular declarations; the claim compares the recursive computation through names with the structural one for every set of declarations, including mutually recursive ones, at every depth", "anchors": ["speedy-derive/src/lib.rs:1972-2054", "speedy-derive/src/lib.rs:2263-2311", "src/readable_impl.rs:641-695", "src/readable_unsized_impl.rs:75-79"]}
{"id": "C133", "title": "Minimum sizes computed in usize never refuse what can be read", "statement": "`minimum_bytes_needed()` adds and multiplies in `usize`. With overflow checks it returns the exact minimum or panics, and it panics only if the minimum of the type or of a part of it does not fit into `usize`; without overflow checks it returns the exact minimum modulo the size of `usize`, so never more than the minimum. Hence where it does not panic, the entry points for buffers return a value exactly when they would with the exact minimum, and the same one. If all minima fit, vectors are read as with exact minima. Where they do not fit, reading an empty vector can panic, and the check that protects the allocation of a vector can be passed without any input.", "quantifier": "all types, all hosts (sizes of usize, overflow checks), whichever variants of enums take part, all inputs and addresses", "why_tests_cant": "minima that do not fit need types of a GiB on 32-bit platforms; the rest is a claim about the arithmetic of all types", "anchors": ["speedy-derive/src/lib.rs:1972-2054", "speedy-derive/src/lib.rs:2305-2311", "src/readable_impl.rs:404-411", "src/readable_impl.rs:641-647", "src/readable.rs:499-534", "src/reader.rs:519-529"]}
{"id": "C134", "title": "Names in generated code mean the fields they name", "statement": "The code the derive macro generates declares a variable per field (its name, or t0, t1, .. in tuple structs), and the user's length expressions are evaluated among these variables and the macro's own (`_reader_`, `_writer_`, `kind_`). If no field hides the macro's own variable from later code and every name in a length expression is an earlier field or a constant, the generated reader gives, for every reader and every input, what the model by positions gives, where a name means the earlier field of that name, its default if that field is skipped, or the constant. If in addition names are distinct and length expressions mention only earlier fields that are not skipped (or constants not called like a field), the generated writer writes, on every writer, what the model by positions writes; so the generated pair round trips. The same holds for variants of enums, whose readers also have the tag in scope. Names made up for tuple structs are distinct and hide nothing. Without these conditions it fails: a length expression that mentions a skipped field gives a reader that uses the default and a writer that does not compile; fields called `_reader_` or `_writer_` make the generated code fail to compile.", "quantifier": "for all lists of named or unnamed fields with any attributes and types, all length expressions (literals, names, any operations), all constants in scope, all hosts, all readers, writers, states and values", "why_tests_cant": "Scoping mistakes appear only for particular combinations of names, skipped fields and expressions; a test has to guess the combination.", "anchors": ["speedy-derive/src/lib.rs:766-772", "speedy-derive/src/lib.rs:1402-1432", "speedy-derive/src/lib.rs:1680-1737", "speedy-derive/src/lib.rs:1817-1847", "speedy-derive/src/lib.rs:2343-2361", "src/private.rs:201-231"]}
{"id": "C135", "title": "Atomics may change while a value is written", "statement": "Writing to a vector or a buffer measures the value first and writes it afterwards, and other threads may store to its atomics in between and meanwhile. If the value as measured and the value as found by the writing differ in atomics only, wherever those are, the measurement is the size of what is written, and the result is exactly the encoding of the value as found: no unwritten bytes, no missing ones, no spurious failure. If more changes (a user's type with other interior mutability), success of writing to a vector still means that exactly the encoding of what was found is there; what does not fit is an error, and what is shorter than measured fails an assertion in builds that check.", "quantifier": "for all types with the conditions on writing, all pairs of values, all hosts, byte orders, iteration orders of hash containers and contents of fresh memory", "why_tests_cant": "A test would have to make another thread store at a chosen moment between two calls inside one function; the vector is allocated without being initialised, so a mistake shows only as stale bytes.", "anchors": ["src/writable.rs:180-219", "src/writable_impl.rs:561-576"]}
{"id": "C136", "title": "The headers of the generated impls", "statement": "For every declaration Rust accepts, the header `impl< .. > Trait for Name< .. > where ..` of each of the three generated impls obeys Rust's rules (no parameter twice, also not together with the method's own; lifetimes first; no defaults; one argument of the right kind for each parameter of the type; no bounds where Rust allows none) exactly if the declaration has no constant parameters, no bounds on lifetimes in its parameter list and no parameter with a name the macro takes ('a_, C_, R_, T_). The where-clause of a reader holds exactly if every lifetime of the type is the lifetime of the input and the user's predicates hold; those of the other impls add nothing about lifetimes; the bounds for the types of fields are those of C93.", "quantifier": "for all parameter lists, where-clauses, field types and traits; all interpretations of lifetimes", "why_tests_cant": "A declaration for which the macro generates code that does not compile cannot be in a test suite; which declarations these are follows only from considering all parameter lists.", "anchors": ["speedy-derive/src/lib.rs:286-347", "speedy-derive/src/lib.rs:2237-2243", "speedy-derive/src/lib.rs:2321-2326", "speedy-derive/src/lib.rs:2463-2467"]}
{"id": "C137", "title": "A mapped file that changes while it is read", "statement": "`read_from_file` on x86-64 Linux maps the file and copies out of the mapping. However another process changes the bytes of the file meanwhile (its length apart), a value that is returned is a valid value of its type, the read panics only in the ways it may for a file that stays as it is, there is no undefined behaviour of the kinds of C87, and nothing outside the mapping is looked at. For a type without `peek_tag` the result is exactly that of reading one fixed content, each of whose bytes the file had at some moment, later bytes not at earlier moments; if one content replaces another at a stroke, it is a first part of the old one followed by the rest of the new one. If the file does not change, the result is that of reading its content. With `peek_tag` a value can be returned that no content encodes.", "quantifier": "for all types, sizes, histories of every byte of the file, byte orders and hosts", "why_tests_cant": "A test cannot place changes of a file between two given accesses of the reader, let alone at every place at once; the claim is about all interleavings.", "anchors": ["src/readable.rs:173-289", "src/readable.rs:512-534", "src/readable.rs:548-657", "src/reader.rs:19-54", "src/reader.rs:633-687"]}
{"id": "C138", "title": "Readers of the user's that lend", "statement": "`Reader` is a safe trait whose provided methods `skip_bytes`, `read_bytes_borrowed`, `read_bytes_borrowed_from_reader` and `read_bytes_borrowed_until_eof` may be overridden. If a user's reader overrides any of them so that the bytes lent are the next ones and exactly as many as asked for, every type, references included, is read as from a buffer with the same bytes, and what was written comes back. If it lends slices of another length, reading a `Cow` never uses memory beyond the slice (it panics), whereas sets, maps, `&[T]` and `&[T; N]` use memory beyond the slice exactly if it is shorter than asked for: a reader without `unsafe` can make the crate do that.", "quantifier": "for all readers (any state, any overrides), types, inputs, lengths, addresses and hosts", "why_tests_cant": "The readers are programs the tests do not contain; reading behind a slice usually goes unnoticed in a test.", "anchors": ["src/reader.rs:56-111", "src/reader.rs:19-54", "src/reader.rs:594-687", "src/readable_unsized_impl.rs:34-74"]}
