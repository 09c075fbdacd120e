{"claims": [
  {"property": "C01", "status": "partial", "theorems": ["C01_round_trip", "C01_round_trip_exact", "C01_lost_tags_refuted", "C01_empty_set_refuted", "C01_range_refuted", "C01_inner_eof_refuted", "C01_transparent_refuted", "C01_map_refuted", "C01_conversion_refuted", "C01_misaligned_refuted"], "note": "REFUTED as stated for: vectors of zero-sized types with a non-empty encoding, sets of empty structs, exhausted RangeInclusive, until-EOF structs nested before other fields, vectors of repr(transparent) structs with varint, maps whose pairs are laid out in another order, Cow of wrappers in the foreign byte order, misaligned borrowed arrays. Proved for every other type (covered, see DESIGN.md section 5); restated as C53."},
  {"property": "C02", "status": "partial", "theorems": ["C02_exact_consumption", "C02_exact_consumption_copying", "C02_lost_tags_refuted"], "note": "REFUTED as stated for vectors of zero-sized types with a non-empty encoding. Proved for every covered type; restated as C54."},
  {"property": "C03", "status": "partial", "theorems": ["C03_wire_format", "C03_host_independent_partial", "C03_ipv6_refuted"], "note": "REFUTED as stated for Ipv6Addr, whose bytes depend on the host's byte order (C03_ipv6_refuted); proved for everything else."},
  {"property": "C04", "status": "partial", "theorems": ["C04_bytes_needed", "C04_bytes_needed_stream", "C04_transparent_refuted", "C04_assertion_refuted"], "note": "REFUTED as stated for slices of repr(transparent) structs with varint or other field attributes that change the wire form: the size calculator writes them in native order as memory. With debug assertions write_to_vec panics on them. Proved for every type satisfying wsup; restated as C57."},
  {"property": "C05", "status": "partial", "theorems": ["C05_write_to_buffer", "C05_transparent_refuted"], "note": "REFUTED as stated for slices of repr(transparent) structs with field attributes in the foreign byte order. Proved for every type satisfying wsup; restated as C57."},
  {"property": "C06", "status": "partial", "theorems": ["C06_writers_agree", "C06_writers_fail", "C06_transparent_refuted", "C06_any_schedule"], "note": "REFUTED as stated for slices of repr(transparent) structs with field attributes in the foreign byte order (write_to_vec fails where write_to_stream succeeds). Proved for every type satisfying wsup; restated as C57. C06_any_schedule: the way a stream splits writes never matters, for every type."},
  {"property": "C07", "status": "partial", "theorems": ["C07_buffer_readers_agree_partial", "C07_any_address_partial", "C07_empty_struct_refuted", "C07_wrapped_length_refuted", "C07_transparent_refuted"], "note": "REFUTED as stated for three kinds of Cow<[T]>: derived empty structs (division by zero), lengths whose byte size wraps in usize (32-bit hosts without overflow checks), repr(transparent) wrappers in the foreign byte order.  For all other types without references the results and lengths are proved equal for every input and address."},
  {"property": "C08", "status": "partial", "theorems": ["C08_buffered_stream_partial", "C08_buffered_stream_eof_partial", "C08_chunks_irrelevant", "C08_peeked_minimum_refuted", "C08_default_on_eof_refuted"], "note": "REFUTED as stated for peek_tag enums with short variants and for default_on_eof.  Independence of the chunk schedule is proved for every type and input; agreement with the buffer readers for types without those features (and with them, for every input the wire format specifies)."},
  {"property": "C09", "status": "partial", "theorems": ["C09_unbuffered_stream_partial", "C09_unbuffered_stream_eof_partial", "C09_chunks_irrelevant", "C09_peeked_minimum_refuted", "C09_default_on_eof_refuted"], "note": "REFUTED as stated for peek_tag enums with short variants and for default_on_eof.  Independence of the chunk schedule is proved for every type and input; agreement with the buffer readers for types without those features (and with them, for every input the wire format specifies)."},
  {"property": "C10", "status": "partial", "theorems": ["C10_nothing_extra", "C10_consecutive_reads", "C10_lost_tags_refuted"], "note": "REFUTED as stated for vectors of zero-sized types with a non-empty encoding. Proved for every covered type; restated as C54."},
  {"property": "C100", "status": "proved", "theorems": ["C100_bottom", "C100_depth", "C100_result", "C100_guard_needed", "C100_unbounded"], "note": "The guard is needed: for `struct Loop { next: Box<Loop> }` the result is always that of the bottom (C100_guard_needed). The bound cannot be made a constant: three bytes per level drive a list arbitrarily deep (C100_unbounded), so hostile input can exhaust the stack. One declaration that mentions itself; mutual recursion after inlining."},
  {"property": "C101", "status": "proved", "theorems": ["C101_enums", "C101_ends", "C101_empty_arrays_refuted"], "note": "Calls are modelled with fuel; that a call ends means some fuel suffices. User-written implementations call only the types they are given as parts. Declarations do not redefine the names of standard types."},
  {"property": "C102", "status": "proved", "theorems": ["C102_memory", "C102_obeying", "C102_overstated_refuted", "C102_looking_refuted"], "note": "The stream is a function of its state and the old content of the slice. Loops that a stream can keep going for ever (read_exact, reading to the end) carry a bound on the number of rounds, the same on both sides. The refutations are finding F43."},
  {"property": "C103", "status": "proved", "theorems": ["C103_bytes", "C103_read", "C103_every_entry_point", "C103_ipv6_refuted"], "note": "The relation `same` (Same.v) is an inductive definition on types and values that does not mention bytes. Types read must be covered (C01), or ordinary (C65). C103_ipv6_refuted is the boundary: finding about IPv6 byte order (C03_ipv6_refuted) seen from this side."},
  {"property": "C104", "status": "proved", "theorems": ["C104_read", "C104_position", "C104_write", "C104_write_fails", "C104_round_trip", "C104_moving_peek_refuted"], "note": "The contract is the record keeps_contract (and delivers) in PropCustom.v, stated with a function giving the bytes still to come. Overriding the borrowing methods or skip_bytes is covered by C138. Context types with their own error type are not covered."},
  {"property": "C105", "status": "proved", "theorems": ["C105_read", "C105_empty_elements_refuted", "C105_no_factor_refuted"], "note": "weight, factor and dense are in Weight.v and speak of values and types only (dense uses min_bytes). It bounds values that are read, not the memory in use on the way: a stream reader reserves what the length says before it reads (C40 is about buffers)."},
  {"property": "C106", "status": "proved", "theorems": ["C106_attributes", "C106_struct", "C106_enum", "C106_struct_described", "C106_enum_described", "C106_primitive", "C106_read", "C106_write", "C106_minimum"], "note": "The meaning of attribute items is a relation of its own (written, says, enum_item, variant_item, struct_item, field_item); the value of constant_prefix is that of C96. Descriptions are those of Derive.v, for which C27 and C34 are proved. C106_read needs exact_reader (borrowed slices have the length asked for) and length expressions that fit usize, as C92_read does. The suffix of a tag literal is not looked at (F45)."},
  {"property": "C107", "status": "partial", "theorems": ["C107_patterns_partial", "C107_skip_refuted"], "note": "REFUTED as stated: a variant with a skipped field gets a pattern without it and without `..` (C107_skip_refuted, F46). Proved: exactly the enums without `skip` on any field have complete patterns. That the compiler rejects an incomplete pattern (E0023, E0027) is the language's rule, not modelled."},
  {"property": "C108", "status": "proved", "theorems": ["C108_text", "C108_unique", "C108_read", "C108_read_rest", "C108_char"], "note": "UTF-8 is the relation utf8_of of Spelling.v (also behind C96/C99); unicode is two ranges. utf8_valid and is_scalar, which model and format description share for std's checks, are thereby pinned down."},
  {"property": "C109", "status": "proved", "theorems": ["C109_ring", "C109_ahead", "C109_ahead_any"], "note": "C10 is the same for the unbuffered reader, which takes nothing extra. The example eager shows a stream of 9000 bytes losing 8192 for a value of one byte."},
  {"property": "C11", "status": "proved", "theorems": ["C11_ring_buffer_is_a_queue", "C11_consume_nothing_refuted"], "note": "Holds for every history; the one documented-precondition corner that panics, consume(0) on a zero-capacity buffer, is refuted separately."},
  {"property": "C110", "status": "proved", "theorems": ["C110_link", "C110_all", "C110_file", "C110_file_kept", "C110_until_eof_refuted"], "note": "C110_until_eof_refuted: the exclusion of sequences to the end of the input is needed. The example buffered_receiver shows that the buffered reader cannot be used to receive."},
  {"property": "C111", "status": "proved", "theorems": ["C111_queue", "C111_assertions"], "note": "Extends C11 to the methods that only tests use (Ring.v). consume on a buffer of capacity zero is excluded (C11_consume_nothing_refuted)."},
  {"property": "C112", "status": "proved", "theorems": ["C112_buffer", "C112_copying", "C112_stream", "C112_unfed_refuted"], "note": "C112_unfed_refuted: the condition is needed: elements whose only field is default_on_eof can be repeated at the end of the input as often as the length prefix says."},
  {"property": "C113", "status": "proved", "theorems": ["C113_released", "C113_released_streamed", "C113_errors", "C113_reads", "C113_file", "C113_kept", "C113_replaced", "C113_device_refuted", "C113_shortened_refuted", "C113_destroyed_refuted"], "note": "The refuted theorems show what does not hold: devices and pipes report the size zero and are read as empty where files are mapped; a file that is shortened while it is read shows zeros or faults; a value that cannot be written destroys the file that was there."},
  {"property": "C114", "status": "proved", "theorems": ["C114_standard", "C114_unasked", "C114_deaf", "C114_deaf_default", "C114_eager", "C114_entry", "C114_any_refuted"], "note": "The statement includes what refutes the simpler claim that any error type will do (C114_any_refuted)."},
  {"property": "C115", "status": "proved", "theorems": ["C115_needed", "C115_vec", "C115_unmeasured", "C115_buffer", "C115_stream", "C115_modest", "C115_derived", "C115_any_refuted"], "note": "C115_any_refuted shows what fails outside: bodies that ask for the context cannot be written to memory, bodies whose length depends on the byte order fail in the other one (F51, F52)."},
  {"property": "C116", "status": "proved", "theorems": ["C116_buffers", "C116_streams", "C116_same", "C116_round_trip", "C116_any_refuted", "C116_borrow_refuted"], "note": "Every method of Reader may be called. C116_any_refuted: an overstated minimum_bytes_needed makes buffers refuse what streams deliver, and a body that asks can_read_at_least is told nothing by streams. C116_borrow_refuted: a body that takes a borrowed slice for granted panics with the other readers."},
  {"property": "C117", "status": "proved", "theorems": ["C117_buffer", "C117_ahead", "C117_ahead_any"], "note": "Extends C10, which excludes peeking. The bound is reached: the example eight peeks at a u64 tag that its variant does not read. A varint tag is never nine bytes because of F2."},
  {"property": "C118", "status": "proved", "theorems": ["C118_type", "C118_hand", "C118_none", "C118_vec", "C118_set", "C118_map", "C118_array", "C118_option", "C118_result", "C118_tuple", "C118_box", "C118_struct", "C118_enum", "C118_write", "C118_unwritable", "C118_buffers", "C118_streams", "C118_same", "C118_round_trip", "C118_containers_agree", "C118_others_agree", "C118_derived_agree", "C118_members_agree", "C118_fields"], "note": "implements X F: the implementation X follows the format F on every lawful reader and writer. The first thirteen theorems build implementations from others, the next six are about the entry points, the last four say that the generic code with implementations for its parameters is the code of the model wherever both apply. Elements have to be of a size other than 0 or to read nothing (C118_unsized_refuted, F53), and minima have to be honest (C118_minimum_refuted)."},
  {"property": "C119", "status": "proved", "theorems": ["C119_bottom", "C119_depth", "C119_values", "C119_round_trip", "C119_unwritable", "C119_reading"], "note": "Extends C100 (one declaration of the model's own types) to mutual recursion and hand-written parts. well_made: the declarations are compositions as in C118. takes_bytes and keeps_values are shown for declarations by one lemma for each container (near_*, grows_*). The example has two mutually recursive types with a hand-written part. C119_loop_refuted: struct Loop { next: Box<Loop> } takes no byte and is not read at any depth. That minimum_bytes_needed itself terminates is C94's matter."},
  {"property": "C12", "status": "proved", "theorems": ["C12_append_makes_progress"], "note": ""},
  {"property": "C120", "status": "proved", "theorems": ["C120_wait", "C120_written", "C120_streams"], "note": "Fields with default_on_eof (and lengths until the end of input) must ask for more and are excluded; C120_optional_refuted shows that the claim is false for them. An error stands for waiting: a stream that would block is one that fails at that point. An Interrupted error in read_exact is retried, as in std, and is not a failure."},
  {"property": "C121", "status": "proved", "theorems": ["C121_new_reads_old", "C121_old_reads_new", "C121_never_wrong", "C121_same_bytes", "C121_same_input"], "note": "extends and widens in Evolve.v say which changes count. Elements of slices: as many of the new type must fit an allocation as of the old one, or lengths have at most 32 bits and 2^32 elements of both fit. C121_inside_refuted: a new default_on_eof field of a struct that is an element of a list is not optional - it takes the first bytes of the next element and the old data are read as something else without an error. never_wrong excludes old types that have default_on_eof themselves."},
  {"property": "C122", "status": "proved", "theorems": ["C122_write", "C122_read", "C122_length", "C122_length_type", "C122_tag", "C122_read_length"], "note": "digits is defined with division and remainder only, on Byte.to_N; digits_unique shows that it determines the number. Before, the wire format of numbers was given by le_bytes and le_num, which model and Spec share. Floats are their bit patterns. Variable length integers: C16, C17."},
  {"property": "C123", "status": "proved", "theorems": ["C123_order", "C123_read_set", "C123_read_map", "C123_write_set", "C123_write_map", "C123_index_set", "C123_index_map"], "note": "Pins down val_cmp and the containers of Types.v, which model and Spec share. The order of hash tables is the host's (h_iter). User-written Ord is not modelled. Reading: for types that are sane (no C24 finding applies); index containers as in C38."},
  {"property": "C124", "status": "proved", "theorems": ["C124_backed", "C124_announced", "C124_refuted"], "note": "C124_refuted: four bytes make a stream read of a Vec<u64> reserve 32 GiB (finding F55). The reservations are those of Vec::with_capacity in read_vec and read_cow, in the ghost log of the reader."},
  {"property": "C125", "status": "proved", "theorems": ["C125_capacity", "C125_refuted"], "note": "Makes finding F24 precise. Everywhere else the model assumes vh_capacity, exact capacity, which is what std does. C125_refuted: with room for one more, two numbers cannot be read back, and of (Vec<u16>, u16, u16) read as (Vec<u16>, u16) the first number is lost."},
  {"property": "C126", "status": "proved", "theorems": ["C126_items", "C126_entries", "C126_set", "C126_map", "C126_btree_returns", "C126_btree_ascends", "C126_btree_kept", "C126_index_returns", "C126_hash_returns", "C126_table_different", "C126_table_kept", "C126_map_kept", "C126_derived", "C126_btree_round_trip", "C126_hash_round_trip", "C126_any_refuted"], "note": "What std and indexmap do with comparisons is their contract, stated in UserOrder (from_iter of B-trees sorts and keeps the last of equal ones, insert of hash tables keeps the key). C126_derived: with the derived order these are the collections of the other properties. C126_any_refuted: floats whose partial_cmp answers less for NaN."},
  {"property": "C127", "status": "proved", "theorems": ["C127_replay", "C127_value_partial", "C127_ends_partial", "C127_ends_for_good_partial", "C127_pauses_refuted"], "note": "`AnyRead` has the reader over any safe `Read`, `Readers` the one over a list of events; both run the same `read`. C127_replay: types without `until eof` and `default_on_eof`. C127_value_partial: `supported` types, at most usize::MAX delivered bytes. C127_ends_partial: every type, streams that end for good; the replay may instead not end (elements that take nothing, read to the end of the input), which C127_ends_for_good_partial excludes for `calm` types and streams that do not report UnexpectedEof themselves. C127_pauses_refuted: the exception the statement names."},
  {"property": "C128", "status": "proved", "theorems": ["C128_replay", "C128_prefix", "C128_encoding_partial", "C128_everything"], "note": "`AnyWrite` has the collector over any safe `Write`, with std's default `write_all`; `Writers` the one over a list of events. C128_replay and C128_prefix: every type and value, any such stream, unless a call of `write_all` does not end (endless interruptions). C128_encoding_partial: `wsup` types and valid values. C128_everything: streams that always take something; there the calls end."},
  {"property": "C129", "status": "proved", "theorems": ["C129_tally", "C129_size", "C129_vec", "C129_buffer", "C129_only_whole", "C129_only_whole_buffer", "C129_shared_refuted"], "note": "`Counting` has the loops of `bytes_needed` with `usize` arithmetic; `Writers.bytes_needed` is the same without a bound. C129_tally: every type and value. The others: `wsup` types and valid values. C129_shared_refuted is the exact limit: on a 32-bit host a vector of 65536 references to one 64 KiB text (about 600 kB of memory) is written by write_to_stream, while write_to_vec panics with overflow checks and fails without (finding F56)."},
  {"property": "C13", "status": "partial", "theorems": ["C13_truncated_buffer", "C13_truncated_buffer_copying", "C13_truncated_stream", "C13_prefix_free", "C13_lost_tags_refuted"], "note": "REFUTED as stated for vectors of zero-sized types with a non-empty encoding. Proved for every covered type; restated as C55."},
  {"property": "C130", "status": "proved", "theorems": ["C130_replay", "C130_value_partial", "C130_ends_partial", "C130_content_refuted"], "note": "C130_value_partial and C130_ends_partial are limited to the types and streams named in the statement; the last sentence of the statement is C130_content_refuted (finding F57)."},
  {"property": "C131", "status": "proved", "theorems": ["C131_tells", "C131_constants_refuted", "C131_there_and_back", "C131_custom", "C131_source", "C131_in_short", "C131_fields", "C131_sizes"], "note": "C131_constants_refuted shows the exception named in the statement. A field of a tuple struct is called t0, t1, ... in the text."},
  {"property": "C132", "status": "proved", "theorems": ["C132_minimum", "C132_consumes"], "note": "The spec `deep`/`stands` (types written out) uses the Rust meaning of spellings (Spelling.v), not the macro's parsing. Left out: aliases that name arrays or types without size behind a reference or box, and references to arrays of anything but primitive numbers."},
  {"property": "C133", "status": "proved", "theorems": ["C133_checked", "C133_unchecked", "C133_panics", "C133_fits", "C133_vec", "C133_entry", "C133_empty_vector_refuted", "C133_allocation_refuted", "C133_entry_fits"], "note": "MinCounted.v models the computation in usize and its two uses. `with_counted` counts at the entry point; vectors nested in the type are covered by C133_vec one at a time. Finding F58: an empty Vec of `[[[E; 1024]; 1024]; 1024]` with `enum E { A, B }` panics on 32 bits with overflow checks; without, one element is allocated (1 GiB) from no input."},
  {"property": "C134", "status": "proved", "theorems": ["C134_read", "C134_read_variant", "C134_write", "C134_write_variant", "C134_tuple", "C134_round_trip", "C134_skipped_length_refuted", "C134_hidden_refuted", "C134_hidden_harmless", "C134_worth", "C134_as_usize", "C134_attributes"], "note": "Model in Scope.v. C134_skipped_length_refuted and C134_hidden_refuted show that the conditions are needed, C134_hidden_harmless where they are not. That the types inside length expressions fit is left to the compiler."},
  {"property": "C135", "status": "proved", "theorems": ["C135_measured", "C135_to_vec", "C135_to_buffer", "C135_sound", "C135_atomics", "C135_atomics_buffer", "C135_still", "C135_other_changes_refuted"], "note": "Model in Moving.v. Memory order is not modelled: each load gives some value, and theorems hold for all of them. C135_other_changes_refuted shows that the condition (differing in atomics only) is needed for C135_atomics."},
  {"property": "C136", "status": "proved", "theorems": ["C136_headers", "C136_lifetimes", "C136_bounds", "C136_generics", "C136_consts_refuted", "C136_lifetime_bounds_refuted"], "note": "Model in Header.v. C136_consts_refuted and C136_lifetime_bounds_refuted show that the exceptions named in the statement exist (`struct B< const N: usize >`, `struct V< 'a, 'b: 'a >`). Rust's rules and how syn prints a lifetime parameter are stated as their contract."},
  {"property": "C137", "status": "proved", "theorems": ["C137_valid", "C137_faults", "C137_defined", "C137_inside", "C137_unchanged", "C137_skip", "C137_one_content", "C137_one_change", "C137_peek_refuted"], "note": "Model in Changing.v: every access sees bytes of its own, about which nothing is assumed. C137_peek_refuted shows that the exception for peek_tag is needed. That the compiler loads a byte once per copy in the source is assumed (Rust promises nothing for memory that others change); a file that gets shorter is not modelled."},
  {"property": "C138", "status": "proved", "theorems": ["C138_read", "C138_round_trip", "C138_skip", "C138_cow", "C138_cow_length", "C138_collection", "C138_ref_slice", "C138_ref_array", "C138_collection_read", "C138_map_read", "C138_ref_slice_read", "C138_ref_array_read", "C138_cow_read", "C138_str_read", "C138_constant_read", "C138_refuted"], "note": "Model in Lending.v. The contract is the record lends_well in PropLending.v. The theorems whose names end in _read say that the functions with the outcome Beyond are those of ReadImpl.v if slices are lent as asked (for strings and constants: always). C138_refuted shows that a reader in safe code can cause the outcome Beyond. Readers that lend in some calls and not in others are not modelled."},
  {"property": "C14", "status": "partial", "theorems": ["C14_truncated_buffer", "C14_truncated_buffer_copying", "C14_truncated_stream", "C14_lost_tags_refuted"], "note": "REFUTED as stated for vectors of zero-sized types with a non-empty encoding. Proved for every covered type; restated as C55."},
  {"property": "C15", "status": "partial", "theorems": ["C15_buffer_consumes_partial", "C15_stream_consumes_partial", "C15_entry_check_partial", "C15_vector_check_partial", "C15_peeked_refuted"], "note": "REFUTED as stated by enums read with peek_tag, whose minimum is the size of the tag though nothing is consumed (C15_peeked_refuted). Proved for every type whose peek_tag enums have variants that consume the tag again (least) and that makes sense (sane), for every input, for both buffer readers and streams; the checks at the buffer entry points and in read_vec refuse nothing readable."},
  {"property": "C16", "status": "proved", "theorems": ["C16_round_trip", "C16_exact_consumption", "C16_stream_consumption", "C16_any_reader"], "note": "Written in one byte order on one host, read in any byte order on any host by any reader."},
  {"property": "C17", "status": "proved", "theorems": ["C17_length", "C17_bytes_needed", "C17_shortest", "C17_no_byte_order", "C17_bit_trick"], "note": "Length is characterised independently of the model; C17_shortest covers every accepted byte string."},
  {"property": "C18", "status": "partial", "theorems": ["C18_signed_round_trip_refuted", "C18_signed_round_trip_positive_refuted"], "note": "REFUTED as stated: the theorems prove the counterexamples."},
  {"property": "C19", "status": "proved", "theorems": ["C19_zigzag", "C19_injective", "C19_small"], "note": ""},
  {"property": "C20", "status": "proved", "theorems": ["C20_buffer", "C20_buffer_bytes", "C20_stream"], "note": "Buffers: same result, state unchanged, for every state. Streams: for every state reachable by any calls on any chunking; later calls (with peeks of at most 16 bytes, the widest primitive) cannot tell whether there was a peek. Errors are both end-of-input errors, not necessarily the same error kind on streams."},
  {"property": "C21", "status": "partial", "theorems": ["C21_one_byte_partial", "C21_equal_bytes_partial", "C21_what_is_peeked", "C21_buffer_refuted", "C21_stream_refuted", "C21_truncated_refuted"], "note": "REFUTED as stated: the multi-byte tail is peeked from the position of the first byte, so 300 is peeked as 385, and a truncated number is peeked. C21_what_is_peeked says exactly what is returned; it is right exactly when all bytes of the encoding are equal (C21_equal_bytes_partial), in particular for numbers below 128."},
  {"property": "C22", "status": "proved", "theorems": ["C22_buffer", "C22_stream"], "note": "After a failed skip of more than 1024 bytes on a stream the state may differ from that after a failed read (Example failed_skip); the property speaks about success."},
  {"property": "C23", "status": "proved", "theorems": ["C23_char", "C23_nonzero", "C23_endianness", "C23_ipaddr", "C23_enum", "C23_enum_unknown"], "note": "Through every entry point (borrowing buffer, copying buffer, buffered and unbuffered stream). An enum or IpAddr whose bytes are fewer than the minimum is refused before the tag is looked at."},
  {"property": "C24", "status": "partial", "theorems": ["C24_values_valid_partial", "C24_uninhabited_refuted"], "note": "REFUTED as stated: a Vec of a derived enum without variants yields values of an uninhabited type (C24_uninhabited_refuted). Proved for every entry point, input, host, and stream schedule for types satisfying sane: defaults are valid values, length expressions are of type usize, elements read as raw memory are numbers or structs of them (so not forced by unsafe_is_primitive), zero-sized elements have a value, what is read to the end fits into memory."},
  {"property": "C25", "status": "partial", "theorems": ["C25_faults_partial", "C25_never_panics_partial", "C25_duration_refuted", "C25_stream_capacity_refuted", "C25_buffer_capacity_refuted", "C25_zero_size_refuted", "C25_zero_size_set_refuted", "C25_overflow_refuted", "C25_transparent_refuted", "C25_misaligned_refuted"], "note": "REFUTED as stated in eight ways, one theorem each. Proved: for every type and set of tolerated faults, if the type is calm for them (a syntactic condition naming for each fault the types exposed to it), no other fault occurs for any input at any entry point; in particular types calm for none never panic. Invalid bit patterns in borrowed slices are a fault of their own (C87 to C89). Missing: panics of code outside the model (chrono, regex internals, memory exhaustion)."},
  {"property": "C26", "status": "partial", "theorems": ["C26_write", "C26_read", "C26_struct_write_partial", "C26_struct_read_partial", "C26_array_write_refuted", "C26_array_read_refuted"], "note": "REFUTED as stated: for an array of a repr(transparent) struct whose field has an attribute, the field and the array's own implementation disagree (C26_array_write_refuted, C26_array_read_refuted). For every field type other than an array (or optional array), on every writer and reader and in every state, the generated code is equal to the type's own implementation (C26_write, C26_read: no conditions on the type). For all types including arrays, a struct with one attribute-less field is written and read like its field if slice and array elements are laid out as declared (wsup, supported) (the _partial theorems)."},
  {"property": "C27", "status": "proved", "theorems": ["C27_tags", "C27_accepts", "C27_selects", "C27_attributes", "accepted_fields", "accepted_enum"], "note": "Over the model of Enum::new (Derive.v): tags of an accepted enum are numbered as Rust numbers discriminants (explicit ones as given, implicit ones one more than the variant before), unique and within the tag type; nothing else is rejected for its tags (C27_accepts); for every reader and state a successful read yields the one variant carrying the tag that was read. accepted_fields/accepted_enum relate acceptance by get_fields to the premises of the other theorems. C27_attributes: which attributes an enum may have and the tag type they give (u32 without one)."},
  {"property": "C28", "status": "proved", "theorems": ["C28_written", "C28_mismatch", "C28_mismatch_stream", "C28_reads_back"], "note": "For a field with length = expr anywhere in a struct: a successful write has the elements without a prefix and the expression's value equals the number of elements; a mismatch is LengthIsNotTheSameAsLengthAttribute from write_to_vec and write_to_buffer (buffer untouched), and from streams unless they fail themselves. Structs within wsup/covered."},
  {"property": "C29", "status": "proved", "theorems": ["C29_refused", "C29_field_refused", "C29_prefix_exact", "C29_struct_refused"], "note": "C29_refused, C29_field_refused: any writer, any element type. C29_prefix_exact: inside a struct, also behind constants and in Options, the prefix has exactly the requested width and value. C29_struct_refused: the entry points report OutOfRangeLength and touch no buffer."},
  {"property": "C30", "status": "partial", "theorems": ["C30_ends_before_partial", "C30_written_partial", "C30_ends_inside_partial", "C30_other_outcomes", "C30_own_default_refuted", "C30_option_refuted", "C30_until_refuted"], "note": "REFUTED as stated in three ways: a field whose type can itself be read from nothing (C30_own_default_refuted), an optional container cut behind its flag or inside its length (C30_option_refuted), a container with length = .. cut inside an element (C30_until_refuted). Proved for all entry points: fields that begin with a byte or are containers get their defaults when the input ends before them, the last field also when it ends inside; for every reader, every other outcome is that of the field without default_on_eof."},
  {"property": "C31", "status": "partial", "theorems": ["C31_last_partial", "C31_nothing_left_partial", "C31_next_field_refuted", "C31_same_field_refuted", "C07_buffer_readers_agree_partial", "C08_chunks_irrelevant", "C09_chunks_irrelevant"], "note": "REFUTED as stated: after a part-way end of input a buffer still holds the bytes that a stream has lost (C31_next_field_refuted), and even a single field can differ (C31_same_field_refuted). Proved: agreement of all entry points on every input when only the last field is default_on_eof, and on inputs that end exactly before the first of several; the two buffer readers agree with each other, and all chunkings of a stream with each other, also afterwards (C07, C08, C09 theorems)."},
  {"property": "C32", "status": "partial", "theorems": ["C32_write_partial", "C32_irrelevant_partial", "C32_write_enum_partial", "C32_read_partial", "C32_minimum_partial", "C32_read_from_buffer_partial", "C32_write_refuted", "C32_read_refuted"], "note": "REFUTED as stated: inside a slice the memory of a repr(transparent) struct is copied with its skipped field (C32_write_refuted, C32_read_refuted). Proved for every reader, writer, struct and enum written by its own implementation: writing is writing the struct without the skipped fields, reading is reading it without them and filling in the defaults."},
  {"property": "C33", "status": "partial", "theorems": ["C33_written_partial", "C33_refuses_partial", "C33_only_if_partial", "C33_write_refuted", "C33_read_refuted", "C33_round_trip_refuted"], "note": "REFUTED as stated: inside a slice a repr(transparent) struct is neither written nor read with its constant. Proved for every struct satisfying wsup / supported, anywhere among its fields, every value, every input and every entry point."},
  {"property": "C34", "status": "partial", "theorems": ["C34_reads_back_partial", "takes_bytes_ends", "C34_transparent_refuted"], "note": "REFUTED as stated for elements that are repr(transparent) structs with an attribute on the field. Proved for strings, sequences, sets and maps behind any fields that read back by themselves, every entry point; that the element type takes a byte is asked as: some value has a non-empty encoding."},
  {"property": "C35", "status": "partial", "theorems": ["C35_vector_partial", "C35_set_partial", "C35_map_partial", "C35_string", "C35_plain_data_partial", "C35_terminates_partial", "C35_remainder_refuted", "C35_unit_refuted"], "note": "REFUTED as stated: an incomplete last element is dropped silently (C35_remainder_refuted), Vec<()> does not terminate (C35_unit_refuted). Proved: the elements returned stand one after the other in the input and only a rest that is no element is left over (vectors, Cow slices, sets, maps); strings take all of the input; slices of plain data have length/size elements; reading terminates if elements have a non-zero minimum. Stated for a struct with one such field."},
  {"property": "C36", "status": "partial", "theorems": ["C36_write_seq_partial", "C36_write_array_partial", "C36_write_array_field_partial", "C36_write_set_partial", "C36_write_map_partial", "C36_read_seq_partial", "C36_read_array_partial", "C36_read_set_partial", "C36_read_map_partial", "C36_transparent_write_refuted", "C36_transparent_read_refuted", "C36_conversion_refuted", "C36_map_refuted", "C36_empty_refuted", "C36_alignment_refuted"], "note": "REFUTED as stated for repr(transparent) structs with field attributes, byte order conversion of structs of transparent wrappers, maps read through a repr(packed) pair on hosts that reorder it, sets of empty structs, and misaligned borrowed slices. Proved for all other plain data (honest layouts), every length that fits an allocation, every reader and both byte orders."},
  {"property": "C37", "status": "partial", "theorems": ["C37_offsets", "C37_image", "C37_view", "C37_offsets_partial", "C37_image_partial", "C37_view_partial", "C37_transparent", "C37_packed_refuted"], "note": "REFUTED as stated: repr(packed) without C leaves the field order to the compiler and the derive macro skips its order check there (C37_packed_refuted). Proved for every struct that is neither repr(packed) nor unsafe_is_primitive and whose transparent field has no attributes (checked), and in the _partial forms for every struct whose declared layout is true (honest)."},
  {"property": "C38", "status": "partial", "theorems": ["C38_set_partial", "C38_map_partial", "C38_iteration_order", "C38_empty_refuted"], "note": "REFUTED as stated: a set of empty structs (plain data of size zero) is read back as empty, whatever was written (C38_empty_refuted), and maps of plain data are read through a packed pair struct that a host may lay out in another order (C36_map_refuted). Proved for every supported element type, every reader and every input: a set holds exactly the distinct elements of the sequence, a map holds for each key the last value given. Independence from iteration order is proved in full, for a writer and a reader on any two hosts."},
  {"property": "C39", "status": "proved", "theorems": ["C39_read", "C39_write"], "note": "Every entry point, every valid host."},
  {"property": "C40", "status": "proved", "theorems": ["C40_allocations", "C40_hostile_lengths"], "note": "For every type, every input and both buffer readers, over the ghost log of vector allocations. Allocations of Cow slices after a misaligned borrow are bounded by the bytes already taken from the input."},
  {"property": "C41", "status": "partial", "theorems": ["C41_buffered_partial", "C41_unbuffered_partial", "C41_unexpected_eof_refuted"], "note": "REFUTED as stated for stream errors of kind UnexpectedEof, which count as end of input.  Proved for every type, content and schedule of other errors."},
  {"property": "C42", "status": "partial", "theorems": ["C42_interrupted_partial", "C42_buffered_refuted", "C42_peeking_refuted"], "note": "REFUTED as stated for the buffered reader and for peeking; proved for the unbuffered reader of types without peek_tag."},
  {"property": "C43", "status": "proved", "theorems": ["C43_failed_writes", "C43_any_type"], "note": "C43_any_type has no condition on types, values or hosts; C43_failed_writes says in addition what the bytes are."},
  {"property": "C44", "status": "partial", "theorems": ["C44_file_prefix_partial", "C44_lost_error_refuted", "C44_any_type_partial"], "note": "REFUTED as stated: write_to_file drops the BufWriter without flushing it, so a late write error is lost.  What holds is C44_file_prefix_partial: the file always holds a prefix of the encoding, all of it when no write fails."},
  {"property": "C45", "status": "partial", "theorems": ["C45_injective", "C45_injective_exact", "C45_unique_split", "C45_range_refuted", "C45_inner_eof_refuted"], "note": "REFUTED as stated for exhausted RangeInclusive values and for until-EOF structs nested before other fields. Proved for every covered type; restated as C56."},
  {"property": "C46", "status": "partial", "theorems": ["C46_format_partial", "C46_buffer_partial", "C46_reading_partial", "C46_bool_refuted", "C46_option_refuted", "C46_result_refuted", "C46_varint_refuted", "C46_length_refuted", "C46_tag_refuted", "C46_duration_refuted", "C46_systemtime_refuted", "C46_bvec_refuted", "C46_set_order_refuted", "C46_set_twice_refuted", "C46_map_refuted", "C46_default_refuted", "C46_until_eof_refuted"], "note": "REFUTED as stated: bool, Option, Result, varints and everything prefixed by them, durations, bit vectors, sets, maps, default_on_eof and until-EOF fields all accept inputs that are not what writing the value gives; each has its own _refuted theorem with a concrete input. Proved for the types that have none of these (the predicate canonical): whatever is accepted is exactly what writing the value gives, by the format and by every reader."},
  {"property": "C47", "status": "proved", "theorems": ["C47_reversal", "C47_reversal_parts", "C47_unaffected", "C47_strings", "C47_swap_twice", "C47_read_swapped"], "note": "Scalars made of several numbers (Duration, SystemTime, DateTime, IpAddr, glam) are reversed number by number; of a string the content is unaffected, its length prefix is a number."},
  {"property": "C48", "status": "partial", "theorems": ["C48_before_epoch", "C48_read_partial", "C48_read_overflow", "C48_round_trip", "C48_panic_refuted"], "note": "REFUTED as stated: an encoded time whose seconds overflow 64 bits when the nanoseconds are carried over panics (Duration::new) instead of InvalidSystemTime. Everything else is proved."},
  {"property": "C49", "status": "partial", "theorems": ["C49_slice_order", "C49_array_order", "C49_slice_unsized", "C49_array_unsized", "C49_slice_partial", "C49_array_partial", "C49_packed", "C49_slice_unsafe", "C49_array_unsafe", "C49_slice_refuted", "C49_array_refuted"], "note": "REFUTED as stated: memory safety depends on the address of the buffer, which is never checked (C49_slice_refuted, C49_array_refuted; C49_slice_unsafe and C49_array_unsafe show it is the case at every misaligned address, even for empty slices). The other parts are proved in full: the byte order test, Unsized from readers that do not lend, and, at aligned addresses or for elements without alignment, exactly the elements that reading one by one gives. The model allows any byte order; in Rust the ZeroCopyable bound already rules most mismatches out at compile time."},
  {"property": "C50", "status": "partial", "theorems": ["C50_mapped_file_partial", "C50_streamed_file_partial", "C50_streamed_refuted", "C50_mapped_refuted"], "note": "REFUTED as stated in the cases of C07 (mapped files) and C08 (streamed files)."},
  {"property": "C51", "status": "partial", "theorems": ["C51_writes", "C51_writes_vec", "C51_reads_back_partial", "C51_reads_back_prefix_partial", "C51_varint_refuted"], "note": "REFUTED as stated for tag_type = varint: peek_u64_varint sees another number as soon as the tag takes two or more bytes (C51_varint_refuted). For every other tag type: the enum writes exactly what a struct with the variant's fields writes (any writer), and if that begins with the tag every entry point reads the variant back, also with bytes behind it."},
  {"property": "C52", "status": "partial", "theorems": ["C52_covered", "C52_round_trip", "C52_round_trip_prefix", "C52_any_depth", "C52_inner_eof_refuted"], "note": "A recursive declaration is a derived type with a hole where it mentions itself; its values of depth below n are those of the n-th unrolling. The hypotheses ask the conditions of the round trip theorems for the first two unrollings and one memory layout for all unrollings (to the compiler they are one type). All cycles pass through one declaration. Infinite recursion of minimum_bytes_needed (a field [Box<S>; 0] inside S) is outside the model. REFUTED as stated for recursive types with an until-EOF field (accepted by derive). The other recursive types are C53 at every depth."},
  {"property": "C53", "status": "proved", "theorems": ["C01_round_trip", "C01_round_trip_exact", "C52_any_depth"], "note": ""},
  {"property": "C54", "status": "proved", "theorems": ["C02_exact_consumption", "C02_exact_consumption_copying", "C10_nothing_extra", "C10_consecutive_reads"], "note": ""},
  {"property": "C55", "status": "proved", "theorems": ["C13_truncated_buffer", "C13_truncated_buffer_copying", "C13_truncated_stream", "C13_prefix_free", "C14_truncated_buffer", "C14_truncated_buffer_copying", "C14_truncated_stream"], "note": ""},
  {"property": "C56", "status": "proved", "theorems": ["C45_injective", "C45_injective_exact", "C45_unique_split"], "note": ""},
  {"property": "C57", "status": "proved", "theorems": ["C04_bytes_needed", "C04_bytes_needed_stream", "C05_write_to_buffer", "C06_writers_agree", "C06_writers_fail", "C06_any_schedule"], "note": ""},
  {"property": "C58", "status": "proved", "theorems": ["C58_vec", "C58_array", "C58_vec_result", "C58_array_result", "C58_conjured_refuted"], "note": "Vectors of zero-sized elements are outside the statement: the loop does not run and the vector is given its length anyway, so values nobody made are handed out (C58_conjured_refuted)."},
  {"property": "C59", "status": "proved", "theorems": ["C59_read", "C59_swap_bytes", "C59_swap_twice", "C59_swap_slice"], "note": ""},
  {"property": "C60", "status": "proved", "theorems": ["C60_eof", "C60_io_error", "C60_there_and_back", "C60_invalid_data", "C60_custom"], "note": "The texts of the errors are not modelled."},
  {"property": "C61", "status": "proved", "theorems": ["C61_stream", "C61_file", "C61_vec", "C61_buffer", "C61_bytes_needed", "C61_units_refuted", "C61_expression_refuted"], "note": "Both conditions are needed: C61_units_refuted (a Vec<()> with 2^63 elements reaches unreachable_unchecked in bytes_needed) and C61_expression_refuted (a length expression that overflows)."},
  {"property": "C62", "status": "proved", "theorems": ["C62_interop", "C62_interop_stream", "C62_never_wrong", "C62_ipv6_refuted"], "note": "C62_never_wrong excludes until-EOF and default_on_eof fields (no_eof). C62_ipv6_refuted: hosts of different byte orders read different IPv6 addresses."},
  {"property": "C63", "status": "proved", "theorems": ["C63_stable", "C63_fixed_point", "C63_set_length_refuted"], "note": "C63_set_length_refuted shows why sets and maps with `length = <expression>` are excluded: an input with duplicates is accepted, and the value that comes out cannot be written."},
  {"property": "C64", "status": "proved", "theorems": ["C64_exactly"], "note": "The exact form of the refutation of C18."},
  {"property": "C65", "status": "proved", "theorems": ["C65_round_trip", "C65_every_entry_point", "C65_nothing_extra", "C65_exact", "C65_truncated", "C65_prefix_free", "C65_injective"], "note": "`ordinary` can be read off the declaration: no references, repr(transparent), repr(packed), unsafe_is_primitive, peek_tag, default_on_eof or length expressions; length prefixes of at most 32 bits; tags distinct and in range; slices of zero-sized types only if their encoding is empty. Restates the true part of C01, C02, C10, C13, C14 and C45."},
  {"property": "C66", "status": "proved", "theorems": ["C66_writers", "C66_writers_fail"], "note": "Restates the true part of C04, C05 and C06."},
  {"property": "C67", "status": "proved", "theorems": ["C67_buffers", "C67_same_value", "C67_files"], "note": "Restates the true part of C07, C08, C09 and C50."},
  {"property": "C68", "status": "proved", "theorems": ["C68_buffer_consumes", "C68_stream_consumes", "C68_entry_check", "C68_vector_check"], "note": "Restates the true part of C15."},
  {"property": "C69", "status": "proved", "theorems": ["C69_valid", "C69_stable"], "note": "Restates the true part of C24 and specialises C63."},
  {"property": "C70", "status": "proved", "theorems": ["C70_one_panic", "C70_never_panics", "C70_same_outcome", "C70_writing_never_panics"], "note": "Restates the true part of C25 and specialises C61."},
  {"property": "C71", "status": "proved", "theorems": ["C71_field_write", "C71_field_read", "C71_write_seq", "C71_write_array", "C71_write_set", "C71_write_map", "C71_read_seq", "C71_read_array"], "note": "Restates the true part of C26 and C36."},
  {"property": "C72", "status": "proved", "theorems": ["C72_set", "C72_map"], "note": "Restates the true part of C38."},
  {"property": "C73", "status": "proved", "theorems": ["C73_same_bytes", "C73_interop"], "note": "Restates the true part of C03 and specialises C62."},
  {"property": "C74", "status": "proved", "theorems": ["C74_stream_errors", "C74_interrupted"], "note": "What is true of C41 and C42, without conditions on the type."},
  {"property": "C75", "status": "proved", "theorems": ["C75_file"], "note": "What is true of C44: an error during the final flush of BufWriter on drop is lost, so the file may be short although the result is Ok."},
  {"property": "C76", "status": "proved", "theorems": ["C76_peeked", "C76_one_byte"], "note": "What is true of C21, exactly."},
  {"property": "C77", "status": "proved", "theorems": ["C77_read", "C77_written"], "note": "What is true of C48."},
  {"property": "C78", "status": "proved", "theorems": ["C78_slice", "C78_array"], "note": "What is true of C49."},
  {"property": "C79", "status": "proved", "theorems": ["C79_peeked"], "note": "What is true of C51 and C22."},
  {"property": "C80", "status": "proved", "theorems": ["C80_ends_before", "C80_complete", "C80_ends_inside"], "note": "What is true of C30."},
  {"property": "C81", "status": "proved", "theorems": ["C81_written", "C81_variant_written", "C81_read", "C81_write_to_vec", "C81_read_from_buffer"], "note": "What is true of C32: for the implementation generated for the type itself, not for the memory copies made inside slices of repr(transparent) structs."},
  {"property": "C82", "status": "proved", "theorems": ["C82_written", "C82_refuses", "C82_only_if"], "note": "What is true of C33."},
  {"property": "C83", "status": "proved", "theorems": ["C83_reads_back", "C83_never_panics", "C83_vector", "C83_set", "C83_map"], "note": "What is true of C34 and C35."},
  {"property": "C84", "status": "proved", "theorems": ["C84_buffer", "C84_reading"], "note": "What is true of C46; the exclusions are each refuted there."},
  {"property": "C85", "status": "proved", "theorems": ["C37_offsets", "C37_image", "C37_view", "C37_transparent"], "note": "What is true of C37."},
  {"property": "C86", "status": "proved", "theorems": ["C86_same_value"], "note": "What is true of C31."},
  {"property": "C87", "status": "proved", "theorems": ["C87_unreachable", "C87_misaligned", "C87_invalid", "C87_no_slices", "C87_copying_buffer", "C87_streams", "C87_files"], "note": "No conditions on the type besides those in the statement. Uninitialised memory is treated in C58."},
  {"property": "C88", "status": "proved", "theorems": ["C88_every_pattern", "C88_slices", "C88_other_contexts"], "note": "zero_copy (ZeroCopy.v) models which types implement the trait."},
  {"property": "C89", "status": "partial", "theorems": ["C89_derived_partial", "C89_refuted", "C89_pointers_refuted"], "note": "REFUTED as stated: the code generated for a field spelled &'a [T] asks nothing of T, so that struct Flags<'a> { flags: &'a [bool] } and even &'a [String] compile and turn input bytes into bools and pointers (C89_refuted, C89_pointers_refuted). Proved: apart from the elements of such fields, which must be numbers or structs of numbers, the bounds the compiler checks suffice."},
  {"property": "C90", "status": "partial", "theorems": ["C90_read_back_partial", "C90_refuted"], "note": "REFUTED as stated: a repr(packed) struct implements ZeroCopyable whatever the attributes of its fields; with constant_prefix the prefixes come back as values (C90_refuted). Proved for plain data: types whose speedy_is_primitive is true and whose layout is as declared."},
  {"property": "C91", "status": "proved", "theorems": ["C91_read", "C91_write", "C91_minimum"], "note": "Assumes that standard names (u8, Vec, Option, ...) are not redefined by the user; other names may mean anything. `&[u8]` is generated without the checks of `&[T]`, and the equality needs a reader that returns as many bytes as asked for. Arrays are the subject of C26."},
  {"property": "C92", "status": "proved", "theorems": ["C92_accepted", "C92_read", "C92_write", "C92_minimum"], "note": "This carries C01-C90 over from descriptions to spelled declarations."},
  {"property": "C93", "status": "partial", "theorems": ["C93_generic", "C93_read", "C93_write", "C93_option_refuted", "C93_skip_refuted"], "note": "REFUTED as stated: for a field Option<T> the bound is `Option<T>: Readable` while the code uses the implementation of T (the derive does not compile), and a skipped field of type T still demands T: Readable. True part: C97."},
  {"property": "C94", "status": "proved", "theorems": ["C94_names", "C94_standard", "C94_zero_copy"], "note": ""},
  {"property": "C95", "status": "partial", "theorems": ["C95_sound", "C95_one", "C95_complete", "C95_refuted"], "note": "REFUTED as stated: repr(C, packed) and repr(packed) followed by another repr(...) are not recognised. True part: C98."},
  {"property": "C96", "status": "partial", "theorems": ["C96_bytes", "C96_accepted", "C96_refuted"], "note": "REFUTED as stated: -128i8 and 300u8 make the macro panic, and 5i8 is rejected. True part: C99."},
  {"property": "C97", "status": "proved", "theorems": ["C93_generic", "C93_read", "C93_write"], "note": "Restates C93. `Uses` is semantic: two families of implementations that agree on the available types give the same reader."},
  {"property": "C98", "status": "proved", "theorems": ["C95_sound", "C95_one", "C95_complete"], "note": "Restates C95."},
  {"property": "C99", "status": "proved", "theorems": ["C96_bytes", "C96_accepted"], "note": "Restates C96."}
]}
