{"id": "C01", "title": "Unsigned varint round trip", "statement": "Writing any u8/u16/u32/u64 with the varint encoder and reading it back with the decoder of the same type returns the same number, consumes exactly the bytes that were written, and leaves every following byte unread; this holds with and without integer-overflow checks compiled in.", "quantifier": "every value of every unsigned width, every suffix of following bytes, both overflow-check modes", "why_tests_cant": "There are 2^64 values and infinitely many suffixes; tests check five of them.", "anchors": ["steit/src/impls/varint.rs: impl_unsigned_varint serialize 21-35, merge 40-62"]}
{"id": "C02", "title": "Signed varint round trip: exact domain", "statement": "An i8/i16/i32/i64 survives serialize-then-deserialize exactly when it lies in [-2^(n-2), 2^(n-2)); outside that half of the range the decoder returns a different number (the full-range claim that users rely on is false).", "quantifier": "every value of every signed width", "why_tests_cant": "The existing tests use small magnitudes only; the boundary of correctness is a for-all statement over 2^64 values.", "anchors": ["steit/src/impls/varint.rs: encode 86-88, decode 90-92, merge 110-117"]}
{"id": "C03", "title": "Announced varint size is the written size", "statement": "The size computed ahead of writing an integer (which goes into length prefixes) equals the number of bytes the encoder then writes, and lies between 1 and ceil(bits/7).", "quantifier": "every value of every integer width", "why_tests_cant": "size_32/size_64 are a hand-written decision tree over bit patterns; one wrong threshold corrupts only the values in one band.", "anchors": ["steit/src/impls/varint.rs: size_32 140-158, size_64 169-197, compute_size 17-19, 94-97"]}
{"id": "C04", "title": "Varint encodings are canonical and prefix-free", "statement": "Two different numbers never have encodings where one is a prefix of the other, so a stream of varints can be cut in only one way, and equal bytes mean equal numbers.", "quantifier": "every pair of values of a width", "why_tests_cant": "A statement about all pairs of values.", "anchors": ["steit/src/impls/varint.rs: serialize 21-35"]}
{"id": "C05", "title": "Varint decoding of arbitrary bytes", "statement": "On any byte string the unsigned decoder stops at the first byte below 0x80, fails with an end-of-input error if there is none, never reads past that byte, and otherwise returns the little-endian sum of the 7-bit groups truncated to the width whenever all shifts are below the width; with overflow checks on it panics exactly when some group would be shifted by at least the width.", "quantifier": "every byte string, every width, both overflow-check modes", "why_tests_cant": "The input space is all byte strings including adversarial overlong ones.", "anchors": ["steit/src/impls/varint.rs: merge 40-62"]}
{"id": "C06", "title": "Field tag packing", "statement": "A field number and wire type pack into a tag exactly when the field number is at most 2^29-1, unpacking gives the same pair back, the packed tag fits 32 bits, and every 32-bit number is either rejected (low three bits not 0 or 2) or is the tag of exactly one pair.", "quantifier": "every u32 field number, every wire type, every u32 tag", "why_tests_cant": "2^32 inputs in both directions, including the rejected ones.", "anchors": ["steit/src/wire_fmt.rs: validate_field_number 51-63, parse_tag 65-70, tag 72-75, WireType::from_value 19-28"]}
{"id": "C07", "title": "Boolean decoding", "statement": "A boolean written reads back the same; decoding any byte string consumes up to the first byte below 0x80 and yields false only if every consumed 7-bit group is zero.", "quantifier": "every byte string", "why_tests_cant": "Arbitrary-length input.", "anchors": ["steit/src/impls/bool.rs 13-38"]}
{"id": "C08", "title": "Announced size equals bytes written for every value", "statement": "For a value of any supported type, the size reported by compute_size/cache_size equals the length of what the serializer then writes, at every nesting level, as long as the total stays below 4 GiB.", "quantifier": "every schema built from the supported types and derives, every value of it", "why_tests_cant": "Length prefixes at every level depend on it; the schema and value spaces are infinite trees.", "anchors": ["steit/src/ser.rs: cache_size 14-22, steit_serialize 31-34, compute_size_nested 43-65, serialize_nested 67-89", "steit/src/impls/*.rs compute_size/serialize_cached", "steit-derive/src/derive/struct.rs sizer/serializer", "steit-derive/src/derive/enum.rs impl_serialize 220-286"]}
{"id": "C09", "title": "Serialization does not depend on stale size caches", "statement": "steit_serialize writes the same bytes whatever numbers were left in the size caches of the value and of everything nested in it, changes nothing but those caches, and a second serialization writes the same bytes again.", "quantifier": "every value, every assignment of numbers to every size cache in it", "why_tests_cant": "Caches are interior-mutable state at every node; the property ranges over all cache histories.", "anchors": ["steit/src/ser.rs 14-34", "steit/src/rt/size_cache.rs", "steit/src/types/list.rs 163-175", "steit/src/types/map/map.rs 159-181"]}
{"id": "C10", "title": "Round trip for every schema", "statement": "Deserializing the bytes of a value gives an equal value (size caches and runtimes aside) for every type that can be built from integers, booleans, strings, bytes, options, vectors, arrays, tuples, hash maps, boxes, derived structs and enums, lists and maps, provided signed integers are in the lossless half range, map keys fit a field number and the encoding is below 4 GiB.", "quantifier": "every schema, every well-typed value", "why_tests_cant": "Unbounded nesting of types and values.", "anchors": ["steit/src/de/de.rs", "steit/src/ser.rs", "steit/src/impls/*.rs", "steit/src/types/*.rs", "steit-derive/src/derive/struct.rs merger 356-370", "steit-derive/src/derive/enum.rs impl_deserialize 288-342"]}
{"id": "C11", "title": "Nested encodings are self-delimiting", "statement": "A value written with serialize_nested and followed by any other bytes is read back by deserialize_nested exactly, leaving precisely the following bytes; hence a sequence of nested values decodes to the sequence.", "quantifier": "every schema, value and suffix", "why_tests_cant": "Needs every suffix and every nesting depth.", "anchors": ["steit/src/ser.rs serialize_nested 67-89", "steit/src/de/de.rs merge_nested 16-29", "steit/src/de/reader.rs nested 30-36"]}
{"id": "C12", "title": "Field omission is lossless", "statement": "When a struct or variant field is left out of the encoding, the omitted value equals the default the decoder starts from; and a field whose value differs from the default is never omitted.", "quantifier": "every field type and value", "why_tests_cant": "is_omissible uses size 0 for sized types and equality for primitives; soundness is an induction over types.", "anchors": ["steit/src/ser.rs is_omissible 36-41, compute_size_nested 51-53, serialize_nested 75-77", "steit/src/impls/macros.rs 32-34", "steit-derive/src/derive/field.rs sizer/serializer 364-374"]}
{"id": "C13", "title": "Unknown fields are skipped", "statement": "Inserting a field with a number the struct does not know, at any field boundary of the input, does not change the decoded struct and does not disturb the following fields - for every sized field below 2^63 bytes and every varint field, except that with overflow checks compiled in a varint of three or more bytes panics the decoder.", "quantifier": "every schema, every encoded message, every unknown field and position, both modes", "why_tests_cant": "Forward compatibility ranges over all future schemas.", "anchors": ["steit/src/de/reader.rs skip_field 43-57", "steit-derive/src/derive/struct.rs merger 356-370"]}
{"id": "C14", "title": "Wire-type mismatch leaves the field alone", "statement": "If the wire type in the input differs from the field's type, the field keeps its value and decoding resumes right after the foreign field.", "quantifier": "every field type, every encoded mismatching field, every suffix", "why_tests_cant": "Backward compatibility across type changes ranges over all payloads.", "anchors": ["steit/src/de/de.rs merge_nested 16-29", "steit/src/de/reader.rs skip_field 43-57"]}
{"id": "C15", "title": "Field order does not matter", "statement": "Decoding a struct gives the same result whatever order its (distinctly numbered) encoded fields appear in.", "quantifier": "every struct schema, every value, every permutation of its encoded fields", "why_tests_cant": "n! permutations for every n.", "anchors": ["steit-derive/src/derive/struct.rs merger 356-370"]}
{"id": "C16", "title": "Merging is incremental", "statement": "For structs, options, vectors, bytes, hash maps, lists and maps, merging the concatenation of two complete encodings equals merging the first and then the second; in particular a repeated scalar field takes the last value and a repeated sequence field appends.", "quantifier": "every schema, starting value and pair of byte strings of which the first decodes", "why_tests_cant": "All pairs of inputs and starting states.", "anchors": ["steit-derive/src/derive/struct.rs merger", "steit/src/impls/vec.rs merge 40-47", "steit/src/types/bytes.rs merge 60-63", "steit/src/types/list.rs merge 178-189", "steit/src/types/map/map.rs merge 184-201"]}
{"id": "C17", "title": "Decoding is total and type-preserving", "statement": "On every byte string decoding terminates within a number of steps bounded by its length, with a result or an error; without overflow checks the only panic is a skipped field claiming at least 2^63 bytes; whenever it succeeds the decoded value is well typed; and whatever happens the partially merged value stays well typed.", "quantifier": "every schema, every well-typed starting value, every byte string", "why_tests_cant": "Adversarial input, including termination.", "anchors": ["steit/src/de/*.rs", "steit/src/impls/*.rs merge", "steit-derive/src/derive/struct.rs merger", "steit-derive/src/derive/enum.rs 288-342"]}
{"id": "C18", "title": "Truncated nested input is accepted", "statement": "A length prefix that promises more bytes than remain is treated as promising exactly the remaining bytes, so a message cut at a field boundary decodes without error (the expected rejection of truncated input does not happen).", "quantifier": "every schema, every input and every cut point", "why_tests_cant": "Cut points and messages are unbounded.", "anchors": ["steit/src/de/reader.rs nested 30-36, skip_field 49-53"]}
{"id": "C19", "title": "Log entry round trip", "statement": "Every log entry (update, list push, list pop, map remove) with any path, payload and key is read back from its nested encoding exactly, leaving the following bytes.", "quantifier": "every entry kind, path, payload and key; every suffix", "why_tests_cant": "Paths and payloads are unbounded.", "anchors": ["steit/src/log/entry.rs", "steit/src/state.rs unpack_log_entry 60-73"]}
{"id": "C20", "title": "Replaying in pieces", "statement": "Replaying the concatenation of two entry streams equals replaying the first and then, if that succeeded, the second; replaying nothing changes nothing.", "quantifier": "every state type, state and pair of complete entry streams", "why_tests_cant": "All splits of all logs.", "anchors": ["steit/src/state.rs replay 37-57"]}
{"id": "C21", "title": "Buffer logger keeps every entry in order", "statement": "The bytes of a buffer logger are the concatenation of the nested encodings of all entries logged since the last clear or pluck, in order; pluck returns them and empties the buffer; log_multi of any logger logs its entries in order up to the first that fails, and returns that failure.", "quantifier": "every sequence of log, clear, pluck and bytes calls", "why_tests_cant": "All call histories.", "anchors": ["steit/src/log/loggers/buffer.rs", "steit/src/log/logger.rs log_multi 8-14"]}
{"id": "C22", "title": "Pausing nests", "statement": "An entry reaches the inner logger exactly when the number of unmatched pause calls is zero, where unpause never goes below zero; pause and unpause return that number.", "quantifier": "every sequence of pause, unpause and log calls", "why_tests_cant": "All call histories.", "anchors": ["steit/src/rt/logger.rs 31-54"]}
{"id": "C23", "title": "Replicas converge by replaying the log", "statement": "Start from a root state and a replica equal to it. After any sequence of setter, variant setter, list push/push_with/pop/swap_remove and map insert/insert_with/remove calls at any place in the tree, replaying the logged bytes on the replica succeeds and makes it equal to the state - for state schemas without no_state fields, values in the codec's lossless domain, and calls outside the defects recorded in C27, C28 and C29.", "quantifier": "every state schema, every initial state, every sequence of operations with every argument", "why_tests_cant": "All histories over all schemas.", "anchors": ["steit/src/state.rs", "steit/src/types/list.rs", "steit/src/types/map/map.rs", "steit-derive/src/derive/field.rs setter 247-338", "steit-derive/src/derive/struct.rs replayer 405-442", "steit-derive/src/derive/enum.rs 344-453"]}
{"id": "C24", "title": "List behaves like a sequence", "statement": "push, pop, swap_remove, indexing and iteration on List act on its contents exactly like the corresponding operations on a mathematical sequence, return the specified results, and log exactly the entries that describe the change (nothing when nothing changes).", "quantifier": "every list content, every operation sequence", "why_tests_cant": "All histories.", "anchors": ["steit/src/types/list.rs 49-116"]}
{"id": "C25", "title": "Map behaves like a finite map", "statement": "insert, insert_with, remove, get, contains and len on Map act exactly like on a finite map from field numbers to values; iteration visits every binding once, in insertion order except that removal moves the last binding into the hole.", "quantifier": "every map content, every operation sequence", "why_tests_cant": "All histories.", "anchors": ["steit/src/types/map/map.rs 46-92"]}
{"id": "C26", "title": "Every node knows its own path", "statement": "In a tree built by with_runtime, decoding, replay and the set_runtime-ing operations, the runtime stored at each nested node is exactly the path by which it is reached from the root (plus the variant tag for enums), on the root's logger.", "quantifier": "every state schema, every reachable state, every node", "why_tests_cant": "An invariant over all histories and positions; logging correctness depends on it.", "anchors": ["steit/src/rt/runtime.rs nested/parent/sibling 65-84", "steit/src/types/list.rs set_runtime 201-207", "steit/src/types/map/map.rs set_runtime 213-219", "steit-derive/src/derive/struct.rs runtime_setter 386-403, ctor 186-216", "steit-derive/src/derive/enum.rs 358-376"]}
{"id": "C27", "title": "swap_remove keeps paths right only for non-enum items", "statement": "After List::swap_remove(i) of a non-last item the moved item sits at index i and its stored path must end in i; this holds for every item type that is not an enum, while for enum items the stored path gains a spurious segment so later changes to it are logged at a wrong place.", "quantifier": "every list, index and item type", "why_tests_cant": "Requires every item type; the failure is invisible until a later mutation.", "anchors": ["steit/src/types/list.rs swap_remove 82-111", "steit/src/rt/runtime.rs sibling 79-84"]}
{"id": "C28", "title": "Map insertion and the runtime of the inserted value", "statement": "A value inserted with insert_with sits on the map's path; a value inserted with plain insert keeps whatever runtime it had, so if that was a different one, later nested changes to it are not logged at the map's path and a replica diverges.", "quantifier": "every map, key and value", "why_tests_cant": "The failure needs a following mutation; the property ranges over all values.", "anchors": ["steit/src/types/map/map.rs insert 61-65, insert_with 67-73"]}
{"id": "C29", "title": "Removing an absent map key", "statement": "Map::remove logs a removal also when the key is absent, and replaying such a log fails on every replica that has the same contents.", "quantifier": "every map and absent key", "why_tests_cant": "All states.", "anchors": ["steit/src/types/map/map.rs remove 75-79, handle 247-263"]}
{"id": "C30", "title": "Only roots replay", "statement": "replay on a state that is not a root fails with an input error, consumes nothing and changes nothing; on a root of struct, list, map or enum type built on a root runtime it is accepted; on a boxed enum root it is always rejected.", "quantifier": "every state and input", "why_tests_cant": "All states.", "anchors": ["steit/src/state.rs replay 37-43", "steit-derive/src/derive/enum.rs is_root 415-417", "steit/src/impls/box.rs 37-59"]}
{"id": "C31", "title": "Replay does not log", "statement": "Replaying a log onto a state appends nothing to that state's logger, whatever the log contains and whether or not it succeeds.", "quantifier": "every state and byte string", "why_tests_cant": "All inputs.", "anchors": ["steit/src/state.rs 37-57", "steit/src/types/list.rs handle 209-258", "steit/src/types/map/map.rs handle 221-271"]}
{"id": "C32", "title": "A log entry only touches its target", "statement": "Replaying one entry addressed to path p leaves every part of the state that is not on or below p exactly as it was, whether it succeeds or fails.", "quantifier": "every state, path, entry kind and payload", "why_tests_cant": "A frame property over all positions.", "anchors": ["steit/src/types/list.rs handle", "steit/src/types/map/map.rs handle", "steit-derive/src/derive/struct.rs replayer 405-442", "steit-derive/src/derive/enum.rs 378-450"]}
{"id": "C33", "title": "Failure leaves the applied prefix", "statement": "When replay fails, every entry before the failing one has been applied in full; the failing entry itself may leave its target reset or half merged (it is not atomic), but nothing else is affected.", "quantifier": "every state and byte string on which replay fails", "why_tests_cant": "All failing inputs.", "anchors": ["steit/src/state.rs handle_update 32-35, replay 37-57"]}
{"id": "C34", "title": "Map keys and the key type", "statement": "Decoding a Map rejects field numbers outside the key type's range, so decoded maps iterate without panicking; replaying an update under a map does not check the range, and iterating such a map panics.", "quantifier": "every key type, every input", "why_tests_cant": "All keys and inputs.", "anchors": ["steit/src/types/map/map.rs merge 184-201, handle 231-236", "steit/src/types/map/key.rs", "steit/src/types/map/iter.rs"]}
{"id": "C35", "title": "Map keys above 2^29-1", "statement": "A map serializes exactly when all its keys are at most 2^29-1; with any larger key (possible only with u32 keys) serialization panics instead of returning an error.", "quantifier": "every map", "why_tests_cant": "All key sets.", "anchors": ["steit/src/types/map/map.rs compute_size 160-168", "steit/src/wire_fmt.rs 51-63"]}
{"id": "C36", "title": "Runtime path algebra", "statement": "parent undoes nested, sibling(n) equals parent then nested(n), the path of nested(n) is the old path followed by n, only the root is root, and parent/sibling of the root panic.", "quantifier": "every path and field number", "why_tests_cant": "All depths.", "anchors": ["steit/src/rt/node.rs", "steit/src/rt/runtime.rs 65-107"]}
{"id": "C37", "title": "Derive accepts exactly the well-numbered types", "statement": "The derive macro accepts a struct or enum only if every field and variant has a tag, all tags are at most 2^29-1, no tag repeats or is reserved, and an enum has a variant with tag 0; otherwise at least one compile error is reported.", "quantifier": "every list of fields and variants with every tag assignment", "why_tests_cant": "All declarations.", "anchors": ["steit-derive/src/derive/struct.rs parse_fields 561-596", "steit-derive/src/derive/enum.rs parse_variants 516-575", "steit-derive/src/derive/tag.rs", "steit-derive/src/derive/field.rs 28-73", "steit-derive/src/derive/variant.rs 16-38"]}
{"id": "C38", "title": "Enum decoding", "statement": "Decoding an enum switches to the variant named by the leading tag (keeping the payload when the variant is the same), and a tag that names no variant is an error that leaves the enum as it was.", "quantifier": "every enum schema, every starting value and input", "why_tests_cant": "All schemas and inputs.", "anchors": ["steit-derive/src/derive/enum.rs impl_deserialize 288-342"]}
{"id": "C39", "title": "Equality ignores caches and runtimes and agrees with hashing", "statement": "Equality of states does not depend on size caches or runtimes, is reflexive, symmetric and transitive, and equal values feed the same data to the hasher.", "quantifier": "every pair and triple of values of every schema with derived equality and hash", "why_tests_cant": "All pairs and triples.", "anchors": ["steit-derive/src/derive/field.rs eq 340-353, hash 355-362", "steit-derive/src/derive/enum.rs 129-208", "steit/src/rt/size_cache.rs 62-72", "steit/src/rt/runtime.rs 150-166", "steit/src/types/map/map.rs 108-112"]}
{"id": "C40", "title": "Arrays and tuples", "statement": "Merging into an array overwrites a prefix and keeps the rest, ignoring surplus input; merging into a tuple replaces all components or none, ignoring surplus input and failing on missing components.", "quantifier": "every array length and tuple, every starting value and input", "why_tests_cant": "All inputs.", "anchors": ["steit/src/impls/array.rs 41-55", "steit/src/impls/tuple.rs 37-47"]}
{"id": "C41", "title": "Strings are valid UTF-8", "statement": "Decoding a String succeeds exactly on well-formed UTF-8 and then replaces the old contents; otherwise it fails with a data error and the old contents stay.", "quantifier": "every byte string", "why_tests_cant": "All byte strings.", "anchors": ["steit/src/impls/string.rs 23-36"]}
{"id": "C42", "title": "An exception in a constructor callback", "statement": "If the callback of push_with, insert_with or a set_*_with setter panics and the panic is caught, the logger stays paused, so later changes to the whole tree are not logged.", "quantifier": "every state and operation", "why_tests_cant": "Needs histories with a panic at the callback.", "anchors": ["steit/src/types/list.rs push_with 60-71", "steit/src/types/map/map.rs insert_with 67-73", "steit-derive/src/derive/field.rs 308-319"]}
{"id": "C43", "title": "Concurrent serialization", "statement": "If several threads serialize the same unchanging value at the same time, every one of them writes the correct bytes, for every interleaving of their accesses to the shared size caches.", "quantifier": "every value, number of threads and interleaving, any initial cache contents", "why_tests_cant": "Schedules cannot be enumerated by tests.", "anchors": ["steit/src/rt/size_cache.rs get/set 37-51", "steit/src/ser.rs"]}
{"id": "C44", "title": "C# integers agree with Rust's encoder", "statement": "The C# decoder returns the original number for every value the Rust encoder writes, for all unsigned types and for SByte, Int16 and Int32 in full range; for Int64 only in the half range.", "quantifier": "every value of every integer type", "why_tests_cant": "All values.", "anchors": ["steit-csharp/src/Codec/Reader.cs 22-53"]}
{"id": "C45", "title": "C# replicas converge", "statement": "Replaying the log written by a Rust state on an equal C# replica yields an equal state.", "quantifier": "every state schema supported by the C# side, every state and log produced by the Rust operations", "why_tests_cant": "All histories across two implementations.", "anchors": ["steit-csharp/src/State/StateReplayer.cs", "steit-csharp/src/State/State.cs", "steit-csharp/src/Collections/StateList.cs", "steit-csharp/src/Collections/StateMap.cs"]}
{"id": "C46", "title": "Generated C# covers every reachable type once", "statement": "Collecting the messages to generate from a root type terminates also for mutually recursive types, emits each name once, and visits every message type reachable through fields and type arguments as long as a Box is met only on ways that already passed the type in it; a Box met first hides the types of the fields of what it holds.", "quantifier": "every finite type graph, including cyclic ones", "why_tests_cant": "All graphs.", "anchors": ["steit/src/gen/gen_util.rs 5-31", "steit/src/meta/*.rs"]}
{"id": "C47", "title": "Look-ahead never loses a byte", "statement": "The one-byte look-ahead used to detect the end of input never drops or repeats a byte during any decode, even though taking the underlying reader while a byte is buffered would drop it.", "quantifier": "every schema, starting value and input", "why_tests_cant": "All decoding runs.", "anchors": ["steit/src/de/reader.rs 20-36"]}
{"id": "C48", "title": "Replaying arbitrary bytes is safe", "statement": "Whatever bytes are replayed onto a root, the state stays well formed and every node keeps the path it is reached by; the result is success or an error, or a panic that has an overlong varint or a length of 2^63 or more in the stream or in the payload it stops at.", "quantifier": "every state schema, well-formed state, byte string and build mode", "why_tests_cant": "Arbitrary, also hostile, byte strings against arbitrary schemas and states; tests and fuzzing sample a few of them.", "anchors": ["steit/src/state.rs 37-57", "steit/src/log/entry.rs 19-48", "steit/src/de/de.rs 10-39"]}
{"id": "C49", "title": "Maybe::some and Maybe::none forget their variant tag", "statement": "A Maybe built by some, none or from_option on the runtime handed to a callback carries a path that is one level short, so a later change to what is in it is logged at the wrong path and replay of the log fails; the plain setter, which sets the runtime again, repairs the path.", "quantifier": "every runtime below the root and every content", "why_tests_cant": "The tests only build Maybe values through the derived constructors.", "anchors": ["steit/src/types/maybe.rs 22-41", "steit-derive/src/derive/variant.rs"]}
{"id": "C50", "title": "Maybe is Option", "statement": "Converting an Option to a Maybe and back gives the same Option, is_some and is_none tell which it is, and comparing a Maybe with an Option compares contents.", "quantifier": "every content type and value", "why_tests_cant": "All content values of all types.", "anchors": ["steit/src/types/maybe.rs 22-71"]}
{"id": "C51", "title": "Decoding and replay depend on contents only", "statement": "Two values of a type with equal contents, on whatever runtimes, give equal outcomes and equal contents when the same bytes are merged into them or the same log entry is applied, and two roots fed the same messages, valid or not, report the same outcomes and stay equal.", "quantifier": "every type, pair of equal values and sequence of byte strings", "why_tests_cant": "All values and byte strings, also corrupt ones.", "anchors": ["steit/src/state.rs 37-73", "steit/src/de/mod.rs", "steit/src/types/list.rs 209-258", "steit/src/types/map/map.rs 221-271"]}
{"id": "C52", "title": "C# type names of fields", "statement": "The C# type written for a field is the one named by the Rust type with boxes removed and the key types of maps dropped, for every nesting of containers, generic types and type parameters; for a field whose type is an alias of a Map it is the invalid StateMap<> instead.", "quantifier": "every field type and every set of declared types", "why_tests_cant": "All nestings of types; the tests use a few and no aliases.", "anchors": ["steit/src/gen/generators/csharp.rs 624-657", "steit-derive/src/derive/field.rs 427-538", "steit/src/types/map/map.rs 274-280"]}
{"id": "C53", "title": "C# replay of arbitrary bytes is safe", "statement": "Whatever bytes a C# client replays onto an object, it stops at the end of the bytes or with an exception; the object then still is an object of its class, and its contents are those made by exactly the entries before the one that could not be read or applied.", "quantifier": "every state type, its generated class, every object of the class and every byte string", "why_tests_cant": "All byte strings, corrupt ones included, on all objects of all generated classes.", "anchors": ["steit-csharp/src/Codec/ByteReader.cs", "steit-csharp/src/Codec/Reader.cs", "steit-csharp/src/State/StateReplayer.cs", "steit-csharp/src/Collections/StateList.cs", "steit-csharp/src/Collections/StateMap.cs", "steit/src/gen/generators/csharp.rs 239-336"]}
{"id": "C54", "title": "C# clients of another version of the type", "statement": "A client generated for another version of a type, where structs and variants gained, lost or reordered fields and enums gained or lost variants, decodes every value to an object whose known fields have the value's contents and whose other fields are fresh (unknown variants give a fresh object), and the same holds after replaying the log of any calls. Fields whose wire type changed are left fresh by decoding but corrupted by replay.", "quantifier": "every pair of versions, every value, every sequence of calls", "why_tests_cant": "All pairs of versions of all types; the tests contain a single version.", "anchors": ["steit-csharp/src/State/StateReplayer.cs", "steit-csharp/src/Codec/Reader.cs", "steit/src/gen/generators/csharp.rs 239-336"]}
{"id": "C55", "title": "Decoding by another version of the type", "statement": "Bytes written for one version of a type decode, with a version where structs and variants gained, lost or reordered fields or gave a tag a type of another wire type, and where enums gained or lost variants, at any depth, to the value whose common fields have the written contents and whose other fields are default, provided every variant in the value is known to the reader. Going through a version that only gained things and back loses nothing. Unknown variants are refused.", "quantifier": "every pair of versions of every type and every value", "why_tests_cant": "All pairs of versions at every nesting depth; the tests decode with the writing type.", "anchors": ["steit-derive/src/derive/struct.rs", "steit-derive/src/derive/enum.rs", "steit/src/de/de.rs", "steit/src/de/reader.rs 43-61"]}
{"id": "C56", "title": "Rust replicas of another version of the type", "statement": "A replica whose type is another version shows, after replaying the log of any calls, exactly what that version can know of the original, as long as every entry's path goes through fields and variants it has (a replica of a later version that only gained things follows every log). The first entry whose path leaves its type ends the replay with InvalidData; the entries before it are applied and nothing of it or behind it is. Fields taken out of the state tree lose changes silently, and fields whose wire type changed may be corrupted.", "quantifier": "every pair of versions, every state, every sequence of calls", "why_tests_cant": "All pairs of versions, all call sequences.", "anchors": ["steit/src/state.rs", "steit-derive/src/derive/struct.rs", "steit-derive/src/derive/enum.rs", "steit/src/types/list.rs", "steit/src/types/map/map.rs"]}
{"id": "C57", "title": "The text generated for a struct", "statement": "If the names of a struct and its fields are usable in C# (distinct after camel-casing, no keywords, not hiding a class that is needed), the generator writes a text that parses as one public class with the namespace, usings, type parameters and members expected, and whose constructor, Deserialize, GetWireType, GetNested and ReplaceAt (with the events raised) do for every object and every input what the model of the C# client says of a struct with these fields; unknown fields are skipped.", "quantifier": "every struct description with usable names, every meaning of the other class names, every object, every input", "why_tests_cant": "All struct descriptions; the repository compares a dozen generated files with stored copies.", "anchors": ["steit/src/gen/generators/csharp.rs", "steit/src/gen/writer.rs", "steit/src/gen/str_util.rs"]}
{"id": "C58", "title": "The text generated for an enum", "statement": "The same for an enum: constructor, factories, Deserialize, GetWireType, GetNested, ReplaceAt and its event do what the client model says, and every variant is a nested class that behaves as a struct. The factories of a generic enum do not compile: they name the class without its type arguments.", "quantifier": "every enum description with usable names and a default variant, every object, every input", "why_tests_cant": "All enum descriptions; the generated code of generic enums is stored in the repository but not run.", "anchors": ["steit/src/gen/generators/csharp.rs", "steit/src/gen/writer.rs", "steit/src/gen/str_util.rs"]}
{"id": "C59", "title": "Descriptions mean the right classes", "statement": "The class that the names in generated files denote, from the descriptions of a program's declarations, is the class the client model expects for the Rust type: the same fields with the same tags in the same order, boxes and aliases looked through, map keys dropped, type parameters replaced by the arguments.", "quantifier": "every set of declarations with names of their own, every declaration that is not recursive, all type arguments", "why_tests_cant": "All sets of declarations, nested and generic.", "anchors": ["steit/src/meta", "steit-derive/src/derive/field.rs 403-538", "steit-derive/src/derive/struct.rs 478-560", "steit-derive/src/derive/enum.rs 455-512", "steit/src/gen/generators/csharp.rs"]}
{"id": "C60", "title": "From Rust bytes to generated classes", "statement": "The bytes a Rust program writes for a value of a declared type, read by Deserialize of the C# text generated for the declaration, give an object with the contents of the value.", "quantifier": "every declaration as in C59 with usable names, every value C# can carry", "why_tests_cant": "All declarations, all values, two languages.", "anchors": ["steit/src/ser.rs", "steit-csharp/src/State/State.cs", "steit/src/gen/generators/csharp.rs"]}
{"id": "C61", "title": "Names the generated text cannot use", "statement": "Declarations that Rust accepts can have generated C# that does not parse or compile (a class that is a keyword when uncapitalised, a field _1, two fields with one camel-case name, a field with the name of its struct, a struct named Reader, boxes of primitives or type parameters, aliases of maps) or that compiles and reads the wrong class (a variant named like a class used in the enum).", "quantifier": "witnesses", "why_tests_cant": "Nobody tests with such names.", "anchors": ["steit/src/gen/generators/csharp.rs", "steit/src/gen/writer.rs", "steit/src/gen/str_util.rs"]}
{"id": "C62", "title": "Paths of C# objects", "statement": "Every state object of a C# client, whether constructed, decoded or made during replay, has as its Path exactly the place where it is: fields by tag, items by index, entries by key, variants by tag.", "quantifier": "every class, every byte string decoded, every byte string replayed onto any object in order", "why_tests_cant": "All classes and all logs; a wrong path of one object deep inside shows nowhere.", "anchors": ["steit-csharp/src/State/Path.cs", "steit-csharp/src/State/StateFactory.cs 57-81", "steit-csharp/src/Collections/StateList.cs 31-78", "steit-csharp/src/Collections/StateMap.cs 31-70", "steit-csharp/src/Builtins/Option.cs 32-38", "steit/src/gen/generators/csharp.rs 130-156, 229-336, 444-541"]}
{"id": "C63", "title": "Events during C# replay", "statement": "Replay raises exactly one event for each entry that names something other than the root, in order and before the change: of the right kind, on the object that is changed, with the old and new contents of the right place; nothing else changes.  Entries that name nothing raise none.", "quantifier": "every class, every object, every byte string replayed", "why_tests_cant": "All logs on all classes; that nothing else changes is a claim about every other object.", "anchors": ["steit-csharp/src/State/StateReplayer.cs", "steit-csharp/src/State/Event/", "steit-csharp/src/Collections/StateList.cs 54-91", "steit-csharp/src/Collections/StateMap.cs 55-84", "steit/src/gen/generators/csharp.rs 302-366, 525-558"]}
{"id": "C64", "title": "Which C# object is which", "statement": "During replay no object gets into two places, and an object stays the same object as long as no event is about a place on the way to it and the root is not replaced.", "quantifier": "every class, every object, every byte string replayed", "why_tests_cant": "Aliasing and loss of identity are invisible in the contents.", "anchors": ["steit-csharp/src/State/StateReplayer.cs", "steit-csharp/src/State/State.cs", "steit-csharp/src/Collections/StateList.cs", "steit-csharp/src/Collections/StateMap.cs"]}
{"id": "C65", "title": "Code derived for structs", "statement": "For a struct with any attributes, field names and field types that compile, every function the macro derives does on every value what the models of serialization, deserialization, equality, hashing, construction and State say: constructors, eq, hash, compute_size, serialize_cached, size_cache, merge, runtime, set_runtime, is_root, handle, handle_update.", "quantifier": "every setting, every struct (named, tuple, unit), every field types, every value, every input", "why_tests_cant": "The macro has a text for each combination of flags and fields; tests expand it for a few types.", "anchors": ["steit-derive/src/derive/struct.rs", "steit-derive/src/derive/field.rs", "steit-derive/src/derive/derive.rs"]}
{"id": "C66", "title": "Code derived for enums", "statement": "The same for enums, each function provided that no field of a variant is named like a variable of that function; each variant also gets its own constructor.", "quantifier": "every setting, every enum, every value, every input", "why_tests_cant": "As for structs; shadowing depends on all the names together.", "anchors": ["steit-derive/src/derive/enum.rs", "steit-derive/src/derive/struct.rs", "steit-derive/src/derive/variant.rs", "steit-derive/src/derive/field.rs"]}
{"id": "C67", "title": "Derived setters", "statement": "Each field has a setter that does what the model of the operation says, with the same calls on the logger in the same order, also when a callback or a log call panics; fields that are state also have one that takes a callback. Setters of another variant than the current one switch to it first. Without State a setter just assigns.", "quantifier": "every struct and enum, every field, every value, every argument and callback", "why_tests_cant": "All types, all callbacks.", "anchors": ["steit-derive/src/derive/field.rs 247-338", "steit-derive/src/derive/struct.rs 223-238", "steit-derive/src/derive/enum.rs 121-127", "steit-derive/src/str_util.rs"]}
{"id": "C68", "title": "Names in derived code", "statement": "Derived code does what its type says whatever fields and variants are called. (Refuted: fields x and other_x of one variant make derived equality compare other.x with other.other_x, so that it is not reflexive; a constructor with_runtime hides that of State.)", "quantifier": "every enum that compiles", "why_tests_cant": "It takes two particular names in one variant.", "anchors": ["steit-derive/src/derive/enum.rs 129-159, 399-453", "steit-derive/src/derive/field.rs 137-187, 340-353", "steit-derive/src/derive/variant.rs 76-88"]}
{"id": "C69", "title": "From declaration to code", "statement": "A declaration that the macro accepts yields code for exactly the traits, constructors, setters and size cache its arguments and attributes ask for, with the fields, variants and tags declared and the names asked for, whose type is well formed; and that code does what the models of C65 to C67 say.", "quantifier": "every accepted struct or enum declaration; all types of its fields; all values and inputs", "why_tests_cant": "The space of declarations and attributes is unbounded; the tests have about twenty.", "anchors": ["steit-derive/src/derive/derive.rs 15-216", "steit-derive/src/derive/struct.rs 19-135", "steit-derive/src/derive/enum.rs 500-584", "steit-derive/src/derive/field.rs 12-115"]}
{"id": "C70", "title": "Derived code round trips", "statement": "For a declaration that asks for State, or for Serialize and Deserialize: running the generated code on any value without out-of-range integers writes bytes from which the generated code, possibly built in another profile, makes an equal object and nothing is left over.", "quantifier": "every accepted declaration (no field named like a local of the generated functions), every value below 2^32 bytes", "why_tests_cant": "All types, all values.", "anchors": ["steit-derive/src/derive/struct.rs", "steit-derive/src/derive/enum.rs", "steit/src/ser.rs", "steit/src/de/de.rs"]}
{"id": "C71", "title": "Derived replicas converge", "statement": "For a declaration that asks for State: after any sequence of generated setters on one object, its log replayed by the generated handlers on another object that was the same makes the two equal.", "quantifier": "every accepted declaration, every sequence of setter calls with legal arguments and callbacks, every pair of loggers", "why_tests_cant": "All sequences of calls, all types.", "anchors": ["steit-derive/src/derive/field.rs 247-338", "steit-derive/src/derive/struct.rs", "steit-derive/src/derive/enum.rs", "steit/src/state.rs 30-73"]}
{"id": "C72", "title": "Names in two cases", "statement": "Names in camel case become their words joined by underscores, and back; so different type or variant names in camel case give different constants, constructors and setter prefixes. (Refuted for names not in camel case: FooBar and Foo_bar clash.)", "quantifier": "every list of words of letters and digits that start with a letter", "why_tests_cant": "All names.", "anchors": ["steit-derive/src/str_util.rs", "steit/src/gen/str_util.rs 13-28", "steit-derive/src/derive/derive.rs 239-243", "steit-derive/src/derive/variant.rs 76-88"]}
{"id": "C73", "title": "Metadata written by the macro", "statement": "For a crate of accepted declarations, the HasMeta implementations that the derive macro writes evaluate to what the declarations say: names, C# names, type parameters, field types and tags, links; so the generator, run on them, collects the same messages as on the declarations. The macro writes a field type exactly when it does not refuse it. (Refuted for uses of generic type aliases and for Self in generic items.)", "quantifier": "every crate of accepted structs and enums, every scope of names, every root type", "why_tests_cant": "All crates and types.", "anchors": ["steit-derive/src/derive/field.rs 403-538", "steit-derive/src/derive/struct.rs 478-558", "steit-derive/src/derive/enum.rs 455-512", "steit-derive/src/derive/derive.rs 167-216", "steit/src/meta/mod.rs"]}
{"id": "C74", "title": "From Rust declarations to C# objects", "statement": "For a crate of declarations: the description that the macro writes for an item gives a C# file; bytes that the derived Rust code of the item writes are read by the class in that file as an object with the same contents; and if the item derives State, the log of any calls of its derived setters, replayed on a C# object that looked the same, makes it look the same again.", "quantifier": "every crate of accepted declarations, every item, all type arguments, every value in the C# range, every sequence of setter calls", "why_tests_cant": "All crates, values and sequences of calls; macro, generator and client are never run together on arbitrary input.", "anchors": ["steit-derive/src/derive/struct.rs", "steit-derive/src/derive/enum.rs", "steit-derive/src/derive/field.rs", "steit/src/gen/generators/csharp.rs", "steit-csharp/src/State/StateReplayer.cs"]}
{"id": "C75", "title": "Reading from files and connections", "statement": "Decoding and replay read from any io::Read. However a source cuts its bytes into pieces, and wherever it is interrupted, the result is that of decoding all its bytes at once. If the source fails, the call ends with that error, or as it would have ended whatever had come instead of the failure; a sized value is never completed by a failure, and one that arrived whole is decoded. Replay of a log over a connection that breaks leaves the state with exactly the entries that arrived whole, and sending the rest again leads to the same state as without the failure.", "quantifier": "every type, value and sequence of answers of the source, every buffer size, every place of the failure", "why_tests_cant": "All ways of cutting a stream and all places of a failure in it; tests read from slices, which give everything at once and never fail.", "anchors": ["steit/src/de/reader.rs:9-74", "steit/src/de/de.rs:8-39", "steit/src/state.rs:37-57", "steit/src/impls/varint.rs:45-75", "steit/src/types/bytes.rs:61"]}
{"id": "C76", "title": "Writing to files and connections", "statement": "Serialization writes to any io::Write. Whatever pieces the writer takes and wherever it is interrupted, the bytes it gets are those of to_bytes; if it fails or stops taking bytes, it got exactly the first of them that it could take and the call ends with its error. Size caches are left as after a complete call, so the value serializes elsewhere as before. A value that cannot be written is refused before the first byte. For a log sent over a connection that breaks, the receiver's state is that after exactly the entries that fitted.", "quantifier": "every value, every earlier use of its caches, every sequence of answers of the writer and of the source at the other end", "why_tests_cant": "All places in which a write can stop, for all values and all contents of the caches; tests write to Vec<u8>, which never fails.", "anchors": ["steit/src/ser.rs:31-89", "steit/src/impls/varint.rs:21-35", "steit/src/impls/bool.rs:17-19", "steit/src/impls/string.rs:17-19", "steit/src/types/bytes.rs:50-52", "steit/src/log/loggers/buffer.rs:18-27", "steit/src/state.rs:37-57"]}
{"id": "C77", "title": "Operations whose logger fails", "statement": "A logger may refuse an entry (Err) or panic. An operation then panics, before it has changed the node; only a setter that had to switch the variant first may have made that switch, which is logged by then. A refusal leaves the logger usable and not paused, a panic of the logger poisons its lock, after which every operation that would log panics and changes nothing. Whatever calls are attempted, with panics caught, the entries the logger has taken lead a replica to the state of the original - unless a swap_remove was refused its second entry: then the log has the pop but the list has not changed.", "quantifier": "every logger that takes or refuses entries, every sequence of attempted calls, every tree", "why_tests_cant": "All loggers and all places of failures in all histories; the loggers used in tests never fail.", "anchors": ["steit/src/rt/runtime.rs:105-147", "steit/src/rt/logger.rs:31-53", "steit/src/log/logger.rs:8-14", "steit/src/types/list.rs:60-111", "steit/src/types/map/map.rs:61-79", "steit-derive/src/derive/field.rs:258-332"]}
{"id": "C78", "title": "Threads that share a logger", "statement": "Threads that hold disjoint parts of one tree change them at the same time; their calls on the shared logger come in any order. Setters, pop, swap_remove, insert and remove may be mixed in any way, also between the two entries of a switching setter: the log leads a replica to the tree the threads leave, every thread returns, every node keeps its path, the logger ends unpaused. push and operations with callbacks pause the shared logger; the same holds for them as long as no thread logs while another has the logger paused. Otherwise entries are lost and the replica ends different.", "quantifier": "any number of threads, any disjoint parts, any calls as in C23, every order in which the calls get the lock", "why_tests_cant": "All interleavings; a lost entry needs an unlucky schedule, which tests hardly ever see.", "anchors": ["steit/src/rt/runtime.rs:113-127", "steit/src/rt/logger.rs:31-54", "steit/src/types/list.rs:53-80", "steit/src/types/list.rs:95-100", "steit/src/types/list.rs:113-115", "steit/src/types/map/map.rs:61-87", "steit-derive/src/derive/field.rs:258-332"]}
{"id": "C79", "title": "Event handlers that throw", "statement": "If an event handler throws while a C# client replays, the client stops with that exception: all entries before have been applied and told to all handlers, the entry concerned has changed nothing, the handlers before the throwing one have been told of it and those after it have not; the objects are in order. Replaying again from that entry on leads to the same contents as an undisturbed replay, so the client ends with the contents of the Rust state. The reader however is behind the entry: going on with it passes over the entry silently.", "quantifier": "every class, every object, every byte string, any list of handlers with any state, throwing at any event", "why_tests_cant": "All handlers and all places at which they throw; the repository's tests have no handler that throws.", "anchors": ["steit-csharp/src/State/StateReplayer.cs:9-69", "steit-csharp/src/Collections/StateList.cs:54-91", "steit-csharp/src/Collections/StateMap.cs:55-84", "steit/src/gen/generators/csharp.rs:302-366", "steit/src/gen/generators/csharp.rs:525-558", "steit-csharp/src/Codec/Reader.cs:100-103", "steit-csharp/src/Codec/ByteReader.cs:22-50"]}
{"id": "C80", "title": "The generated classes of the C# client itself", "statement": "The checked-in text of LogEntry.cs reads every byte string to the entry that the client's model takes it for: same tags (the class's constants), path, value, item and key (its properties by name), same exceptions. So replaying with entries made by that text is replay. The checked-in text of Maybe.cs behaves, for every class its parameter stands for, as the enum with None and Some of that class.", "quantifier": "every byte string; every class and object that is replayed onto; every type argument of Maybe", "why_tests_cant": "All byte strings, malformed ones included, and all type arguments, of which there are infinitely many.", "anchors": ["steit-csharp/src/State/LogEntry.cs:1-387", "steit-csharp/src/Builtins/Maybe.cs:1-208", "steit-csharp/src/State/StateReplayer.cs:9-83", "steit/src/log/entry.rs:18-49"]}
{"id": "C81", "title": "Generating into a directory", "statement": "In whatever order the hash map yields the messages, if the file system does not fail, generation succeeds, returns the names of the messages reached that are not skipped, and leaves the directory with exactly their texts and everything else as it was. If the file system fails anywhere, no other file is touched, the files of the messages are as before or contain the beginning of their text, and the call fails only because of such a failure, or panics because of a message that has no text. Success then means that all files of at least 8192 bytes are complete; smaller ones can be missing without an error (refuted).", "quantifier": "every program, root type, setting, order of the messages, directory, and every behaviour of the file system (refused creation, partial, interrupted and failing writes)", "why_tests_cant": "Orders of a hash map differ from run to run, and tests do not run on failing file systems.", "anchors": ["steit/src/gen/generator.rs:26-62", "steit/src/gen/setting.rs:5-58", "steit/src/gen/gen_util.rs:5-31"]}
{"id": "C82", "title": "Trait bounds of generated impls", "statement": "Say the types of the fields of a declaration have the traits asked of them as soon as its type parameters have them. Then rustc finds everything that the generated impls of an enum need, and of a struct that does not derive State; of a struct that derives State exactly if each of its type parameters is declared to be State (that every such struct is accepted is refuted: its Deserialize is for T: Deserialize, its Default for T: State). Default, and the setters of enums, need the constructors to be derived. In an accepted program a type that has a trait has its supertraits, the impls of the library included, and wherever a generated impl applies all that its functions call is there.", "quantifier": "every program of generic declarations with any derived traits, attributes, declared bounds and field types", "why_tests_cant": "The test crate has a handful of generic types, and none is a struct that derives State.", "anchors": ["steit-derive/src/impl.rs:21-66", "steit-derive/src/derive/struct.rs:160-166", "steit-derive/src/derive/struct.rs:218-238", "steit-derive/src/derive/struct.rs:250-307", "steit-derive/src/derive/struct.rs:372-384", "steit-derive/src/derive/enum.rs:84-126", "steit-derive/src/derive/enum.rs:320-322"]}
{"id": "C83", "title": "The text of WriterLogger can be read back", "statement": "WriterLogger writes for each entry its Debug text and a last line with its bytes. The size it shows is the size of the entry. Whatever the writer does, the call sends the whole text and returns Ok, or sends as much as the writer takes and returns the writer's error. A reader that looks only at complete lines that begin with '} => [' and end with ']' gets the bytes of exactly the entries whose call returned Ok, in order, also when the program goes on logging after failures. Put together they are the bytes a BufferLogger would have for those entries, and replaying them handles those entries.", "quantifier": "every list of entries, every writer that takes the text in pieces, pauses or fails, every way the formatter cuts the text up", "why_tests_cant": "The logger has no tests; texts cut at every place and glued to the next entry are not enumerable.", "anchors": ["steit/src/log/loggers/writer.rs:34-41", "steit/src/log/entry.rs:19-48", "steit/src/types/bytes.rs:35-39", "steit/src/rt/size_cache.rs:17-20", "steit/src/log/loggers/buffer.rs:18-27", "steit/src/state.rs:37-57"]}
{"id": "C84", "title": "Decoding and replay make values linear in the input", "statement": "Count a fixed cost for each node of a value and one for each byte of a string. Merging bytes into a value, whether it succeeds or fails, adds at most a constant of the type (the weight of the largest default value that a byte can make) for each byte; replaying bytes likewise. Lengths that the input announces do not matter. The constant cannot be smaller. It does not hold of what is thrown away: skipping an unknown field asks for a buffer of the announced size, so a log of 13 bytes makes replay ask for any number of bytes below 2^63 and panic above (refuted).", "quantifier": "every cost of a node, type, value, byte string and build mode", "why_tests_cant": "The bound is about all types and all hostile inputs, including those that fail half way; tests see a few well-formed ones.", "anchors": ["steit/src/de/de.rs:10-50", "steit/src/de/reader.rs:30-57", "steit/src/impls/vec.rs:39-48", "steit/src/impls/array.rs:41-60", "steit/src/types/list.rs:175-190", "steit/src/state.rs:20-57"]}
{"id": "C85", "title": "Equal values and their bytes", "statement": "For types without HashMap, Map and fields left out of ==, two values are equal if and only if their bytes are the same, whatever their size caches and runtimes. Equal values of a type with hash maps and maps have the same number of bytes, and the same bytes but for their order. For every type, what the bytes of two values are decoded to is equal if and only if the values are. That equal values always have the same bytes is false: hash maps, maps and left-out fields (refuted).", "quantifier": "every type, every pair of well-typed values that survive encoding, every state of caches, every build mode", "why_tests_cant": "All pairs of equal values of all types, including hash maps in every order.", "anchors": ["steit-derive/src/derive/field.rs:340-353", "steit-derive/src/derive/enum.rs:129-159", "steit/src/types/map/map.rs:108-112", "steit/src/impls/hash_map.rs:17-50", "steit/src/types/list.rs:20", "steit/src/ser.rs:14-97"]}
{"id": "C86", "title": "The type tables of the C# client", "statement": "The tries in which StateFactory keeps its deserializers are finite maps: whatever was set before, a name has the value last set under it, else the default; also names that begin or extend one that was set. ValidateType accepts the states and exactly the ten primitive types. Values of every class, by themselves and nested, are read with the reader of their type and put in a box of their type, as the model of the client (C45) takes for granted. That IsPrimitiveType always answers is false: a name with a letter outside Latin-1 makes it throw (refuted).", "quantifier": "every sequence of settings, every name, every class, every byte string", "why_tests_cant": "All names and all orders of settings; the tests use two types.", "anchors": ["steit-csharp/src/State/StateFactory.cs:13-45", "steit-csharp/src/State/StateFactory.cs:57-92", "steit-csharp/src/State/StateFactory.cs:190-233", "steit-csharp/src/Codec/Reader.cs:45-71"]}
{"id": "C87", "title": "Entries for different places commute", "statement": "Two log entries of which neither path leads to the other have the outcomes that each has without the other, and handled in either order they make the same tree but for the order of the keys of one map, so states that are equal by ==; the same tree to the letter if one of the paths is already there. A log confined to one place that is there (and what is below it) and a log in which no path leads to that place or from it can be mixed in any way, also as bytes: if one mixture is replayed without an error, so is every other, to the same state. That the order of such entries never shows is false: two new keys of a map come in the order of the entries (refuted); so is that entries with different paths commute (refuted).", "quantifier": "every type, every state tree, every two entries or logs, every interleaving", "why_tests_cant": "All pairs of paths and all interleavings; the tests replay each log in one order.", "anchors": ["steit/src/state.rs:37-57", "steit/src/types/list.rs:209-258", "steit/src/types/map/map.rs:221-271", "steit-derive/src/derive/struct.rs:405-441", "steit-derive/src/derive/enum.rs:378-449"]}
{"id": "C88", "title": "What an update overwrites can be left out of the log", "statement": "Entries for a place and for what is below it, followed by an update of that place: if all that is handled without an error, the update alone makes the same state, also if the place is a map key that is not there yet. In a log without entries for places above, all entries for a place that is there and for what is below can be left out before an update of it; what is left is handled without an error and makes the same state to the letter. One update of the root with the bytes of a state makes a state equal to it of any other of its type, so it can be sent instead of the log. With entries for places above, leaving out is wrong: a key may have to be there in between (refuted).", "quantifier": "every type, every state, every log", "why_tests_cant": "All logs and all mixtures of what is overwritten with what is not.", "anchors": ["steit/src/state.rs:37-57", "steit/src/impls/macros.rs:61-89", "steit/src/types/list.rs:209-258", "steit/src/types/map/map.rs:221-271", "steit-derive/src/derive/struct.rs:405-441", "steit-derive/src/derive/enum.rs:378-449"]}
{"id": "C89", "title": "Objects that a C# client makes from untrusted bytes are linear in the input", "statement": "An object that a client decodes from any bytes takes at most as much memory as a new object of its class and, for each byte, the most that a single byte can make (a byte of a string, or a new object of something that a collection, an option, a field or a variant holds). Replaying any bytes adds at most that much (or a new object of the class, if that is more) for each byte, also if an exception ends it. The factor is reached. A size that is announced in the input makes the client allocate an array only if that many bytes are there, or is negative and throws; the array is smaller than what was left to read.", "quantifier": "every class, every object, every byte string, whatever an object costs", "why_tests_cant": "All classes and all inputs; the cost of an object is arbitrary.", "anchors": ["steit-csharp/src/Codec/ByteReader.cs:30-42", "steit-csharp/src/Codec/Reader.cs:80-103", "steit-csharp/src/State/StateFactory.cs:57-81", "steit-csharp/src/State/State.cs:17-55", "steit-csharp/src/State/StateReplayer.cs:9-69"]}
{"id": "C90", "title": "What the JSON of a value shows", "statement": "Every value has JSON if the keys of its hash maps are strings, numbers or variants without fields (other keys are an error). Where a value is in a tree does not show. Without maps and options of options two values of a type have the same JSON only if they are the same but for their places in a tree, so that they have the same bytes; log entries are such values. The content of a Map is never in JSON, and an option of an option loses its outer half. Size caches are in JSON: with other caches the same value shows something else, so asking a new value for its bytes changes its JSON; afterwards JSON does not depend on what the caches were.", "quantifier": "every type, every value, every content of the size caches", "why_tests_cant": "All types, all values and all stale caches; the code has no test of JSON.", "anchors": ["steit/src/types/list.rs:20-25", "steit/src/types/map/map.rs:21-28", "steit/src/types/bytes.rs:16-17", "steit/src/rt/runtime.rs:20-26", "steit/src/rt/size_cache.rs:17-20", "steit-derive/src/derive/struct.rs:97-134"]}
{"id": "C91", "title": "How deeply values made from untrusted bytes are nested", "statement": "Merging any bytes into a value makes nothing that is nested deeper than a default value of something that its type holds, and one more for each byte; decoding likewise. A log entry, whatever it does and whether it succeeds, makes nothing deeper than that with the bytes of this entry, and replaying any log so with the bytes of the log: entries do not add up. There is no better bound than a linear one: a type that holds itself (struct Chain { next: Option<Box<Chain>> }) is nested as deeply as the input says, two deeper for at most eleven bytes, although its default values are two deep.", "quantifier": "every type, every value, every byte string", "why_tests_cant": "All types and all inputs; how deep calls go is not observed by tests.", "anchors": ["steit/src/de/de.rs:16-40", "steit/src/impls/option.rs:36-48", "steit/src/impls/box.rs:32-34", "steit/src/types/list.rs:178-189", "steit/src/state.rs:30-74", "steit-derive/src/derive/struct.rs:361-381"]}
{"id": "C92", "title": "What the nested readers of a C# client copy", "statement": "Each nested reader of the C# client has an array of its own, and what is read to the end is copied once more. Decoding any bytes, whether it succeeds or not, copies at most as many bytes as there are in the input for each level of readers in the class, and whatever the class at most n (n + 1) / 2 for n bytes of input; replaying any log at most three times the log in addition. Both hold for all arrays together and so for those there at one time. For a class that holds itself (struct Chain { next: Option<Box<Chain>> }) the square is reached: the at most 11 n bytes that Rust writes for a chain of n are decoded correctly, and 3 n^2 - 2 n bytes of arrays are there at the same time.", "quantifier": "every class, every object, every byte string; every length of a chain below 2^27", "why_tests_cant": "All classes and all inputs; copies are not visible in the objects that are made.", "anchors": ["steit-csharp/src/Codec/ByteReader.cs:30-42", "steit-csharp/src/Codec/Reader.cs:18-20", "steit-csharp/src/Codec/Reader.cs:69-71", "steit-csharp/src/Codec/Reader.cs:100-103", "steit-csharp/src/State/StateFactory.cs:73-81", "steit-csharp/src/State/State.cs:24-57", "steit-csharp/src/State/StateReplayer.cs:9-69"]}
{"id": "C93", "title": "What a C# client writes to the console", "statement": "The client writes a line where the wire type of a field is not the one of its class. Decoding or replaying any bytes, whether it succeeds or not, every line is true: at the path it shows the class has a field, with the wire type shown as expected, and the other one is different (in a log the line may also be about an entry). There is at most a line for every two bytes decoded and for every byte replayed. A client with the classes of the server's types writes nothing about any value the server writes, nor about the log of any calls, whatever object it is replayed on. A field that the server writes with another wire type gives exactly one line and is otherwise read as if it was not there; a field that the class does not have gives none. The lines for an entry of a log are those for the same bytes in a snapshot: a pushed item has its number in the list in the path. From the text of a line one can tell the field and both wire types. Refuted for a class with a type parameter that is string: the client drops what the server writes, and writes a line that expects Varint.", "quantifier": "every class, every byte string, every object; every well-formed type, value and list of calls", "why_tests_cant": "All classes and all inputs, also those on which decoding throws.", "anchors": ["steit-csharp/src/State/State.cs:24-57", "steit-csharp/src/State/Path.cs:22-33", "steit-csharp/src/State/StateFactory.cs:73-81", "steit-csharp/src/Collections/StateList.cs:31-43", "steit-csharp/src/Collections/StateMap.cs:31-44", "steit-csharp/src/State/StateReplayer.cs:9-69"]}
{"id": "C94", "title": "Which lines a C# client of another version writes", "statement": "A client whose classes are another version of the server's types, also one with changed wire types, writes about a value exactly these lines, in the order of the encoding: one for each field that is written and has another wire type in the class. Fields that are left out, fields and variants that the client does not have, and what is in a field of another wire type, are not mentioned. If no wire type changed, nothing is written, whatever fields and variants were added, removed or moved, neither about values nor about the log of any calls. Refuted for logs with changed wire types: an update of the field itself is decoded as the other type and nothing is written.", "quantifier": "every pair of well-formed types related as in C54, every value, every list of calls", "why_tests_cant": "All pairs of versions and all values.", "anchors": ["steit-csharp/src/State/State.cs:24-57", "steit-csharp/src/State/StateReplayer.cs:9-69", "steit/src/ser.rs:67-89", "steit/src/gen/generators/csharp.rs:239-336"]}
{"id": "C95", "title": "What the Debug output of a value shows", "statement": "Two values of one type have the same Debug output exactly if they have the same contents, the same paths in their runtimes and the same size caches; whom they tell of changes does not show. Values that show the same are equal and have the same bytes. The path of a runtime is shown from the root on, with the numbers that log entries have in their paths; in a tree that has a runtime, every list, map, struct and variant shows the path at which its changes are logged, a variant with its tag. Refuted the other way: equal values may show different things, and asking a value for its bytes changes what it shows.", "quantifier": "every type, all pairs of its values, all size caches; every path", "why_tests_cant": "All pairs of values of all types.", "anchors": ["steit/src/rt/runtime.rs:168-175", "steit/src/rt/node.rs:58-85", "steit/src/rt/size_cache.rs:17-20", "steit/src/types/list.rs:20-25", "steit/src/types/map/map.rs:21-28", "steit/src/types/bytes.rs:35-39", "steit-derive/src/derive/struct.rs:97-134"]}
{"id": "C96", "title": "Entries that arrive more than once", "statement": "An update delivered twice in a row has the value and the outcome of one delivery, also when it fails. So a log in which updates are sent again until they are acknowledged does what the log does, from bytes too. Of updates of places that are there and of which none is above another only the set matters: how often and in what order they arrive does not. The other entries are not like that: a second removal of a key fails and changes nothing, a second push adds an equal item, a second pop takes another item or fails when there is none. Refuted: that a log of updates can be sent again as a whole, and that an old update may come late.", "quantifier": "every state type and value, all paths and payloads, all logs and repetitions", "why_tests_cant": "All logs with all ways of repeating entries.", "anchors": ["steit/src/state.rs:28-53", "steit/src/types/list.rs:209-258", "steit/src/types/map/map.rs:221-271", "steit/src/impls/macros.rs:53-89", "steit-derive/src/derive/struct.rs:405-441", "steit-derive/src/derive/enum.rs:378-449"]}
{"id": "C97", "title": "Where a reader stands after an error", "statement": "A decoding call that fails leaves an end of the bytes, and what it does does not depend on what that end holds: other bytes there give the same error and the same partly changed value. A nested value that fails leaves everything behind its frame and an end of the frame itself; so do a field of a struct and an item of a list, and what was read before them does not matter. A wire type, a key or a variant that is not known leaves everything after its number. An entry that can be read but cannot be applied has been read whole: `replay` fails with the reader at the next entry. So a program that calls `replay` again after each error applies all entries of a log that can be applied, in order, and gets exactly one error for each of the others. Refuted: that an entry that cannot be read is passed over too; what is left of one whose kind is not known is taken for entries by the next call.", "quantifier": "every type and value, all byte strings, all logs", "why_tests_cant": "All byte strings, every place where reading can fail, and all logs with any entries failing.", "anchors": ["steit/src/state.rs:37-57", "steit/src/de/reader.rs:20-57", "steit/src/de/de.rs:16-29", "steit-derive/src/derive/enum.rs:291-339", "steit/src/types/map/map.rs:184-201"]}
{"id": "C98", "title": "C# clients that go on after an exception", "statement": "A C# client that calls Replay again after each exception passes over every frame that holds no entry it can apply, whatever is in it, with one exception and no change for each, and applies all others in order. Going on comes to an end for all bytes, with at most one exception per byte, and leaves an object of its class. Of a frame that is cut off the size is gone and the rest is taken for frames. An entry of a kind that is not known, which Rust refuses without a change, is no exception: the client takes it for an update of the whole state to a fresh one (if the root is an enum it throws). Refuted: that a Rust replica and a C# client that both go on after errors stay the same.", "quantifier": "every class and object, all byte strings, all logs, all unknown kinds", "why_tests_cant": "All byte strings and all ways in which frames can be wrong.", "anchors": ["steit-csharp/src/State/StateReplayer.cs:9-31", "steit-csharp/src/Codec/ByteReader.cs:17-51", "steit-csharp/src/Codec/Reader.cs:80-103", "steit-csharp/src/State/LogEntry.cs:52-80", "steit/src/state.rs:37-57"]}
{"id": "C99", "title": "Repeated updates and removals at programs that go on after errors", "statement": "When updates and removals of keys are sent any number of times in a row, a Rust replica that calls replay again after each error ends with the value it has without the repetitions, and so does a C# client that calls Replay again after each exception. If nothing failed without the repetitions there is at most one error for each additional removal. In a C# client an update twice is that update once, and a second removal throws or does nothing. Refuted: the same for pushes, and for a removal that is sent again after other entries.", "quantifier": "every state type, value and object, all logs and repetitions", "why_tests_cant": "All logs with all ways of repeating entries, with any of them failing.", "anchors": ["steit/src/state.rs:37-57", "steit/src/types/map/map.rs:221-271", "steit-csharp/src/State/StateReplayer.cs:9-69", "steit-csharp/src/Collections/StateMap.cs:51-84", "steit-csharp/src/Collections/StateList.cs:50-95"]}
{"id": "C100", "title": "The layout of generated C#", "statement": "For every description whose names have no blanks, line ends or brackets, the generated text consists of whole lines; the brackets {}, () and <> are closed in the right order, each by its own kind, and all are closed at the end; every line that is not empty is indented by four spaces for each bracket open before it, not counting the one it closes first. There is a text exactly if every primitive type in the description has a C# name and an enum has a variant with tag 0; otherwise the generator panics. So every file generated from declarations with such names is laid out in this way, and a declaration has a text unless it is an enum without a variant of tag 0.", "quantifier": "all descriptions of structs and enums, all environments of declarations, all settings", "why_tests_cant": "All numbers of fields, variants and type parameters, each of which has its own branches for line breaks and indentation.", "anchors": ["steit/src/gen/writer.rs:1-58", "steit/src/gen/generators/csharp.rs:36-62", "steit/src/gen/generators/csharp.rs:70-372", "steit/src/gen/generators/csharp.rs:374-576", "steit/src/gen/generators/csharp.rs:624-657"]}
{"id": "C101", "title": "Loggers replaced while they are in use", "statement": "Through the handle of a runtime's logger the inner logger can be replaced at any time. Replacing it keeps the pauses: after any calls of log, pause, unpause and replace, an entry reaches the logger if and only if no pause is unmatched, counting those before the replacement. The logger in use is the one of the last replacement, and has been given exactly the entries logged since then while nothing was paused, in order.", "quantifier": "all loggers, all sequences of calls with fewer than 2^32 pauses", "why_tests_cant": "All interleavings of replacements, nested pauses, surplus unpauses and entries.", "anchors": ["steit/src/rt/logger.rs:11-53", "steit/src/rt/runtime.rs:46-62"]}
{"id": "C102", "title": "The logger that ignores entries and the logger that panics", "statement": "With NoopLogger no sequence of log, pause and unpause fails and nothing but the number of pauses changes. With PanicLogger such a sequence panics if some entry is logged while no pause is unmatched, and otherwise succeeds: entries logged while paused never reach it.", "quantifier": "all sequences of calls with fewer than 2^32 pauses, debug and release", "why_tests_cant": "All interleavings of entries, nested pauses and surplus unpauses.", "anchors": ["steit/src/log/loggers/noop.rs:14-18", "steit/src/log/loggers/panic.rs:14-18", "steit/src/rt/logger.rs:33-57"]}
