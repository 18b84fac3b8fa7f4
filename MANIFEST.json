{"claims": [
  {"property": "C01", "status": "proved", "theorems": ["c01_unsigned_roundtrip", "c01_values"], "note": ""},
  {"property": "C02", "status": "proved", "theorems": ["c02_signed_roundtrip_exact", "c02_full_range_refuted"], "note": "The exact range that survives is proved; the full-range round trip is refuted at every signed width."},
  {"property": "C03", "status": "proved", "theorems": ["c03_announced_size"], "note": ""},
  {"property": "C04", "status": "proved", "theorems": ["c04_prefix_free"], "note": ""},
  {"property": "C05", "status": "proved", "theorems": ["c05_decode_arbitrary", "c05_prefix_is_first_low_byte"], "note": ""},
  {"property": "C06", "status": "proved", "theorems": ["c06_tag_packing", "c06_tag_parsing"], "note": ""},
  {"property": "C07", "status": "proved", "theorems": ["c07_bool_roundtrip", "c07_bool_decode"], "note": ""},
  {"property": "C08", "status": "proved", "theorems": ["c08_announced_size"], "note": ""},
  {"property": "C09", "status": "proved", "theorems": ["c09_stale_caches"], "note": ""},
  {"property": "C10", "status": "proved", "theorems": ["c10_round_trip", "c10_unsafe_int_refuted"], "note": ""},
  {"property": "C11", "status": "proved", "theorems": ["c11_nested", "c11_sequence"], "note": ""},
  {"property": "C12", "status": "proved", "theorems": ["c12_omission", "c12_omitted_writes_nothing"], "note": ""},
  {"property": "C13", "status": "proved", "theorems": ["c13_c14_foreign_skipped", "c13_c14_enum", "c13_long_varint_panics"], "note": ""},
  {"property": "C14", "status": "proved", "theorems": ["c13_c14_foreign_skipped", "c13_c14_enum", "c14_field_untouched"], "note": "As for C13, with overflow checks compiled in a foreign varint of three bytes or more panics instead."},
  {"property": "C15", "status": "proved", "theorems": ["c15_field_order", "c15_field_order_enum"], "note": ""},
  {"property": "C16", "status": "proved", "theorems": ["c16_incremental", "c16_encodings_concatenate", "c16_last_scalar_wins", "c16_sequences_append"], "note": ""},
  {"property": "C17", "status": "proved", "theorems": ["c17_total", "c17_deserialize"], "note": "The decoder's loops run on fuel equal to the input length; the theorem excludes running out."},
  {"property": "C18", "status": "proved", "theorems": ["c18_promise_ignored", "c18_cut_accepted", "c18_truncation_rejected_refuted"], "note": "Truncation is accepted; the expected rejection is refuted."},
  {"property": "C19", "status": "proved", "theorems": ["c19_entry_round_trip", "c19_decoded_entries_are_entries"], "note": ""},
  {"property": "C20", "status": "proved", "theorems": ["c20_pieces", "c20_nothing", "c20_cut_entry_refuted"], "note": "The first piece ends where an entry ends; cut inside an entry the equation fails, which is shown too."},
  {"property": "C21", "status": "proved", "theorems": ["c21_buffer", "c21_log_multi"], "note": ""},
  {"property": "C22", "status": "proved", "theorems": ["c22_pausing", "c22_unmatched_is_a_number"], "note": "For fewer than 2^32 pauses (the counter is a u32)."},
  {"property": "C23", "status": "proved", "theorems": ["c23_converge", "c23_snapshot"], "note": ""},
  {"property": "C24", "status": "proved", "theorems": ["c24_sequence", "c24_collect", "c24_push_with", "c24_index"], "note": ""},
  {"property": "C25", "status": "proved", "theorems": ["c25_finite_map", "c25_collect", "c25_index"], "note": ""},
  {"property": "C26", "status": "proved", "theorems": ["c26_paths", "c26_from_iter", "c26_map_from_iter"], "note": "Callbacks must use the runtime they are given; the two ways a call breaks paths are C27 and C28."},
  {"property": "C27", "status": "proved", "theorems": ["c27_other_items", "c27_enum_items", "c27_enum_items_converge_refuted"], "note": "Holds for lists of structs, lists and maps; refuted for lists of enums."},
  {"property": "C28", "status": "proved", "theorems": ["c28_insert_with", "c28_insert", "c28_insert_converges_refuted"], "note": "Holds for insert_with; for insert exactly if the value already carries the right path."},
  {"property": "C29", "status": "proved", "theorems": ["c29_remove_absent", "c29_replay_stops"], "note": ""},
  {"property": "C30", "status": "proved", "theorems": ["c30_not_root", "c30_who_is_root", "c30_boxed_enum"], "note": "A bare integer or boolean has no runtime: replaying on it panics."},
  {"property": "C31", "status": "proved", "theorems": ["c31_history"], "note": "The model's replay takes and returns no logger because the code's handle, merge and replay never call one; the theorem shows what follows for sessions that mix own calls with replayed messages."},
  {"property": "C32", "status": "proved", "theorems": ["c32_only_the_target"], "note": ""},
  {"property": "C33", "status": "proved", "theorems": ["c33_prefix", "c33_atomic_refuted"], "note": ""},
  {"property": "C34", "status": "proved", "theorems": ["c34_decoded_maps_iterate", "c34_rejected", "c34_accepted", "c34_replay_checks_refuted"], "note": "The range check holds for decoding and is refuted for replay."},
  {"property": "C35", "status": "proved", "theorems": ["c35_large_map_keys", "c35_map", "c35_small_keys_fit"], "note": ""},
  {"property": "C36", "status": "proved", "theorems": ["c36_path_algebra", "c36_paths_identify_nodes"], "note": ""},
  {"property": "C37", "status": "proved", "theorems": ["c37_accepts", "c37_generates", "c37_not_silent", "c37_numbered", "c37_ty_ok"], "note": "Attribute syntax, tags, field types and settings; Vec::with_capacity(n) is taken to have capacity n; errors found by rustc (e.g. clashing generated names) are not modelled."},
  {"property": "C38", "status": "proved", "theorems": ["c38_unknown_variant", "c38_same_variant", "c38_other_variant"], "note": ""},
  {"property": "C39", "status": "proved", "theorems": ["c39_equivalence", "c39_runtimes_ignored", "c39_hash_agrees"], "note": "Size caches are outside values in the model, so equality cannot see them; see DESIGN.md."},
  {"property": "C40", "status": "proved", "theorems": ["c40_array_any_input", "c40_array_prefix", "c40_tuple_all_or_none", "c40_tuple_surplus", "c40_tuple_missing"], "note": ""},
  {"property": "C41", "status": "proved", "theorems": ["c41_strings"], "note": ""},
  {"property": "C42", "status": "proved", "theorems": ["c42_stays_paused", "c42_variant_setter", "c42_nothing_logged"], "note": ""},
  {"property": "C43", "status": "proved", "theorems": ["c43_alone", "c43_threads", "c43_course", "c43_turns"], "note": "Any number of threads, each serializing the whole value or any node of it, with any initial caches. Accesses need only be coherent per cache (this covers Relaxed atomics and one store with turns); every thread returns the encoding of its node after the accesses it makes when alone."},
  {"property": "C44", "status": "proved", "theorems": ["c44_ints", "c44_i64_refuted"], "note": "All integer types in full range, Int64 in the half range; every Int64 outside it is read as another number."},
  {"property": "C45", "status": "proved", "theorems": ["c45_decode", "c45_converge", "c45_snapshot", "c45_fresh", "c45_string_parameter_refuted", "c45_parameter_constructor_refuted", "c45_fresh_array_refuted"], "note": "For every class the generator emits for the schema (cls), with constructible type arguments (cls_ok), and logged entries below 2^31 bytes. Refuted outside: a type parameter that is String is skipped in decoding, Maybe<List<..>> throws when constructed, a fresh object has empty arrays. Paths and events are in C62 to C64."},
  {"property": "C46", "status": "proved", "theorems": ["c46_terminates", "c46_terminates_closed", "c46_once", "c46_covers", "c46_covers_exactly", "c46_no_box", "c46_root_box", "c46_files", "c46_box_first", "c46_box_refuted"], "note": "Coverage is proved when declared names differ and boxes are met only below the type they hold; in general it is refuted: Box<T> has the description of T, so meeting it first marks T visited before its fields were looked at."},
  {"property": "C47", "status": "proved", "theorems": ["c47_no_loss", "c47_any_reader", "c47_guard", "c47_replay"], "note": "Every decode and every replay through a reader with the explicit one-byte look-ahead (iowrap::Eof, modelled from its use) gives the value and outcome of decoding the plain bytes; the examples show that entering or leaving a sized field with a kept byte would lose or reorder it."},
  {"property": "C48", "status": "proved", "theorems": ["c48_any_bytes"], "note": ""},
  {"property": "C49", "status": "proved", "theorems": ["c49_maybe_off_its_path", "c49_converges_refuted"], "note": ""},
  {"property": "C50", "status": "proved", "theorems": ["c50_maybe_is_option", "c50_maybe_eq"], "note": ""},
  {"property": "C51", "status": "proved", "theorems": ["c51_decode", "c51_entry", "c51_replay"], "note": ""},
  {"property": "C52", "status": "proved", "theorems": ["c52_field_types", "c52_aliased_map", "c52_alias_refuted"], "note": "Proved for types without maps or parameters behind aliases and user names other than Box and StateMap; refuted for an alias of a Map."},
  {"property": "C53", "status": "proved", "theorems": ["c53_any_bytes"], "note": "For every class generated for a state type that is not a primitive; exceptions are one kind of outcome; running out of memory or stack is not modelled."},
  {"property": "C54", "status": "proved", "theorems": ["c54_decode", "c54_converge", "c54_fresh", "c54_wire_type_refuted"], "note": "The changes of version are those of evo: fields gained, lost, reordered, variants gained, lost; a field kept has the same type up to such changes. Fields with another wire type are covered by decoding and refuted for replay."},
  {"property": "C55", "status": "proved", "theorems": ["c55_decode", "c55_same_version", "c55_there_and_back", "c55_unknown_variant_refuted", "c55_overflow_checks_refuted"], "note": "What the reader needs of the value is the executable predicate takes: known variants, keys that fit, integers in the half range (C02), and with overflow checks on no skipped varint longer than two bytes (C13)."},
  {"property": "C56", "status": "proved", "theorems": ["c56_converge", "c56_later", "c56_stops", "c56_strange", "c56_no_state_refuted", "c56_wire_type_refuted"], "note": "follows: the replica has the fields and variants on the path, as state and with the same wire type, and takes the payload (C55). strange: the path goes through a field or variant the replica does not have. Paths through a field that is in the type but no longer a state, or of another wire type, are neither; refuted there."},
  {"property": "C57", "status": "proved", "theorems": ["c57_struct"], "note": "The text (Gen.v) is read by CsRead.v and run by CsRun.v, which stand for the C# compiler. Other classes are as in CSharp.v (C57 and C58 in turn). The executable condition struct_fine holds for all structs of the repository's tests that are not recursive. Getters and the handlers' bookkeeping are read but not run."},
  {"property": "C58", "status": "proved", "theorems": ["c58_enum"], "note": "As C57, with enum_fine; a class name in a field means the variant of that name, if there is one. The typed getters of variants are read but not run."},
  {"property": "C59", "status": "proved", "theorems": ["c59_class"], "note": "Finite types only (a recursive declaration has no finite type); names distinct and not those of the library (env_ok)."},
  {"property": "C60", "status": "proved", "theorems": ["c60_struct", "c60_enum"], "note": "Enums whose variants are not named like a class they use; type arguments that C# can construct (cls_ok, C45); values below 2^31 bytes with integers in the half range (C44)."},
  {"property": "C61", "status": "proved", "theorems": ["c61_keyword_refuted", "c61_digit_refuted", "c61_alias_refuted", "c61_same_property_refuted", "c61_class_property_refuted", "c61_local_refuted", "c61_box_refuted", "c61_capture_refuted"], "note": "Witnesses; NoFuel is what the interpreter says of programs that do not compile."},
  {"property": "C62", "status": "proved", "theorems": ["c62_new", "c62_deserialize", "c62_replay", "c62_no_path", "c62_option_refuted"], "note": "Decoding without a path is decoding with that of the root, except that Option<T> of a class T throws NullReferenceException on any Some."},
  {"property": "C63", "status": "proved", "theorems": ["c63_events", "c63_root_refuted"], "note": "Event handlers only look: handlers that throw or replay are not modelled. An update of the root raises no event."},
  {"property": "C64", "status": "proved", "theorems": ["c64_same_object", "c62_replay", "c64_subscription_refuted"], "note": "c62_replay has the part about two places. A list or map inside something that is replaced is another object afterwards: those subscribed to it are told nothing, then or later."},
  {"property": "C65", "status": "proved", "theorems": ["c65_struct", "c65_state"], "note": "Provided the names compile (struct_compiles) and the field types are well formed (ty_ok, C37). What a field's own methods do is the model of its type."},
  {"property": "C66", "status": "proved", "theorems": ["c66_enum", "c66_state"], "note": "Provided the names compile (enum_compiles) and no field hides a variable of the function, named for each function; C68 has what happens otherwise."},
  {"property": "C67", "status": "proved", "theorems": ["c67_struct_setters", "c67_enum_setters"], "note": "As C65 and C66; setters of State enums serialize the new variant, so no field may be called size or writer."},
  {"property": "C68", "status": "proved", "theorems": ["c68_capture", "c68_eq_refuted", "c68_with_runtime_refuted"], "note": "Refuted with two witnesses."},
  {"property": "C69", "status": "proved", "theorems": ["c69_shape", "c69_struct", "c69_enum"], "note": "Attributes that only concern metadata or the path of the crate (no_meta, steit_owned, csharp_name) are in C37 and C46. Provided the names compile; for enums as C66."},
  {"property": "C70", "status": "proved", "theorems": ["c70_struct", "c70_enum"], "note": "lossless is C10's condition. For enums no field may be called size, writer, reader, wire_type or field_number (C68)."},
  {"property": "C71", "status": "proved", "theorems": ["c71_struct", "c71_enum"], "note": "Setters of the object itself; calls inside nested fields are in C23. Entries below 2^32 bytes. For enums, names as in C66 (C68)."},
  {"property": "C72", "status": "proved", "theorems": ["c72_snake", "c72_camel", "c72_distinct", "c72_const", "c72_distinct_refuted"], "note": "ASCII names."},
  {"property": "C73", "status": "proved", "theorems": ["c73_crate", "c73_types", "c73_alias_refuted", "c73_self_refuted"], "note": "Fields whose type uses a generic alias with arguments, or Self in a generic item, are excluded by plain (refuted)."},
  {"property": "C74", "status": "proved", "theorems": ["c74_struct", "c74_enum"], "note": "Other classes of the crate are represented by user_of (C59). Names as in C57, C58 and C68; setters of the object itself. Replay on the C# side is that of CSharp.v."},
  {"property": "C75", "status": "proved", "theorems": ["c75_pieces", "c75_fails", "c75_not_cut", "c75_complete", "c75_replay_pieces", "c75_replay", "c75_broken_log", "c75_resume", "c75_interrupted_refuted"], "note": "std and iowrap as described in Stream.v. If Eof::eof does not call read again after Interrupted, the source must not interrupt (calm; refuted without it)."},
  {"property": "C76", "status": "proved", "theorems": ["c76_sent", "c76_refused", "c76_again", "c76_log", "c76_connection", "c76_across"], "note": "std::io::Write::write_all as described in Sink.v. Values below 2^32 bytes."},
  {"property": "C77", "status": "proved", "theorems": ["c77_up_to_failure", "c77_outcome", "c77_poisoned", "c77_agree", "c77_swap_half", "c77_swap_agree_refuted"], "note": "Calls as in C23, whose callbacks call no other logger. std::sync::Mutex as described in Fail.v. Without the condition on swap_remove false (refuted)."},
  {"property": "C78", "status": "proved", "theorems": ["c78_converge", "c78_any_order", "c78_converge_refuted"], "note": "Loggers that take every entry. A thread does on its part what exec (State.v) says; the threads share only the logger. Callbacks end the pauses they begin. Without the condition on pauses false (refuted)."},
  {"property": "C79", "status": "proved", "theorems": ["c79_stops", "c79_calm", "c79_converge", "c79_same_reader_refuted"], "note": "Handlers do not change the objects and do not call Replay. Classes as in C53 and C45."},
  {"property": "C80", "status": "proved", "theorems": ["c80_log_entry", "c80_entry", "c80_replay", "c80_maybe"], "note": "Run by the interpreter of generated C# text (CsRun.v, C58) with the library classes as CSharp.v has them."},
  {"property": "C81", "status": "proved", "theorems": ["c81_files", "c81_any", "c81_lost_refuted", "c81_settings"], "note": "File::create, write and BufWriter as GenDir.v describes them. That Ok means that all files are there is false (refuted)."},
  {"property": "C82", "status": "proved", "theorems": ["c82_accepts", "c82_derives", "c82_supertraits", "c82_instances", "c82_refuted"], "note": "What a generated function needs of a type is read off the methods it calls (RsBounds.v). That every struct can derive State is false (refuted)."},
  {"property": "C83", "status": "proved", "theorems": ["c83_log", "c83_read_back", "c83_replay"], "note": "Entries whose bytes fit u32 sizes. Debug formatting and write_fmt of std as WriterLog.v describes them."},
  {"property": "C84", "status": "proved", "theorems": ["c84_merge", "c84_decode", "c84_replay", "c84_reached", "c84_skip_refuted"], "note": "Weight of values as Weight.v counts it. That announced lengths never matter is false for skipped fields (refuted)."},
  {"property": "C85", "status": "proved", "theorems": ["c85_canonical", "c85_same_size", "c85_decoded", "c85_order_refuted"], "note": "Values whose encoding is below 4 GiB and that survive encoding (as in C10). That equal values always have the same bytes is false (refuted)."},
  {"property": "C86", "status": "proved", "theorems": ["c86_trie", "c86_validate", "c86_reads", "c86_name_refuted"], "note": "Reflection (IsAssignableFrom, GetMethod) is not modelled. That IsPrimitiveType always answers is false (refuted)."},
  {"property": "C87", "status": "proved", "theorems": ["c87_commute", "c87_equal", "c87_exact", "c87_logs", "c87_replay", "c87_order_refuted"], "note": "That the order never shows is false: two new keys of a map (refuted); entries of which one path leads to the other do not commute (refuted)."},
  {"property": "C88", "status": "proved", "theorems": ["c88_overwrite", "c88_compact", "c88_snapshot", "c88_above_refuted"], "note": "That entries can also be left out when the log has entries for places above is false (refuted)."},
  {"property": "C89", "status": "proved", "theorems": ["c89_decode", "c89_replay", "c89_reached", "c89_buffer"], "note": "Arrays that nested readers copy are bounded one by one; all of them together are C92."},
  {"property": "C90", "status": "proved", "theorems": ["c90_there", "c90_keys_refuted", "c90_place", "c90_tells", "c90_entry", "c90_map_refuted", "c90_option_refuted", "c90_caches", "c90_fresh", "c90_asking_refuted"], "note": "The naive claims that JSON has all of a value, and that only content is in it, are refuted. serde and serde_json are trusted; the text of the JSON is not modelled."},
  {"property": "C91", "status": "proved", "theorems": ["c91_merge", "c91_decode", "c91_entry", "c91_replay", "c91_reached"], "note": "The depth of calls is that of the value but for boxes, which pass calls on; how much stack a call takes is not modelled, nor that a stack ends. Types that hold themselves are unfolded as far as needed."},
  {"property": "C92", "status": "proved", "theorems": ["c92_decode", "c92_replay", "c92_reached"], "note": "Counts bytes of arrays that readers make; objects are C89, the path lists and the decoded strings are not counted. Arrays that an object keeps (Bytes) are counted when they are made, not later."},
  {"property": "C93", "status": "proved", "theorems": ["c93_true", "c93_replay_true", "c93_count", "c93_silent", "c93_replay", "c93_ignored", "c93_log", "c93_parameter_refuted", "c93_text"], "note": "The path of a line is that of the object below the root it is decoded for (C62 for paths of objects); a null path, for which the client throws instead, is C62 too."},
  {"property": "C94", "status": "proved", "theorems": ["c94_exact", "c94_silent", "c94_replay", "c94_log_refuted"], "note": "The classes are those generated for some type (cls), related to the server's type by evo (C54)."},
  {"property": "C95", "status": "proved", "theorems": ["c95_path", "c95_shows", "c95_equal", "c95_where", "c95_equal_refuted"], "note": "The tree that the formatter is told, with tags standing for names; what the standard library makes of it is trusted."},
  {"property": "C96", "status": "proved", "theorems": ["c96_update", "c96_resent", "c96_replay", "c96_set", "c96_remove", "c96_push", "c96_pop", "c96_late_refuted"], "note": ""},
  {"property": "C97", "status": "proved", "theorems": ["c97_left", "c97_unread", "c97_frame", "c97_later", "c97_tag", "c97_key", "c97_variant", "c97_field", "c97_item", "c97_failed", "c97_keep_on", "c97_garbled_refuted"], "note": ""},
  {"property": "C98", "status": "proved", "theorems": ["c98_frames", "c98_log", "c98_ends", "c98_cut", "c98_unknown_kind", "c98_apart_refuted"], "note": ""},
  {"property": "C99", "status": "proved", "theorems": ["c99_replica", "c99_client_once", "c99_client", "c99_again_refuted"], "note": ""},
  {"property": "C100", "status": "proved", "theorems": ["c100_layout", "c100_files", "c100_total", "c100_declared"], "note": ""},
  {"property": "C101", "status": "proved", "theorems": ["c101_replaced", "c101_in_use_is_one"], "note": ""},
  {"property": "C102", "status": "proved", "theorems": ["c102_noop", "c102_panic"], "note": ""}
]}
