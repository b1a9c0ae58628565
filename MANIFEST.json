{
 "claims": [
  {
   "property": "C01",
   "status": "proved",
   "theorems": [
    "C01_variable_roundtrip",
    "C01_variable_format"
   ],
   "note": "all widths, all values, any trailing bytes; also the exact bytes and their number"
  },
  {
   "property": "C02",
   "status": "proved",
   "theorems": [
    "C02_zigzag_roundtrip",
    "C02_zigzag_bijection",
    "C02_zigzag_small",
    "C02_signed_roundtrip"
   ],
   "note": "zigzag bijection at every width, size bound, and round trip under every option setting"
  },
  {
   "property": "C03",
   "status": "proved",
   "theorems": [
    "C03_fixed_roundtrip",
    "C03_fixed_format",
    "C03_byte_orders_mirror"
   ],
   "note": "round trip, exact size, denotation in the configured byte order on any machine, mirror image"
  },
  {
   "property": "C04",
   "status": "proved",
   "theorems": [
    "C04_length_roundtrip",
    "C04_length_fits_or_error"
   ],
   "note": "round trip or error, for every length width and target pointer width"
  },
  {
   "property": "C05",
   "status": "partial",
   "theorems": [
    "C05_options_independent",
    "C05_native_fixed_partial",
    "C05_native_fixed_byte_order_refuted"
   ],
   "note": "independence of settings proved in full; the native-fixed report ignores the byte order, shown by a refutation witness"
  },
  {
   "property": "C06",
   "status": "partial",
   "theorems": [
    "C06_decode_exact",
    "C06_decode_bounded",
    "C06_truncated_is_error",
    "C06_overflow_rejected_refuted"
   ],
   "note": "exact behaviour on every input, bounds, no panic, truncation proved; rejection of values that do not fit is false of the code (refutation witness)"
  },
  {
   "property": "C07",
   "status": "proved",
   "theorems": [
    "C07_history_right",
    "C07_delivers_prefix",
    "C07_limit_bounds",
    "C07_failure_keeps_limit_refuted"
   ],
   "note": "all readers (slice, pointer range, nested limits), all histories; additionally a failed read through a limit uses up allowance (C07_failure_keeps_limit_refuted)"
  },
  {
   "property": "C08",
   "status": "proved",
   "theorems": [
    "C08_vec",
    "C08_slice",
    "C08_fixed_bytes",
    "C08_with_capacity_refuted"
   ],
   "note": "Vec, SliceMutWriter and FixedBytes, all histories, with the count reported by to_slice; std::io::Write adapters are not modelled. FixedBytes::with_capacity(N) panics (C08_with_capacity_refuted)"
  },
  {
   "property": "C09",
   "status": "partial",
   "theorems": [
    "C09_storage_encode_total",
    "C09_storage_roundtrip_partial",
    "C09_storage_roundtrip",
    "C09_native_fixed_array_of_bool_refuted",
    "C09_native_fixed_packed_refuted",
    "C09_native_fixed_byte_order_refuted"
   ],
   "note": "full round trip for all types when the native-memory fast path is off, and for coherent types when it is on; the remaining types are refuted by three witnesses (code bug)"
  },
  {
   "property": "C10",
   "status": "partial",
   "theorems": [
    "C10_storage_prefix_error_partial",
    "C10_packed_optional_refuted"
   ],
   "note": "all types except packed structs with optional values, for which it is false (refutation witness)"
  },
  {
   "property": "C11",
   "status": "proved",
   "theorems": [
    "C11_storage_unambiguous"
   ],
   "note": "all types, values and trailing bytes, under the same side conditions as C09"
  },
  {
   "property": "C12",
   "status": "proved",
   "theorems": [
    "C12_storage_decode_safe",
    "C12_packed_decode_safe"
   ],
   "note": "every type, every byte string, every option setting; storage and packed"
  },
  {
   "property": "C13",
   "status": "partial",
   "theorems": [
    "C13_packed_roundtrip_partial",
    "C13_packed_roundtrip_followed_partial",
    "C13_packed_absent",
    "C13_packed_new_reads_old_partial",
    "C13_packed_old_reads_new_partial",
    "C13_packed_default_field_refuted"
   ],
   "note": "round trip with trailing options, absent values, optional fields added at the end in both directions; #[musli(default)] on packed fields is ignored by the generated code (refutation witness)"
  },
  {
   "property": "C14",
   "status": "partial",
   "theorems": [
    "C14_wire_encode_total",
    "C14_wire_roundtrip_partial",
    "C14_wire_roundtrip",
    "C14_wire_packed_native_fixed_refuted"
   ],
   "note": "every type without packed structs, every value and option setting: full round trip and totality; structs packed inside a message inherit the side conditions of the storage format under native fixed options (refutation witness)"
  },
  {
   "property": "C15",
   "status": "partial",
   "theorems": [
    "C15_wire_skip_partial",
    "C15_wire_skip_usize_refuted"
   ],
   "note": "every type when lengths are variable, and every type without usize/isize otherwise; usize under a fixed length width is refuted by a witness (code bug)"
  },
  {
   "property": "C16",
   "status": "partial",
   "theorems": [
    "C16_wire_upgrade_partial",
    "C16_wire_upgrade",
    "C16_wire_missing_field",
    "C16_wire_unknown_variant"
   ],
   "note": "any two types related by reordered, added and removed fields and variants at any depth, missing required field and unknown variant are errors; same side conditions as C14 and C15"
  },
  {
   "property": "C17",
   "status": "proved",
   "theorems": [
    "C17_wire_tag",
    "C17_wire_tag_onto",
    "C17_wire_length"
   ],
   "note": "all tags and all lengths"
  },
  {
   "property": "C18",
   "status": "partial",
   "theorems": [
    "C18_desc_encode_total",
    "C18_desc_roundtrip_partial",
    "C18_desc_roundtrip",
    "C18_desc_packed_native_fixed_refuted"
   ],
   "note": "every type without packed structs, every value and option setting: full round trip and totality; structs packed inside a message inherit the side conditions of the storage format under native fixed options (refutation witness)"
  },
  {
   "property": "C19",
   "status": "proved",
   "theorems": [
    "C19_desc_skip"
   ],
   "note": "every type and value; the message must fit the address space"
  },
  {
   "property": "C20",
   "status": "partial",
   "theorems": [
    "C20_desc_upgrade_partial",
    "C20_desc_upgrade",
    "C20_desc_missing_field",
    "C20_desc_unknown_variant"
   ],
   "note": "as C16, without the usize condition; structs packed inside a message inherit the side conditions of the storage format under native fixed options (refutation witness)"
  },
  {
   "property": "C21",
   "status": "partial",
   "theorems": [
    "C21_desc_convert_partial",
    "C21_desc_reject_partial",
    "C21_desc_truncates_refuted",
    "C21_desc_signed_to_unsigned_refuted"
   ],
   "note": "all pairs of integer types: same number when in range except signed to unsigned using the highest bit; rejection of the other signedness; truncation of too large numbers and wrong signed conversion refuted by witnesses (code bugs)"
  },
  {
   "property": "C22",
   "status": "proved",
   "theorems": [
    "C22_json_string_text",
    "C22_json_string_decode",
    "C22_json_string_roundtrip",
    "C22_json_string_exact",
    "C22_json_string_valid"
   ],
   "note": "text form, decoding of every escaped spelling, round trip, and only valid UTF-8 is accepted"
  },
  {
   "property": "C23",
   "status": "partial",
   "theorems": [
    "C23_json_unsigned_text",
    "C23_json_signed_text",
    "C23_json_unsigned_roundtrip",
    "C23_json_signed_roundtrip",
    "C23_json_unsigned_exact",
    "C23_json_unsigned_modulo",
    "C23_json_signed_exact",
    "C23_json_not_a_number",
    "C23_json_overflow",
    "C23_json_out_of_range_refuted",
    "C23_json_out_of_range_partial"
   ],
   "note": "round trip, decoding of every decimal text in range, exactness of what is accepted under overflow checks, rejection of text that is not a number are proved; rejection of out-of-range numbers is false: a number whose last digit overflows panics in debug builds and wraps in release builds (C23_json_overflow, general; C23_json_out_of_range_refuted, witness). Floats: C24, C72, C73"
  },
  {
   "property": "C24",
   "status": "partial",
   "theorems": [
    "C24_json_roundtrip",
    "C24_json_roundtrip_no_float",
    "C24_json_typed",
    "C24_json_no_panic_partial",
    "C24_json_infinite_refuted",
    "C24_json_nested_option_refuted"
   ],
   "note": "every JSON-representable type (keys are strings or integers, Some(x) not written as null) and every value, floats included (writing a float is modelled by what ryu documents, not by its algorithm); a bare float only without whitespace in front (C46). Hostile input gives a value of the type or an error, never panics in release builds without fixed-size byte arrays. Nested options and infinite floats inside of a document are refuted"
  },
  {
   "property": "C25",
   "status": "proved",
   "theorems": [
    "C25_json_skip",
    "C25_json_skip_encoded"
   ],
   "note": "for every text of every document (including floats), so in particular for whatever the encoder emits"
  },
  {
   "property": "C26",
   "status": "partial",
   "theorems": [
    "C26_json_array_partial",
    "C26_json_array_panics",
    "C26_json_array_refuted",
    "C26_json_array_of"
   ],
   "note": "exact and too short are proved; too long always panics (C26_json_array_panics, C26_json_array_refuted). [T; N] for other T is proved in full (C26_json_array_of)"
  },
  {
   "property": "C27",
   "status": "partial",
   "theorems": [
    "C27_separate_partial",
    "C27_tidy_partial",
    "C27_separate_refuted"
   ],
   "note": "Proved for every history, of any length and over any buffer, during which none of three internal events happens (a free header handed out while still linked to another, a merge that releases the wrong header, a header carved out of a region); C27_tidy_partial discharges the condition for histories that use and release only the newest vector with a new one between releases. C27_separate_refuted: in general it is false, [append] of one vector to another can leave two vectors in the same bytes."
  },
  {
   "property": "C28",
   "status": "partial",
   "theorems": [
    "C28_lists_partial",
    "C28_progress_partial",
    "C28_tidy_partial",
    "C28_extend_refuted",
    "C28_nested_extend_refuted",
    "C28_drop_refuted",
    "C28_nested_drop_refuted",
    "C28_grow_refuted",
    "C28_box_refuted",
    "C28_tiny_refuted"
   ],
   "note": "Same condition as C27: C28_lists_partial (contents and answers are those of lists), C28_progress_partial (no panic or undefined behaviour before the first event), C28_tidy_partial (tidy histories meet the condition). False in general: five histories of legal calls corrupt a vector (C28_extend/nested_extend/drop/nested_drop/grow_refuted), a box in a nearly full buffer is undefined behaviour (C28_box_refuted), tiny unaligned buffers panic with debug assertions (C28_tiny_refuted)."
  },
  {
   "property": "C29",
   "status": "partial",
   "theorems": [
    "C29_lengths_partial",
    "C29_plain_partial",
    "C29_size_hint",
    "C29_variant_refuted",
    "C29_lost_refuted"
   ],
   "note": "C29_lengths_partial characterises exactly, for every derived or library value, when all announced lengths are right; the property itself is false (C29_variant_refuted, with a lost value in C29_lost_refuted): inline variants with skip_encoding_if of default- and adjacently-tagged enums announce the enum's own size hint. C29_size_hint is full."
  },
  {
   "property": "C30",
   "status": "proved",
   "theorems": [
    "C30_endian_roundtrip",
    "C30_endian_typed",
    "C30_endian_bytes",
    "C30_endian_cross_target",
    "C30_from_endian_twice"
   ],
   "note": "every zwf type that can be swapped, incl. swappable enums; cross-target theorem for types without usize-like fields (plain)"
  },
  {
   "property": "C31",
   "status": "proved",
   "theorems": [
    "C31_store",
    "C31_store_slice",
    "C31_store_str",
    "C31_store_total",
    "C31_usize_order_refuted",
    "C31_slice_room_refuted"
   ],
   "note": "every history of an OwnedBuf or SliceMut, every well-formed type; usize references in a non-native order and SliceMut with capacity below the requested alignment are refuted"
  },
  {
   "property": "C32",
   "status": "partial",
   "theorems": [
    "C32_align_in_place",
    "C32_store_load_partial",
    "C32_store_slice_load_partial",
    "C32_store_str_load",
    "C32_load_exact_partial",
    "C32_load_slice_exact_partial",
    "C32_load_str_exact",
    "C32_swap",
    "C32_overflow_refuted"
   ],
   "note": "round trip for every history that does not overwrite the value and every type whose packed(N) does not exceed field alignments; loads are exact (bounds, alignment, validity); offset+size overflow panics instead of failing (refuted)"
  },
  {
   "property": "C33",
   "status": "partial",
   "theorems": [
    "C33_validate_exact_partial",
    "C33_validated_value_unique",
    "C33_any_bits_sound",
    "C33_stored_validates",
    "C33_packed_refuted",
    "C33_unaligned_refuted"
   ],
   "note": "exact for every well-formed type whose packed(N) attribute does not exceed a field alignment and at aligned addresses; packed and unaligned loading are refuted"
  },
  {
   "property": "C34",
   "status": "partial",
   "theorems": [
    "C34_store",
    "C34_find",
    "C34_map",
    "C34_len_partial",
    "C34_len_refuted",
    "C34_bind_refuted"
   ],
   "note": "Storing succeeds and lookups by key, for any hash function, any keys (colliding or not) and every group implementation (sse2, neon, generic words of either byte order) and pointer size, answer exactly what was stored (C34_map). Not true of the code, with proofs: the recorded length is wrong for every table of eight or more entries (C34_len_refuted), and bind() fails for key or value types without a zero pattern (C34_bind_refuted)."
  },
  {
   "property": "C35",
   "status": "partial",
   "theorems": [
    "C35_store",
    "C35_get_sound",
    "C35_map_partial",
    "C35_map_refuted",
    "C35_bucket_refuted",
    "C35_bucket_partial",
    "C35_duplicates_refuted"
   ],
   "note": "Every entry is written (C35_store) and whatever a lookup reports was stored under that key (C35_get_sound); with at most two entries lookups are exact (C35_map_partial). In general the code violates the property: with three entries the swap loop applies the inverse permutation (C35_map_refuted, with the real hash and seed stream), with six or more the displacements are in the wrong order (C35_bucket_refuted; fine up to five, C35_bucket_partial), and a repeated key makes building run forever (C35_duplicates_refuted)."
  },
  {
   "property": "C36",
   "status": "partial",
   "theorems": [
    "C36_sound",
    "C36_sorted",
    "C36_slice_partial",
    "C36_packed_partial",
    "C36_packed_order_refuted"
   ],
   "note": "the algorithm is proved for every length and comparison (C36_sound, C36_sorted); through references for slices that load and whose offsets fit the reference; Packed in a non-native byte order is refuted"
  },
  {
   "property": "C37",
   "status": "partial",
   "theorems": [
    "C37_store",
    "C37_iter",
    "C37_iter_fixed",
    "C37_get_sound",
    "C37_get_partial",
    "C37_order_partial",
    "C37_prefix_partial",
    "C37_get_refuted",
    "C37_get_values_refuted",
    "C37_get_absent_refuted",
    "C37_prefix_absent_refuted",
    "C37_prefix_refuted"
   ],
   "note": "Storing always succeeds (C37_store), iterating gives every insertion exactly once with its full key in any order of insertion (C37_iter; C37_iter_fixed for bounded stacks, with a capacity that always suffices), and what lookups report was inserted (C37_get_sound). Exact lookups, order and prefix iteration are proved when keys that share their first byte are inserted in ascending order (C37_get_partial, C37_order_partial, C37_prefix_partial). Otherwise the code violates the property: C37_get_refuted (a stored key is not found), C37_get_values_refuted, C37_get_absent_refuted (an absent key gives another key's values), C37_prefix_refuted, C37_prefix_absent_refuted."
  },
  {
   "property": "C38",
   "status": "proved",
   "theorems": [
    "C38_sip",
    "C38_chunking"
   ],
   "note": "every history of write/write_u* calls of any lengths equals SipHash-1-3-128 of the concatenation (SipSpec.v, checked against the published vectors' algorithm); no out-of-bounds read, no panic. Total length counted without usize overflow (needs 2^32 bytes or more)"
  },
  {
   "property": "C39",
   "status": "partial",
   "theorems": [
    "C39_get_partial",
    "C39_split_at_partial",
    "C39_split_at_out_of_bounds",
    "C39_iter_partial",
    "C39_try_coerce_partial",
    "C39_array_into_slice_partial",
    "C39_to_endian",
    "C39_packed_get_partial",
    "C39_packed_split_at",
    "C39_get_narrow_refuted",
    "C39_usize_order_refuted",
    "C39_packed_order_refuted",
    "C39_coerce_order_refuted",
    "C39_coerce_fits_refuted",
    "C39_array_order_refuted",
    "C39_iter_zero_sized_refuted"
   ],
   "note": "get, split_at, iterators (both ends), coercions and to_endian for references whose offsets fit; narrow offsets, usize in a non-native order, coercions in a non-native order and zero-sized elements are refuted"
  },
  {
   "property": "C40",
   "status": "partial",
   "theorems": [
    "C40_desc_array_count",
    "C40_desc_array_wrong_count",
    "C40_desc_tuple_short",
    "C40_desc_tuple_long_refuted",
    "C40_storage_array_count",
    "C40_storage_array_wrong_count",
    "C40_storage_tuple_wrong_count",
    "C40_wire_array_count",
    "C40_wire_array_wrong_count",
    "C40_wire_tuple_short",
    "C40_wire_tuple_long",
    "C40_wire_tuple_long_refuted"
   ],
   "note": "storage: exact; wire and descriptive: arrays exact, shorter tuples rejected; longer tuples are accepted (refutation witnesses), descriptive even leaves elements unread"
  },
  {
   "property": "C41",
   "status": "partial",
   "theorems": [
    "C41_desc_decode_typed",
    "C41_desc_no_panic_partial",
    "C41_desc_skip_overflow_refuted",
    "C41_wire_decode_typed",
    "C41_wire_no_panic_partial",
    "C41_wire_skip_overflow_refuted"
   ],
   "note": "result is a value of the type and a suffix of the input, for every input; no panic when decoding does not skip; skip overflows its counter on hostile input (refutation witnesses)"
  },
  {
   "property": "C42",
   "status": "partial",
   "theorems": [
    "C42_desc_prefix_error_partial",
    "C42_desc_unambiguous",
    "C42_wire_prefix_error_partial",
    "C42_wire_unambiguous"
   ],
   "note": "every type and value under the side conditions of C14/C18"
  },
  {
   "property": "C43",
   "status": "partial",
   "theorems": [
    "C43_position_slice",
    "C43_position_partial",
    "C43_position_refuted"
   ],
   "note": "true for slices and for SliceReader without read_byte/read_array; false for SliceReader::read_byte, which counts twice"
  },
  {
   "property": "C44",
   "status": "proved",
   "theorems": [
    "C44_json_utf8"
   ],
   "note": "every modelled type and value, floats included"
  },
  {
   "property": "C45",
   "status": "partial",
   "theorems": [
    "C45_json_grammar",
    "C45_json_infinite_refuted"
   ],
   "note": "every JSON-representable type (jsonable) and value without infinities and NaN: these are written as words that are not JSON (C45_json_infinite_refuted)"
  },
  {
   "property": "C46",
   "status": "partial",
   "theorems": [
    "C46_json_denotation",
    "C46_json_member_order",
    "C46_json_float_space",
    "C46_json_float_space_refuted",
    "C46_json_grammar_refuted"
   ],
   "note": "full for types without floats; a float is not accepted after whitespace (C46_json_float_space, _refuted), so for types with floats: every text without whitespace after colons. The converse (only JSON is accepted) is not claimed and is false: C46_json_grammar_refuted"
  },
  {
   "property": "C47",
   "status": "proved",
   "theorems": [
    "C47_json_unknown_member",
    "C47_json_missing_field",
    "C47_json_unknown_variant"
   ],
   "note": ""
  },
  {
   "property": "C48",
   "status": "proved",
   "theorems": [
    "C48_json_prefix_error",
    "C48_json_stable",
    "C48_json_number_prefix_refuted"
   ],
   "note": "bare numbers are excluded, with a witness that they must be"
  },
  {
   "property": "C49",
   "status": "partial",
   "theorems": [
    "C49_storage_canonical_partial",
    "C49_packed_canonical_partial",
    "C49_storage_one_message_partial",
    "C49_storage_bool",
    "C49_wire_bool",
    "C49_wire_option",
    "C49_desc_bool",
    "C49_desc_option",
    "C49_variable_refuted",
    "C49_option_refuted"
   ],
   "note": "storage and packed for every rigid type outside the native fixed options; variable-width integers and storage option markers are refuted"
  },
  {
   "property": "C50",
   "status": "partial",
   "theorems": [
    "C50_store_clears_padding_partial",
    "C50_unpadded_sound",
    "C50_bytes_determine_value",
    "C50_packed_refuted",
    "C50_packed_overrun_refuted"
   ],
   "note": "every well-formed type whose packed(N) attribute does not exceed a field alignment; packed(N>1) types refuted"
  },
  {
   "property": "C51",
   "status": "partial",
   "theorems": [
    "C51_no_ub_partial",
    "C51_allocation_tracked",
    "C51_drop",
    "C51_clone_partial",
    "C51_clone_refuted"
   ],
   "note": "every history of store/reserve/align/truncate/drop, every allocator answer; cloning an empty buffer whose requested alignment was raised is refuted"
  },
  {
   "property": "C52",
   "status": "partial",
   "theorems": [
    "C52_lookup_ends",
    "C52_mask_refuted"
   ],
   "note": "Termination unconditional; absence of panics for masks below half of usize; a witness with the largest mask overflows (C52_mask_refuted)."
  },
  {
   "property": "C53",
   "status": "partial",
   "theorems": [
    "C53_get_partial",
    "C53_get_refuted"
   ],
   "note": "Holds unless the map has no entries and yet has displacements (C53_get_partial); in that case the code panics with a remainder by zero (C53_get_refuted)."
  },
  {
   "property": "C54",
   "status": "partial",
   "theorems": [
    "C54_get_partial",
    "C54_get_ends",
    "C54_iter_fixed_ends",
    "C54_iter_partial",
    "C54_get_refuted",
    "C54_iter_refuted"
   ],
   "note": "Lookups and iteration with a fixed stack always end (C54_get_ends, C54_iter_fixed_ends) and neither panic as long as the slices of children have representable offsets (C54_get_partial, C54_iter_partial). Refuted otherwise: a damaged number of children makes lookups panic (C54_get_refuted), and with a growable stack iterating over a cyclic node never ends (C54_iter_refuted)."
  },
  {
   "property": "C55",
   "status": "partial",
   "theorems": [
    "C55_reserve_partial",
    "C55_capacity_refuted",
    "C55_overflow_refuted"
   ],
   "note": "Proved under the same condition as C27 (C55_reserve_partial). capacity() counts bytes, not the documented elements (C55_capacity_refuted); reserve(usize::MAX) succeeds without overflow checks (C55_overflow_refuted)."
  },
  {
   "property": "C56",
   "status": "partial",
   "theorems": [
    "C56_roundtrip_partial",
    "C56_empty_refuted"
   ],
   "note": "Round trip for all types whose options and sequences have no empty elements ([keeps]) and whose packed structs the storage format round-trips; false otherwise: empty elements disappear silently (C56_empty_refuted)."
  },
  {
   "property": "C57",
   "status": "proved",
   "theorems": [
    "C57_safe"
   ],
   "note": "For every Value that the type system admits ([value_ok]) and every well-formed type."
  },
  {
   "property": "C58",
   "status": "partial",
   "theorems": [
    "C58_exact",
    "C58_float_refuted"
   ],
   "note": "Integers: exact or an error, for all pairs of integer types (C58_exact). Floats in values decode as any integer type, saturating and with NaN as 0 (C58_float_refuted)."
  },
  {
   "property": "C59",
   "status": "partial",
   "theorems": [
    "C59_buffered_partial",
    "C59_safe",
    "C59_options_refuted"
   ],
   "note": "All types without packed structs at any options, and packed structs with the default options (C59_buffered_partial); safety is full (C59_safe). False for packed structs with other options, as the buffer's options are constants (C59_options_refuted)."
  },
  {
   "property": "C60",
   "status": "partial",
   "theorems": [
    "C60_value_partial",
    "C60_safe",
    "C60_prefix",
    "C60_usize_refuted"
   ],
   "note": "Full up to usize/isize becoming the fixed-width type (C60_value_partial, exact description; C60_usize_refuted); safety, truncation and extension are full."
  },
  {
   "property": "C61",
   "status": "partial",
   "theorems": [
    "C61_transparent_partial",
    "C61_empty_refuted"
   ],
   "note": "For all types whose options and sequences have no empty elements, packed structs with default options; false otherwise (C61_empty_refuted)."
  },
  {
   "property": "C62",
   "status": "partial",
   "theorems": [
    "C62_internal_is_struct",
    "C62_internal_roundtrip_partial",
    "C62_internal_any_position_partial",
    "C62_internal_safe",
    "C62_internal_total",
    "C62_field_names_refuted",
    "C62_collision_refuted"
   ],
   "note": "Descriptive format; names of fields of the type of the tag's key and different from it, packed structs only with the default options. False without these (C62_field_names_refuted: tuple variants under a string tag encode and never decode; C62_collision_refuted: a field with the tag's name reads as the name of the variant). JSON is in C69."
  },
  {
   "property": "C63",
   "status": "partial",
   "theorems": [
    "C63_adjacent_wire",
    "C63_adjacent_desc",
    "C63_adjacent_storage_partial",
    "C63_adjacent_wire_others_partial",
    "C63_adjacent_desc_others",
    "C63_content_first_wire",
    "C63_content_first_desc",
    "C63_adjacent_typed",
    "C63_adjacent_storage_safe",
    "C63_order_refuted"
   ],
   "note": "Wire and descriptive full; storage for options without the raw memory path; other entries are ignored (wire: usize as in C15) as long as the tag precedes the content: the other order is an error (C63_content_first_wire, C63_content_first_desc, C63_order_refuted). Panics of skip as in C41."
  },
  {
   "property": "C64",
   "status": "partial",
   "theorems": [
    "C64_first_accepting",
    "C64_untagged_roundtrip_partial",
    "C64_untagged_typed",
    "C64_nested_refuted",
    "C64_ambiguous_refuted"
   ],
   "note": "The value is that of the first accepting variant (C64_first_accepting) and is of its type; the bytes are consumed only for the last variant. False for other variants inside of another value: they are read again as the next value (C64_nested_refuted), without an error."
  },
  {
   "property": "C65",
   "status": "partial",
   "theorems": [
    "C65_fallback_wire_partial",
    "C65_fallback_desc",
    "C65_known",
    "C65_fieldless"
   ],
   "note": "Descriptive full; wire except usize contents with a fixed length width (as in C15). Default tagging; generated code for fallbacks under internal and adjacent tagging does not compile."
  },
  {
   "property": "C66",
   "status": "partial",
   "theorems": [
    "C66_unsigned_exact",
    "C66_signed_exact",
    "C66_unsigned_accepts_partial",
    "C66_signed_accepts_partial",
    "C66_agrees",
    "C66_safe",
    "C66_accepts_refuted",
    "C66_grammar_refuted",
    "C66_panics_refuted"
   ],
   "note": "Whatever is accepted is exact. Acceptance except: fractions whose removed zeros meet the exponent (\"1.00e1\"), zero with an exponent (\"0e3\"), intermediate values of more than the type's bits (C66_accepts_refuted); text with missing digits (\"1.\", \"1e\") is accepted (C66 theorems say so by a lax grammar); an exponent of -2^31 panics with overflow checks (C66_panics_refuted)."
  },
  {
   "property": "C67",
   "status": "partial",
   "theorems": [
    "C67_value_partial",
    "C67_value_exists",
    "C67_number_exact",
    "C67_integer_partial",
    "C67_float_partial",
    "C67_safe",
    "C67_panics_refuted"
   ],
   "note": "Documents whose numbers are integers of at most 128 bits full; numbers with fraction and exponent: exact when accepted (C67_number_exact), accepted under the conditions stated. Conversion of the parts of a number to binary floating point is a parameter. 2^128 panics (or wraps to 0) and some exponents panic: C67_panics_refuted."
  },
  {
   "property": "C68",
   "status": "partial",
   "theorems": [
    "C68_buffered_partial",
    "C68_roundtrip_partial",
    "C68_safe",
    "C68_types_refuted"
   ],
   "note": "For types without options, chars, bytes, packed structs and enums; for these it is false (C68_types_refuted: optional fields etc. decode directly and fail when buffered)."
  },
  {
   "property": "C69",
   "status": "partial",
   "theorems": [
    "C69_internal_is_struct",
    "C69_document_partial",
    "C69_roundtrip_partial",
    "C69_safe",
    "C69_optional_refuted"
   ],
   "note": "Named-field variants of bufferable types (as C68). False for variants with an optional field: what was encoded never decodes (C69_optional_refuted)."
  },
  {
   "property": "C70",
   "status": "partial",
   "theorems": [
    "C70_adjacent_is_struct",
    "C70_document",
    "C70_roundtrip_partial",
    "C70_content_first",
    "C70_content_missing",
    "C70_safe_partial",
    "C70_order_refuted"
   ],
   "note": "Documents full, for the tag before the content: the other order is an error (C70_content_first, C70_order_refuted). Round trip for types that JSON can hold (as C22). No panic without overflow checks for types without [u8; N] (as C26)."
  },
  {
   "property": "C71",
   "status": "partial",
   "theorems": [
    "C71_first_accepting",
    "C71_untagged_roundtrip_partial",
    "C71_nested_refuted",
    "C71_mut_last",
    "C71_mut_refuted",
    "C71_ambiguous_refuted",
    "C71_fallback_unknown",
    "C71_fallback_known",
    "C71_fallback_fieldless",
    "C71_fallback_safe_partial"
   ],
   "note": "The value is that of the first accepting variant; the reader is past it only for the last variant: a sequence with other variants never ends decoding (C71_nested_refuted), and from a &mut &[u8] only the last variant is tried (C71_mut_last, C71_mut_refuted). Fallback variants: full, except panics as in C70."
  },
  {
   "property": "C72",
   "status": "partial",
   "theorems": [
    "C72_formats",
    "C72_json_float_partial",
    "C72_json_float_refuted",
    "C72_loose_partial",
    "C72_only",
    "C72_special",
    "C72_safe",
    "C72_rounds_total",
    "C72_rounds_unique",
    "C72_nearest",
    "C72_rnd",
    "C72_monotone"
   ],
   "note": "Full, in all three algorithms (exact floating point, Eisel-Lemire, decimal), except for texts whose exponent is at least 655360 in absolute value and which have more than 65000 digits: the exponent saturates and such a text can be decoded as another number (C72_json_float_refuted). Leading whitespace is not skipped. IEEE multiplication and division of the hardware are modelled by correct rounding."
  },
  {
   "property": "C73",
   "status": "proved",
   "theorems": [
    "C73_roundtrip",
    "C73_enough_digits",
    "C73_distinct"
   ],
   "note": "the two directions of rounding at the last digit included; writing is by the external crate ryu: C73_roundtrip says what it has to guarantee"
  },
  {
   "property": "C74",
   "status": "proved",
   "theorems": [
    "C74_wire_same_bytes",
    "C74_desc_same_bytes",
    "C74_storage_same_bytes",
    "C74_json_same_text",
    "C74_wire_roundtrip",
    "C74_desc_roundtrip",
    "C74_storage_roundtrip",
    "C74_json_roundtrip",
    "C74_json_denotation",
    "C74_json_unrepeated",
    "C74_wire_agree",
    "C74_desc_agree",
    "C74_storage_agree",
    "C74_json_agree",
    "C74_wire_typed",
    "C74_desc_typed",
    "C74_storage_safe",
    "C74_json_typed",
    "C74_duplicate_field_refuted"
   ],
   "note": "serde itself and what its derive generates are modelled from their documentation. Native memory layouts are never used through serde, so storage bytes differ from the M\u00fcsli type's under options that select them (C74_storage_roundtrip still holds). A repeated field is an error with serde and not with M\u00fcsli (C74_duplicate_field_refuted: the two do not accept the same inputs). Not modelled: deserialize_any, sequences of unknown length"
  },
  {
   "property": "C75",
   "status": "partial",
   "theorems": [
    "C75_path",
    "C75_path_capped_partial",
    "C75_key_refuted",
    "C75_clear_refuted",
    "C75_late_room_refuted",
    "C75_errors",
    "C75_captured",
    "C75_clear_partial",
    "C75_held",
    "C75_no_panic",
    "C75_text",
    "C75_text_refuted",
    "C75_position",
    "C75_braces"
   ],
   "note": "When memory runs out the path is right only if no step fits after one that did not fit (C75_late_room_refuted), keys can be formatted (C75_key_refuted) and the context is not cleared meanwhile: clear does not reset the number of missing steps (C75_clear_refuted). Texts of paths with keys or with variants directly in variants can coincide (C75_text_refuted)."
  },
  {
   "property": "C76",
   "status": "partial",
   "theorems": [
    "C76_same_result",
    "C76_success",
    "C76_error_path",
    "C76_one_part",
    "C76_fails_err",
    "C76_report",
    "C76_untagged_result",
    "C76_untagged_refuted"
   ],
   "note": "Vectors, arrays, tuples and maps without #[musli(trace)] make no steps in the source, so an error in one of their elements is reported at the container (the specification TraceSpec.v says so too). Failed variants of untagged enums leave their steps on the path (C76_untagged_refuted). Not modelled: steps for types (with_type), steps of types inside packed structs, JSON, internally and adjacently tagged enums, running out of memory during the decode"
  },
  {
   "property": "C77",
   "status": "partial",
   "theorems": [
    "C77_wire_roundtrip",
    "C77_desc_roundtrip",
    "C77_storage_roundtrip",
    "C77_os_refuted",
    "C77_foreign",
    "C77_cstr_valid"
   ],
   "note": "proved in all three formats (C77_wire_roundtrip, C77_desc_roundtrip, C77_storage_roundtrip), except that it is false of OsString and PathBuf on Unix: they are written as bytes and read as a sequence, so in the wire and descriptive formats they never decode (C77_os_refuted, for every value); the storage format writes both alike. Only the mode Binary: in Text addresses are strings formatted by the standard library"
  },
  {
   "property": "C78",
   "status": "proved",
   "theorems": [
    "C78_words",
    "C78_convert",
    "C78_injective",
    "C78_distinct",
    "C78_raw",
    "C78_compose",
    "C78_parse",
    "C78_collide_refuted",
    "C78_digit_refuted",
    "C78_screaming_refuted"
   ],
   "note": "Identifiers that do not follow the conventions can collide (C78_collide_refuted: a_b and aB; C78_digit_refuted: a_1 and a1), and one that is in SCREAMING_SNAKE_CASE already is changed by that rule (C78_screaming_refuted)"
  },
  {
   "property": "C79",
   "status": "partial",
   "theorems": [
    "C79_encodes",
    "C79_document_partial",
    "C79_roundtrip_partial",
    "C79_settles",
    "C79_read_write_read_partial",
    "C79_float_refuted",
    "C79_infinity_refuted",
    "C79_minus_zero_refuted"
   ],
   "note": "Floating point numbers: a whole one is read back as an integer (C79_float_refuted: 1.0), infinities are written as a word that is not JSON (C79_infinity_refuted); -0 becomes an unsigned zero on the second trip (C79_minus_zero_refuted). Finite floating point numbers are covered by C79_document_partial only."
  },
  {
   "property": "C80",
   "status": "partial",
   "theorems": [
    "C80_lists_partial",
    "C80_safe_partial",
    "C80_no_leak_partial",
    "C80_destructors_partial",
    "C80_elements_partial",
    "C80_reserved_partial",
    "C80_fails_partial",
    "C80_amortised_partial",
    "C80_zst_refuted",
    "C80_length_refuted"
   ],
   "note": "Elements of size zero are missing: those with destructors are destroyed when they are pushed or boxed, and again later (C80_zst_refuted). 64-bit targets."
  },
  {
   "property": "C81",
   "status": "proved",
   "theorems": [
    "C81_wire_entries",
    "C81_wire_missing",
    "C81_desc_entries",
    "C81_desc_missing",
    "C81_order",
    "C81_struct"
   ],
   "note": "wire (leaves the wire format can skip, as in C15) and descriptive; packed structs among the entries as in C14"
  },
  {
   "property": "C82",
   "status": "proved",
   "theorems": [
    "C82_texts",
    "C82_safe",
    "C82_no_leak",
    "C82_fails",
    "C82_order",
    "C82_equal"
   ],
   "note": "64-bit targets; the position that FromUtf8Error reports is not modelled"
  },
  {
   "property": "C83",
   "status": "proved",
   "theorems": [
    "C83_lists",
    "C83_safe",
    "C83_destructors",
    "C83_refusing",
    "C83_refusing_refuted",
    "C83_zero_sized",
    "C83_zero_sized_refuted"
   ],
   "note": "64-bit targets; elements of size zero with destructors are destroyed twice (C83_zero_sized_refuted), as over System (C80); asking for room for nothing fails over Disabled (C83_refusing_refuted), so the comparison with System is for programs that do not"
  },
  {
   "property": "C84",
   "status": "proved",
   "theorems": [
    "C84_elements",
    "C84_storage",
    "C84_value_refuted",
    "C84_zero_sized"
   ],
   "note": "64-bit targets; vectors over System (the growth of the standard library's Vec is not modelled); sequences of dynamic values allocate what the message announces (C84_value_refuted); initial room of hash sets, maps and heaps is the same cautious function"
  },
  {
   "property": "C85",
   "status": "proved",
   "theorems": [
    "C85_array",
    "C85_packed_array"
   ],
   "note": "the decoder of the elements is any sequence of elements and errors; panics inside an element's decoder or destructor are not modelled"
  }
 ]
}