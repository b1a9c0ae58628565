{"id": "C01", "title": "Variable-length integers round-trip", "statement": "Writing any unsigned integer of width 8/16/32/64/128 with the variable integer encoding and reading it back at the same width yields the same integer, consumes exactly the bytes written and leaves whatever follows untouched.", "quantifier": "every width, every value of that width, every byte sequence following it", "why_tests_cant": "2^128 values and arbitrary following input; only group-boundary samples can be tested", "anchors": ["crates/musli/src/int/continuation.rs: encode, decode", "crates/musli/src/int/encoding.rs: encode_unsigned, decode_unsigned"]}
{"id": "C02", "title": "Zigzag signed integers round-trip and stay small", "statement": "Signed integers mapped to unsigned for the wire come back unchanged at every width, the mapping is a bijection between the signed and unsigned range, and an integer of magnitude m maps to at most 2m (so small magnitudes stay short).", "quantifier": "every width and every signed value", "why_tests_cant": "all values of five widths", "anchors": ["crates/musli/src/int/zigzag.rs: encode, decode", "crates/musli/src/int/encoding.rs: encode_signed, decode_signed"]}
{"id": "C03", "title": "Fixed-width integers round-trip in either byte order", "statement": "With fixed integers, an integer of width w always takes exactly w/8 bytes, reads back to itself for the same byte order, and big-endian output is the reverse of little-endian output.", "quantifier": "every width, value, byte order and trailing input", "why_tests_cant": "all values and orders", "anchors": ["crates/musli/src/int/encoding.rs: encode_unsigned, decode_unsigned", "crates/musli/src/reader.rs: read_array"]}
{"id": "C04", "title": "Length encoding never truncates silently", "statement": "Encoding a length with a configured length width either round-trips to the same length or fails with an error; it never writes bytes that decode to a different length.", "quantifier": "every usize and every length-width option and byte order", "why_tests_cant": "lengths beyond the fixed width (2^32 and more) cannot be allocated in tests", "anchors": ["crates/musli/src/int/encoding.rs: encode_usize, decode_usize"]}
{"id": "C05", "title": "Format options are independent", "statement": "Each option builder changes only its own setting: after any sequence of builder calls, each getter returns the most recently set value for that setting (or the default), and the native-fixed fast path is reported exactly when every relevant setting is native fixed.", "quantifier": "every sequence of builder calls", "why_tests_cant": "unbounded sequences of option calls over a bitfield", "anchors": ["crates/musli/src/options.rs: OptionsBuilder, integer, float, byteorder, length, map_keys, is_native_fixed"]}
{"id": "C06", "title": "Varint decoding of untrusted input is bounded and rejects bad input", "statement": "Decoding an arbitrary byte string as a variable integer always terminates, never panics, reads at most ceil(BITS/7) bytes, returns an in-range value, and reports an error on input that ends early; an encoding whose value does not fit the target width is rejected.", "quantifier": "every byte string and every width", "why_tests_cant": "adversarial inputs are unbounded", "anchors": ["crates/musli/src/int/continuation.rs: decode"]}
{"id": "C07", "title": "Readers deliver exactly the input, in order", "statement": "Whatever sequence of read, skip, peek and limit operations is applied to a slice reader, the bytes delivered are consecutive bytes of the input, an operation that would run past the end (or past the limit) fails without delivering anything, and a limited reader can never consume more than its limit.", "quantifier": "every input, every sequence of operations", "why_tests_cant": "unbounded operation histories", "anchors": ["crates/musli/src/reader.rs: Reader, SliceReader, Limit"]}
{"id": "C08", "title": "Writers emit exactly what was written", "statement": "For any sequence of writes, a growable writer holds their concatenation; a fixed-capacity writer either holds the concatenation or reports an error, never overruns its buffer and never loses an earlier write that succeeded.", "quantifier": "every sequence of writes and every capacity", "why_tests_cant": "unbounded histories", "anchors": ["crates/musli/src/writer.rs", "crates/musli/src/fixed.rs: FixedBytes", "crates/musli/src/wire/en.rs", "crates/musli/src/writer/slice_mut_writer.rs"]}
{"id": "C09", "title": "Storage format round-trips every value", "statement": "For every supported type, every value of it and every option setting, decoding what the storage format encoded yields the value and consumes exactly the encoding.", "quantifier": "all types in the model universe (nested arbitrarily), all values, all options, all trailing input", "why_tests_cant": "types nest without bound and values are infinite", "anchors": ["crates/musli/src/storage/en.rs", "crates/musli/src/storage/de.rs", "crates/musli-core/src/impls/*"]}
{"id": "C10", "title": "Storage encodings are self-delimiting", "statement": "No strict prefix of a storage encoding decodes successfully: a truncated message is always reported as an error rather than a different value.", "quantifier": "every type, value, option setting and truncation point", "why_tests_cant": "every truncation of infinitely many messages", "anchors": ["crates/musli/src/storage/de.rs", "crates/musli/src/reader.rs"]}
{"id": "C11", "title": "Storage encodings are unambiguous", "statement": "Two different values of a type never have the same storage encoding, nor is one encoding a strict prefix of the other, so concatenated messages can be split again.", "quantifier": "every pair of values", "why_tests_cant": "pairs of infinitely many values", "anchors": ["crates/musli/src/storage/en.rs", "crates/musli/src/storage/de.rs"]}
{"id": "C12", "title": "Storage decoding of hostile input is safe", "statement": "Decoding an arbitrary byte string at any type terminates with a value of that type or an error, never panics, and consumes a prefix of the input.", "quantifier": "every type and every byte string", "why_tests_cant": "adversarial inputs", "anchors": ["crates/musli/src/storage/de.rs"]}
{"id": "C13", "title": "Packed format round-trips and stays positional", "statement": "The packed format round-trips every value including optional trailing fields: an optional value at the very end of the input takes no bytes when absent and is decoded as absent when the input ends.", "quantifier": "every type/value for which options occur only in final position", "why_tests_cant": "infinite values; the position condition is structural", "anchors": ["crates/musli/src/packed/*", "crates/musli/src/storage/en.rs: PACK", "crates/musli/src/storage/de.rs: PACK"]}
{"id": "C14", "title": "Wire format round-trips every value", "statement": "For every supported type, value and option setting, decoding what the wire format encoded yields the value and consumes exactly the encoding.", "quantifier": "all types, values, options, trailing input", "why_tests_cant": "infinite", "anchors": ["crates/musli/src/wire/en.rs", "crates/musli/src/wire/de.rs", "crates/musli/src/wire/int.rs", "crates/musli/src/wire/tag.rs"]}
{"id": "C15", "title": "Wire values can be skipped without knowing their type", "statement": "Skipping a wire-encoded value consumes exactly the bytes of that value, whatever its type.", "quantifier": "all types and values, all trailing input", "why_tests_cant": "infinite", "anchors": ["crates/musli/src/wire/de.rs: skip_any"]}
{"id": "C16", "title": "Wire format is upgrade stable", "statement": "A struct written with extra fields the reader does not know decodes to the known fields unchanged, and a struct written without a field the reader has a default for decodes with that default; fields can come in any order.", "quantifier": "every set of known/unknown fields, their values and order", "why_tests_cant": "all schema pairs and orders", "anchors": ["crates/musli/src/wire/de.rs", "crates/musli-core/src/de/*", "crates/musli-macros/src/de.rs"]}
{"id": "C17", "title": "Wire tags are unambiguous", "statement": "Every kind and embedded data value packs to one byte and unpacks to the same kind and data; a length encoded next to a tag reads back as the same length.", "quantifier": "all tags, all lengths", "why_tests_cant": "lengths range over all of usize", "anchors": ["crates/musli/src/wire/tag.rs", "crates/musli/src/wire/en.rs: encode_prefix"]}
{"id": "C18", "title": "Descriptive format round-trips every value", "statement": "For every supported type and value, decoding what the descriptive format encoded yields the value and consumes exactly the encoding.", "quantifier": "all types, values, trailing input", "why_tests_cant": "infinite", "anchors": ["crates/musli/src/descriptive/en.rs", "crates/musli/src/descriptive/de.rs", "crates/musli/src/descriptive/integer_encoding.rs"]}
{"id": "C19", "title": "Descriptive values can be skipped without knowing their type", "statement": "Skipping a descriptive-encoded value consumes exactly its bytes, whatever its type.", "quantifier": "all types and values", "why_tests_cant": "infinite", "anchors": ["crates/musli/src/descriptive/de.rs: skip_any"]}
{"id": "C20", "title": "Descriptive format is upgrade stable", "statement": "Unknown fields are skipped and missing fields with defaults are filled in, for every schema pair.", "quantifier": "all schema pairs", "why_tests_cant": "infinite", "anchors": ["crates/musli/src/descriptive/de.rs", "crates/musli-macros/src/de.rs"]}
{"id": "C21", "title": "Descriptive numbers convert across widths exactly when they fit", "statement": "An integer encoded at one width or signedness decodes at another width or signedness to the same mathematical integer if it is in range there, and otherwise is an error.", "quantifier": "all pairs of integer types and all values", "why_tests_cant": "width pairs times values", "anchors": ["crates/musli/src/descriptive/integer_encoding.rs", "crates/musli/src/descriptive/de.rs"]}
{"id": "C22", "title": "JSON strings round-trip", "statement": "Every string, whatever characters it contains, is escaped by the JSON encoder into text that the JSON decoder turns back into the same string, and the text contains no unescaped quote, backslash or control character.", "quantifier": "every Unicode string", "why_tests_cant": "infinite strings; escapes interact", "anchors": ["crates/musli/src/json/en/mod.rs: encode_string", "crates/musli/src/json/parser/string.rs"]}
{"id": "C23", "title": "JSON integers round-trip", "statement": "Every integer of every width printed in JSON is parsed back to itself; malformed or out-of-range numbers are rejected with an error.", "quantifier": "every integer of every width; every digit string", "why_tests_cant": "2^128 values, adversarial digit strings", "anchors": ["crates/musli/src/json/parser/integer.rs", "crates/musli/src/json/en/mod.rs"]}
{"id": "C24", "title": "JSON documents round-trip", "statement": "Every value of a JSON-representable type decodes back from its JSON text, leaving the following text untouched.", "quantifier": "all types and values", "why_tests_cant": "infinite", "anchors": ["crates/musli/src/json/en/*", "crates/musli/src/json/de/*"]}
{"id": "C25", "title": "JSON values can be skipped", "statement": "Skipping over a JSON value emitted by the encoder consumes exactly that value.", "quantifier": "all types and values", "why_tests_cant": "infinite", "anchors": ["crates/musli/src/json/parser/parser.rs: skip_value"]}
{"id": "C26", "title": "JSON arrays decode at exactly their length", "statement": "Decoding a JSON array of numbers into a fixed-size array succeeds exactly when there are exactly that many elements, otherwise it is an error (never a panic).", "quantifier": "all array lengths and inputs", "why_tests_cant": "unbounded", "anchors": ["crates/musli/src/json/de/mod.rs: decode_array"]}
{"id": "C27", "title": "Live allocations from the slice allocator never overlap", "statement": "Any two live vectors obtained from the slice allocator occupy disjoint parts of the backing buffer, inside the buffer, after any history of allocate, grow, extend, merge and drop.", "quantifier": "every history of operations and every buffer size", "why_tests_cant": "histories are unbounded; corruption needs a particular order", "anchors": ["crates/musli/src/alloc/slice.rs"]}
{"id": "C28", "title": "Slice-allocated vectors behave like lists", "statement": "The contents of each live vector after any sequence of operations equals what the same operations give on ordinary lists, unless an operation reported failure; a failed operation changes nothing.", "quantifier": "every history", "why_tests_cant": "unbounded histories", "anchors": ["crates/musli/src/alloc/slice.rs", "crates/musli-core/src/alloc/vec.rs"]}
{"id": "C29", "title": "Derived length prefixes match what is written", "statement": "For every derived struct and enum, the number of entries announced before a map equals the number of entries written, for every choice of skipped fields.", "quantifier": "every type shape, tagging mode and value", "why_tests_cant": "subset of skipped fields and shapes", "anchors": ["crates/musli-macros/src/en.rs"]}
{"id": "C30", "title": "Zero-copy endianness conversion is lossless", "statement": "Storing a value for a chosen byte order and loading it for the same order gives the value; converting twice is the identity.", "quantifier": "all values, widths, orders", "why_tests_cant": "all values", "anchors": ["crates/musli-zerocopy/src/endian/*"]}
{"id": "C31", "title": "Zero-copy stores are aligned and padded", "statement": "Every value stored in a zero-copy buffer begins at a multiple of its alignment, padding is the least possible and zero filled, and earlier contents are unchanged.", "quantifier": "every store history and alignment", "why_tests_cant": "unbounded histories", "anchors": ["crates/musli-zerocopy/src/buf/owned_buf.rs", "crates/musli-zerocopy/src/buf/mod.rs: padding_to"]}
{"id": "C32", "title": "Zero-copy references load what was stored and reject bad ones", "statement": "Loading through a reference returned by a store yields the stored bytes; a reference that is out of bounds or misaligned is rejected with an error whatever its contents.", "quantifier": "every store history, every reference value", "why_tests_cant": "adversarial references", "anchors": ["crates/musli-zerocopy/src/buf/buf.rs", "crates/musli-zerocopy/src/pointer/ref.rs"]}
{"id": "C33", "title": "Zero-copy validation admits only valid bit patterns", "statement": "Loading bytes as bool, char, non-zero integer, UTF-8 string or composite succeeds exactly when every component is a valid pattern.", "quantifier": "every byte string", "why_tests_cant": "adversarial bytes", "anchors": ["crates/musli-zerocopy/src/buf/validator.rs", "crates/musli-zerocopy/src/traits.rs"]}
{"id": "C34", "title": "Swiss map lookups find exactly what was stored", "statement": "For any set of entries with distinct keys stored in a swiss map, a lookup finds a key's value if and only if that key was stored; the reported length is the number of entries.", "quantifier": "every list of entries, every hash function", "why_tests_cant": "collisions depend on hash values; unbounded maps", "anchors": ["crates/musli-zerocopy/src/swiss/*"]}
{"id": "C35", "title": "Perfect-hash map lookups find exactly what was stored", "statement": "For any set of entries with distinct keys stored in a perfect-hash map, a lookup finds a key's value if and only if that key was stored.", "quantifier": "every list of entries and every hash", "why_tests_cant": "depends on hash distribution", "anchors": ["crates/musli-zerocopy/src/phf/*"]}
{"id": "C36", "title": "Binary search answers correctly", "statement": "Searching a sorted slice returns the position of a matching element if there is one and otherwise the position where it would be inserted.", "quantifier": "every sorted slice and probe", "why_tests_cant": "unbounded slices", "anchors": ["crates/musli-zerocopy/src/slice/binary_search.rs"]}
{"id": "C37", "title": "Trie lookups find exactly what was stored", "statement": "After inserting any list of (key,value) pairs in a trie, looking up a key returns exactly the values inserted for it, in insertion order.", "quantifier": "every list of insertions", "why_tests_cant": "structure depends on order and shared prefixes", "anchors": ["crates/musli-zerocopy/src/trie/*"]}
{"id": "C38", "title": "Hashing does not depend on chunking", "statement": "The SipHash used by zero-copy maps gives the same result however the input is split into writes.", "quantifier": "every input and every split", "why_tests_cant": "exponentially many splits", "anchors": ["crates/musli-zerocopy/src/sip.rs"]}
{"id": "C39", "title": "Zero-copy slice reference arithmetic is in bounds", "statement": "Splitting, indexing and iterating slice references yields references to exactly the corresponding elements.", "quantifier": "every reference, index, size", "why_tests_cant": "adversarial/overflowing values", "anchors": ["crates/musli-zerocopy/src/pointer/ref.rs"]}
{"id": "C40", "title": "Positional containers reject wrong element counts", "statement": "Decoding a fixed-size array or tuple from a sequence with more or fewer elements than required is an error in every binary format that announces counts.", "quantifier": "all types, counts, contents", "why_tests_cant": "unbounded", "anchors": ["crates/musli-core/src/impls/mod.rs", "crates/musli-core/src/impls/tuples.rs", "crates/musli/src/storage/de.rs"]}
{"id": "C41", "title": "Wire and descriptive decoding of hostile input is safe", "statement": "Decoding an arbitrary byte string at any type with the wire or descriptive format terminates with a value of that type or an error, never panics, and consumes a prefix of the input.", "quantifier": "every type and every byte string", "why_tests_cant": "adversarial inputs", "anchors": ["crates/musli/src/wire/de.rs", "crates/musli/src/descriptive/de.rs"]}
{"id": "C42", "title": "Truncated wire and descriptive messages are errors", "statement": "No strict prefix of a wire or descriptive message decodes successfully, and two messages that agree up to what follows them are the same message of the same value.", "quantifier": "every type, value, option setting and truncation point", "why_tests_cant": "every truncation of infinitely many messages", "anchors": ["crates/musli/src/wire/de.rs", "crates/musli/src/descriptive/de.rs", "crates/musli/src/reader.rs: Limit"]}
{"id": "C43", "title": "Error positions count the bytes consumed", "statement": "After any sequence of reader calls the position that the context reports equals the number of bytes consumed from the input.", "quantifier": "every reader, every history of calls", "why_tests_cant": "unbounded histories, call mixes", "anchors": ["crates/musli/src/reader.rs", "crates/musli/src/context/trace.rs: advance"]}
{"id": "C44", "title": "JSON output is valid UTF-8", "statement": "Whatever value is encoded, the bytes the JSON encoder produces are valid UTF-8 (json::to_string turns them into a String without checking).", "quantifier": "all types and values", "why_tests_cant": "a soundness condition over all values", "anchors": ["crates/musli/src/json/encoding.rs: to_string", "crates/musli/src/json/en/*"]}
{"id": "C45", "title": "JSON output is JSON", "statement": "The text emitted for any value is a document of the RFC 8259 grammar, and the document denotes that value.", "quantifier": "all types and values", "why_tests_cant": "infinite", "anchors": ["crates/musli/src/json/en/*"]}
{"id": "C46", "title": "JSON decoding depends on the document, not on its spelling", "statement": "Any text of a JSON document, with any whitespace, any choice of escapes and any order of object members, decodes to the value that the document denotes for the type.", "quantifier": "all documents, all texts of them, all types", "why_tests_cant": "infinitely many spellings", "anchors": ["crates/musli/src/json/de/*", "crates/musli/src/json/parser/*"]}
{"id": "C47", "title": "JSON decoding is upgrade stable", "statement": "Unknown members of an object are ignored wherever they are and whatever their value; absent fields take their default or are an error; unknown variants are an error.", "quantifier": "all types, documents and positions", "why_tests_cant": "infinite", "anchors": ["crates/musli/src/json/de/object_decoder.rs", "crates/musli/src/json/de/variant_decoder.rs", "crates/musli-macros/src/de.rs"]}
{"id": "C48", "title": "Truncated JSON documents are errors", "statement": "No strict prefix of the text of a value of a delimited type (anything but a bare number) decodes, and what follows a document does not change how it is decoded.", "quantifier": "every type, value and truncation point", "why_tests_cant": "every truncation of infinitely many documents", "anchors": ["crates/musli/src/json/de/*", "crates/musli/src/json/parser/*"]}
{"id": "C49", "title": "Fixed-width storage messages are canonical", "statement": "With fixed-width integers and lengths, a message the storage or packed decoder accepts is byte for byte the message the encoder writes for the decoded value, so no two messages denote the same value; booleans (all formats) and optional values (wire, descriptive) accept only their two markers.", "quantifier": "every type without sets, maps and field-name structs; every byte string", "why_tests_cant": "every malformed message must be rejected", "anchors": ["crates/musli/src/storage/de.rs", "crates/musli/src/wire/de.rs", "crates/musli/src/descriptive/de.rs", "crates/musli/src/int/encoding.rs"]}
{"id": "C50", "title": "Zero-copy stores expose no uninitialised bytes", "statement": "Storing a value, or taking its bytes after initialising its padding, writes every field where the layout puts it and zero in every padding byte; a type not marked as padded has no padding; so the bytes are a function of the value and determine it.", "quantifier": "every repr(C) type layout, every value, whatever the padding held", "why_tests_cant": "layouts are unbounded and padding bytes are nondeterministic", "anchors": ["crates/musli-zerocopy/src/buf/padder.rs", "crates/musli-zerocopy/src/traits.rs: ZeroCopy::PADDED", "crates/musli-macros/src/zero_copy.rs"]}
{"id": "C51", "title": "Zero-copy buffers respect the allocator's contract", "statement": "Whatever history of safe operations is applied to an owned zero-copy buffer, memory is allocated only with non-zero sizes, freed exactly once with the layout it was allocated with, written only inside the allocation, and dropping the buffer leaves nothing allocated.", "quantifier": "every history of stores, reserves, aligns, truncates and clones; every allocator answer", "why_tests_cant": "undefined behaviour appears only for particular histories", "anchors": ["crates/musli-zerocopy/src/buf/owned_buf.rs"]}
{"id": "C52", "title": "Lookups in damaged swiss tables end", "statement": "A lookup in a swiss map ends after finitely many probes whatever the control bytes, entries and bucket mask loaded from the buffer; it reports a value, nothing or an error, never reads outside of the control bytes, and does not panic as long as the mask is small enough for positions not to overflow.", "quantifier": "every content of the control bytes, entries and mask; every hash", "why_tests_cant": "untrusted buffers hold arbitrary bytes", "anchors": ["crates/musli-zerocopy/src/swiss/map.rs: find_inner", "crates/musli-zerocopy/src/swiss/raw/mod.rs: ProbeSeq"]}
{"id": "C53", "title": "Lookups in damaged perfect-hash maps do not panic", "statement": "Looking up a key in a perfect-hash map whose seed, entries and displacements were loaded from an untrusted buffer ends, never panics and only ever reports a value stored next to a key equal to the requested one.", "quantifier": "every seed, entries, displacements, key and hash", "why_tests_cant": "damaged contents are not enumerable", "anchors": ["crates/musli-zerocopy/src/phf/map.rs", "crates/musli-zerocopy/src/phf/hashing.rs"]}
{"id": "C54", "title": "Damaged tries cannot hang or crash the reader", "statement": "Looking up a key in a trie loaded from an untrusted buffer, and iterating over it with a stack of fixed capacity, ends whatever the nodes contain, and gives values or errors but never panics or reads outside of the buffer.", "quantifier": "every content of the nodes, keys, prefixes and capacities", "why_tests_cant": "damaged contents, including cycles, are not enumerable", "anchors": ["crates/musli-zerocopy/src/trie/mod.rs", "crates/musli-zerocopy/src/trie/walk.rs"]}
{"id": "C55", "title": "Reserved space is there", "statement": "After reserving room for n more elements in a vector of the slice allocator, and whatever is then done to other vectors, appending up to n elements succeeds; capacity is at least the number of elements that fit.", "quantifier": "every history of calls before and in between, every n", "why_tests_cant": "histories are unbounded", "anchors": ["crates/musli/src/alloc/slice.rs: resize, capacity", "crates/musli-core/src/alloc/vec.rs: reserve"]}
{"id": "C56", "title": "Dynamic values hold everything", "statement": "Encoding any value into musli::value::Value and decoding it at the same type gives back the value.", "quantifier": "every type, every value", "why_tests_cant": "infinitely many types and values", "anchors": ["crates/musli/src/value/en.rs", "crates/musli/src/value/de.rs", "crates/musli/src/value/mod.rs: encode, decode"]}
{"id": "C57", "title": "Decoding from arbitrary dynamic values is safe", "statement": "Decoding any Value, however it was obtained, at any type gives a value of that type or an error and never panics.", "quantifier": "every Value and every type", "why_tests_cant": "values and types are unbounded", "anchors": ["crates/musli/src/value/de.rs"]}
{"id": "C58", "title": "Numbers in dynamic values convert exactly or not at all", "statement": "A number put in a Value as one numeric type decodes at another as the same number, or is an error when the other type does not have it.", "quantifier": "every pair of numeric types, every number", "why_tests_cant": "two types and all their values", "anchors": ["crates/musli/src/value/de.rs: integer_from"]}
{"id": "C59", "title": "Buffering does not change what decodes", "statement": "Decoding a descriptive message through a buffered dynamic value (Decoder::decode_buffer, which derived internally tagged and untagged enums use) gives the same value as decoding it directly and uses up the same bytes; on arbitrary input it gives a value of the type or an error.", "quantifier": "every type and value, every byte string, every option set", "why_tests_cant": "infinitely many types, values and inputs", "anchors": ["crates/musli/src/descriptive/de.rs: decode_buffer, decode_any", "crates/musli/src/value/value.rs: AnyVisitor", "crates/musli/src/value/de.rs"]}
{"id": "C60", "title": "Dynamic values survive the descriptive format", "statement": "Encoding any Value in the descriptive format and decoding a Value gives it back, using exactly its bytes; arbitrary input gives a Value or an error, never a panic; a truncated one is an error.", "quantifier": "every Value, every byte string", "why_tests_cant": "infinitely many values and inputs", "anchors": ["crates/musli/src/descriptive/de.rs: decode_any", "crates/musli/src/value/value.rs: Encode for Value, Decode for Value"]}
{"id": "C61", "title": "A dynamic value is written as what it was made from", "statement": "Encoding a value into a Value and writing that Value in the wire or descriptive format gives the bytes that writing the value directly gives.", "quantifier": "every type, every value, both formats", "why_tests_cant": "infinitely many types and values", "anchors": ["crates/musli/src/value/en.rs", "crates/musli/src/value/value.rs: Encode for Value"]}
{"id": "C62", "title": "Internally tagged enums round-trip", "statement": "A value of an enum with #[musli(tag = ..)] is written as a struct with the tag among the fields, decodes back using exactly its bytes, wherever the tag is among the fields; arbitrary input gives a value of the enum or an error.", "quantifier": "every enum with named-field variants, value, tag position, byte string", "why_tests_cant": "infinitely many enums, values and inputs", "anchors": ["crates/musli-macros/src/en.rs: encode_internal_variant", "crates/musli-macros/src/de.rs: decode_internal", "crates/musli/src/descriptive/de.rs: decode_buffer"]}
{"id": "C63", "title": "Adjacently tagged enums round-trip", "statement": "A value of an enum with #[musli(tag = .., content = ..)] decodes back using exactly its bytes in the storage, wire and descriptive formats; other entries around the tag and content are ignored by the upgrade-stable formats; arbitrary input gives a value of the enum or an error.", "quantifier": "every enum, value, set of other entries, option set, byte string", "why_tests_cant": "infinitely many enums, values and inputs", "anchors": ["crates/musli-macros/src/en.rs: encode_adjacent_variant", "crates/musli-macros/src/de.rs: decode_adjacent"]}
{"id": "C64", "title": "Untagged enums decode as the first matching variant", "statement": "Decoding an untagged enum gives the first variant that accepts the input and consumes exactly the bytes of that variant, so that untagged enums can be parts of other values.", "quantifier": "every list of variants, value, byte string", "why_tests_cant": "infinitely many types and inputs", "anchors": ["crates/musli-macros/src/de.rs: decode_untagged_enum", "crates/musli/src/reader.rs: try_clone"]}
{"id": "C65", "title": "Fallback variants catch exactly the unknown", "statement": "Decoding a variant the reader does not know gives its fallback variant (#[musli(default)]) and skips exactly the contents, and is an error without one; known variants decode as they do without a fallback.", "quantifier": "every pair of writer's and reader's variants, every value", "why_tests_cant": "infinitely many types and values", "anchors": ["crates/musli-macros/src/de.rs: decode_enum, decode_variant fallback"]}
{"id": "C66", "title": "Integers in JSON with fractions and exponents are read exactly", "statement": "With the full number parser (feature parse-full), the text of a number with fraction and exponent that is equal to an integer of the type decodes to that integer; text of any other number is an error; no text panics.", "quantifier": "every text of a number, every integer type", "why_tests_cant": "infinitely many texts; overflow in intermediate steps", "anchors": ["crates/musli/src/json/parser/integer.rs: parse_unsigned_full, parse_signed_full, decode_unsigned_full, decode_signed_full"]}
{"id": "C67", "title": "JSON documents decode to the dynamic value they denote", "statement": "Decoding any JSON document as a Value gives the value with the same structure, strings and numbers, integers in the least type that holds them; arbitrary input gives a value or an error and never panics.", "quantifier": "every document, every spelling, every byte string", "why_tests_cant": "infinitely many documents and inputs", "anchors": ["crates/musli/src/json/de/mod.rs: decode_any", "crates/musli/src/json/parser/integer.rs", "crates/musli/src/value/value.rs: AnyVisitor"]}
{"id": "C68", "title": "Buffering a JSON document does not change what decodes", "statement": "Decoding a JSON document through a buffered dynamic value (Decoder::decode_buffer) gives the same value as decoding it directly and uses up the same text; arbitrary input gives a value of the type or an error.", "quantifier": "every type, document, spelling and byte string", "why_tests_cant": "infinitely many types and documents", "anchors": ["crates/musli/src/json/de/mod.rs: decode_buffer", "crates/musli/src/value/de.rs", "crates/musli/src/value/value.rs"]}
{"id": "C69", "title": "Internally tagged enums round-trip in JSON", "statement": "A value of an enum with #[musli(tag = ..)] is written as an object with the tag among the fields and decodes back; any document with the tag in any place decodes to the variant it names with what the object means for it; arbitrary input gives a value of the enum or an error.", "quantifier": "every enum with named-field variants, value, document, byte string", "why_tests_cant": "infinitely many enums, values and documents", "anchors": ["crates/musli-macros/src/en.rs: encode_internal_variant", "crates/musli-macros/src/de.rs: decode_internal", "crates/musli/src/json/de/mod.rs: decode_buffer"]}
{"id": "C70", "title": "Adjacently tagged enums round-trip in JSON", "statement": "A value of an enum with #[musli(tag = .., content = ..)] is written as an object of the tag and the content and decodes back; in any document the other members are ignored wherever they are; arbitrary input gives a value of the enum or an error.", "quantifier": "every enum, value, document, spelling, byte string", "why_tests_cant": "infinitely many enums, values and documents", "anchors": ["crates/musli-macros/src/en.rs: encode_adjacent_variant", "crates/musli-macros/src/de.rs: decode_adjacent", "crates/musli/src/json/de/object_decoder.rs"]}
{"id": "C71", "title": "Untagged enums and fallback variants in JSON", "statement": "Decoding an untagged enum from JSON gives the first variant that accepts the input, ends, and consumes exactly the text of it; a variant the reader does not know is its fallback variant, whatever its contents, and known variants are not affected.", "quantifier": "every list of variants, document, spelling, byte string", "why_tests_cant": "infinitely many types and documents; termination", "anchors": ["crates/musli-macros/src/de.rs: decode_untagged_enum, decode_variant fallback", "crates/musli/src/json/parser/slice_parser.rs: try_clone", "crates/musli/src/json/parser/mut_slice_parser.rs: try_clone", "crates/musli/src/json/de/variant_decoder.rs"]}
{"id": "C72", "title": "Decoding a JSON number as a float rounds correctly", "statement": "Decoding any JSON number as f32 or f64 gives the float nearest to the number that the text denotes, ties to even, infinity from half a unit above the largest finite float on, with the sign of the text, and consumes exactly the text; nothing but numbers (also with leading zeros, a plus sign, or digits on one side of the point only) and, at the end of the input, the words inf, infinity and nan is accepted; no input makes it panic.", "quantifier": "every text of any number of digits and any exponent, every byte string, both formats", "why_tests_cant": "the inputs on which the three algorithms disagree or round wrongly are rare and infinitely many: texts of hundreds of digits next to midpoints, 2^64 mantissas times 650 powers of ten", "anchors": ["crates/musli/src/dec2flt/mod.rs: dec2flt, biased_fp_to_float, negate_float", "crates/musli/src/dec2flt/parse.rs", "crates/musli/src/dec2flt/number.rs: try_fast_path", "crates/musli/src/dec2flt/lemire.rs: compute_float, compute_product_approx", "crates/musli/src/dec2flt/slow.rs: parse_long_mantissa", "crates/musli/src/dec2flt/decimal.rs: Decimal", "crates/musli/src/dec2flt/table.rs: POWER_OF_FIVE_128", "crates/musli/src/json/parser/slice_parser.rs: parse_f32, parse_f64"]}
{"id": "C73", "title": "A float written with enough digits is decoded as itself", "statement": "A text of a finite positive float with 9 (f32) or 17 (f64) significant digits, rounded to nearest at the last digit, or any text whose number rounds to the float, is decoded as exactly this float, and with a minus sign as its negation; exponents under 655360 in absolute value or at most 65000 digits.", "quantifier": "every finite float, every such text", "why_tests_cant": "2^64 floats and infinitely many texts", "anchors": ["crates/musli/src/dec2flt/mod.rs: dec2flt", "crates/musli/src/json/parser/slice_parser.rs: parse_f32, parse_f64"]}
{"id": "C74", "title": "Serde types are written like the compatible M\u00fcsli type and read back", "statement": "A value of a type that implements serde's traits is written through the serde bridge byte for byte like the M\u00fcsli type documented as compatible writes it (string names, externally tagged enums, optional fields default to None), in the wire, descriptive, JSON and, unless native memory layouts are selected, storage formats; it is read back, followed by anything; on arbitrary input deserializing is an error or gives what the compatible M\u00fcsli type decodes, consuming the same bytes (structs without fields excepted in self-describing formats); every JSON document that denotes a value and repeats no member is read as this value.", "quantifier": "every serde type built from units, scalars, strings, bytes, options, newtypes, sequences, sets, tuples, maps, structs with defaults and skipped fields and enums with all kinds of variants, every value, every options, every input", "why_tests_cant": "two code paths (derive of M\u00fcsli and of serde) have to agree on every type and every hostile input", "anchors": ["crates/musli/src/serde/mod.rs: encode, decode", "crates/musli/src/serde/ser.rs: Serializer", "crates/musli/src/serde/de.rs: Deserializer, SequenceAccess, StructAccess, SeqAccess, MapAccess, EnumAccess"]}
{"id": "C75", "title": "A tracing context reports where errors happened", "statement": "After any history of calls a context with tracing holds exactly the errors reported since the last clear, in order, with the positions at which they were reported, the captured error is the last message, and the path is what was entered and not left; when memory runs out the outermost steps and the number of the missing ones are shown; the text of a path determines it; what a report shows does not change while it is kept; nothing panics while none is kept.", "quantifier": "every history of calls of the context, every pattern of failing allocations, with and without types in paths", "why_tests_cant": "infinitely many histories and patterns of allocation failures", "anchors": ["crates/musli/src/context/trace.rs: WithTraceImpl, FormatPath, Error, Report", "crates/musli/src/context/access.rs: Access", "crates/musli/src/context/capture.rs: Capture", "crates/musli/src/context/default_context.rs: DefaultContext"]}
{"id": "C76", "title": "The path of a failed decode leads to the part that could not be decoded", "statement": "Decoding with a tracing context gives the same result as without; after success the path of the context is what it was before; after a failure it continues, from what it was before, with the fields, variants and set elements that lead to the one part of the value that could not be decoded although none of its own parts failed.", "quantifier": "every type without packed structs, every byte string, every format built from maps, sequences and variants, every state of the context before", "why_tests_cant": "infinitely many types and inputs; every point at which an error can occur", "anchors": ["crates/musli-macros/src/de.rs: decode_struct, decode_enum, decode_untagged_enum", "crates/musli-core/src/impls/alloc.rs: decode of sets, maps and vectors", "crates/musli/src/context/trace.rs: enter_named_field, enter_variant, enter_sequence_index, leave_*", "crates/musli/src/context/default_context.rs: DefaultContext"]}
{"id": "C77", "title": "Addresses, ranges, results, C strings and strings of the operating system", "statement": "Network addresses, ranges, Result, C strings and OsString/Path of the standard library, encoded and decoded, come back unchanged with the rest of the input unread; bytes are accepted as a C string exactly if their last byte, and no other, is nul; a string of one operating system is an error on another.", "quantifier": "every value, every contained type, every set of options, wire, descriptive and storage", "why_tests_cant": "unboundedly many values and types; the encoder and decoder call different methods", "anchors": ["crates/musli-core/src/impls/net.rs: Ipv4Addr, Ipv6Addr, IpAddr, SocketAddrV4, SocketAddrV6, SocketAddr", "crates/musli-core/src/impls/range.rs: Range, RangeFull, RangeFrom, RangeTo, RangeInclusive", "crates/musli-core/src/impls/mod.rs: Result, CStr", "crates/musli-core/src/impls/alloc.rs: CString, OsStr, OsString, Path, PathBuf"]}
{"id": "C78", "title": "Rename rules of the derives", "statement": "A rename rule (name_all) takes every identifier apart into words, in the only possible way, and writes them in its style; different conventional identifiers get different names under every rule, so the names of the fields of a struct or the variants of an enum are distinct; renaming to a style that keeps the words and then to another one is renaming to that one.", "quantifier": "every identifier, every rule, every notion of uppercase and lowercase (injectivity: ASCII identifiers following the language's conventions)", "why_tests_cant": "there are infinitely many identifiers; the tests of the crate try four of them", "anchors": ["crates/musli-macros/src/internals/name.rs: NameAll::apply, NameAll::parse", "crates/musli-macros/src/expander.rs: expand_name"]}
{"id": "C79", "title": "Dynamic values in JSON", "statement": "Writing a dynamic Value as JSON succeeds exactly when all keys of its maps and variants are strings or integers. What is written is a JSON document that stands for the value. Read back, whatever whitespace precedes it, a value without floating point numbers is what remains of it in JSON: integers get the least type that holds them, characters become strings, byte strings sequences, variants maps with one entry, options what they hold or unit, integer keys strings. That is written as the same text again, so nothing more is lost on the second trip. A document of integers without -0, read, written and read once more, is the same value.", "quantifier": "every value (of any nesting), every document, spacing and text after it, with and without overflow checks", "why_tests_cant": "There are infinitely many values, of every nesting, and the claim relates two trips through the encoder and the decoder.", "anchors": ["crates/musli/src/value/value.rs: Encode for Value, Encode for Number, AnyVisitor", "crates/musli/src/json/en/mod.rs: JsonEncoder", "crates/musli/src/json/en/object_key_encoder.rs: JsonObjectKeyEncoder", "crates/musli/src/json/en/variant_encoder.rs: JsonVariantEncoder", "crates/musli/src/json/de/mod.rs: decode_any"]}
{"id": "C80", "title": "Vectors and boxes over the system's memory", "statement": "Programs that use the vectors and boxes of the allocator System see lists, whatever requests for memory are refused: each call replies as on lists, or reports failure and leaves the elements. No call is undefined behaviour; every element with a destructor is destroyed once or handed back, never both; when all vectors and boxes are gone so is all memory. A call fails only if its one request was refused or would be too large; reserved space is there; pushing n elements takes at most 2 + log2 n requests.", "quantifier": "every history of calls on any number of vectors and boxes, of element types of every size (but zero) and alignment, with and without destructors, every pattern of refused requests, with and without overflow checks", "why_tests_cant": "unboundedly many histories and patterns of refused requests; use after free and double drops need not be noticed by a test", "anchors": ["crates/musli-core/src/alloc/vec.rs: Vec", "crates/musli-core/src/alloc/boxed.rs: Box", "crates/musli-core/src/alloc/system.rs: System, SystemAlloc"]}
{"id": "C81", "title": "Struct entries in any order, repeated", "statement": "In the wire and descriptive formats a struct can be read from any sequence of entries, such as a hand-written encoder or a map writes: in any order, with unknown names among them, and with several entries for the same field. Each field has the value of the last entry for it, or its default if there is none; without an entry and a default it is an error. The entries that a struct's own encoder writes are such a sequence. The order of entries for different fields makes no difference.", "quantifier": "every sequence of entries (names and values of any type), every struct type to read it with, every option set, everything that follows the message", "why_tests_cant": "unboundedly many sequences of entries: permutations, repetitions and unknown names at every place; the tests read what the same struct wrote", "anchors": ["crates/musli-macros/src/de.rs: decode_tagged", "crates/musli/src/wire/de.rs: decode_map, skip", "crates/musli/src/descriptive/de.rs: decode_map, skip"]}
{"id": "C82", "title": "Strings over the system's memory", "statement": "Programs that use the allocator-aware String with the allocator System see lists of characters, whatever requests for memory are refused: a character or string is added entirely or not at all; conversions to and from bytes and the strings of the standard library keep the text, from_utf8 fails exactly on bytes that encode no characters, collect_string gives what was written or fails and keeps nothing. The bytes that are taken for a str without a check are always valid UTF-8. When all strings are gone so is all memory. Strings compare as their characters do.", "quantifier": "every history of calls on any number of strings and byte vectors, every text, every pattern of refused requests, with and without overflow checks", "why_tests_cant": "unboundedly many histories and patterns of refused requests; invalid UTF-8 in a str is undefined behaviour that a test need not notice", "anchors": ["crates/musli-core/src/alloc/string.rs: String, collect_string", "crates/musli-core/src/alloc/vec.rs: Vec", "crates/musli-core/src/alloc/system.rs: SystemAlloc"]}
{"id": "C83", "title": "Vectors and boxes over the disabled allocator", "statement": "Over the allocator Disabled each call that may need memory fails: making a box or a vector with a capacity, reserving, pushing and extending. Vectors whose elements take room stay empty without capacity, what is handed to a failing call is destroyed exactly once, in order, and the dangling pointer is never read or written. A program that never asks for room for nothing cannot tell Disabled from a System whose requests are all refused. Vectors of elements of size zero need no memory and hold up to usize::MAX of them, which the standard library takes over.", "quantifier": "every history of calls on any number of vectors and boxes, of element types of every size and alignment, with and without destructors, with and without overflow checks", "why_tests_cant": "unboundedly many histories; reading a dangling pointer or a double drop need not be noticed by a test, and the claim compares two allocators", "anchors": ["crates/musli-core/src/alloc/disabled.rs: Disabled, EmptyBuf", "crates/musli-core/src/alloc/vec.rs: Vec", "crates/musli-core/src/alloc/boxed.rs: Box"]}
{"id": "C84", "title": "Memory for decoded vectors", "statement": "Decoding a vector of typed elements (not of dynamic values) never takes memory out of proportion to what has been decoded, whatever length the message announces. One element after the other: after k elements no more is allocated than 1 MiB or twice what k elements take. Elements as in memory (storage): when k bytes are read, no more is allocated than twice as much and 256 KiB (or two elements). The vector has the elements that were decoded; if decoding fails, all memory is given back, and there is an error of the decoder, too few bytes, a refused request, or more was needed than a block can have.", "quantifier": "every announced length, every sequence of elements and errors of the decoder, every bytes, every size and alignment of elements, every pattern of refused requests, with and without overflow checks", "why_tests_cant": "The announced length is up to 2^64 - 1 and the claim is about each moment of every run, also those that fail; a test that allocates too much is not noticed unless memory runs out.", "anchors": ["crates/musli-core/src/de/utils.rs: default_decode_slice", "crates/musli-core/src/internal/size_hint.rs: cautious", "crates/musli/src/storage/de.rs: decode_slice", "crates/musli/src/value/value.rs: visit_sequence", "crates/musli-core/src/alloc/vec.rs: Vec"]}
{"id": "C85", "title": "Elements of decoded arrays", "statement": "Decoding an array [T; N] succeeds exactly when the decoder gives N elements and no error, and the array has these elements. Otherwise every element that was decoded, up to the first error or the first for which there is no room, is destroyed exactly once. A packed array takes the first N elements and leaves the rest. Memory that is not initialised is never taken for an element, and nothing panics.", "quantifier": "every length of arrays, every sequence of elements and errors of the decoder, elements with and without destructors", "why_tests_cant": "unboundedly many lengths and places where decoding can fail; a double drop, a leak or reading uninitialised memory need not be noticed by a test", "anchors": ["crates/musli-core/src/internal/fixed.rs: FixedVec", "crates/musli-core/src/impls/mod.rs: Decode for [T; N], DecodePacked for [T; N]"]}
