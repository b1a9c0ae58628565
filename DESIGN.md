# A Rocq model of udoprog/musli

Everything is in `rocq/theories` (logical name `Verif`).

* Model files (`Int.v`, `Storage.v`, `Alloc.v`, ...) contain definitions only, each with a comment
  citing the file and lines of /repo it models and saying where it simplifies.
* `*Spec.v` files contain the small independent vocabulary in which properties are stated.
* `*Facts.v` and the other files hold lemmas.
* `Props*.v` files contain the property theorems, named `Cnn_...`, each followed by
  `Print Assumptions`, and `Example`s showing that the hypotheses are met by concrete cases.
  * `Cnn_..._partial`: only part of the property; what is missing is said in the
    comment and in MANIFEST.json.
  * `Cnn_..._refuted`: the property is false of the code; a closed witness is exhibited by running the model.

## Conventions of the model

* Bytes are `N` below 256 (predicate `bytes_ok`), byte strings `list N`.
* A Rust `Result` is `res A := Ok a | Err | Panic`. `Err` is any error reported to
  the context (which error is not modelled); `Panic` is a Rust panic (overflow in a checked build, index out
  of bounds, `assert!`). Where the behaviour depends on overflow checks, the model takes a flag.
* A reader over a slice is the list of remaining bytes; a decoder is
  `list N -> res (A * list N)`. A writer that cannot fail is the list of bytes
  it produced; an encoder that can fail is `res (list N)`. `IO.v` models the concrete readers and writers
  and C07/C08 justify this abstraction.
* Loops driven by a number read from the input are modelled by iteration on the
  binary number that stops at the first error, so they are total and still run.
  Other unbounded loops take fuel, and a theorem says that the fuel given suffices, or the property quantifies over all fuel.
* Integers that wrap, overflow or are masked in the code are reduced `mod 2^BITS`
  explicitly in the model. Pointer width and byte order of the target are parameters (`plat`).
* Types that implement `Encode`/`Decode`, including derived ones, are elements of a universe `ty`
  (`Types.v`), values are elements of `val`; theorems about formats are by induction on `ty`.
* Zero-copy types are elements of a universe `zty` (`Zc.v`) with Rust's layout algorithm for `#[repr(C)]`.
* Allocators, buffers and vectors are state machines; theorems quantify over all histories of calls.

## Per property

`P`: proved as stated in properties.jsonl. `p`: partial, either because the model or the
proof leaves something out or because the code violates the property in part; what is missing is
in the note of MANIFEST.json, and where the code is at fault there is a theorem ending in `_refuted`.

| id | title | model | how it is proved | |
|----|-------|-------|------------------|-|
| C01 | Variable-length integers round-trip | `Int.v` | induction on 7-bit groups | P |
| C02 | Zigzag signed integers round-trip and stay small | `Int.v` | arithmetic on two's complement | P |
| C03 | Fixed-width integers round-trip in either byte order | `Int.v` | induction on byte count | P |
| C04 | Length encoding never truncates silently | `Int.v` | case analysis on width, C01, C03 | P |
| C05 | Format options are independent | `Options.v`: the u32 bitfield | bit lemmas, induction over builder calls | p |
| C06 | Varint decoding of untrusted input is bounded and rejects bad input | `Int.v` | exact description of the decoder by induction on input | p |
| C07 | Readers deliver exactly the input, in order | `IO.v`: readers as state machines | refinement to take/drop, induction over histories | P |
| C08 | Writers emit exactly what was written | `IO.v`: writers as state machines | refinement to append, induction over histories | P |
| C09 | Storage format round-trips every value | `Types.v`, `Storage.v` | induction on types | p |
| C10 | Storage encodings are self-delimiting | `Storage.v` | prefix stability by induction on types | p |
| C11 | Storage encodings are unambiguous | `Storage.v` | from C09 | P |
| C12 | Storage decoding of hostile input is safe | `Storage.v` | induction on types: suffix of the input, value of the type, no panic | P |
| C13 | Packed format round-trips and stays positional | `Storage.v` with PACK | induction on types and on fields | p |
| C14 | Wire format round-trips every value | `Fmt.v`, `Wire.v` | induction on types for a format given by leaf encoders | p |
| C15 | Wire values can be skipped without knowing their type | `Wire.v` | loop invariant of the skip counter | p |
| C16 | Wire format is upgrade stable | `Fmt.v`, `FmtEvolve.v` | induction on a relation between two types | p |
| C17 | Wire tags are unambiguous | `Wire.v` | bit arithmetic | P |
| C18 | Descriptive format round-trips every value | `Fmt.v`, `Desc.v` | as C14 | p |
| C19 | Descriptive values can be skipped without knowing their type | `Desc.v` | as C15 | P |
| C20 | Descriptive format is upgrade stable | `Desc.v` | as C16 | p |
| C21 | Descriptive numbers convert across widths exactly when they fit | `Desc.v` | case analysis on widths | p |
| C22 | JSON strings round-trip | `Json*.v`: strings | induction on characters and escapes | P |
| C23 | JSON integers round-trip | `Json*.v`: integers | induction on digits | p |
| C24 | JSON documents round-trip | `JsonEnc.v`, `JsonDec.v` | induction on types | p |
| C25 | JSON values can be skipped | `JsonDec.v`: skip | induction on the grammar of documents (`JsonSpec.v`) | P |
| C26 | JSON arrays decode at exactly their length | `JsonDec.v` | induction on elements | p |
| C27 | Live allocations from the slice allocator never overlap | `Alloc.v`: header table, regions, vectors | invariant over histories; refutation witnesses | p |
| C28 | Slice-allocated vectors behave like lists | `Alloc.v` | simulation by lists over histories; refutation witnesses | p |
| C29 | Derived length prefixes match what is written | `Derive.v`: calls made by derived encoders | mutual induction on values and bodies | p |
| C30 | Zero-copy endianness conversion is lossless | `Zc.v` | induction on types | P |
| C31 | Zero-copy stores are aligned and padded | `ZcBuf.v` | invariant over histories | P |
| C32 | Zero-copy references load what was stored and reject bad ones | `ZcBuf.v`, `Zc.v` | invariant over histories | p |
| C33 | Zero-copy validation admits only valid bit patterns | `Zc.v` | induction on types | p |
| C34 | Swiss map lookups find exactly what was stored | `Swiss.v` | probe sequence covers the table; invariant over insertions | p |
| C35 | Perfect-hash map lookups find exactly what was stored | `Phf.v` | soundness from key comparison; exact for small maps; witnesses | p |
| C36 | Binary search answers correctly | `Zc.v`, ... | loop invariant | p |
| C37 | Trie lookups find exactly what was stored | `Trie.v` | invariant over insertions; witnesses | p |
| C38 | Hashing does not depend on chunking | `Sip.v` | refinement to the one-shot hash | P |
| C39 | Zero-copy slice reference arithmetic is in bounds | `ZcRef*.v` | arithmetic | p |
| C40 | Positional containers reject wrong element counts | formats | case analysis | p |
| C41 | Wire and descriptive decoding of hostile input is safe | `Fmt.v` | induction on types | p |
| C42 | Truncated wire and descriptive messages are errors | `Fmt.v` | from stability under appended bytes | p |
| C43 | Error positions count the bytes consumed | `IO.v` | induction over histories | p |
| C44 | JSON output is valid UTF-8 | `JsonEnc.v` | induction on types | P |
| C45 | JSON output is JSON | `JsonEnc.v`, grammar in `JsonSpec.v` | induction on types | p |
| C46 | JSON decoding depends on the document, not on its spelling | `JsonDec.v` | induction on types over spellings of a document | p |
| C47 | JSON decoding is upgrade stable | `JsonDec.v` | as C16 | P |
| C48 | Truncated JSON documents are errors | `JsonDec.v` | stability under appended bytes | P |
| C49 | Fixed-width storage messages are canonical | `Storage.v` | induction on types | p |
| C50 | Zero-copy stores expose no uninitialised bytes | `Zc.v` | induction on types | p |
| C51 | Zero-copy buffers respect the allocator's contract | `ZcBuf.v` | invariant over histories | p |
| C52 | Lookups in damaged swiss tables end | `Swiss.v` | probe positions repeat after the table is covered | p |
| C53 | Lookups in damaged perfect-hash maps do not panic | `Phf.v` | case analysis | p |
| C54 | Damaged tries cannot hang or crash the reader | `Trie.v` | measure on the stack; witnesses | p |
| C55 | Reserved space is there | `Alloc.v` | from the invariant of C27 | p |
| C56 | Dynamic values hold everything | `Value.v` | induction on types; witnesses for what is lost | p |
| C57 | Decoding from arbitrary dynamic values is safe | `Value.v` | induction on types | P |
| C58 | Numbers in dynamic values convert exactly or not at all | `Value.v` | case analysis | p |
| C59 | Buffering does not change what decodes | `Any.v`, `Value.v`, `Desc.v` | induction on types: every encoding is the encoding of a dynamic value that reads back | p |
| C60 | Dynamic values survive the descriptive format | `Any.v` | induction on values; stability under appended bytes | p |
| C61 | A dynamic value is written as what it was made from | `Any.v`, `Value.v`, `Wire.v`, `Desc.v` | induction on types, shared with C59 | p |
| C62 | Internally tagged enums round-trip | `Tagged.v`, `Any.v` | reduction to the struct with the tag as a field, then to decoding of dynamic values | p |
| C63 | Adjacently tagged enums round-trip | `Tagged.v` over the three formats | the loop over entries as an iteration; round trips of the parts from C09, C14, C18; skipping from C15, C19 | p |
| C64 | Untagged enums decode as the first matching variant | `Tagged.v` | induction on the list of variants; a counterexample for nested values | p |
| C65 | Fallback variants catch exactly the unknown | `Tagged.v` | skipping (C15, C19) for unknown variants, round trip for known ones | p |
| C66 | Integers in JSON with fractions and exponents are read exactly | `JsonNum.v` | specification of decimal text with exact rational value in `JsonNumSpec.v`; case analysis on fraction and exponent, induction on digits | p |
| C67 | JSON documents decode to the dynamic value they denote | `JsonAny.v` | mutual induction on documents and their spellings; safety by induction on fuel | p |
| C68 | Buffering a JSON document does not change what decodes | `JsonAny.v`, `Value.v` | induction on types: the dynamic value of a document reads back as what the document means | p |
| C69 | Internally tagged enums round-trip in JSON | `JsonAny.v`, `Tagged.v` | as C62, from C68 | p |
| C70 | Adjacently tagged enums round-trip in JSON | `JsonTagged.v` | induction on the members before the content, over spellings; safety by induction on fuel | p |
| C71 | Untagged enums and fallback variants in JSON | `JsonTagged.v`, `Tagged.v` | as C64 and C65; a counterexample that needs every number of steps | p |
| C72 | Decoding a JSON number as a float rounds correctly | `Dec2flt.v`, `Dec2fltTable.v`: dec2flt, all of it | each algorithm is shown to give the rounding of a rational number: the fast path by exactness of its operands, Eisel-Lemire by error bounds on the truncated 128-bit powers, the decimal one by a simulation of the digit buffer with rational numbers; uniqueness of rounding joins them | p |
| C73 | A float written with enough digits is decoded as itself | as C72 | gaps between floats against powers of ten; uniqueness of rounding | P |
| C74 | Serde types are written like the compatible Müsli type and read back | `Serde.v`: the bridge as two functions on serde types, `shape`: the compatible type | induction on serde types: equality of the encoders, round trip from the formats' laws, the decoder is below the Müsli decoder in the order where an error is least | P |
| C75 | A tracing context reports where errors happened | `Ctx.v`: the context's state and each of its methods, with the answers of the allocator as an argument; the text of paths and reports | induction on histories; the path is a prefix of the true path and the counter the length of the rest; injectivity of the text by cases on its next byte | p |
| C76 | The path of a failed decode leads to the part that could not be decoded | `Trace.v`: the decoder of `Fmt.v` with the calls it makes on the context | induction on types with a logic for traced computations: calls of successful computations cancel, those of a failed one leave the steps to the failing part; the failing part is unique because rounds of loops are deterministic | p |
| C77 | Addresses, ranges, results, C strings and strings of the operating system | `Std.v`: what is written, what is read, the conversions | from the round trips of the formats, by comparing what is written with what is read | p |
| C78 | Rename rules of the derives | `Names.v`: the loop of NameAll::apply, expand_name | induction on a relation between an identifier and its words | P |
| C79 | Dynamic values in JSON | `JsonValue.v`, `JsonAny.v`, `JsonValueSpec.v` | induction on values; the grammar of JSON with the lemmas for typed encoding; unique decimal texts | p |
| C80 | Vectors and boxes over the system's memory | `System.v`, `SystemSpec.v` | invariant (each live vector owns one block, with its layout and its elements; each block has one owner) kept by every call; permutations for the destructors | p |
| C81 | Struct entries in any order, repeated | `EntriesSpec.v` | induction on the entries, over the loop of the generated decoder; skipping from C15, reading from C16 | P |
| C82 | Strings over the system's memory | `SysString.v`, `SysStringSpec.v` | simulation of C80's vectors by lists of characters; UTF-8 lemmas | P |
| C83 | Vectors and boxes over the disabled allocator | `Disabled.v`, `DisabledSpec.v` | simulation by lists that stay empty; simulation of System without memory | P |
| C84 | Memory for decoded vectors | `Prealloc.v`, `System.v` | invariant: one block, of the vector's capacity, which is bounded by what has been decoded; C80's lemmas for each call | P |
| C85 | Elements of decoded arrays | `FixedVec.v`, `FixedVecSpec.v` | invariant: the first cells hold the elements; induction on what the decoder gives | P |

## What is modelled and what is not

| part of /repo | modelled in | not modelled |
|---------------|-------------|--------------|
| crates/musli/src/options.rs, int/*, storage/*, packed | `Options.v`, `Int.v`, `Storage.v` | error payloads |
| crates/musli/src/wire/*, descriptive/* | `Fmt.v`, `Wire.v`, `Desc.v`, `Any.v` (`decode_any`, `decode_buffer`) | room reserved for announced lengths in `decode_any` |
| crates/musli/src/value/* | `Value.v`, `Any.v` | failure of the allocator that holds the value, `type_hint.rs` |
| crates/musli/src/json/* | `Json.v`, `JsonNum.v` (full numbers), `JsonAny.v` (`decode_any`, `decode_buffer`, internally tagged enums), `JsonValue.v` (writing a `Value`), `JsonTagged.v` (other taggings, fallback variants), `Dec2flt.v`, `Dec2fltTable.v` (crates/musli/src/dec2flt: reading floats; the hardware's multiplication and division are correct rounding by definition; in `JsonAny.v` the float of a dynamic value is a parameter), `NumText.v` (the decimal text that the external crates itoa and ryu write; for ryu the documented result, the shortest text that reads back, not the algorithm) | what is left in the buffer after an error |
| crates/musli/src/serde/* | `Serde.v` (with serde's own implementations and derived code as documented) | `deserialize_any`, `collect_str`, sequences of unknown length |
| crates/musli/src/context/* | `Ctx.v` (the context itself), `Trace.v` (the calls that decoding makes, wire and descriptive formats) | `ErrorMarker`, `Ignore`, `Emit` (no state); calls made by encoding; steps of `with_type`, JSON |
| crates/musli/src/reader.rs, writer.rs, fixed.rs | `IO.v` | adapters over `std::io::Write`; visitors that fail inside `read_bytes` |
| crates/musli-core/src/impls/* | `Types.v` and the format models; `FixedVec.v` (destructors of elements of arrays); `Std.v` (net.rs, range.rs, `Result`, `CStr`, `OsStr`, `Path`) | `&'de [u8]`, addresses in mode Text, floats' numeric value, `SystemTime` and other std types that are thin wrappers |
| crates/musli-macros/src/{en,de}.rs | the `TStruct`/`TPack`/`TEnum`/`TTag` cases of the formats; `Derive.v` for length hints of all taggings; `Tagged.v` for internally, adjacently and untagged enums and fallback variants ; `Names.v` for rename rules (internals/name.rs, expander.rs) | generic bounds, attribute parsing |
| crates/musli/src/alloc/slice.rs, musli-core/src/alloc/* | `Alloc.v`, `System.v`, `SysString.v`, `Disabled.v`, `Prealloc.v` | destructors of elements over the slice allocator, `from_raw_parts`, `set_len`, strings over the slice and disabled allocators, histories continued after a caught panic, atomics |
| crates/musli-zerocopy/src/{buf,pointer,endian,traits,slice,...} | `Zc.v`, `ZcBuf.v`, ... | lifetimes, actual pointers, `stack_buf`, strings' UTF-8 check beyond `Utf8.v` |
| crates/musli-zerocopy/src/{swiss,phf,trie,sip}.rs | `Swiss.v`, `Phf.v`, `Trie.v`, `Sip.v` | the 32-bit ARM bitmask variant; the random number generator of phf (its stream of seeds is an argument) |

Memory safety is stated in terms of byte ranges: the model says which bytes are read and
written and which conditions `unsafe` blocks rely on, but it has no pointers,
provenance or aliasing rules.

## Trusted base

* Coq 8.16.1's kernel, including its `vm_compute` machine, used for closed examples and witnesses.
* The reading of the Rust source recorded in the comments of each definition, and the
  understanding of Rust semantics behind it: evaluation order, integer arithmetic, the layout of
  `#[repr(C)]`, `#[repr(transparent)]` and `#[repr(packed)]` types, the documented behaviour of `Vec`, slices, `BTreeMap`,
  `core::str::from_utf8`, `char::from_u32`, the contract of the global allocator (`alloc`, `realloc`, `dealloc`) and of
  `Vec::from_raw_parts`.
* The seeds in `phf_seeds` (first values of `SmallRng::seed_from_u64(1234567890)`): used only in
  two refutation witnesses.
* Coq's standard library, and no other library. No axioms of our own, no admitted proof, no functor or module type, no kernel flag changed.

### Print Assumptions

Every theorem named in MANIFEST.json (458 at the time of writing) is followed by
`Print Assumptions` in its file, and every one answers `Closed under the global context`: no
axiom, of the standard library or otherwise, is used by any of them.

vcheck lists seven axioms of `Coq.ssr.ssrunder` as library axioms. They are declarations of the
standard library's ssreflect support that get loaded together with `zify`/`lia`; no theorem depends on them, as
`Print Assumptions` shows.
