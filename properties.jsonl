{"id": "C01", "title": "SliceWriter behaves as a bounded append-only log", "statement": "After any history of write / write_byte / write_str / clear calls on a SliceWriter made with new(buf), as_ref() equals the concatenation of the successfully written chunks since the last clear, a call succeeds exactly when the chunk fits in the remaining capacity, len()+rem_capacity() == capacity() == buf.len() always holds, no call panics, a failed call changes neither len nor a single byte of the buffer, and bytes beyond the written region keep their previous content.", "quantifier": "every buffer (any length, any content) and every finite sequence of operations with arbitrary chunks", "why_tests_cant": "unbounded histories and chunk sizes; a test fixes one buffer and one sequence", "anchors": ["src/lib.rs:SliceWriter::new", "src/lib.rs:SliceWriter::write", "src/lib.rs:SliceWriter::clear", "src/lib.rs:SliceWriter::as_ref", "src/lib.rs:SliceWriter::rem_capacity"]}
{"id": "C02", "title": "SliceWriter::split separates the populated prefix from a fresh writer over the rest", "statement": "split() returns exactly the populated bytes and an empty writer whose buffer is exactly the rest; writing through the new writer can never change the returned head, and across any chain of write/split steps the returned heads laid end to end followed by the last buffer make up a buffer of the original length.", "quantifier": "every reachable SliceWriter state and every sequence of writes and splits", "why_tests_cant": "aliasing between head and tail must be excluded for every split point and every later write", "anchors": ["src/lib.rs:SliceWriter::split", "src/lib.rs:SliceWriter::write"]}
{"id": "C03", "title": "Foreign fixed-capacity and growable writers honour the SerWrite contract all-or-nothing", "statement": "For Vec<u8>, VecDeque<u8>, ArrayVec, heapless Vec/VecView, SmallVec, tinyvec ArrayVec/SliceVec/TinyVec: write(buf) returning Ok appends exactly buf, returning Err(BufferFull) leaves the content unchanged, bounded containers succeed exactly when the bytes fit, and write_byte(b)/write_str(s) act as write on the same bytes. The growable containers (Vec, VecDeque, SmallVec, TinyVec) ask the allocator at most once per operation, only when the capacity is exceeded and for exactly the bytes needed, succeed exactly when it grants them, and never reach an infallible allocation: an out-of-memory condition is always reported as BufferFull, never an abort.", "quantifier": "every container state, capacity, allocator behaviour and chunk", "why_tests_cant": "must hold at every fill level and for every allocation outcome", "anchors": ["src/foreign.rs:impl SerWrite for Vec<u8>", "src/foreign.rs:impl SerWrite for VecDeque<u8>", "src/foreign.rs:impl SerWrite for arrayvec::ArrayVec", "src/foreign.rs:impl SerWrite for heapless::Vec", "src/foreign.rs:implement_tinyvec_write", "src/foreign.rs:impl SerWrite for smallvec::SmallVec"]}
{"id": "C04", "title": "io::Cursor writer: success writes everything, failure may leave a partial write", "statement": "For a Cursor over a fixed-size buffer, write(buf) returning Ok stores exactly buf at the cursor and advances it by buf.len(); when it returns Err(BufferFull) the bytes that did fit HAVE been stored and the position advanced (so, unlike every other provided writer, a failed write is not all-or-nothing).", "quantifier": "every buffer, cursor position and chunk", "why_tests_cant": "needs every position including positions beyond the end of the buffer", "anchors": ["src/foreign.rs:impl SerWrite for Cursor<T>"]}
{"id": "C05", "title": "Serialized bytes do not depend on the writer", "statement": "For every value and every SerWrite implementation that appends on success (in whatever chunking), to_writer*/Serializer returning Ok leaves the writer with its old content followed by exactly the bytes to_vec*/to_string* produce for that value; if serialization fails for a reason other than the writer, it fails with the same error for every writer.", "quantifier": "every sequence of Serializer calls a Serialize impl can make, every lawful writer and writer state, all three MessagePack and all four JSON serializers", "why_tests_cant": "quantifies over all writers and all Serialize implementations", "anchors": ["ser-write-msgpack/src/ser.rs:to_writer", "ser-write-msgpack/src/ser.rs:to_writer_compact", "ser-write-msgpack/src/ser.rs:to_writer_named", "ser-write-json/src/ser.rs:to_writer_with_encoder", "src/lib.rs:SerWrite"]}
{"id": "C06", "title": "A writer error stops serialization and is reported, leaving only a prefix of the output", "statement": "If the writer fails, the serializer returns an error (Error::Writer carrying the writer's own error, or FormatError for a failure inside a Display-formatted string) - never Ok - and what reached the writer is a prefix of the bytes the same value produces on an unbounded writer.", "quantifier": "every value, every lawful writer, every failure point", "why_tests_cant": "the failure may happen at any of the unboundedly many write calls", "anchors": ["ser-write-msgpack/src/ser.rs:implement_serializer", "ser-write-json/src/ser.rs:impl ser::Serializer for &'a mut Serializer", "ser-write-json/src/ser.rs:StringCollector"]}
{"id": "C07", "title": "Serialization into a bounded buffer succeeds exactly when the output fits", "statement": "Serializing a value that serializes to n bytes into a SliceWriter (or any bounded all-or-nothing writer) with r bytes of remaining capacity returns Ok iff n <= r.", "quantifier": "every serializable value and every buffer size and fill level", "why_tests_cant": "boundary must be exact for every value shape", "anchors": ["src/lib.rs:SliceWriter::write", "ser-write-msgpack/src/ser.rs:to_writer", "ser-write-json/src/ser.rs:to_writer"]}
{"id": "C08", "title": "MessagePack output is always one well-formed message denoting the documented value", "statement": "Whenever to_writer/to_writer_compact/to_writer_named return Ok, the output is exactly one well-formed message of the MessagePack specification, and the value it encodes is the one documented in the crate's table (struct as array / index-keyed map / name-keyed map, variants as index or name, Some(T) and newtypes transparent, etc.). The bytes are determined by the calls alone: which of two equally short integer formats is used depends only on whether the type is signed, and the output is byte for byte the one specified.", "quantifier": "every call tree of a Serialize impl with keys and values alternating, strings valid UTF-8, numbers in range, for the three serializers", "why_tests_cant": "unbounded nesting, lengths across all header boundaries", "anchors": ["ser-write-msgpack/src/ser.rs:implement_serializer", "ser-write-msgpack/src/ser.rs:write_str_len", "ser-write-msgpack/src/ser.rs:write_array_len", "ser-write-msgpack/src/ser.rs:write_map_len", "ser-write-msgpack/src/ser.rs:SerializeStructArray", "ser-write-msgpack/src/ser.rs:SerializeStructIntMap", "ser-write-msgpack/src/ser.rs:SerializeStructStrMap", "ser-write-msgpack/src/lib.rs:doc table"]}
{"id": "C09", "title": "MessagePack output is the shortest possible encoding", "statement": "No well-formed MessagePack encoding of the same value is shorter than the serializer's output (integers, string/bin/array/map headers all use the smallest representation).", "quantifier": "every value and every alternative encoding of it", "why_tests_cant": "requires comparing with all alternative encodings of all values", "anchors": ["ser-write-msgpack/src/ser.rs:serialize_i8", "ser-write-msgpack/src/ser.rs:serialize_i16", "ser-write-msgpack/src/ser.rs:serialize_i32", "ser-write-msgpack/src/ser.rs:serialize_i64", "ser-write-msgpack/src/ser.rs:serialize_u64", "ser-write-msgpack/src/ser.rs:write_u32", "ser-write-msgpack/src/ser.rs:write_str_len", "ser-write-msgpack/src/ser.rs:serialize_bytes"]}
{"id": "C10", "title": "MessagePack integer encoding depends only on the number, not on its Rust type", "statement": "Serializing the same number as any of i8..i64,u8..u64 that can hold it yields identical bytes, except that non-negative numbers whose top bit would fit either a signed or unsigned format of equal size may use either; in all cases the bytes decode to that number.", "quantifier": "every 64-bit number and every pair of integer types able to hold it", "why_tests_cant": "2^64 values times type pairs", "anchors": ["ser-write-msgpack/src/ser.rs:serialize_i16", "ser-write-msgpack/src/ser.rs:serialize_i32", "ser-write-msgpack/src/ser.rs:serialize_i64", "ser-write-msgpack/src/ser.rs:serialize_u16", "ser-write-msgpack/src/ser.rs:serialize_u64"]}
{"id": "C11", "title": "Declared and actual element counts must agree", "statement": "The MessagePack serializers return Ok for a sequence, tuple, map or struct only if the number of elements/keys/fields actually serialized equals the declared length; an unknown length gives SeqLength/MapLength; too few or too many items give SeqLength/MapLength, so a header never lies about the number of following items.", "quantifier": "every declared length and every actual item list", "why_tests_cant": "unbounded lengths, all nesting depths", "anchors": ["ser-write-msgpack/src/ser.rs:SerializeSeqMap", "ser-write-msgpack/src/ser.rs:serialize_seq", "ser-write-msgpack/src/ser.rs:serialize_map"]}
{"id": "C12", "title": "Skipped struct fields never shift the remaining fields", "statement": "With the compact serializer, if serialization of a struct succeeds then all skipped fields come after all serialized fields (otherwise FieldSkipped), so array position i is always field i; with the index-map serializer key k is always attached to the k-th declared field whatever subset is skipped; with the named serializer each name is attached to its own value.", "quantifier": "every struct, every subset of skipped fields", "why_tests_cant": "2^n skip patterns for every n", "anchors": ["ser-write-msgpack/src/ser.rs:SerializeStructArray::skip_field", "ser-write-msgpack/src/ser.rs:SerializeStructIntMap::serialize_field", "ser-write-msgpack/src/ser.rs:SerializeStructIntMap::skip_field", "ser-write-msgpack/src/ser.rs:SerializeStructStrMap"]}
{"id": "C13", "title": "collect_str without alloc produces the same bytes as serialize_str", "statement": "In builds without std/alloc, collect_str(value) for a Display that prints the same text on both passes outputs exactly what serialize_str of that text outputs, however the text is split into write_str pieces; if the second pass prints more than the first an error is returned.", "quantifier": "every text, every way of splitting it, both formatting passes", "why_tests_cant": "all chunkings of all strings", "anchors": ["ser-write-msgpack/src/ser.rs:collect_str", "ser-write-msgpack/src/ser.rs:StringLenCounter", "ser-write-msgpack/src/ser.rs:StringCollector"]}
{"id": "C14", "title": "collect_str without alloc is not protected against a shrinking Display", "statement": "A Display implementation printing fewer bytes on the second pass makes the no-alloc MessagePack collect_str return Ok after emitting a string header that promises more bytes than follow, i.e. a malformed message is reported as success.", "quantifier": "existence of a Display with two different outputs", "why_tests_cant": "tests never use an inconsistent Display", "anchors": ["ser-write-msgpack/src/ser.rs:collect_str", "ser-write-msgpack/src/ser.rs:StringCollector"]}
{"id": "C15", "title": "eat_message consumes exactly one message", "statement": "On every 32-bit or larger target, if the unparsed input starts with a well-formed MessagePack message (including ext types) then eat_message returns Ok and advances the cursor exactly past it, whatever follows.", "quantifier": "every well-formed message and every tail", "why_tests_cant": "unbounded nesting and sizes", "anchors": ["ser-write-msgpack/src/de.rs:Deserializer::eat_message", "ser-write-msgpack/src/de.rs:eat_seq_items", "ser-write-msgpack/src/de.rs:eat_map_items"]}
{"id": "C16", "title": "eat_message only accepts well-formed messages", "statement": "On a 64-bit target, for arbitrary bytes, if eat_message returns Ok then the consumed bytes are exactly one structurally well-formed MessagePack message; the cursor never leaves the input and never moves backwards; 0xC1 yields ReservedCode; and the call always terminates without panicking.", "quantifier": "every byte string and cursor position", "why_tests_cant": "all byte strings of all lengths", "anchors": ["ser-write-msgpack/src/de.rs:Deserializer::eat_message"]}
{"id": "C17", "title": "Truncated messages are reported as UnexpectedEof", "statement": "On a 64-bit target, eat_message on any proper prefix of a well-formed message returns Err(UnexpectedEof) - never Ok and never another error - so a stream splitter can wait for more data. On a 32-bit target the same holds for messages that could be in memory (no longer than isize::MAX).", "quantifier": "every well-formed message and every proper prefix of it", "why_tests_cant": "every cut point of every message", "anchors": ["ser-write-msgpack/src/de.rs:Deserializer::eat_message"]}
{"id": "C18", "title": "eat_message length arithmetic on 32-bit targets", "statement": "Desired: on every target, eat_message on arbitrary input never panics and never accepts a malformed message. On 32-bit targets this is false: a bin32/str32/ext32 header with a length close to 2^32 overflows index + len; release builds return Ok and move the cursor backwards, or never return at all (six bytes suffice), builds with overflow checks panic.", "quantifier": "all inputs on 32-bit usize", "why_tests_cant": "tests run on 64-bit hosts and never use lengths near 2^32", "anchors": ["ser-write-msgpack/src/de.rs:Deserializer::eat_message"]}
{"id": "C19", "title": "MessagePack deserialization never panics and never reads outside the input", "statement": "On a 64-bit target, or a 32-bit one built without overflow checks, from_slice::<T> and from_slice_split_tail::<T> never panic for any input and any Deserialize implementation (even one that ignores errors from its accessors); the cursor stays inside the input.", "quantifier": "every input and every Deserialize implementation, modelled as an arbitrary, possibly infinite, interactive program", "why_tests_cant": "quantifies over all T", "anchors": ["ser-write-msgpack/src/de.rs:from_slice", "ser-write-msgpack/src/de.rs:from_slice_split_tail", "ser-write-msgpack/src/de.rs:impl de::Deserializer for &mut Deserializer", "ser-write-msgpack/src/de.rs:CountingAccess"]}
{"id": "C20", "title": "from_slice reports the exact consumed length", "statement": "When from_slice returns Ok((v,n)), n <= input.len() and from_slice_split_tail returns (v, input[n..]); decoding input = m1 ++ m2 ++ rest message by message through the tails yields the messages in order.", "quantifier": "every input and every Deserialize implementation", "why_tests_cant": "all T and inputs", "anchors": ["ser-write-msgpack/src/de.rs:from_slice", "ser-write-msgpack/src/de.rs:from_slice_split_tail", "ser-write-msgpack/src/de.rs:Deserializer::end"]}
{"id": "C21", "title": "MessagePack round trip", "statement": "For every value of every type built from bool, ints, floats, char, str, bytes, unit, Option (of a non-nullable type), newtypes, sequences, tuples, maps, structs and enums, from_slice(to_vec*(v) ++ tail) = Ok((v, encoded length)) for each of the three serializers; NaN payloads and -0.0 are preserved bit for bit.", "quantifier": "every type of the universe, every value of it, every tail, three serializers", "why_tests_cant": "infinitely many types and values", "anchors": ["ser-write-msgpack/src/ser.rs:to_vec", "ser-write-msgpack/src/ser.rs:to_vec_compact", "ser-write-msgpack/src/ser.rs:to_vec_named", "ser-write-msgpack/src/de.rs:from_slice"]}
{"id": "C22", "title": "Any conforming MessagePack encoding is accepted (interoperability)", "statement": "from_slice::<T> returns v for every well-formed encoding of v, not just the one this crate emits: integers in any width/signedness that holds them, strings/bins/arrays/maps with any header size, structs as arrays or as maps keyed by index or name in any order with unknown keys (of any value including ext) skipped and absent Option fields read as None, unit variants by index or name, floats from integers.", "quantifier": "every type, value and every admissible encoding of the value", "why_tests_cant": "unboundedly many foreign encoders", "anchors": ["ser-write-msgpack/src/de.rs:parse_integer", "ser-write-msgpack/src/de.rs:deserialize_struct", "ser-write-msgpack/src/de.rs:deserialize_identifier", "ser-write-msgpack/src/de.rs:deserialize_enum", "ser-write-msgpack/src/de.rs:deserialize_f32"]}
{"id": "C23", "title": "Integer decoding is exact or rejected", "statement": "Deserializing any MessagePack integer into any Rust integer type yields exactly the encoded number if it is in the type's range and Err(InvalidInteger) otherwise; never a truncated number.", "quantifier": "every integer encoding and every target integer type", "why_tests_cant": "all 64-bit patterns times 8 target types", "anchors": ["ser-write-msgpack/src/de.rs:parse_integer"]}
{"id": "C24", "title": "Borrowed strings and byte arrays are in-bounds slices of the input, strings are valid UTF-8", "statement": "Every &str/&[u8] the MessagePack deserializer hands to a visitor is a contiguous range of the original input slice (zero-copy), and every &str is valid UTF-8, for any input.", "quantifier": "every input, every Deserialize implementation, every borrowed item", "why_tests_cant": "all T and inputs", "anchors": ["ser-write-msgpack/src/de.rs:parse_str", "ser-write-msgpack/src/de.rs:parse_bytes", "ser-write-msgpack/src/de.rs:split_input"]}
{"id": "C25", "title": "Truncated encodings never decode", "statement": "For every type of the universe without deserialize_any and every value, from_slice::<T> on any proper prefix of an encoding of the value returns Err(UnexpectedEof).", "quantifier": "every type, value, admissible encoding and cut point", "why_tests_cant": "all cut points of all encodings", "anchors": ["ser-write-msgpack/src/de.rs:fetch", "ser-write-msgpack/src/de.rs:fetch_array", "ser-write-msgpack/src/de.rs:split_input"]}
{"id": "C26", "title": "Surplus array or map elements are rejected", "statement": "If T's visitor stops before all announced elements of an array or map are read, deserialization fails with TrailingElements instead of leaving the cursor in the middle of the container; e.g. any tuple/array type fed a longer array. In JSON, where nothing is announced, a visitor that stops early must have stopped just before the closing bracket: anything else there is ExpectedObjectEnd or ExpectedArrayEnd, and the end of the input UnexpectedEof.", "quantifier": "every Deserialize implementation and input", "why_tests_cant": "all T", "anchors": ["ser-write-msgpack/src/de.rs:deserialize_seq", "ser-write-msgpack/src/de.rs:deserialize_map", "ser-write-msgpack/src/de.rs:deserialize_struct", "ser-write-msgpack/src/de.rs:CountingAccess"]}
{"id": "C27", "title": "Self-describing decoding of MessagePack preserves the value", "statement": "deserialize_any on any well-formed message without ext types produces the value the message denotes (null, bool, exact integer, float bits, string, bytes, array, map), and fails with UnsupportedExt / ReservedCode otherwise. Conversely, whatever self-describing decoding returns is the value of a well-formed message at the front of the input, so it decides exactly which inputs have one.", "quantifier": "every well-formed message", "why_tests_cant": "unbounded nesting", "anchors": ["ser-write-msgpack/src/de.rs:deserialize_any"]}
{"id": "C28", "title": "Base64 encoding conforms to RFC 4648 without padding", "statement": "base64::encode writes exactly the standard-alphabet Base64 text of the input with no padding and returns the number of '=' characters (0..2) that would complete it.", "quantifier": "every byte string", "why_tests_cant": "all lengths and contents", "anchors": ["ser-write-json/src/base64.rs:encode", "ser-write-json/src/base64.rs:ALPHABET"]}
{"id": "C29", "title": "Base64 in-place decoding inverts encoding and respects its documented bounds", "statement": "base64::decode on enc(bytes) ++ rest, where rest does not start with an alphabet character, returns (bytes.len(), enc.len()), leaves bytes at the front of the slice, leaves everything from the first non-alphabet character on untouched, and for arbitrary slices decoded_len <= encoded_len <= slice.len() with encoded_len the length of the longest alphabet prefix; it never panics nor writes out of bounds.", "quantifier": "every slice", "why_tests_cant": "all slices", "anchors": ["ser-write-json/src/base64.rs:decode", "ser-write-json/src/base64.rs:handle_tail", "ser-write-json/src/base64.rs:decode_cell"]}
{"id": "C30", "title": "Base64 length arithmetic on small-usize targets", "statement": "Desired: decode's returned encoded_len is right for every slice a target allows. dcount * 4 overflows usize when more than usize::MAX/4 bytes are decoded, which is reachable on 16- and 32-bit targets for slices longer than 1/3 of the address space; below that bound it is right on every target.", "quantifier": "every slice length up to isize::MAX on 16-, 32- and 64-bit usize", "why_tests_cant": "no test allocates gigabytes on a 32-bit target", "anchors": ["ser-write-json/src/base64.rs:decode", "ser-write-json/src/base64.rs:handle_tail"]}
{"id": "C31", "title": "JSON output is always valid JSON denoting the documented value", "statement": "Whenever to_writer / to_writer_hex_bytes / to_writer_base64_bytes return Ok, the output is a valid RFC 8259 JSON text without insignificant whitespace, denoting the value of the crate's table (bytes as array of numbers, hex string or Base64 string).", "quantifier": "every call tree of a Serialize impl with keys and values alternating and valid UTF-8 strings", "why_tests_cant": "unbounded nesting, all strings", "anchors": ["ser-write-json/src/ser.rs:impl ser::Serializer for &'a mut Serializer", "ser-write-json/src/ser.rs:SeqMapSerializer", "ser-write-json/src/ser.rs:ByteEncoder", "ser-write-json/src/lib.rs:doc table"]}
{"id": "C32", "title": "to_string* output is valid UTF-8 (soundness of from_utf8_unchecked)", "statement": "to_string, to_string_hex_bytes and to_string_base64_bytes only ever pass valid UTF-8 to String::from_utf8_unchecked, for any Serialize implementation (even one violating the key/value protocol) using valid Rust strings and chars; to_string_pass_bytes returns Ok only if the output is valid UTF-8.", "quantifier": "every call tree, every string and byte content", "why_tests_cant": "undefined behaviour for a single bad input; all inputs must be covered", "anchors": ["ser-write-json/src/ser.rs:to_string", "ser-write-json/src/ser.rs:to_string_hex_bytes", "ser-write-json/src/ser.rs:to_string_base64_bytes", "ser-write-json/src/ser.rs:to_string_pass_bytes", "ser-write-json/src/ser.rs:format_escaped_str_contents"]}
{"id": "C33", "title": "JSON string escaping is correct and invertible", "statement": "The serialized form of any string contains no raw control character, quote or backslash outside escape sequences, is a valid JSON string literal denoting exactly that string, and decoding it in place with parse_str_content returns the same string.", "quantifier": "every string", "why_tests_cant": "all strings", "anchors": ["ser-write-json/src/ser.rs:format_escaped_str_contents", "ser-write-json/src/ser.rs:ESCAPE", "ser-write-json/src/de.rs:parse_str_bytes_content"]}
{"id": "C34", "title": "JSON integers are printed canonically and never overflow the scratch buffer", "statement": "serialize_i8..i64/u8..u64 write the canonical decimal representation (no leading zeros, '-' only for negatives) of every value including MIN and MAX without indexing outside the fixed scratch buffer, and parsing it back with the same or any wide enough integer type yields the same number.", "quantifier": "every integer of every width", "why_tests_cant": "2^64 values", "anchors": ["ser-write-json/src/ser.rs:serialize_unsigned", "ser-write-json/src/ser.rs:serialize_signed", "ser-write-json/src/de.rs:parse_unsigned", "ser-write-json/src/de.rs:parse_signed"]}
{"id": "C35", "title": "JSON integer parsing is exact or rejected", "statement": "Deserializing a decimal literal into an integer type yields exactly its value if it is in range and Err(InvalidNumber) if it is out of range, for any number of digits; no wrap-around.", "quantifier": "every digit string and every integer type", "why_tests_cant": "unbounded digit strings", "anchors": ["ser-write-json/src/de.rs:parse_positive_number", "ser-write-json/src/de.rs:parse_negative_number", "ser-write-json/src/de.rs:parse_unsigned", "ser-write-json/src/de.rs:parse_signed"]}
{"id": "C36", "title": "JSON object keys are always strings or the serialization fails", "statement": "Whenever a map is serialized, each key is emitted as a JSON string (integers and bools quoted in their canonical form) or InvalidKeyType is returned for floats, bytes, options, units, sequences, maps, structs and non-unit variants, before any byte of the key is written.", "quantifier": "every key call tree", "why_tests_cant": "all key types", "anchors": ["ser-write-json/src/ser.rs:KeySer", "ser-write-json/src/ser.rs:SerializeMap for SeqMapSerializer"]}
{"id": "C37", "title": "JSON in-place string decoding is correct", "statement": "parse_str_bytes_content/parse_str_content on any valid JSON string literal body whose \\u escapes are not surrogates returns exactly the denoted string, consumes exactly through the closing quote, never writes outside the literal, never panics on any input, and rejects raw control characters, bad escapes and unterminated strings.", "quantifier": "every byte string following the opening quote", "why_tests_cant": "all escape placements; in-place copying at every gap", "anchors": ["ser-write-json/src/de.rs:parse_str_bytes_content", "ser-write-json/src/de.rs:parse_uuuu", "ser-write-json/src/de.rs:UNESCAPE"]}
{"id": "C38", "title": "JSON surrogate-pair escapes are not supported", "statement": "Desired: every RFC 8259 string literal decodes. It is false: a string with a \\uD8xx\\uDCxx surrogate pair (how JSON escapes characters above U+FFFF) is rejected with InvalidUnicodeCodePoint.", "quantifier": "existence of a valid JSON string that is rejected", "why_tests_cant": "a completeness claim over all JSON strings", "anchors": ["ser-write-json/src/de.rs:parse_str_bytes_content"]}
{"id": "C39", "title": "JSON round trip", "statement": "For every value of every type of the universe (map keys: bool, ints, char, str, unit variants), from_mut_slice(to_string(v)) = v, likewise for hex and Base64 byte flavours; with any whitespace around the document. Floats rely only on the float printer/parser being inverse.", "quantifier": "every type, every value, three byte flavours", "why_tests_cant": "infinitely many types and values", "anchors": ["ser-write-json/src/ser.rs:to_string", "ser-write-json/src/ser.rs:to_string_hex_bytes", "ser-write-json/src/ser.rs:to_string_base64_bytes", "ser-write-json/src/de.rs:from_mut_slice", "ser-write-json/src/de.rs:from_mut_slice_hex_bytes", "ser-write-json/src/de.rs:from_mut_slice_base64_bytes"]}
{"id": "C40", "title": "Any RFC 8259 text of a value is accepted (whitespace, escapes, field order, unknown fields)", "statement": "from_mut_slice::<T> returns v for every JSON text denoting v: arbitrary whitespace between tokens, any escaping of strings (without surrogates), struct fields in any order with unknown fields ignored and absent Option fields None, structs also from arrays.", "quantifier": "every type, value and every admissible text", "why_tests_cant": "unboundedly many texts", "anchors": ["ser-write-json/src/de.rs:deserialize_struct", "ser-write-json/src/de.rs:CommaSeparated", "ser-write-json/src/de.rs:deserialize_ignored_any", "ser-write-json/src/de.rs:eat_whitespace"]}
{"id": "C41", "title": "JSON deserialization never panics", "statement": "from_mut_slice* never panic (no out-of-bounds index, no failed unwrap, no arithmetic underflow) for any input bytes and any Deserialize implementation, even one that ignores errors from its accessors.", "quantifier": "every input and every Deserialize implementation, modelled as an arbitrary interactive program", "why_tests_cant": "quantifies over all T and all byte strings", "anchors": ["ser-write-json/src/de.rs:from_mut_slice_with_decoder", "ser-write-json/src/de.rs:impl de::Deserializer for &mut Deserializer", "ser-write-json/src/de.rs:MapKey", "ser-write-json/src/de.rs:split_input"]}
{"id": "C42", "title": "Borrowed slices handed out by the in-place JSON deserializer are stable and disjoint", "statement": "Every &str/&[u8] handed to a visitor lies inside the original buffer, is disjoint from all other handed-out slices and from the still unparsed input, and keeps its content until the end of deserialization: no later in-place decoding can change it; every &str is valid UTF-8.", "quantifier": "every input, every Deserialize implementation, every borrowed slice and every later step", "why_tests_cant": "soundness of unsafe aliasing for all executions", "anchors": ["ser-write-json/src/de.rs:split_input", "ser-write-json/src/de.rs:parse_str_bytes_content", "ser-write-json/src/de.rs:parse_array_bytes_content", "ser-write-json/src/de.rs:parse_hex_bytes_content", "ser-write-json/src/de.rs:parse_base64_bytes_content"]}
{"id": "C43", "title": "Hex strings decode to the bytes they encode", "statement": "serialize_bytes_as_hex_str writes two upper-case hex digits per byte; parse_hex_bytes_content decodes any string of an even number of hex digits (either case) in place to the right bytes, and rejects odd counts, non-hex characters and missing quotes.", "quantifier": "every byte string; every input", "why_tests_cant": "all lengths and contents", "anchors": ["ser-write-json/src/ser.rs:serialize_bytes_as_hex_str", "ser-write-json/src/ser.rs:hex", "ser-write-json/src/de.rs:parse_hex_bytes_content", "ser-write-json/src/de.rs:parse_hex_nib"]}
{"id": "C44", "title": "Skipping a JSON value consumes exactly that value", "statement": "deserialize_ignored_any (IgnoredAny) on any valid JSON value (object keys without surrogate-pair escapes, see C38) followed by anything that cannot extend it returns Ok with the cursor just past the value; eat_str_content ends at the same quote as full string decoding.", "quantifier": "every valid JSON value and continuation", "why_tests_cant": "unbounded nesting, all backslash runs", "anchors": ["ser-write-json/src/de.rs:deserialize_ignored_any", "ser-write-json/src/de.rs:eat_str_content", "ser-write-json/src/de.rs:match_float"]}
{"id": "C45", "title": "Trailing characters after a JSON value are rejected, trailing whitespace is accepted", "statement": "from_mut_slice returns Ok only if everything after the value is JSON whitespace; otherwise TrailingCharacters.", "quantifier": "every input and every Deserialize implementation", "why_tests_cant": "all T and inputs", "anchors": ["ser-write-json/src/de.rs:end", "ser-write-json/src/de.rs:from_mut_slice_with_decoder"]}
{"id": "C46", "title": "JSON punctuation is enforced", "statement": "A sequence or map accepted by the JSON deserializer contains exactly one comma between consecutive elements, none leading or trailing, and one colon after each key: the consumed text of any accepted IgnoredAny document is structurally valid JSON with number tokens over the characters 0-9+-.eE.", "quantifier": "every accepted input", "why_tests_cant": "all inputs", "anchors": ["ser-write-json/src/de.rs:CommaSeparated", "ser-write-json/src/de.rs:deserialize_seq", "ser-write-json/src/de.rs:deserialize_map"]}
{"id": "C47", "title": "Newtype map keys serialize but do not deserialize in JSON", "statement": "Desired: a map whose key type serializes also deserializes. It is false for newtype-struct keys: KeySer makes newtypes transparent while MapKey forwards newtype structs to a plain string, so a map with key type struct Id(u32) serializes to {\"1\":..} and fails to deserialize.", "quantifier": "existence of a supported key type without round trip", "why_tests_cant": "a completeness claim over all key types", "anchors": ["ser-write-json/src/ser.rs:KeySer::serialize_newtype_struct", "ser-write-json/src/de.rs:MapKey forward_to_deserialize_any"]}
{"id": "C48", "title": "Cursor API tolerates positions beyond the end", "statement": "Desired: since eat_some may move the cursor past the end (remaining_len is documented to return 0 there), peek, input_mut/input_ref, split, end and eat_whitespace report UnexpectedEof/an error there instead of panicking. True for the MessagePack Deserializer's public cursor methods; false for JSON eat_whitespace and end, which slice input[index..] and panic.", "quantifier": "every history of public cursor calls", "why_tests_cant": "all histories", "anchors": ["ser-write-json/src/de.rs:eat_whitespace", "ser-write-json/src/de.rs:end", "ser-write-json/src/de.rs:remaining_len", "ser-write-msgpack/src/de.rs:peek", "ser-write-msgpack/src/de.rs:split_input", "ser-write-msgpack/src/de.rs:end"]}
{"id": "C49", "title": "Option<T> of a nullable T is lossy and nothing else is", "statement": "Some(x) and None are distinguished after a round trip exactly when T's encoding of x is not nil/null: Some(None), Some(()) collapse to None in both formats and Some(NaN/inf) collapses to None in JSON, while in MessagePack Some(NaN) survives.", "quantifier": "every option type and value", "why_tests_cant": "a classification over all types", "anchors": ["ser-write-msgpack/src/ser.rs:serialize_some", "ser-write-msgpack/src/de.rs:deserialize_option", "ser-write-json/src/ser.rs:serialize_f64", "ser-write-json/src/de.rs:deserialize_option"]}
{"id": "C50", "title": "Typed MessagePack decoding is sound: it accepts nothing else", "statement": "If from_slice::<T> returns Ok((v, n)) then the first n bytes of the input are an admissible encoding of v as T (right type code for every part, right lengths, each field at most once, unknown fields well-formed); with C22, from_slice accepts exactly the admissible encodings, and no encoding is a proper prefix of another.", "quantifier": "every type of the universe, every input byte string", "why_tests_cant": "tests try a few wrong inputs per type; soundness is about every byte string", "anchors": ["ser-write-msgpack/src/de.rs:deserialize_bool", "ser-write-msgpack/src/de.rs:deserialize_char", "ser-write-msgpack/src/de.rs:deserialize_unit", "ser-write-msgpack/src/de.rs:deserialize_struct", "ser-write-msgpack/src/de.rs:deserialize_enum", "ser-write-msgpack/src/de.rs:CountingAccess"]}
{"id": "C51", "title": "Typed JSON decoding is sound: it accepts nothing but texts of the value", "statement": "If from_mut_slice::<T> (or its hex or base64 variant) returns Ok(v) then the whole input is, up to surrounding whitespace, a JSON text of a document that represents v as T; number tokens may be looser than RFC 8259 only as far as f32/f64::from_str allows and inside skipped values, and whitespace may follow the opening quote of a numeric or boolean key. Together with the converse: accepted inputs are exactly these.", "quantifier": "every type of the universe, every input byte string, every decoder", "why_tests_cant": "tests try a few wrong inputs per type; soundness is about every byte string", "anchors": ["ser-write-json/src/de.rs:CommaSeparated", "ser-write-json/src/de.rs:MapKey", "ser-write-json/src/de.rs:deserialize_enum", "ser-write-json/src/de.rs:deserialize_struct", "ser-write-json/src/de.rs:parse_str_content", "ser-write-json/src/de.rs:end"]}
{"id": "C52", "title": "A self-describing type gets the value of the document", "statement": "Decoding through deserialize_any gives the value the document stands for: null is unit, true/false booleans, strings their contents, arrays sequences and objects maps in order; a number token with '.', 'e' or 'E' becomes a float (of the feature-selected width), any other an integer, unsigned unless it starts with a minus sign, and a range error if it does not fit u64/i64. Nothing else is accepted and every text of such a document is.", "quantifier": "every document, every text of it, every input byte string, both any-f32 settings, every decoder", "why_tests_cant": "dispatch on the first byte and on the number's spelling has unboundedly many inputs; tests have a handful", "anchors": ["ser-write-json/src/de.rs:deserialize_any", "ser-write-json/src/de.rs:parse_float_or_int"]}
{"id": "C53", "title": "Decoding terminates and decides", "statement": "Decoding any input into any type of the universe, into IgnoredAny or into a self-describing type returns: any chain of nested serde calls and loop iterations is at most linear in the number of input bytes plus the size of the type, whatever lengths and counts the input announces; and the answer is either the value the input encodes or an error when it encodes none.", "quantifier": "every type of the universe, every input byte string, both formats, every byte decoder", "why_tests_cant": "an announced count of 2^32-1 or a deep nesting makes hangs input-dependent; termination quantifies over all inputs", "anchors": ["ser-write-msgpack/src/de.rs:CountingAccess", "ser-write-msgpack/src/de.rs:eat_message", "ser-write-msgpack/src/de.rs:deserialize_any", "ser-write-json/src/de.rs:CommaSeparated", "ser-write-json/src/de.rs:deserialize_any", "ser-write-json/src/de.rs:eat_whitespace"]}
{"id": "C54", "title": "MessagePack decoding does not depend on the target", "statement": "from_slice and from_slice_split_tail give the same outcome on every target with 32-bit or wider usize, with or without overflow checks, for every Deserialize implementation that never asks for deserialize_ignored_any, and for every implementation on inputs in which no bin32/str32/ext32 code is followed by a length of 2^31 or more. Types of the universe without structs and the self-describing type never skip; for them decoding decides (C53) on 32-bit targets too.", "quantifier": "every pair of targets, every input, every Deserialize implementation (skipping or not), every struct-free type", "why_tests_cant": "tests run on one target; a difference needs a 32-bit host and lengths near 2^32", "anchors": ["ser-write-msgpack/src/de.rs:eat_message", "ser-write-msgpack/src/de.rs:from_slice", "ser-write-msgpack/src/de.rs:from_slice_split_tail", "ser-write-msgpack/src/de.rs:CountingAccess"]}
{"id": "C55", "title": "Whatever is written can be read by a self-describing type", "statement": "Every output of to_writer/to_writer_compact/to_writer_named (MessagePack) is read by a type that takes whatever deserialize_any finds, to its exact end, as the value of the documented form. The same for JSON to_string with the array, hex or Base64 byte encoding and any surrounding whitespace, with byte strings seen in their encoded form and map keys as strings, as long as the floats in it print as numbers a generic reader takes; a float printed as a whole number of 2^64 or more (1e20, as ryu-js prints it) is written but cannot be read this way.", "quantifier": "every Serialize value (call tree), every flavour and encoder, every float printer, any trailing bytes or whitespace", "why_tests_cant": "composition of two independent components over all values", "anchors": ["ser-write-msgpack/src/ser.rs:Serializer", "ser-write-msgpack/src/de.rs:deserialize_any", "ser-write-json/src/ser.rs:Serializer", "ser-write-json/src/de.rs:deserialize_any"]}
{"id": "C56", "title": "A JSON document cut short is never taken for a value", "statement": "Every text the decoder accepts stands for exactly one document, so two types that both decode an input have read the same document. An array, object, string, boolean or null text (with any leading whitespace) cut anywhere before its last byte is decoded by no type, by no self-describing type and is not skipped by IgnoredAny; in particular the output of a serializer that was cut short by a full buffer or a lost connection. A lone number has no such protection: 12 cut to 1 is decoded.", "quantifier": "every document, every text of it (any whitespace), every cut position, every pair of types, every encoder and decoder", "why_tests_cant": "every cut of every document against every type", "anchors": ["ser-write-json/src/de.rs:CommaSeparated", "ser-write-json/src/de.rs:parse_str_content", "ser-write-json/src/de.rs:end", "ser-write-json/src/de.rs:from_mut_slice", "ser-write-json/src/ser.rs:to_writer"]}
{"id": "C57", "title": "Every MessagePack decoding error names the first fault of the input", "statement": "Decoding into a type ends in one of three ways, told apart by the bytes alone: the input begins with an encoding, which is decoded; it begins with a fault (wrong kind of value, number out of range, text not UTF-8 or not one char, element or field too few or too many, the same field twice, an unusable key, an unknown variant, data where there is none or none where there should be, the reserved code in a skipped value) and the error is the one documented for that fault, whatever bytes follow; or it is a proper beginning of either, and exactly then the error is UnexpectedEof. An input has at most one fault, and none if it begins with an encoding.", "quantifier": "every type of the universe, every input byte string, every position of the fault", "why_tests_cant": "an error kind per fault per position per type: tests sample a few; callers match on the kind (retry on UnexpectedEof, reject otherwise)", "anchors": ["ser-write-msgpack/src/de.rs:Error", "ser-write-msgpack/src/de.rs:deserialize_bool", "ser-write-msgpack/src/de.rs:parse_integer", "ser-write-msgpack/src/de.rs:deserialize_char", "ser-write-msgpack/src/de.rs:CountingAccess", "ser-write-msgpack/src/de.rs:deserialize_struct", "ser-write-msgpack/src/de.rs:deserialize_identifier", "ser-write-msgpack/src/de.rs:deserialize_enum", "ser-write-msgpack/src/de.rs:eat_message"]}
{"id": "C58", "title": "Every JSON decoding error names the first fault of the input", "statement": "Decoding a document into a type either returns the value the text stands for, or an error, and the error is the one documented for the first fault of the text: the end of input (JUnexpectedEof), a misplaced, leading, trailing or missing comma in an array or object, a key that is not a string, a missing colon, a bad escape or control character or code point in a string, a number out of range or misspelled, a broken word (null, true, false), a wrong kind of value, a char that is not one, a tuple too short or too long, a field missing or given twice, an unknown or misused variant, a bad byte string in the chosen decoding, or something left after the value (TrailingCharacters). The same for IgnoredAny. A document has at most one fault, and none if it is the text of a value.", "quantifier": "every type of the universe, every input byte string, every position of the fault, every byte decoder", "why_tests_cant": "an error kind per fault per position per type, with arbitrary whitespace and nesting around it: tests sample a few", "anchors": ["ser-write-json/src/de.rs:Error", "ser-write-json/src/de.rs:CommaSeparated", "ser-write-json/src/de.rs:parse_key_colon", "ser-write-json/src/de.rs:parse_str_content", "ser-write-json/src/de.rs:deserialize_struct", "ser-write-json/src/de.rs:deserialize_enum", "ser-write-json/src/de.rs:deserialize_bytes", "ser-write-json/src/de.rs:eat_whitespace", "ser-write-json/src/de.rs:end"]}
{"id": "C59", "title": "Every error of self-describing decoding names the first fault of the input", "statement": "Decoding into a self-describing type (deserialize_any: a dynamic value) has an outcome told apart by the bytes alone. MessagePack: the input begins with a message that denotes a value, which is returned; or with a fault (the reserved code, an extension, a string not UTF-8, at any depth and after any number of good elements) and the error is the name of that fault whatever follows, even nothing; or it is too short to be either, and exactly then the error is UnexpectedEof. JSON: the document stands for a value, which is returned, or has a fault (a character no value starts with, a broken word, a bad number or string, a comma or colon or key out of place, an early end, something after the value) and the error is its name. An input has at most one fault, and none if it holds a value.", "quantifier": "every input byte string, every nesting and position of the fault", "why_tests_cant": "generic consumers (transcoders, dynamic values) match on the kind of error; tests sample a few faults at shallow depth", "anchors": ["ser-write-msgpack/src/de.rs:deserialize_any", "ser-write-msgpack/src/de.rs:Error", "ser-write-json/src/de.rs:deserialize_any", "ser-write-json/src/de.rs:Error", "ser-write-json/src/de.rs:CommaSeparated", "ser-write-json/src/de.rs:end"]}
{"id": "C60", "title": "How deep the stack gets is decided by the type, except where the input is skipped or self-describing", "statement": "Decoding into a type without structs needs no more nested calls than the type has types in one another, whatever the input. Decoding into any type, or a self-describing one, needs at most one more per input byte. There is no better bound: for every number of calls there is an input about that long (arrays in arrays) that decodes with a bigger stack and overflows this one, for IgnoredAny, for deserialize_any, and for every struct through a field it does not know. The crates have no recursion limit.", "quantifier": "every type of the universe, every input byte string, every stack depth, both formats, every byte decoder", "why_tests_cant": "tests run on a stack of megabytes with shallow inputs; a stack overflow on a microcontroller is silent corruption, on a server a killed process", "anchors": ["ser-write-msgpack/src/de.rs:eat_message", "ser-write-msgpack/src/de.rs:deserialize_ignored_any", "ser-write-msgpack/src/de.rs:deserialize_any", "ser-write-msgpack/src/de.rs:from_slice", "ser-write-json/src/de.rs:deserialize_ignored_any", "ser-write-json/src/de.rs:deserialize_any", "ser-write-json/src/de.rs:from_mut_slice"]}
{"id": "C61", "title": "Size hints are exact in MessagePack, absent in JSON, and never checked against the input", "statement": "A visitor that asks for the size hint at any time gets, in MessagePack, exactly the number of elements (entries) not yet read, zero at the end; in JSON none. The first hint is the number in the header whatever follows it: the claim that it is bounded by the input is false, five bytes can announce 2^32-1 elements.", "quantifier": "every element type and every list of elements or entries, every header, every visitor, every tail", "why_tests_cant": "collection impls preallocate by the hint: an off-by-one is invisible in a result, an unchecked one is an allocation attack; tests do not look at it", "anchors": ["ser-write-msgpack/src/de.rs:size_hint", "ser-write-msgpack/src/de.rs:CountingAccess", "ser-write-msgpack/src/de.rs:deserialize_seq", "ser-write-msgpack/src/de.rs:deserialize_map", "ser-write-json/src/de.rs:CommaSeparated"]}
{"id": "C62", "title": "What decoding returns is linear in the bytes it was given", "statement": "A successful decode returns at most a constant number of parts (values, and bytes of strings) per byte of input, the constant depending on the type alone: its nesting of wrappers and the sizes of its defaults. Self-described values have at most one part per byte. No header, count, escape or Base64 quantum makes more out of less.", "quantifier": "every type, value, input, byte decoder and float parser, both formats", "why_tests_cant": "amplification attacks are about inputs nobody thought to write down; a test sees the size of one result", "anchors": ["ser-write-msgpack/src/de.rs:deserialize_seq", "ser-write-msgpack/src/de.rs:deserialize_any", "ser-write-json/src/de.rs:deserialize_any", "ser-write-json/src/de.rs:parse_str", "ser-write-json/src/base64.rs:decode"]}
{"id": "C63", "title": "A value that cannot be serialized is reported by its first fault", "statement": "Serialization fails exactly when the value has a fault, and the error names the fault met first when the value is read from the outside in and from left to right: a length that is missing, too big or not the number of parts, a string or byte array of 2^32 bytes or more, a field skipped where the compact format cannot skip, a Display that fails, an error of the value itself or a 128-bit integer, and in JSON a key that is not a string. Through any writer the only other errors are the writer's own (as format error when a Display hides it).", "quantifier": "every value (tree of Serialize calls, declared lengths may be wrong), every MessagePack flavour and build configuration, every JSON byte encoder and float printer, every lawful writer", "why_tests_cant": "a test sees one fault in one place; which of several comes first, and that nothing else fails, is about all values", "anchors": ["ser-write-msgpack/src/ser.rs:serialize_seq", "ser-write-msgpack/src/ser.rs:serialize_map", "ser-write-msgpack/src/ser.rs:collect_str", "ser-write-json/src/ser.rs:serialize_str", "ser-write-json/src/ser.rs:KeySer"]}
{"id": "C64", "title": "Messages written one after another are read back in order", "statement": "MessagePack values written one after another to one writer and read with from_slice_split_tail come back in order; when the writer fails (full, disconnected) exactly the values written completely are read and then UnexpectedEof. A stream of complete messages of any kind is cut exactly at their ends by eat_message, and a stream that breaks off inside a message reports UnexpectedEof behind the last complete one. JSON texts one after another, with or without whitespace, are read in order from one Deserializer as long as nothing that could belong to a number follows one; JSON values written a line each come back in order. Without a separator JSON values do not (refuted: 1 and 2 become 12).", "quantifier": "every list of types and values, every lawful writer, flavour, architecture of 32 bits or more, byte encoder and decoder pair", "why_tests_cant": "the test streams three messages once; every number of messages, every place for the writer to fail, every cut", "anchors": ["ser-write-msgpack/src/de.rs:from_slice_split_tail", "ser-write-msgpack/src/de.rs:eat_message", "ser-write-msgpack/src/de.rs:remaining_len", "ser-write-json/src/de.rs:Deserializer::end", "ser-write-msgpack/src/ser.rs:to_writer", "ser-write-json/src/ser.rs:to_writer"]}
{"id": "C65", "title": "Untagged enums read back the variant that was written", "statement": "A value of a #[serde(untagged)] enum, whose derived code reads the input through deserialize_any into a buffer and tries the variants in order, is read back as the variant and value written, when no earlier variant can take a document of that shape. MessagePack: in every flavour whose enums inside and fields are told by the buffer; refuted for struct variants in the compact flavour (written as arrays, always refused) and for unit variants of an enum inside written as numbers. JSON: with text keys, byte strings as arrays and finite floats, whichever of integer and float their text is taken for; refuted for byte strings in the hexadecimal and Base64 encodings (another byte string is returned without an error), for integer and boolean keys, and for floats that are not finite.", "quantifier": "every list of variants, types and values nested to any depth, flavours, architectures of 32 bits or more, whitespace, tails", "why_tests_cant": "the tests read a handful of values of one untagged enum", "anchors": ["ser-write-msgpack/src/de.rs:deserialize_any", "ser-write-json/src/de.rs:deserialize_any", "ser-write-msgpack/src/ser.rs:serialize_struct", "ser-write-json/src/ser.rs:serialize_bytes"]}
{"id": "C66", "title": "Internally tagged enums read back the variant that was written", "statement": "A value of an enum with #[serde(tag = \"...\")], whose derived code writes the tag as the first field of a struct and reads the input through deserialize_any into a buffer, is read back as the variant and value written: in MessagePack with fields as arrays or maps by name, in JSON with the conditions of C65 on what the buffer loses. With fields by number (StructMapIdx) no value is ever read back (refuted): the tag is written as field 0.", "quantifier": "every list of unit variants and variants with fields, types and values nested to any depth, tags, architectures of 32 bits or more, whitespace, tails", "why_tests_cant": "whether the tag is found among fields of any type in any flavour is not settled by the one enum a test would try; no test has one", "anchors": ["ser-write-msgpack/src/de.rs:deserialize_any", "ser-write-json/src/de.rs:deserialize_any", "ser-write-msgpack/src/ser.rs:serialize_struct", "ser-write-json/src/ser.rs:serialize_struct"]}
{"id": "C67", "title": "Reading, writing and reading again settles", "statement": "Whatever input a typed value was decoded from (any integer width, array or map form, field order, unknown fields, whitespace, escapes), the value is one of the type, and writing it and reading that gives it back. MessagePack: always, in every flavour that writes it. JSON: if its floats have a number other than -0; in any case a second pass changes nothing any more. A JSON number beyond the floats is read as an infinity and written as null, so Some(inf) becomes None (refuted).", "quantifier": "every type, input and value, all flavours, targets of the reader, byte encoder and decoder pairs, float parsers and printers as assumed", "why_tests_cant": "tests decode what they have encoded; that nothing foreign documents can produce is lost on the way out again is about all inputs", "anchors": ["ser-write-msgpack/src/de.rs:from_slice", "ser-write-json/src/de.rs:from_mut_slice", "ser-write-msgpack/src/ser.rs:to_vec", "ser-write-json/src/ser.rs:to_string", "ser-write-json/src/ser.rs:serialize_f64"]}
{"id": "C68", "title": "Data is read by types other than those it was written with", "statement": "What any Serialize implementation wrote is read as the expected value by every type it fits: wider integers, Some or newtype wrappers added or dropped, unit variants as strings, tuples as sequences, maps as structs and structs as maps, sequences as structs. A struct written with field names as keys is read by a struct with fields reordered, dropped, or added with a default or as an Option; with indices as keys fields may be renamed, added or dropped at the end; as an array renamed or added at the end with a default. Fields dropped from the end of a struct written as an array make reading fail with TrailingElements (refuted). What is written means one thing at most to a type.", "quantifier": "all call trees, types and values, flavours, bytes behind, targets, byte encoder and decoder pairs, whitespace around, float parsers and printers", "why_tests_cant": "tests try a few pairs of struct versions; which changes of a type keep old data readable is a question about all pairs of types and all values", "anchors": ["ser-write-msgpack/src/de.rs:from_slice", "ser-write-json/src/de.rs:from_mut_slice", "ser-write-msgpack/src/ser.rs:to_vec", "ser-write-json/src/ser.rs:to_string", "ser-write-msgpack/src/de.rs:deserialize_struct", "ser-write-json/src/de.rs:deserialize_struct"]}
{"id": "C69", "title": "The text of an error tells which one it is", "statement": "The Display texts of two different deserialization errors differ, whatever messages serde passed on, and with std or alloc the text of a custom error determines its message; the same for the errors of the serializers writing to the containers of the crate. All texts are valid UTF-8, those of the deserializers are not empty.", "quantifier": "all pairs of errors, all custom messages, with and without std or alloc", "why_tests_cant": "tests compare a few texts; that no message can be mistaken for another error is about all messages", "anchors": ["ser-write-msgpack/src/de.rs:impl Display for Error", "ser-write-json/src/de.rs:impl Display for Error", "ser-write-msgpack/src/ser.rs:impl Display for Error", "ser-write-json/src/ser.rs:impl Display for Error", "src/lib.rs:impl Display for SerError"]}
{"id": "C70", "title": "Different values are written differently", "statement": "No MessagePack output is the beginning of another one, whatever was written in whichever flavour, and equal outputs represent the same MessagePack value. Values of one type written equally, in MessagePack even in different flavours, are equal up to what a round trip loses (C49). JSON texts are no prefix code: 1 and 12 (refuted); but no JSON text other than a number is the beginning of another one.", "quantifier": "all call trees, types and values, all flavours and byte encoders", "why_tests_cant": "a collision is a pair of values; tests do not look for one among all pairs", "anchors": ["ser-write-msgpack/src/ser.rs:to_vec", "ser-write-msgpack/src/ser.rs:to_vec_compact", "ser-write-msgpack/src/ser.rs:to_vec_named", "ser-write-json/src/ser.rs:to_string"]}
{"id": "C71", "title": "Adjacently tagged enums are read back, but not from compact MessagePack", "statement": "A value of an enum with #[serde(tag = ..., content = ...)] comes back from JSON (up to C49) and from MessagePack with fields by name or number, and newtype and tuple variants also from the compact flavour; unit and struct variants written in the compact flavour are never read back (refuted). Every value can be written, as JSON and as MessagePack with names or numbers, and in the compact flavour if no field inside is left out. Both formats take the tag and the content as an array or as a map with other entries anywhere, a unit variant or a missing Option without content, and a map with the content first; both refuse a map with no tag, an unknown tag, no content where one is needed, content of the wrong kind, or the tag or the content twice, JSON with the error of the first fault. Decoding ends on every input; no input is an encoding of two values, and a MessagePack encoding cut short is reported as incomplete, a JSON text is refused. A value comes only from an encoding of it (at the start of the input for MessagePack, surrounded by white space for JSON), and an error means that there is none; for MessagePack, nothing is said of a content before its tag that has numbers as keys.", "quantifier": "every list of variants, value, flavour, byte encoder, spelling of the map and input that follows", "why_tests_cant": "generated code calls the deserializer in an order that depends on the input; all types and inputs", "anchors": ["ser-write-msgpack/src/de.rs:deserialize_struct", "ser-write-msgpack/src/de.rs:deserialize_any", "ser-write-msgpack/src/ser.rs:serialize_struct", "ser-write-json/src/de.rs:deserialize_struct", "ser-write-json/src/ser.rs:serialize_struct"]}
{"id": "C72", "title": "Flattened fields are read back from JSON and never written as MessagePack", "statement": "A struct with one #[serde(flatten)] field, a struct or a map with text keys that do not clash with the other fields, comes back from JSON: the other fields up to C49, the flattened one as it was if its floats survive a self-describing read (C65). Such a struct can be written as JSON, and the members of the flattened field stand between those of the fields before it and after it. The MessagePack serializers refuse every such struct with MapLength, whatever its values (refuted). Maps and objects from elsewhere are read in both formats: the other fields by name in any order, mixed with the entries of the flattened one, which come in any order too if it is a struct; anything but a map, a field twice or missing, of the struct or of the flattened one, a key that is no identifier or a faulty value is refused with its own error. Decoding ends on every input; no MessagePack input is an encoding of two values, and one cut short is reported as incomplete; a JSON text cut short is refused. A value comes only from a map or an object that stands for it, the flattened field being what its type makes of the buffered entries it takes, and an error means that there is none; for MessagePack, nothing is said of what a flattened field makes of numbers as keys.", "quantifier": "every list of fields, position and type of the flattened field, value, byte encoder and white space around the text", "why_tests_cant": "generated code interleaves typed and buffered reading in an order the input decides; all types and inputs", "anchors": ["ser-write-json/src/de.rs:deserialize_map", "ser-write-json/src/de.rs:deserialize_any", "ser-write-json/src/de.rs:deserialize_identifier", "ser-write-json/src/ser.rs:serialize_map", "ser-write-msgpack/src/ser.rs:serialize_map"]}
{"id": "C73", "title": "Data can be turned from one format into the other", "statement": "A program that reads MessagePack written with names into a self-describing value and writes that as JSON gets the text the original value is written as. The other way round, a value without byte strings, with text map keys and with floats that print as floats gets MessagePack of the same meaning and length as the original's, in every flavour, and it is read as the original value at its type. Any shortest encoding of what a typed value is written as with names is read as that value; but the map of an enum variant with content is refused with ExpectedIdentifier when its header is not the one-byte one (refuted).", "quantifier": "every value, type, byte encoder, decoder, white space around the JSON text, bytes behind the MessagePack message", "why_tests_cant": "two serializers and two deserializers meet in one value of any shape; tests look at single values", "anchors": ["ser-write-msgpack/src/de.rs:deserialize_any", "ser-write-json/src/de.rs:deserialize_any", "ser-write-msgpack/src/de.rs:deserialize_enum", "ser-write-msgpack/src/ser.rs:serialize_map", "ser-write-json/src/ser.rs:serialize_map"]}
{"id": "C74", "title": "Both sides of a format choose the same form of a type", "statement": "A type that asks is_human_readable and has a form for people and a compact one (as IP addresses do) writes the compact form with the MessagePack serializers and reads that form back with the MessagePack deserializer; with JSON both are the form for people. Its values come back, alone and in vectors, exactly as values of that form do.", "quantifier": "every pair of forms, value, flavour, byte encoder and decoder, length of the vector, bytes behind the message or white space around the text", "why_tests_cant": "the choice is made in four places that nothing ties together; tests use types that do not ask", "anchors": ["ser-write-msgpack/src/ser.rs:is_human_readable", "ser-write-msgpack/src/de.rs:is_human_readable", "ser-write-json/src/ser.rs", "ser-write-json/src/de.rs"]}
{"id": "C75", "title": "Enums read through a buffer decide by what the input denotes", "statement": "An untagged enum is read, from any encoding of a message and any text of a document, as the first variant that takes the value it denotes, and is refused with DeserializeError when no variant does: fields in any order, unknown entries left out, a field given twice or missing refused, byte strings taken for text only when they are UTF-8. An internally tagged enum is read with the tag at any place among the entries. It is refused when the tag is missing, given several times or names no variant, and when a unit variant written as an array has further elements. Faults of the input are reported as a self-describing type reports them; only characters behind a JSON value that no variant takes are not noticed first. Keys that are numbers are left out.", "quantifier": "every enum, message, document, value, bytes behind the message or white space around the text", "why_tests_cant": "the outcome depends on the order of the variants and on all shapes of input each of them takes", "anchors": ["ser-write-msgpack/src/de.rs:deserialize_any", "ser-write-json/src/de.rs:deserialize_any"]}
{"id": "C76", "title": "Enums read through a buffer come back from inside other types", "statement": "Untagged and internally tagged enums inside options, vectors, tuples, map values, struct fields, newtype structs and newtype variants of ordinary enums, at any depth and in any mixture with ordinary types, come back from a round trip as they come back alone: each enum is what it was, the rest is what a round trip leaves of it, Some of something written as nil or null is None, and the whole message is read; all such values can be written (compact MessagePack: if no field inside is left out). The enum consumes exactly its own part of the input, so that what follows it in the list or struct is read from the right place. Messages of other programs are read as they are for ordinary types: fields in any order, by name or number or as an array, entries with unknown names, options left out, headers and numbers in any form. And a success is right: outside of the enums everything is exactly as for ordinary types, each enum is one whole message or document, an untagged one is the first variant its message fits; JSON types with untagged enums only are read from exactly the texts of the documents that represent them. Decoding ends on every input, with a value that the input gives or with an error, and an error is never returned for an encoding of a value. An encoding cut anywhere is reported as incomplete (MessagePack) or refused (JSON, but for a lone number), and none is an encoding of two values.", "quantifier": "every such type, value, flavour, byte encoder and decoder, bytes behind the message or white space around the text", "why_tests_cant": "the buffer is filled by deserialize_any in the middle of another value; where it stops decides how all the rest is read, for every nesting", "anchors": ["ser-write-msgpack/src/de.rs:deserialize_any", "ser-write-json/src/de.rs:deserialize_any", "ser-write-msgpack/src/ser.rs:serialize_struct", "ser-write-json/src/ser.rs:serialize_struct"]}
{"id": "C77", "title": "Structs that deny unknown fields take their fields and nothing else", "statement": "A struct with the serde attribute deny_unknown_fields is read from an array of its fields and from a map or object with its fields in any order, by name or (MessagePack) number, with defaults for the ones left out, and from nothing else: every input is decided. A key that is no field's ends decoding with DeserializeError, whatever follows it, so that what a later version of the struct with a field more writes is refused (as a map in MessagePack; in JSON). Faults of MessagePack input are reported as for other structs. What either serializer writes for such a struct is read back, in every flavour: no key is written that the reader then refuses. The attribute only refuses more: what is read with it is read without it, as the same value. An encoding cut anywhere is reported as incomplete (MessagePack) or refused (JSON, but for a lone number), and none is an encoding of two values.", "quantifier": "every struct without the attribute on inner types, value, flavour, byte encoder and decoder, input, bytes behind the message or white space around the text", "why_tests_cant": "keys are read by deserialize_identifier from names and numbers in every width; a key misread as unknown would be refused only for some fields", "anchors": ["ser-write-msgpack/src/de.rs:deserialize_identifier", "ser-write-json/src/de.rs:deserialize_identifier", "ser-write-msgpack/src/de.rs:deserialize_struct", "ser-write-json/src/de.rs:deserialize_struct"]}
