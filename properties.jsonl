{"id": "C01", "title": "ILInt round trip", "statement": "Writing any u64 with the ILInt encoder and decoding the written bytes, whatever follows them, gives the value back and consumes exactly the bytes written, through any reader that delivers those bytes and also through the slice decoder.", "quantifier": "every u64 value, every trailing byte sequence, every reader kind (array, vector, limited, std::io stream with any fragmentation, seekable stream, user reader)", "why_tests_cant": "2^64 values times all readers and suffixes; the nine width boundaries interact with every suffix", "anchors": ["src/ilint/mod.rs:encode", "src/ilint/mod.rs:decode", "src/ilint/mod.rs:decode_from_bytes"]}
{"id": "C02", "title": "ILInt size is exact and minimal", "statement": "encoded_size(v) is the number of bytes encode writes, lies in 1..=9, never decreases as v grows, and no byte string shorter than encoded_size(v) decodes to v.", "quantifier": "every u64 value and every candidate byte string", "why_tests_cant": "minimality quantifies over all byte strings", "anchors": ["src/ilint/mod.rs:encoded_size", "src/ilint/mod.rs:encode", "src/ilint/mod.rs:decode"]}
{"id": "C03", "title": "ILInt decoder accepts exactly the wire format", "statement": "decode succeeds on a byte stream exactly when it starts with one byte below 0xF8, or with a header 0xF8+k-1 (k in 1..=8) followed by k bytes whose big-endian value plus 248 is below 2^64, and then returns that value; a body overflowing u64 is reported as ValueOverflow; decode never panics; decode and decode_from_bytes agree on every input.", "quantifier": "every byte sequence and every reader", "why_tests_cant": "unbounded input space; overflow boundary sits inside 2^64 bodies", "anchors": ["src/ilint/mod.rs:decode", "src/ilint/mod.rs:decode_body", "src/ilint/mod.rs:decode_from_bytes", "src/ilint/mod.rs:decoded_size"]}
{"id": "C04", "title": "ILInt encodings are prefix free", "statement": "No ILInt encoding is a prefix of another one's encoding, so two different values never share an encoding and a concatenation of ILInts splits in only one way.", "quantifier": "every pair of u64 values and every pair of suffixes", "why_tests_cant": "pairs of 64-bit values", "anchors": ["src/ilint/mod.rs:encode"]}
{"id": "C05", "title": "Canonical ILInt is not enforced", "statement": "Claim checked: decode only accepts the encoding that encode produces. It is false: longer encodings of the same value are accepted, exactly those with a body padded with leading zero bytes.", "quantifier": "every accepted ILInt encoding", "why_tests_cant": "characterising all accepted non-minimal encodings needs all byte strings", "anchors": ["src/ilint/mod.rs:decode_body", "src/ilint/mod.rs:decode"]}
{"id": "C06", "title": "Sign folding is a bijection", "statement": "encode_sign maps i64 one-to-one onto u64, sending v>=0 to 2v and v<0 to -2v-1, including i64::MIN and i64::MAX, and decode_sign is its inverse in both directions.", "quantifier": "every i64 and every u64", "why_tests_cant": "2^64 values", "anchors": ["src/ilint/mod.rs:encode_sign", "src/ilint/mod.rs:decode_sign"]}
{"id": "C07", "title": "Signed ILInt round trip and compactness", "statement": "Writing any i64 as signed ILInt and reading it back gives the same value and consumes signed_encoded_size bytes; values of smaller magnitude never take more bytes.", "quantifier": "every i64, every suffix, every reader", "why_tests_cant": "2^64 values and all magnitude pairs", "anchors": ["src/ilint/mod.rs:signed_encode", "src/ilint/mod.rs:signed_decode", "src/ilint/mod.rs:signed_encoded_size"]}
{"id": "C08", "title": "Fixed-width values are big-endian and round trip", "statement": "read_x after write_x returns the same value for u8,i8,u16,i16,u32,i32,u64,i64,f32,f64; the bytes are the big-endian two's complement (or IEEE bit pattern) of the value, and every byte sequence of the right width decodes to a value that re-encodes to it.", "quantifier": "every value of the ten types, every byte sequence, every reader and writer", "why_tests_cant": "up to 2^64 values per type", "anchors": ["src/io/data/mod.rs:read_u16..read_f64", "src/io/data/mod.rs:write_u16..write_f64"]}
{"id": "C09", "title": "Strings are accepted exactly when valid UTF-8", "statement": "read_string(size) succeeds exactly when the next size bytes exist and are the UTF-8 encoding of some sequence of Unicode scalar values, returns those bytes; it reports CorruptedData exactly when the bytes exist but are not such an encoding, and another error when they do not exist; write_string followed by read_string is the identity.", "quantifier": "every byte sequence and every string", "why_tests_cant": "all byte sequences of all lengths", "anchors": ["src/io/data/mod.rs:read_string", "src/io/data/mod.rs:write_string"]}
{"id": "C10", "title": "ByteArrayReader is a positional stream", "statement": "After any history of read, read_all, skip, skip_u64 and set_offset calls, the reader behaves as the slice plus a position that never exceeds its length; available() never underflows and nothing panics.", "quantifier": "every slice, every operation history", "why_tests_cant": "unbounded histories", "anchors": ["src/io/array/mod.rs:ByteArrayReader", "src/io/array/mod.rs:MemoryReader"]}
{"id": "C11", "title": "VecReader equals ByteArrayReader", "statement": "For every history of operations VecReader and ByteArrayReader over the same bytes return the same results and offsets.", "quantifier": "every byte sequence, every operation history", "why_tests_cant": "unbounded histories", "anchors": ["src/io/array/mod.rs:VecReader", "src/io/array/mod.rs:ByteArrayReader"]}
{"id": "C12", "title": "Memory readers are all-or-nothing", "statement": "A read, read_all, skip or skip_u64 on a memory reader that fails leaves offset and data unchanged, and fails with EndOfData exactly when nothing is left and UnableToReadData when something but not enough is left; zero-byte requests always succeed.", "quantifier": "every state and request size", "why_tests_cant": "all sizes and positions", "anchors": ["src/io/array/mod.rs:assert_can_read", "src/io/array/mod.rs:ByteArrayReader", "src/io/array/mod.rs:VecReader"]}
{"id": "C13", "title": "LimitedReader never over-reads", "statement": "Through a LimitedReader of limit n, for any history of read, read_all and skip calls on any source that reports no spurious failure, the source is never advanced by more than n bytes. It is advanced by exactly n minus available() bytes if it holds at least n bytes or is in memory, and the bytes delivered are the source's own next bytes, split among the calls in order. goto_end then takes exactly the rest of the limit; when it fails the limit is unchanged.", "quantifier": "every source reader, limit and operation history", "why_tests_cant": "unbounded histories over all sources", "anchors": ["src/io/mod.rs:LimitedReader"]}
{"id": "C14", "title": "LimitedReader failed attempts consume nothing", "statement": "A read or read_all that asks for more than available() fails with UnableToReadData without touching the source, and one that fails for any other reason leaves available() as it was; the documentation says so for all attempts, and for skip it is false: skipping past the limit consumes whole 512-byte chunks first.", "quantifier": "every source, limit and request size", "why_tests_cant": "needs all sizes; the failing case needs a limit of at least 512", "anchors": ["src/io/mod.rs:LimitedReader", "src/io/mod.rs:Reader::skip"]}
{"id": "C15", "title": "Default skip and skip_u64 discard exactly count bytes", "statement": "On every reader that uses the default methods, skip(count) and skip_u64(count) succeed exactly when count more bytes can be read, and then leave the reader as reading and discarding count bytes would, for every pointer width.", "quantifier": "every reader, every u64 count, every usize width", "why_tests_cant": "counts up to 2^64, both usize widths", "anchors": ["src/io/mod.rs:Reader::skip", "src/io/mod.rs:Reader::skip_u64", "src/io/mod.rs:Reader::read_all"]}
{"id": "C16", "title": "ReadReader does not depend on fragmentation", "statement": "However the underlying std::io::Read splits its data into chunks or interrupts calls, ReadReader returns the same bytes for the same requests, and fails exactly when fewer bytes remain than requested. Over a source whose read_exact is overridden to take all or nothing, histories of read and read_all give what a memory reader gives, but for the kind of the errors.", "quantifier": "every data sequence, every fragmentation and interruption schedule, every request history", "why_tests_cant": "all schedules", "anchors": ["src/io/std_io/mod.rs:ReadReader"]}
{"id": "C17", "title": "Seekable skip", "statement": "skip/skip_u64 on a Read+Seek source with count bytes left moves the position by exactly count. Claims checked and false: a failed skip leaves the position unchanged (it moves to the end), and a skip never moves backwards (with overflow checks off a huge count wraps and seeks backwards; with them on it panics). A failing seek is reported with its kind (an unexpected end as EndOfData); if it is the third one the position is left at the end.", "quantifier": "every seekable source, position and u64 count, overflow checks on or off", "why_tests_cant": "counts near 2^64", "anchors": ["src/io/std_io/mod.rs:Reader for Read+Seek"]}
{"id": "C18", "title": "SizedSeek reports length without moving", "statement": "len(), is_empty() and offset() return the true length, emptiness and position and leave the position unchanged; available() is length minus position whenever the position is not past the end, and panics or wraps when it is. If one of the seeks fails its kind is reported, and the position is unchanged unless it was the last seek of len().", "quantifier": "every seekable source and position", "why_tests_cant": "all positions, including past the end", "anchors": ["src/io/std_io/mod.rs:SizedSeek"]}
{"id": "C19", "title": "VecWriter overwrites then extends", "statement": "After any history of write, write_all, set_offset and set_read_only calls the writer's vector is what overwriting-then-extending at the cursor gives, get_offset() never exceeds the length, write(b) equals write_all([b]), and writes to a read-only writer fail and change nothing.", "quantifier": "every history", "why_tests_cant": "unbounded histories", "anchors": ["src/io/array/mod.rs:VecWriter", "src/io/array/mod.rs:basevecwriter_writer_impl"]}
{"id": "C20", "title": "BorrowedVecWriter keeps the prefix and never shrinks", "statement": "For any history of writes without set_offset, bytes before the initial offset are unchanged, the vector never shrinks and bytes_written() is the number of bytes written; after set_offset below the initial offset bytes_written() underflows (panic or huge value).", "quantifier": "every vector, initial offset and history", "why_tests_cant": "unbounded histories", "anchors": ["src/io/array/mod.rs:BorrowedVecWriter"]}
{"id": "C21", "title": "ByteArrayWriter stays inside its slice", "statement": "For any history, the slice never changes length, writes beyond the end fail with UnableToWriteData and change nothing, successful writes change exactly the bytes at the cursor, and nothing panics.", "quantifier": "every slice and history", "why_tests_cant": "unbounded histories", "anchors": ["src/io/array/mod.rs:ByteArrayWriter"]}
{"id": "C22", "title": "WriteWriter success means everything was written", "statement": "If WriteWriter reports success the sink received exactly the bytes given; if it fails the sink received a prefix of them. Claim checked and false: a sink that makes progress (short writes or interruptions) never makes WriteWriter fail. The errors of the sink are passed on, a short write is UnableToWriteData. The Write+Seek writer does retry; it fails only when the sink refuses to make progress, then always with UnableToWriteData, what the sink had taken being stored. The default write_all over the write of a user stops at its first error and returns it.", "quantifier": "every byte sequence and every schedule of short writes, interruptions and failures", "why_tests_cant": "all schedules", "anchors": ["src/io/std_io/mod.rs:WriteWriter", "src/io/std_io/mod.rs:Writer for Write+Seek"]}
{"id": "C23", "title": "size() is the number of bytes serialized", "statement": "For every tag, size() equals the number of bytes serialize writes, and value_size() the number of bytes serialize_value writes.", "quantifier": "every tag value of every standard type, any nesting", "why_tests_cant": "unbounded recursive values", "anchors": ["src/tags/mod.rs:ILTag::size", "src/tags/standard/explicit/mod.rs:value_size", "src/tags/standard/implicit/mod.rs:value_size"]}
{"id": "C24", "title": "Tag layout", "statement": "serialize writes the ILInt of the id, then the ILInt of the payload length for ids of 16 and above, then the payload as the ILTags format defines it for the type; nothing else.", "quantifier": "every tag of every standard type, any nesting, every writer", "why_tests_cant": "unbounded recursive values", "anchors": ["src/tags/mod.rs:ILTag::serialize", "src/tags/standard/explicit/mod.rs", "src/tags/standard/implicit/mod.rs"]}
{"id": "C25", "title": "Tag round trip", "statement": "Deserializing what serialize wrote, whatever follows, gives an equal tag of the same type and consumes exactly size() bytes, for every tag whose types match the factory's creators and whose payloads are within the 512 MB limit.", "quantifier": "every tag, any nesting depth and width, every factory configuration, every suffix, every reader", "why_tests_cant": "unbounded recursive values", "anchors": ["src/tags/standard/factory/mod.rs:ILStandardTagFactory::deserialize", "src/tags/mod.rs:ILTag::serialize"]}
{"id": "C26", "title": "The deserializer accepts exactly the wire grammar", "statement": "deserialize succeeds with tag t on a reader exactly when the reader's next bytes form an element of the ILTags grammar denoting t, and it consumes exactly those bytes.", "quantifier": "every byte sequence, every reader, every factory configuration", "why_tests_cant": "all byte sequences and all grammar derivations", "anchors": ["src/tags/standard/factory/mod.rs:deserialize", "src/tags/standard/explicit/mod.rs:deserialize_value", "src/tags/standard/implicit/mod.rs:deserialize_value"]}
{"id": "C27", "title": "No tag is a prefix of another; truncation is always detected", "statement": "A strict prefix of an accepted tag is never accepted, and from_bytes accepts a buffer exactly when deserialize accepts all of it, reporting CorruptedData when bytes are left over.", "quantifier": "every byte sequence and every cut point", "why_tests_cant": "all cut points of all tags", "anchors": ["src/tags/mod.rs:ILTagFactory::from_bytes", "src/tags/standard/factory/mod.rs:deserialize"]}
{"id": "C28", "title": "Deserialization always terminates and never panics", "statement": "On every finite input deserialize with a standard factory returns Ok or Err: the number of nested calls and loop iterations is bounded by the number of input bytes, and no index, slice, assertion or arithmetic panic is reachable (capacity overflow on 32-bit targets is C79).", "quantifier": "every byte sequence, every reader (including failing ones), strict or not", "why_tests_cant": "all inputs; termination needs an argument", "anchors": ["src/tags/standard/factory/mod.rs:deserialize", "src/tags/standard/explicit/mod.rs:deserialize_value"]}
{"id": "C29", "title": "Decode, encode, decode is stable", "statement": "If deserialize accepts bytes as t then serialize(t) is no longer than those bytes, is accepted again, and yields an equal tag; its bytes are then a fixed point.", "quantifier": "every accepted byte sequence", "why_tests_cant": "all accepted inputs, including non-canonical ones", "anchors": ["src/tags/standard/factory/mod.rs:deserialize", "src/tags/mod.rs:ILTag::serialize"]}
{"id": "C30", "title": "Dictionary serialization does not depend on hash order", "statement": "Two dictionary tags holding the same key/value pairs serialize to the same bytes and have the same size whatever order the hash map iterates in; keys appear in strictly increasing byte order, which is also code point order.", "quantifier": "every map and every iteration order", "why_tests_cant": "all permutations of all maps", "anchors": ["src/tags/standard/explicit/mod.rs:ILDictTag", "src/tags/standard/explicit/mod.rs:ILStrDictTag"]}
{"id": "C31", "title": "Dictionary duplicate keys", "statement": "When a serialized dictionary repeats a key, deserialization keeps the last value. Claim checked and false: accepted bytes are always what re-serialization gives.", "quantifier": "every sequence of entries", "why_tests_cant": "all sequences", "anchors": ["src/tags/standard/explicit/mod.rs:ILDictTag::deserialize_value", "src/tags/standard/explicit/mod.rs:ILStrDictTag::deserialize_value"]}
{"id": "C32", "title": "String dictionary is binary compatible with dictionary", "statement": "An ILStrDictTag and an ILDictTag holding the same keys with ILStringTag values have identical payload bytes and sizes, and ILStrDictTag accepts a payload exactly when ILDictTag accepts it with every value on the wire a standard string tag, giving the same map. Claim checked and false: the final contents of the ILDictTag decide (a non-string value that a later duplicate key replaces is still refused).", "quantifier": "every string map and every payload", "why_tests_cant": "all maps and payloads", "anchors": ["src/tags/standard/explicit/mod.rs:ILStrDictTag", "src/tags/standard/explicit/mod.rs:ILDictTag"]}
{"id": "C33", "title": "Same-format types share bytes", "statement": "ILOIDTag and ILILIntArrayTag, and ILRawTag, ILByteArrayTag and ILBigIntTag, have identical payload bytes for equal contents and accept the same payloads.", "quantifier": "every content and payload", "why_tests_cant": "all contents", "anchors": ["src/tags/standard/explicit/mod.rs:ILOIDTag", "src/tags/standard/explicit/mod.rs:ILILIntArrayTag", "src/tags/standard/explicit/mod.rs:ILByteArrayTag", "src/tags/standard/explicit/mod.rs:ILBigIntTag", "src/tags/mod.rs:ILRawTag"]}
{"id": "C34", "title": "String tag shortcuts agree with ILStringTag", "statement": "string_tag_size_from_value, serialize_string_tag_from_value and deserialize_string_tag_from_value(_into) give the same sizes, bytes, results and failures as an ILStringTag, on any reader, except that a tag of another id is CorruptedData; on any failure the output string is unchanged.", "quantifier": "every string, byte sequence, reader and writer", "why_tests_cant": "all strings and inputs", "anchors": ["src/tags/standard/explicit/mod.rs:string_tag_size_from_value", "src/tags/standard/explicit/mod.rs:serialize_string_tag_from_value", "src/tags/standard/explicit/mod.rs:deserialize_string_tag_from_value_into"]}
{"id": "C35", "title": "512 MB limit", "statement": "A declared payload size above 2^29 is rejected with TagTooLarge before any payload byte is read. Claim checked and false: every tag that serializes can be deserialized (an oversized tag cannot).", "quantifier": "every id, size, suffix and reader", "why_tests_cant": "sizes up to 2^64", "anchors": ["src/tags/mod.rs:tag_size_to_usize", "src/tags/standard/factory/mod.rs:deserialize_tag_size"]}
{"id": "C36", "title": "Unknown tags", "statement": "With strict off, an unregistered explicit id yields a raw tag holding exactly the payload, which re-serializes to the canonical form of the same tag; with strict on it yields UnknownTag; an unregistered implicit id always yields UnknownTag.", "quantifier": "every id, payload, factory configuration and reader", "why_tests_cant": "all ids and payloads", "anchors": ["src/tags/mod.rs:ILTagCreatorEngine::create_tag", "src/tags/standard/factory/mod.rs:deserialize", "src/tags/mod.rs:ILRawTag"]}
{"id": "C37", "title": "Creator engine is a map", "statement": "After any history of register and deregister, create_tag uses the last creator registered and not removed for that id, the returned previous creators are right, and other ids are unaffected.", "quantifier": "every history of registrations", "why_tests_cant": "unbounded histories", "anchors": ["src/tags/mod.rs:ILTagCreatorEngine"]}
{"id": "C38", "title": "Standard engine", "statement": "The standard factory creates, for every id, an empty tag with that id and of the type the standard assigns, never panics, and knows exactly the ids 0-14, 16-25, 30, 31 (plus raw tags for other explicit ids when not strict).", "quantifier": "every u64 id, strict or not", "why_tests_cant": "2^64 ids", "anchors": ["src/tags/standard/factory/mod.rs:create_std_engine", "src/tags/standard/constants.rs"]}
{"id": "C39", "title": "deserialize_into agrees with deserialize", "statement": "On a stream whose id equals the target's id, deserialize_into succeeds exactly when deserializing as the target's type would, stores the same value independent of what the target held before, and consumes the same bytes; a different id gives UnexpectedTagType and leaves the target unchanged.", "quantifier": "every target tag, byte sequence, factory and reader", "why_tests_cant": "all targets and inputs", "anchors": ["src/tags/standard/factory/mod.rs:deserialize_into"]}
{"id": "C40", "title": "What a failed deserialize_into does to the target", "statement": "deserialize_into never changes the target's id or type, and when it fails it leaves null, boolean, integer, float and string targets and ILInt targets with the standard ids unchanged. Claim checked and false: every failed deserialize_into leaves the target unchanged (byte arrays, containers and ILInt tags with an id of their own are modified).", "quantifier": "every target, input and failure point", "why_tests_cant": "all failure points", "anchors": ["src/tags/standard/factory/mod.rs:deserialize_into", "src/tags/standard/explicit/mod.rs:deserialize_value", "src/tags/standard/implicit/mod.rs:deserialize_value"]}
{"id": "C41", "title": "iltag_are_equal", "statement": "iltag_are_equal is true exactly when the two serializations are the same; it is an equivalence relation, and for tags matching a common factory it is true exactly when the tags hold the same data. Claim checked and false: equal tags have the same type.", "quantifier": "every pair and triple of tags", "why_tests_cant": "all pairs", "anchors": ["src/tags/util/mod.rs:iltag_are_equal"]}
{"id": "C42", "title": "Cloning", "statement": "iltag_clone_with_factory returns a tag equal to the original (same type and data) whenever the original's types match the factory and sizes are within the limit; cloning never panics. Claim checked and false: iltag_clone always yields a tag whose serialization is the original's or an error (a raw tag with a standard id and a non-minimal payload is rewritten).", "quantifier": "every tag and factory", "why_tests_cant": "all tags", "anchors": ["src/tags/util/mod.rs:iltag_clone_with_factory", "src/tags/util/mod.rs:iltag_clone"]}
{"id": "C43", "title": "A failed serialize leaves a prefix", "statement": "If serialize fails on any writer at any point, what was written is a prefix of the full serialization, written at the cursor; nothing else changes. The writes made, one per piece of the serialization, are the same for every writer up to the first that fails; the error returned is the error of that write as TagError::IO and nothing is written after it.", "quantifier": "every tag, writer and failure point", "why_tests_cant": "all crash points", "anchors": ["src/tags/mod.rs:ILTag::serialize", "src/tags/standard/explicit/mod.rs:serialize_value"]}
{"id": "C44", "title": "Serialization does not depend on the writer", "statement": "Every writer that has room and does not fail receives the same bytes for the same tag, and serialize succeeds on it; a ByteArrayWriter succeeds exactly when size() bytes are available.", "quantifier": "every tag and writer kind and state", "why_tests_cant": "all tags and writers", "anchors": ["src/tags/mod.rs:ILTag::serialize", "src/io/array/mod.rs", "src/io/std_io/mod.rs"]}
{"id": "C45", "title": "Deserialization does not depend on the reader", "statement": "Two readers of any kind that will deliver the same bytes yield the same tag or the same error and leave the same bytes unread, except that each reports missing data in its own way (EndOfData, UnableToReadData or UnexpectedEof).", "quantifier": "every byte sequence, every pair of reader kinds and fragmentation schedules", "why_tests_cant": "all schedules", "anchors": ["src/tags/standard/factory/mod.rs:deserialize", "src/io/mod.rs:Reader"]}
{"id": "C46", "title": "Downcasts", "statement": "The downcast helpers succeed exactly when the concrete type matches (and, where an id is given, the id matches), return the tag itself, and otherwise return None or UnexpectedTagType; assert_tag_id_and_type agrees with them.", "quantifier": "every tag, type and id", "why_tests_cant": "all ids", "anchors": ["src/tags/mod.rs:tag_downcast_ref", "src/tags/mod.rs:tag_id_downcast_ref", "src/tags/mod.rs:assert_tag_id_and_type"]}
{"id": "C47", "title": "Generic payload tags inherit round trip", "statement": "For any payload type whose serialize writes serialized_size bytes and whose deserialize inverts it, ILGenericPayloadTag has size() equal to the bytes written, the standard layout, and round trips through a factory that creates it when the id is explicit, or implicit with that very size; with another implicit id it does not round trip (new accepts them). Other ids are read as before. The same holds for payload tags at any depth inside the containers of the library, and for payloads that hold tags, nested in each other to any depth. Without that contract: the error of the payload is returned, and a value it does not read whole is CorruptedData unless the id is that of an ILInt or signed ILInt.", "quantifier": "every payload implementation meeting that contract, every id and value", "why_tests_cant": "quantifies over user code", "anchors": ["src/tags/payload/mod.rs:ILGenericPayloadTag"]}
{"id": "C48", "title": "Scanner walks tag sequences", "statement": "Scanning the concatenation of any serialized tags, RawTagScanner returns for each tag in order its id, offset, header and value size, so that tag_slice and value_slice of the buffer are that tag's bytes and payload; after the last one next_tag reports an I/O error (EndOfData for readers over memory); it never returns None; every success on any reader describes bytes that were consumed; next_tag_if_id returns that tag if the id matches and otherwise fails with the tag consumed. The accessors of an offset are the sums its name says; slices of data not containing the tag panic; claim refuted: they always do so (on 32-bit targets an offset of 2^32 or more is cut to its low bits).", "quantifier": "every list of tags of any length, every reader, both usize widths, overflow checks on or off", "why_tests_cant": "unbounded lists", "anchors": ["src/tags/raw/mod.rs:RawTagScanner", "src/tags/raw/mod.rs:RawTagOffset"]}
{"id": "C49", "title": "Scanner offsets with non-minimal headers", "statement": "Claim checked: the offsets reported are right for every input the deserializer accepts. It is false when a tag id or size is not minimally encoded; reported sizes are too small by exactly the padding.", "quantifier": "every accepted tag", "why_tests_cant": "all non-minimal encodings", "anchors": ["src/tags/raw/mod.rs:RawTagScanner::next_tag"]}
{"id": "C50", "title": "Scanner arithmetic", "statement": "Claim checked: next_tag never panics and never goes backwards. It is false: a declared size near 2^64 overflows (panic with overflow checks, wrong offset without), and on a seekable source it can make the scan loop forever. Panics come only from overflow checks (of the offset, or of the position of a seekable source); without such sizes every tag consumes at least one byte; a call that fails for lack of data has already moved the offset.", "quantifier": "every input, overflow checks on or off", "why_tests_cant": "sizes near 2^64", "anchors": ["src/tags/raw/mod.rs:RawTagScanner::next_tag", "src/io/std_io/mod.rs:skip_u64"]}
{"id": "C51", "title": "Scanner agrees with the factory", "statement": "If the factory accepts bytes with a minimally encoded header as tag t, the scanner reports t's id and as total size exactly the bytes the factory consumed, and leaves the reader at the same position. The converse is false: the scanner only looks at headers.", "quantifier": "every accepted tag, reader and factory", "why_tests_cant": "all accepted inputs", "anchors": ["src/tags/raw/mod.rs:RawTagScanner", "src/tags/standard/factory/mod.rs:deserialize"]}
{"id": "C52", "title": "Mapping to parent space", "statement": "When map_to_parent_space succeeds, slicing the outer buffer with the mapped offset gives the same tag and value bytes as slicing the parent's value with the child's; it fails with CorruptedData exactly when the child does not fit in the parent's value, as long as the child's end is below 2^64 (otherwise it panics or succeeds wrongly).", "quantifier": "every buffer, parent and child", "why_tests_cant": "all offsets", "anchors": ["src/tags/raw/mod.rs:RawTagOffset::map_to_parent_space"]}
{"id": "C53", "title": "Cost of size()", "statement": "Claim checked: the work done by size() and to_bytes() is polynomial in the tag's size. It is false: the calls of value_size double with each nesting level (between 2^depth and 2^(depth+1) per tag inside), so an accepted input of 125 bytes needs more than 2^62 of them to measure or serialize.", "quantifier": "every nesting depth", "why_tests_cant": "exponential behaviour is invisible on small tests", "anchors": ["src/tags/mod.rs:ILTag::size", "src/tags/standard/explicit/mod.rs:ILTagSeqTag::value_size", "src/tags/mod.rs:to_bytes"]}
{"id": "C54", "title": "How deep deserialize nests", "statement": "The calls of deserialize nest as deep as the 512 MB limit on one tag allows and no deeper. For every depth up to 90041106 there is an accepted input of at most 6 bytes a level that needs that many nested calls (so every stricter bound on the recursion is refuted), and whatever the factory, reader and input, accepted or not, 90041126 nested calls are always enough; for an input in memory half its length plus 18 are enough.", "quantifier": "every depth; every reader, factory and input, failed calls included", "why_tests_cant": "needs all depths, and the deepest input is half a gigabyte", "anchors": ["src/tags/standard/factory/mod.rs:deserialize", "src/tags/standard/explicit/mod.rs:ILTagSeqTag::deserialize_value", "src/tags/mod.rs:MAX_TAG_SIZE"]}
{"id": "C55", "title": "Allocation before data", "statement": "Claim checked: memory requested while deserializing is proportional to the input. It is false for any reasonable factor: a header of 6 bytes makes the library request 2^29 bytes, and every 11 bytes more can make it reserve another 2^29 elements before failing. But no request exceeds 2^29 bytes or elements, there are at most two for each byte read, and so the total is at most 2^30 per byte read.", "quantifier": "every input", "why_tests_cant": "all inputs", "anchors": ["src/tags/serialization/mod.rs:deserialize_bytes_into_vec", "src/tags/standard/explicit/mod.rs:ILILIntArrayTag::deserialize_value", "src/tags/standard/explicit/mod.rs:ILTagArrayTag::deserialize_value"]}
{"id": "C56", "title": "Implicit and reserved ids", "statement": "is_implicit_tag is true exactly for ids up to 15 and is_reserved_tag exactly up to 31; implicit_tag_size is the exact payload size of every fixed-size implicit standard tag, the maximum for the two ILInt tags and 0 for every other id.", "quantifier": "every u64 id and every implicit tag value", "why_tests_cant": "2^64 ids", "anchors": ["src/tags/mod.rs:is_implicit_tag", "src/tags/mod.rs:is_reserved_tag", "src/tags/standard/implicit/mod.rs:implicit_tag_size"]}
{"id": "C57", "title": "Constructors and accessors", "statement": "Every constructor builds a tag of its type with the given (or standard) id and the given (or zero) value; every sequence of setter calls keeps id and type and changes only the fields it names; arguments within their Rust types only ever build well-formed tags. Constructors panic exactly when a raw or big decimal tag is given an implicit id or a capacity exceeds isize::MAX.", "quantifier": "every id and value, every setter history", "why_tests_cant": "all ids and values", "anchors": ["src/tags/mod.rs:ILRawTag", "src/tags/standard/explicit/mod.rs", "src/tags/standard/implicit/mod.rs"]}
{"id": "C58", "title": "A limit over a failing source", "statement": "Claim checked: whatever the source does, a LimitedReader of limit n never advances it by more than n bytes. It is false: bytes a source loses in a failed read_all are not counted, so retrying reads past the limit. Each successful call does stay within available(), no call panics, and over any history the bytes given to successful calls add up to at most n minus available(), exactly that unless a skip failed.", "quantifier": "every source, including ones that fail midway, and every history of calls", "why_tests_cant": "needs a source that fails at an unlucky moment; tests use in-memory sources", "anchors": ["src/io/mod.rs:LimitedReader::read_all", "src/io/std_io/mod.rs:ReadReader::read_all"]}
{"id": "C59", "title": "Dictionaries behave as maps", "statement": "After any history of insert calls, get returns the last value inserted under a key (or the one there before), each insert returned the value its key had until then, len is the number of distinct keys, is_empty is true only if nothing was ever inserted, and two histories that leave the same values give identical bytes.", "quantifier": "every dictionary and string dictionary, every insertion history", "why_tests_cant": "all histories and keys", "anchors": ["src/tags/standard/explicit/mod.rs:ILDictTag::insert", "src/tags/standard/explicit/mod.rs:ILDictTag::get", "src/tags/standard/explicit/mod.rs:ILStrDictTag::insert", "src/tags/standard/explicit/mod.rs:ILStrDictTag::get"]}
{"id": "C60", "title": "Results are final unless data is missing", "statement": "If deserialize on some bytes gives a tag or an error other than an I/O error for missing data, then it gives exactly that result, leaving the later bytes unread, when any bytes follow. Every strict prefix of an accepted buffer fails with such an I/O error, never with a wrong tag or CorruptedData. On a well-behaved reader the only other errors are CorruptedData, UnknownTag, TagTooLarge and a corrupted ILInt. Claim also checked: an error for missing data means that some continuation is accepted; it is false.", "quantifier": "every byte sequence, every continuation, every reader and factory", "why_tests_cant": "all prefixes of all inputs", "anchors": ["src/tags/standard/factory/mod.rs:deserialize", "src/tags/mod.rs:deserialize_ilint", "src/io/mod.rs:LimitedReader"]}
{"id": "C61", "title": "Deserialization computes a reference parser", "statement": "There is a parser over byte lists, written without readers, limits or mutable targets, such that for any bytes deserialize and deserialize_into return the tag it finds, or the error for the flaw it finds (missing data, invalid contents, ILInt overflow, size above 512 MiB, unknown id, other id than the target's), with the reader left at the byte where the parser stopped, except that after missing data the position is not specified. from_bytes reports leftover bytes as CorruptedData. The parser accepts exactly the grammar.", "quantifier": "every byte sequence, valid or not, every reader, factory and target", "why_tests_cant": "all malformed inputs, with their exact errors and positions", "anchors": ["src/tags/standard/factory/mod.rs:deserialize", "src/tags/standard/factory/mod.rs:deserialize_into", "src/tags/standard/factory/mod.rs:deserialize_tag_value_into", "src/tags/mod.rs:from_bytes", "src/tags/standard/implicit/mod.rs", "src/tags/standard/explicit/mod.rs"]}
{"id": "C62", "title": "Readers that fail", "statement": "Whatever errors the source raises and whenever it raises them, deserialize and deserialize_into return one of the errors the source can raise, or the error of a limit that was too small, or exactly what the reference parser finds in the bytes of the source (the tag, or the error for the flaw, and the position). A failure of the source is never turned into a tag, a different tag or another error.", "quantifier": "every reader with any schedule of chunks, interruptions and failures, custom readers and limits included, every factory and target", "why_tests_cant": "needs sources failing at every possible moment", "anchors": ["src/tags/standard/factory/mod.rs:deserialize", "src/tags/standard/factory/mod.rs:deserialize_into", "src/io/mod.rs:LimitedReader", "src/io/mod.rs:Reader"]}
{"id": "C63", "title": "User tags inside the library's containers", "statement": "For tags of user types registered in the factory and placed anywhere in trees of containers: size is the number of bytes written, the bytes are those of the same tree with raw tags holding the bytes of the user tags, and reading them back gives the same tree, also into an existing user tag. Whatever the data, deserialization terminates without panic if the user code does. A creator that panics panics the factory, once the header has been read. Whatever the user code does through the reader, accepted data is correctly framed. With no user type registered, everything is exactly as with the standard factory.", "quantifier": "every user type, every implementation of its methods that keeps the stated contract, every tree, reader and factory", "why_tests_cant": "quantifies over user code", "anchors": ["src/tags/mod.rs:ILTag", "src/tags/mod.rs:ILTagCreatorEngine", "src/tags/standard/factory/mod.rs:deserialize", "src/tags/standard/factory/mod.rs:deserialize_tag_value_into", "src/tags/payload/mod.rs:ILGenericPayloadTag", "src/tags/standard/explicit/mod.rs:ILTagSeqTag", "src/tags/standard/explicit/mod.rs:ILTagArrayTag", "src/tags/standard/explicit/mod.rs:ILDictTag"]}
{"id": "C64", "title": "Machine arithmetic in sizes", "statement": "For every tag whose data takes less than 2^63 bytes of memory, in builds with and without overflow checks and for any pointer width, the u64 additions in size(), value_size() and serialize() never overflow, so they give the exact sizes and bytes. to_bytes() then gives the serialized bytes if they are at most isize::MAX. Claim checked and false: to_bytes() never panics (a tag of 2 GB on a 32-bit machine).", "quantifier": "every tag that fits in memory, every writer, build and pointer width", "why_tests_cant": "needs terabytes of memory", "anchors": ["src/tags/mod.rs:size", "src/tags/mod.rs:to_bytes", "src/tags/standard/explicit/mod.rs:value_size", "src/tags/standard/explicit/mod.rs:string_tag_size_from_value"]}
{"id": "C65", "title": "The extent of a call", "statement": "Whatever the outcome, the reader and its failures, one call of deserialize, deserialize_into or deserialize_string_tag_from_value takes from the source less than a header (at most 18 bytes), or one header and at most as many bytes as it declares, so never more than 2^29 + 18 bytes. Bytes after the declared end of a tag are never touched, also when the call fails, and no limit around the reader is exceeded.", "quantifier": "every reader, schedule of failures, custom reader, limit, factory and target", "why_tests_cant": "needs failures at every moment and inputs beyond the size limit", "anchors": ["src/tags/standard/factory/mod.rs:deserialize", "src/tags/standard/factory/mod.rs:deserialize_into", "src/tags/standard/factory/mod.rs:deserialize_tag_value_into", "src/tags/standard/explicit/mod.rs:deserialize_string_tag_from_value", "src/io/mod.rs:LimitedReader"]}
{"id": "C66", "title": "A complete envelope settles the outcome", "statement": "Once the id, the size and the declared number of bytes are there, the result of deserialize and deserialize_into (the tag, the error or the report of missing data, and the position unless data is missing) does not depend on what follows. So missing data reported for a complete envelope is final: trying again with more data never gives a tag. 2^29 + 18 bytes of input settle every call.", "quantifier": "every header, body and pair of continuations, every pair of readers and factory", "why_tests_cant": "all continuations", "anchors": ["src/tags/standard/factory/mod.rs:deserialize", "src/tags/standard/factory/mod.rs:deserialize_into", "src/io/mod.rs:LimitedReader"]}
{"id": "C67", "title": "Several tags on one stream", "statement": "Tags serialized one after another are read back by successive calls of deserialize, each starting where the one before stopped. On any reader successive successes correspond to consecutive encodings of at least one byte, and a byte string is cut into tags in one way only. At the end of the data the error is missing data. Claim checked and false: after an error the next call starts at the next tag; it can return a tag from inside the refused one.", "quantifier": "every list of tags, every byte string, every reader and factory", "why_tests_cant": "all sequences", "anchors": ["src/tags/standard/factory/mod.rs:deserialize", "src/tags/mod.rs:to_bytes", "src/tags/mod.rs:serialize"]}
{"id": "C68", "title": "Containers with a factory of the user", "statement": "deserialize_value of the sequence, the array and the dictionary, called with any implementation of ILTagFactory: the container afterwards holds exactly what consecutive calls of the factory returned (for a dictionary, merged by key in that order), nothing of what it held before (unless the count itself is refused: then it is unchanged); a failure of the factory is reported unchanged; an array declaring more items than bytes, or leaving bytes over, is refused. A container takes at most its declared bytes, exactly those on success. It returns whenever the factory does and takes at least a byte per tag. Claim checked and refuted: it returns whenever the factory does; with a factory that takes no bytes the sequence grows for ever.", "quantifier": "every factory (any function of the reader), item type, reader, input, declared size and previous contents", "why_tests_cant": "needs arbitrary implementations of the trait; the endless case needs unbounded steps", "anchors": ["src/tags/standard/explicit/mod.rs:ILTagSeqTag::deserialize_value", "src/tags/standard/explicit/mod.rs:ILTagArrayTag::deserialize_value", "src/tags/standard/explicit/mod.rs:ILDictTag::deserialize_value", "src/tags/mod.rs:ILTagFactory"]}
{"id": "C69", "title": "Readers with arbitrary code", "statement": "On any implementation of Reader, also one whose read_all is arbitrary code that lies, never runs out of data, or scribbles on the buffer, as long as its calls return, deserialize and deserialize_into return (no panic, no endless loop) after at most 2^29 + 18 bytes and at most two calls per byte plus one. At most one call fails, the last, and then its error is the result, unchanged. An ILInt takes at most nine bytes.", "quantifier": "every type implementing Reader without panicking, with any read and read_all, every state, factory and target", "why_tests_cant": "quantifies over user code", "anchors": ["src/io/mod.rs:Reader", "src/io/mod.rs:Reader::read_all", "src/io/mod.rs:LimitedReader", "src/tags/standard/factory/mod.rs:deserialize", "src/tags/standard/factory/mod.rs:deserialize_into", "src/ilint/mod.rs:decode"]}
{"id": "C70", "title": "The answers decide the result", "statement": "What deserialize returns on a user's reader is a function of the answers it got: a reader replaying the same bytes, then the same error, gives the same result (unless what failed was a read_all of no bytes, which has no answer to replay). An accepted tag is well formed and is the one encoded by exactly the bytes handed out, so that from_bytes accepts these with the same result; a refusal without a failing call is the refusal of these bytes.", "quantifier": "every implementation of Reader, every state and factory", "why_tests_cant": "quantifies over user code", "anchors": ["src/io/mod.rs:Reader", "src/tags/standard/factory/mod.rs:deserialize", "src/tags/mod.rs:from_bytes"]}
{"id": "C71", "title": "Readers that answer alike", "statement": "A user's reader whose read and read_all answer, step by step, as some reader of the library does is read by deserialize and deserialize_into with the same result, leaving both at corresponding states. In particular the model over arbitrary readers and the model over the library's readers agree on the latter.", "quantifier": "every implementation of Reader related by any simulation to any reader, every factory and target", "why_tests_cant": "quantifies over user code", "anchors": ["src/io/mod.rs:Reader", "src/tags/standard/factory/mod.rs:deserialize", "src/tags/standard/factory/mod.rs:deserialize_into"]}
{"id": "C72", "title": "Writers with arbitrary code", "statement": "On any implementation of Writer, serialize makes the calls of write and write_all that a function of the tag lists, in order, up to the first that fails, and returns that failure unchanged; it succeeds exactly when all of them do. Their bytes in order are the encoding, so what was given is always a prefix of it, in at most two calls per byte. Numbers and ILInts are written in one call. Writers that answer alike are written alike; a type with only write gets the encoding byte by byte; on the library's writers this is serialize.", "quantifier": "every type implementing Writer with any write and write_all that return, every state and tag of less than 2^64 bytes", "why_tests_cant": "quantifies over user code", "anchors": ["src/io/mod.rs:Writer", "src/io/mod.rs:Writer::write_all", "src/tags/mod.rs:ILTag::serialize", "src/tags/standard/explicit/mod.rs:serialize_value", "src/ilint/mod.rs:encode", "src/io/data/mod.rs"]}
{"id": "C73", "title": "The scanner computes a reference scanner", "statement": "There is a function of the bytes ahead that reads one header, written without readers, such that next_tag reports what it finds (id, size of the minimal header, size of the value) and leaves the reader after the declared value; or reports the flaw it finds with the reader where the header was refused and the offset unmoved (id 15 is CorruptedData, an ILInt above 64 bits is an I/O error); or reports missing data, with the offset moved past the declared value if the header was there. On readers that fail as they like, the only other outcome is an error the reader can raise.", "quantifier": "every byte sequence, valid or not, every reader, offset, build and pointer width", "why_tests_cant": "all malformed inputs, with their exact errors, offsets and positions", "anchors": ["src/tags/raw/mod.rs:RawTagScanner::next_tag", "src/tags/raw/mod.rs:RawTagScanner::extract_tag_size", "src/io/mod.rs:Reader::skip_u64"]}
{"id": "C74", "title": "Default skips over arbitrary readers", "statement": "On any implementation of Reader, the default skip returns: it asks read_all for 512 bytes at a time and then for the rest, exactly until count bytes were taken or a request failed, and that failure is the result. The default skip_u64 calls skip with usize::MAX as often as needed and with the rest, up to the first failure; where usize has 64 bits that is one call. goto_end of a limit does the same with the bytes left and empties the limit exactly on success. On the library's readers this is the skip of their model.", "quantifier": "every type implementing Reader with any read_all (and any skip, for skip_u64), every state, count and pointer width", "why_tests_cant": "quantifies over user code; 2^32 bytes and more on 32-bit targets", "anchors": ["src/io/mod.rs:Reader::skip", "src/io/mod.rs:Reader::skip_u64", "src/io/mod.rs:LimitedReader::goto_end"]}
{"id": "C75", "title": "Scanning arbitrary readers", "statement": "On any implementation of Reader, with read, read_all and skip_u64 arbitrary code, next_tag takes at most 18 bytes; a failing call is the last one and its error is returned with the offset unmoved; bytes that are no header are refused with the error of the reference scanner and nothing else is called; otherwise skip_u64 is called exactly once with the bytes ahead, its failure is returned, and the offset has moved also then. Tags found one after another are adjacent. An object answering as a library reader is scanned as that one.", "quantifier": "every type implementing Reader, every state, offset and build; limits over user readers included", "why_tests_cant": "quantifies over user code", "anchors": ["src/tags/raw/mod.rs:RawTagScanner::next_tag", "src/tags/raw/mod.rs:RawTagScanner::next_tag_if_id", "src/tags/raw/mod.rs:RawTagScanner::extract_tag_size", "src/io/mod.rs:Reader::skip_u64"]}
{"id": "C76", "title": "User types that override the provided methods", "statement": "For trees with tags of user types whose size and serialize are any code at all: a container says the sum of what its items say plus its own bytes, writes its header with that and the items in order (a dictionary in key order). The size of a tree is wrong by exactly the sum of the errors of its user tags. When an item fails, the container fails with the same error, the writer is as the item left it, and nothing after the item is written. A type that overrides is_implicity writes and counts its size according to that answer, not to its id.", "quantifier": "every user type, every implementation of size, serialize and is_implicity, every tree and writer", "why_tests_cant": "quantifies over user code", "anchors": ["src/tags/mod.rs:ILTag", "src/tags/mod.rs:ILTag::size", "src/tags/mod.rs:ILTag::serialize", "src/tags/mod.rs:ILTag::is_implicity", "src/tags/standard/explicit/mod.rs:ILTagSeqTag", "src/tags/standard/explicit/mod.rs:ILTagArrayTag", "src/tags/standard/explicit/mod.rs:ILDictTag"]}
{"id": "C77", "title": "What a failed deserialize_into leaves", "statement": "After a failed deserialize_into the object is unchanged, or the header was read and carried its id and the object holds a specified part of the new contents: a byte vector is resized to the declared size and starts with the bytes received, a list holds exactly the items read so far, a dictionary the entries read so far, a range, version or decimal has its first fields replaced. Whatever happens, the object stays valid at every depth (UTF-8 strings, 16 bytes in a BIN128, distinct keys, numbers in range), so calling again, on any reader, gives what it would have given on the untouched object.", "quantifier": "every reader and schedule of failures, every valid object, every factory and outcome, user creators that panic included", "why_tests_cant": "needs a failure at every byte of every object", "anchors": ["src/tags/standard/factory/mod.rs:deserialize_into", "src/tags/standard/factory/mod.rs:deserialize_tag_value_into", "src/tags/mod.rs:ILRawTag::deserialize_value", "src/tags/standard/explicit/mod.rs:deserialize_value", "src/tags/standard/implicit/mod.rs:deserialize_value"]}
{"id": "C78", "title": "Sizes said by user tags in machine arithmetic", "statement": "In a tree with user tags that say any 64-bit size, size() is exact if the exact size fits in 64 bits; if not it panics with overflow checks, and without them every container reduces its sum modulo 2^64. serialize() is exact where the sums fit; with a larger sum it panics with the id written, or writes headers with the reduced sums. to_bytes() panics exactly if what size() says, taken modulo the width of usize, cannot be allocated, whatever would be written, or if size() panics. Claim checked: where no user tag says less than it writes, no container does. True if the sums fit, false without overflow checks: a sequence with two items can be written as one of no bytes and read back as empty.", "quantifier": "every user type, every size its tags say, every tree, writer, build and pointer width", "why_tests_cant": "quantifies over user code and sizes up to 2^64", "anchors": ["src/tags/mod.rs:ILTag::size", "src/tags/mod.rs:ILTag::serialize", "src/tags/mod.rs:ILTag::to_bytes", "src/tags/standard/explicit/mod.rs:ILTagSeqTag", "src/tags/standard/explicit/mod.rs:ILTagArrayTag", "src/tags/standard/explicit/mod.rs:ILDictTag"]}
{"id": "C79", "title": "Capacity overflow while deserializing", "statement": "On a target with pointers of any width, deserialize, deserialize_into and from_bytes give the result the other properties describe, or panic with a capacity overflow exactly when a vector they request would exceed isize::MAX bytes. With 64-bit pointers that never happens. With 32-bit pointers it happens exactly when an array declares 2^28 elements or more, so deserialization does panic there: eleven bytes are enough (claim that it never panics refuted), while tags shorter than 2^28 bytes that are accepted on one target are accepted with the same result on the other. read_string and deserialize_bytes panic exactly for sizes above isize::MAX.", "quantifier": "every input, reader, factory, target and pointer width", "why_tests_cant": "needs a 32-bit target and the one header that passes the size check", "anchors": ["src/tags/standard/explicit/mod.rs:ILILIntArrayTag::deserialize_value", "src/tags/standard/explicit/mod.rs:ILTagArrayTag::deserialize_value", "src/tags/serialization/mod.rs:deserialize_bytes", "src/io/data/mod.rs:read_string", "src/tags/standard/factory/mod.rs:deserialize", "src/tags/standard/factory/mod.rs:deserialize_into"]}
{"id": "C80", "title": "Which inputs re-serialize to themselves", "statement": "Call accepted bytes canonical if every ILInt in them (ids, sizes, counts, elements, payloads) is the shortest for its value and every dictionary lists distinct keys in increasing byte order. Serializing what was read gives back the same bytes exactly when they are canonical. Otherwise it gives fewer bytes, or, exactly when only the order of dictionary keys is at fault, the same number of bytes in another order. Every accepted document has exactly one canonical encoding, the one to_bytes returns, and two inputs are the same document exactly when their re-serializations are equal. Claim checked and false: the deserializer only accepts canonical input.", "quantifier": "every accepted input, reader and factory that keeps ids, at every depth", "why_tests_cant": "all non-minimal and unordered encodings, nested anywhere", "anchors": ["src/tags/standard/factory/mod.rs:deserialize", "src/tags/standard/factory/mod.rs:from_bytes", "src/tags/mod.rs:ILTag::to_bytes", "src/ilint/mod.rs:decode", "src/tags/standard/explicit/mod.rs:ILDictTag", "src/tags/standard/explicit/mod.rs:ILStringDictTag"]}
{"id": "C81", "title": "User types whose deserialize_value is a program", "statement": "For user types whose deserialize_value is any sequence of calls of the methods of its reader, of LimitedReader::new and of the factory's deserialize, deciding what to do from the answers and free to ignore or retry failures: deserialization returns without panic unless a program panics. Which documents are accepted is a grammar, built from the programs: what is in it is accepted from every reader that fails only at the end of its data, with exactly the object and bytes of the grammar; if the programs propagate failures, only that is accepted, whatever the reader does; the grammar is not ambiguous. On readers over memory no program takes more than the size declared for its tag, whatever it does and whatever the outcome. Claim checked and false on streams: a program that retries a failed read takes bytes from outside its tag and the factory accepts.", "quantifier": "every user type, every program over the two traits, every tree, reader and factory", "why_tests_cant": "quantifies over user code and over failures at every moment", "anchors": ["src/tags/mod.rs:ILTag::deserialize_value", "src/tags/mod.rs:ILTagFactory", "src/io/mod.rs:Reader", "src/io/mod.rs:LimitedReader", "src/tags/standard/factory/mod.rs:deserialize", "src/tags/standard/factory/mod.rs:deserialize_tag_value_into"]}
{"id": "C82", "title": "User programs over arbitrary readers", "statement": "With tag types whose deserialize_value is any program over the traits, and a reader that is any implementation of Reader, deserialize and deserialize_into return, having taken at most 2^29 + 18 bytes by calls that succeeded. The result depends only on the calls and the answers, the contents of the buffers after failing calls included: any reader of the library that gives these answers to these calls gives the same result. If no call failed, the bytes handed out alone decide it. If the programs propagate failures, accepted bytes are in the grammar of the programs (C81). A program given a limit takes at most the limit by successful calls, whatever it does.", "quantifier": "every user type and program, every implementation of Reader, every state, factory and target", "why_tests_cant": "quantifies over two pieces of user code at once", "anchors": ["src/tags/mod.rs:ILTag::deserialize_value", "src/tags/mod.rs:ILTagFactory", "src/io/mod.rs:Reader", "src/io/mod.rs:LimitedReader", "src/tags/standard/factory/mod.rs:deserialize", "src/tags/standard/factory/mod.rs:deserialize_into", "src/tags/standard/factory/mod.rs:deserialize_tag_value_into"]}
{"id": "C83", "title": "User programs that call deserialize_into", "statement": "Tag types whose deserialize_value is any program over its reader and both deserialize and deserialize_into of its factory, reading fields in place, also fields of its own type: the call behaves, with everything before and after it, as the calls of the reader and of deserialize that it consists of. So the factory behaves as one with types that make no such calls (C81): if the programs do not panic, deserialize and deserialize_into return; if they propagate failures, accepted data is in the wire grammar with the contents of each user tag exactly what its program reads; the grammar of the programs is accepted; on memory accepted data is framed correctly whatever the programs do about failures.", "quantifier": "every user type, every program over the two traits with both methods of the factory, every nesting of such calls, every reader and factory", "why_tests_cant": "quantifies over user code, over recursion of any depth and over failures at every moment", "anchors": ["src/tags/mod.rs:ILTag::deserialize_value", "src/tags/mod.rs:ILTagFactory::deserialize_into", "src/tags/standard/factory/mod.rs:deserialize", "src/tags/standard/factory/mod.rs:deserialize_into", "src/tags/standard/factory/mod.rs:deserialize_tag_value_into", "src/io/mod.rs:LimitedReader"]}
{"id": "C84", "title": "User programs that decode other buffers", "statement": "Tag types whose deserialize_value also calls the factory on readers it makes itself, as for tags that hold encrypted or compressed tags, and goes on with the result and the reader: the outcome does not depend on any bound on the depth of the calls, and programs that do not panic give no panic at any depth. If no program makes a reader with more bytes than it has got from its own by then, deserialize and deserialize_into return, with no more nested calls than bytes. Claim checked and false with one byte more: a type that decodes its payload with its id in front never ends. What ends is what the same programs do with the answers on the other readers written into them, and the other way round; so (C81) accepted data is in the grammar of the programs, that grammar is accepted, and on memory accepted data is framed correctly: the other readers take nothing from the outer one.", "quantifier": "every user type, every program over the two traits with any readers of the library made by the program, every depth, reader and factory", "why_tests_cant": "quantifies over user code and over recursion without a bound; one claim fails only by overflowing the stack", "anchors": ["src/tags/mod.rs:ILTag::deserialize_value", "src/tags/mod.rs:ILTagFactory::deserialize", "src/tags/mod.rs:ILTagFactory::from_bytes", "src/tags/standard/factory/mod.rs:deserialize", "src/tags/standard/factory/mod.rs:deserialize_into"]}
{"id": "C85", "title": "User programs that make every call", "statement": "Tag types whose deserialize_value is any program that calls deserialize and deserialize_into of its factory, on its own reader and on readers it makes, on new objects and on objects the factory gave it, and uses the results, the objects and the readers afterwards as it likes: the outcome of both methods does not depend on any bound on the depth of the calls; programs that do not panic give no panic at any depth, and a call that succeeds takes bytes. If no program makes a reader with more bytes than it has got by then, both methods return. What ends is what programs with calls only on their own reader do (C83), with the answers of the factory on the others written in, and the other way round. So accepted data is in the grammar of the programs and in the wire grammar, that grammar is accepted, and on memory accepted data is framed correctly whatever the programs do about failures.", "quantifier": "every user type, every program over both traits with both methods of the factory and any readers of the library, every depth, reader, object and factory", "why_tests_cant": "quantifies over user code and over mutual recursion without a bound", "anchors": ["src/tags/mod.rs:ILTag::deserialize_value", "src/tags/mod.rs:ILTagFactory::deserialize", "src/tags/mod.rs:ILTagFactory::deserialize_into", "src/tags/standard/factory/mod.rs:deserialize", "src/tags/standard/factory/mod.rs:deserialize_into", "src/tags/standard/factory/mod.rs:deserialize_tag_value_into"]}
{"id": "C86", "title": "User types whose serialize is a program, on any writer", "statement": "Tag types whose serialize is any program that calls the methods of its writer, serializes other objects on it or on writers of its own, and does what it likes with the answers; inside any tree, on any implementation of Writer: all that happens is calls of write and write_all, each a function of the answers before it, and the result is a function of the answers. The library adds no panic, and the outcome does not depend on a bound on the depth of the calls; if the programs serialize objects of smaller rank, it returns. If no program returns Ok after a failed call, Ok means that every call succeeded and that their bytes are the tree laid out around what its user tags write, with the sizes they say. If the programs stop at the first failure, every run is the complete one cut after the first call that fails, and the types meet the contract of C63 and C76. Claim checked and false for programs that ignore failures: Ok means that everything was written.", "quantifier": "every user type, every program, every tree, every implementation of Writer and state", "why_tests_cant": "quantifies over two pieces of user code at once and over failures at every moment", "anchors": ["src/tags/mod.rs:ILTag::serialize", "src/tags/mod.rs:ILTag::to_bytes", "src/io/mod.rs:Writer", "src/io/mod.rs:Writer::write_all", "src/tags/standard/explicit/mod.rs:ILTagSeqTag", "src/tags/standard/explicit/mod.rs:ILTagArrayTag", "src/tags/standard/explicit/mod.rs:ILDictTag"]}
{"id": "C87", "title": "User programs that make every call, over arbitrary readers", "statement": "The programs of C85 (any calls of the reader, of LimitedReader::new and of both methods of the factory, on their own reader and on readers they make) with a reader that is any implementation of Reader: the outcome does not depend on any bound on the depth of the calls; programs that do not panic give no panic; what ends has taken at most 2^29 + 18 bytes by calls that succeeded. If no program makes a reader with more bytes than it has got by then, deserialize and deserialize_into return on every reader, also on one that never runs out of data. The result, the object and the calls depend only on the answers of the reader, buffers after failing calls included: any reader of the library that gives these answers leads C85 to the same result at the same depth, the target being left the same on failure too. If no call failed, the bytes handed out alone decide it. If the programs propagate failures, accepted bytes are in the grammar of C85. A program takes at most the size of its tag by successful calls, whatever it does.", "quantifier": "every user type and program over both traits, every implementation of Reader, every state, depth, object and factory", "why_tests_cant": "quantifies over two pieces of user code at once, over mutual recursion without a bound and over failures at every moment", "anchors": ["src/tags/mod.rs:ILTag::deserialize_value", "src/tags/mod.rs:ILTagFactory::deserialize", "src/tags/mod.rs:ILTagFactory::deserialize_into", "src/io/mod.rs:Reader", "src/io/mod.rs:LimitedReader", "src/tags/standard/factory/mod.rs:deserialize", "src/tags/standard/factory/mod.rs:deserialize_into", "src/tags/standard/factory/mod.rs:deserialize_tag_value_into"]}
{"id": "C88", "title": "A panic of user code is final", "statement": "The library catches no panic of user code: not one of a user tag (serialize, to_bytes, deserialize_value, whatever the methods of the factory do in between), of a creator, of a reader or of a writer. If a call of the library returns, replacing the panics of the user code by anything else whatever gives the same answer, the same object and the same reader or writer; so where the replacement would make a difference, the call panics. It holds for user types with arbitrary code, for all the programs of C81 to C87, also when a program ignores the failure of a nested call or a container catches nothing but errors, and for readers and writers with arbitrary code under the factory, the scanner and the serializers, with all of them panicking together. The same holds for readers, creators, ids, objects and writers that share state (C90, C92), and for id, as_any and as_mut_any of user objects in the downcast helpers (C91).", "quantifier": "every user type, program, creator, reader and writer, every replacement of its panics, every input, state, depth and factory", "why_tests_cant": "quantifies over two versions of user code at once; no test shows that a panic cannot be swallowed", "anchors": ["src/tags/mod.rs:ILTag::deserialize_value", "src/tags/mod.rs:ILTag::serialize", "src/tags/mod.rs:ILTag::to_bytes", "src/tags/mod.rs:ILTagCreator", "src/io/mod.rs:Reader", "src/io/mod.rs:Writer", "src/tags/standard/factory/mod.rs:deserialize", "src/tags/standard/factory/mod.rs:deserialize_into", "src/tags/raw/mod.rs:RawTagScanner::next_tag"]}
{"id": "C89", "title": "Comparing and cloning any objects with any factory", "statement": "For objects of any user type, in any tree, and any implementation of ILTagFactory: iltag_are_equal is true exactly if both objects serialize to the same bytes, false if one fails, and does not ask the second object if the first fails; it never gives an error, it panics exactly if an object it asks does, and true is an equivalence on the objects that serialize (claim that it is symmetric refuted: one order answers false, the other panics). If the user types keep the contract of C63, equality is equality of the data up to the order of dictionary entries; a clone by a factory that knows the types is the same tree with the same user objects and equals the original; iltag_clone, whose factory knows none, gives what cloning the tree with raw tags in place of the user tags gives, equal to the original where the ids are free. The provided from_bytes accepts exactly what deserialize accepts and uses up and calls left-over bytes corrupted, whatever deserialize is; an object that cannot be serialized never reaches the factory; UntouchbleTagFactory panics on every call.", "quantifier": "every user type, tree and factory implementation, every byte string", "why_tests_cant": "quantifies over user code on both sides", "anchors": ["src/tags/util/mod.rs:iltag_are_equal", "src/tags/util/mod.rs:iltag_clone_with_factory", "src/tags/util/mod.rs:iltag_clone", "src/tags/util/mod.rs:UntouchbleTagFactory", "src/tags/mod.rs:ILTagFactory::from_bytes", "src/tags/mod.rs:ILTag::to_bytes"]}
{"id": "C90", "title": "User objects that share state", "statement": "The methods of user objects and writers may change, behind a shared reference, anything that any of them can see, so an answer may depend on all calls before it. What size, serialize and to_bytes of a tree do is then exactly one list of calls of user code, each decided by the tree and the answers before it: a container writes its id, asks its items for their sizes in order, writes the sum, then serializes them in order (dictionaries in key order), and size asks every explicit container twice for its value. They succeed exactly if these calls do and no sum overflows; otherwise the calls made are that list up to one that fails, whose failure is returned, or up to the overflow. Whatever the answers, size asks an object inside d sequences 2^d times and serialize 2^d - 1 times. If the state does not show in the answers (counters, caches, locks), the writer gets what stateless objects would write, and without state this is the model of C78. Claims checked and false: if every object says, whenever asked, what it would write at that moment, sequences are framed correctly; every object equals itself.", "quantifier": "every user type and writer with any shared state, every tree, state and build", "why_tests_cant": "quantifies over user code and all its histories; sizes that change between two calls do not occur in tests", "anchors": ["src/tags/mod.rs:ILTag::size", "src/tags/mod.rs:ILTag::serialize", "src/tags/mod.rs:ILTag::to_bytes", "src/tags/standard/explicit/mod.rs:ILTagSeqTag", "src/tags/standard/explicit/mod.rs:ILTagArrayTag", "src/tags/standard/explicit/mod.rs:ILDictTag", "src/tags/util/mod.rs:iltag_are_equal", "src/io/mod.rs:Writer"]}
{"id": "C91", "title": "Downcasts of any objects", "statement": "For every object, with as_any, as_mut_any and id of user types being any code (answering with another object, changing shared state, panicking): each of the eight helpers makes exactly the calls id (if an id is given) and then as_any or as_mut_any, the second only if the id is the one wanted; it succeeds exactly if the object answered has the type asked for, hands out the place of that object, and panics exactly if a call it made does. For the types of the library, generic payload tags included, a downcast succeeds exactly if type and id are those of the object, gives the object itself and changes nothing. Where objects answer with themselves, what is handed out is the object given; where they answer the same each time, the assertion and the downcasts agree. Claims checked and false for other user code: the object handed out has the id asked for; the shared and the mutable helper agree; a downcast succeeds after the assertion held.", "quantifier": "every object, type, id and state, every user code for id, as_any and as_mut_any", "why_tests_cant": "quantifies over user code with state", "anchors": ["src/tags/mod.rs:tag_downcast_ref", "src/tags/mod.rs:tag_downcast_mut", "src/tags/mod.rs:tag_downcast_ref_with_id", "src/tags/mod.rs:tag_downcast_mut_with_id", "src/tags/mod.rs:tag_id_downcast_ref", "src/tags/mod.rs:tag_id_downcast_mut", "src/tags/mod.rs:assert_tag_id_and_type_or_error", "src/tags/mod.rs:assert_tag_id_and_type", "src/tags/macros.rs:iltag_as_any_impl", "src/tags/payload/mod.rs:ILGenericPayloadTag"]}
{"id": "C92", "title": "Readers, creators and tags that share state", "statement": "User readers, tag creators and user tags may share any state, so that what a read, a creator, a deserialize_value or an id answers may depend on all the calls before it. Still, with code that does not panic deserialize and deserialize_into do not panic, lower every limit around them by one and the same number of bytes, at most 2^29 + 18 and after success of deserialize at least one; programs that use no other readers end; and what is accepted has taken exactly the size in its header, unless the object says at the end that its id is 10 or 14. The result does not depend on a bound on the depth. The calls of user code come in a fixed order: the reader for id and size; the creator of the id, once; the value; then id of a user object, twice unless it answers 10; deserialize_into asks for the id between the two parts of the header. No creator is called that is not registered, none before the reader, and never more often than the reader. State that does not show in the answers makes no difference, and without state this is the model of C87; programs that make readers and call the factory on them are programs that keep these in the state, and give the answers, objects and readers of C87. Claims checked and false: the same bytes give the same object; deserialize_into of an object that had an ordinary id takes the size in the header.", "quantifier": "every user type, creator and reader with any shared state, every program over both traits, every state, limit, depth, object and factory", "why_tests_cant": "quantifies over three pieces of user code at once and all their histories", "anchors": ["src/tags/mod.rs:ILTag::deserialize_value", "src/tags/mod.rs:ILTag::id", "src/tags/mod.rs:ILTagCreator::create_empty_tag", "src/tags/mod.rs:ILTagFactory::deserialize_into", "src/io/mod.rs:Reader", "src/io/mod.rs:LimitedReader", "src/tags/standard/factory/mod.rs:deserialize", "src/tags/standard/factory/mod.rs:deserialize_into", "src/tags/standard/factory/mod.rs:deserialize_tag_value_into"]}
{"id": "C93", "title": "from_bytes and clones with code that shares state", "statement": "When the objects and the creators of the user share any state: from_bytes reads one tag from the slice as from a reader that hands out all that is asked for or nothing, accepts it exactly if nothing of the slice is left, fails with CorruptedData if something is left, and otherwise fails or panics as the reading does; the state afterwards is what the reading has left in each of these cases. It does not panic if the code of the user does not, and it ends if that code does not read from other readers. It depends on the state only through the answers of the code; for code without state it is from_bytes of C89. iltag_clone_with_factory asks the object for its bytes by the calls of C90, all of them before the first call of the factory; if that fails the factory is not called and the error is returned with the state it left; otherwise it is from_bytes of these bytes in the state after them. iltag_clone calls no code of the user after it has the bytes, leaves the state as it is from there on, and gives what the closed model gives for the bytes. Panics are never caught. That two clones of one object are equal objects, and that a failing from_bytes has no effect, are false.", "quantifier": "every user type, creator and writer with any shared state, every program over both traits, every slice, object, state, depth, build and factory", "why_tests_cant": "quantifies over user code on the writing and on the reading side at once, with all its histories", "anchors": ["src/tags/mod.rs:ILTagFactory::from_bytes", "src/tags/util/mod.rs:iltag_clone_with_factory", "src/tags/util/mod.rs:iltag_clone", "src/tags/standard/factory/mod.rs:deserialize", "src/tags/standard/factory/mod.rs:ILStandardTagFactory::new", "src/tags/mod.rs:ILTag::to_bytes"]}
{"id": "C94", "title": "The work of deserialization", "statement": "Claim checked: deserialize makes a number of reader calls proportional to the input. It is false: each container puts two LimitedReaders around its contents and each of them passes every call on, so every tag inside k others costs at least 2k + 1 calls of read and read_all. For every depth d up to 90041106 there is an accepted input of at most 6d + 1 bytes that takes at least (d + 1)^2 calls, on every reader that delivers it, so no factor up to twelve million per byte is enough. But it is never worse than quadratic: whatever the reader does and whatever the outcome, deserialize and deserialize_into make at most (2b + 1)^2 calls in all, b being the bytes that the reader delivered. One call costs one call on each LimitedReader that lets it through and one on the next in line, and a success costs exactly what the ids, numbers, string lengths and nesting of the tag say (entries with a repeated key are paid for too). With bounded nesting it is linear: a tag with at most d sequences and arrays around anything in it and no dictionary of tags costs at most 4d + 6 calls per byte.", "quantifier": "every implementation of Reader, every state, factory, target and outcome; every depth", "why_tests_cant": "the cost shows only for deeply nested input, and the bound ranges over all inputs and readers", "anchors": ["src/tags/standard/factory/mod.rs:deserialize", "src/tags/standard/factory/mod.rs:deserialize_into", "src/tags/standard/factory/mod.rs:deserialize_tag_value_into", "src/io/mod.rs:LimitedReader", "src/tags/standard/explicit/mod.rs:ILTagSeqTag", "src/tags/standard/explicit/mod.rs:ILTagArrayTag", "src/tags/standard/explicit/mod.rs:ILDictTag"]}
