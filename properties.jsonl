{"id": "C01", "title": "A stream is an offset-addressed byte queue", "statement": "Whatever sequence of append, append-gap, trim (at or after the current start), freeze and unfreeze is applied to a new stream, its start offset, end offset, size and every byte or gap position in between are those of a plain queue whose elements keep the absolute offset they were appended at; append adds at the end only, trim(o) removes exactly the elements below o, and nothing else changes the content.", "quantifier": "all finite operation sequences, all chunk sizes and contents, all trim offsets at or after the start", "why_tests_cant": "Content is spread over a linked list of chunks with a recycled chunk cache; tests sample a few chunkings, the property is about every history.", "anchors": ["hilti/runtime/src/types/stream.cc: Chain::append, Chain::appendGap, Chain::trim", "hilti/runtime/include/types/stream.h: Chain, Chunk, Stream"]}
{"id": "C02", "title": "Safe stream iterators return the right byte or a documented exception", "statement": "Dereferencing a stream iterator yields the byte at its absolute offset while that offset is available, throws MissingData inside a gap and InvalidIterator outside the available range, and never reads freed or foreign memory, whatever was appended, trimmed, frozen or unfrozen in between: (a) for all programs using iterators from begin(), at() and arithmetic on these, wherever they trim to; (b) for all programs also using end() and reset() that never trim to before the start, never move or dereference an end() iterator of a non-empty stream once the stream has been trimmed to exactly that position, and reset() only streams without iterators. The API's unrestricted claim is false of the code: an end() iterator trimmed to, an iterator kept across reset(), and begin() of a stream made from empty bytes give undefined behaviour (C02_end_iterator_refuted, C02_reset_refuted, C02_empty_stream_refuted).", "quantifier": "all interleavings of stream mutations with creation, movement and dereferencing of any number of iterators", "why_tests_cant": "The failure needs a particular history (iterator cached chunk pointer outliving the chunk); no finite set of histories excludes it.", "anchors": ["hilti/runtime/include/types/stream.h: SafeConstIterator::_increment, _decrement, _dereference, Chain::findChunk, Chain::begin, Chain::end, Chain::at"]}
{"id": "C03", "title": "Trimming is permanent", "statement": "Trimming a stream to any offset at or after its start makes exactly the data at or after that offset available, and data once trimmed off never becomes available again under any later appends, gaps, freezes and trims at or after the then current start. Trimming to an offset before the start is outside the contract: inside the head chunk it makes trimmed bytes available again (C03_untrim_refuted).", "quantifier": "all pairs of trim offsets and all streams", "why_tests_cant": "Depends on the relation between an arbitrary trim offset and arbitrary chunk boundaries.", "anchors": ["hilti/runtime/src/types/stream.cc: Chain::trim"]}
{"id": "C04", "title": "A frozen stream cannot change", "statement": "Every attempt to append data or a gap of non-zero length to a frozen stream throws Frozen and leaves content, offsets and statistics unchanged; unfreezing restores the ability to append, and only unfreezing does.", "quantifier": "all streams, all data, all operation sequences between freeze and unfreeze", "why_tests_cant": "Must hold for every state a stream can be frozen in and every later operation.", "anchors": ["hilti/runtime/src/types/stream.cc: Chain::append", "hilti/runtime/include/types/stream.h: Chain::freeze, Chain::unfreeze"]}
{"id": "C05", "title": "Stream statistics count everything ever appended", "statement": "At any time the four statistics counters equal the number of data bytes, non-empty data chunks, gap bytes and gap chunks successfully appended over the stream's lifetime, independent of trimming.", "quantifier": "all operation sequences", "why_tests_cant": "Counters are updated on several code paths; only an invariant over all histories rules out drift.", "anchors": ["hilti/runtime/src/types/stream.cc: Chain::append", "hilti/runtime/include/types/stream.h: Statistics"]}
{"id": "C06", "title": "Copying a stream preserves what can be observed", "statement": "A copy of a valid stream is an unfrozen stream numbered from 0 that behaves, in every later client program, like a queue with the original's available content and statistics, preceded by whatever the original had trimmed off inside its first chunk; if nothing was trimmed off, or the start is at a chunk boundary, the copy's content is exactly the original's. (That the copy shows trimmed bytes again otherwise, and forgets that the original was frozen, are defects: C06_copy_resurrects_refuted.)", "quantifier": "all reachable streams", "why_tests_cant": "The copy works chunk-wise whereas trimming is byte-wise; agreement is needed for every trim position.", "anchors": ["hilti/runtime/src/types/stream.cc: Chain::copy", "hilti/runtime/include/types/stream.h: Stream::Stream(const Stream&)"]}
{"id": "C07", "title": "View bounds", "statement": "For every view whose begin has not been trimmed off: size() is the number of available bytes between begin and end; advance(n) removes exactly the first n bytes; limit(n) yields the first n bytes of the view (and ends at min(begin+n, end)), provided begin is not behind end; trim to an iterator removes exactly the bytes before it and never moves the end; sub(a,b) is the range [a,b) of the view if b lies within it; isComplete() iff the stream is frozen or the end of the view has arrived. A view whose begin was trimmed off throws InvalidIterator on isComplete, extract, firstBlock, find and startsWith. Outside these conditions the code violates the expectations: limit() of a view advanced beyond its end enlarges it, sub() beyond the end exposes bytes outside the parent, size() counts trimmed bytes (C07_*_refuted).", "quantifier": "all views over all streams, all offsets", "why_tests_cant": "Bounds interact with not yet arrived data; every combination of begin, end and available end must be right.", "anchors": ["hilti/runtime/include/types/stream.h: View::size, View::limit, View::trim, View::advance, View::sub"]}
{"id": "C08", "title": "Block iteration yields the view's bytes exactly once and in order", "statement": "For a valid view without gaps, concatenating the blocks returned by firstBlock()/nextBlock() gives exactly the bytes of the view, with contiguous offsets, is_first set on the first and is_last on the last block only.", "quantifier": "all views, all chunkings", "why_tests_cant": "Block boundaries depend on arbitrary chunk boundaries relative to view ends.", "anchors": ["hilti/runtime/src/types/stream.cc: View::firstBlock, View::nextBlock"]}
{"id": "C09", "title": "Extracting bytes", "statement": "extract(n) on a valid view copies exactly the next n bytes (across any chunking) and returns the view advanced by n with the same end if at least n bytes are available; otherwise it throws WouldBlock and changes nothing; it throws MissingData if a gap is in the way.", "quantifier": "all views, all n, all chunkings", "why_tests_cant": "Every split of the n bytes over chunks must work.", "anchors": ["hilti/runtime/include/types/stream.h: View::extract"]}
{"id": "C10", "title": "Forward search", "statement": "find(needle) reports success with the first position at which the complete needle occurs inside the view; on failure it returns the first position from which on everything available is a (possibly empty) prefix of the needle, so that no match starts earlier even after more data arrives. The result does not depend on how the data is split into chunks.", "quantifier": "all views, needles, start positions, chunkings", "why_tests_cant": "Self-overlapping needles and chunk boundaries give unboundedly many cases.", "anchors": ["hilti/runtime/src/types/stream.cc: View::_findForward, View::find", "hilti/runtime/src/types/bytes.cc: Bytes::find"]}
{"id": "C11", "title": "Backward search", "statement": "find(needle, Backward) from a position p before the end of the available data, with a needle of at most p - begin bytes, reports the last occurrence of the needle in the bytes from the view's begin through the one at p, and failure iff there is none; the empty needle is found at p, a needle longer than p - begin is reported as not found, without reading anything. With p at the end of the data the search reads behind the data (undefined behaviour), the byte at p counts even if the view ends at p, and a needle occupying all of [begin, p] is not found: C11_*_refuted.", "quantifier": "all views, needles, positions", "why_tests_cant": "Off-by-one errors at the view's end show only for particular content and memory layouts.", "anchors": ["hilti/runtime/src/types/stream.cc: View::_findBackward"]}
{"id": "C12", "title": "Comparison is about content, not chunking", "statement": "view == bytes, view == view and startsWith depend only on the sequence of bytes/gaps the views contain.", "quantifier": "all pairs of views and chunkings", "why_tests_cant": "All alignments of two chunk lists have to agree.", "anchors": ["hilti/runtime/src/types/stream.cc: View::operator==, View::startsWith"]}
{"id": "C13", "title": "Skipping to next data after a gap", "statement": "advanceToNextData() of a view, from the position after the view's begin (or the start of the stream if the begin was trimmed off), skips exactly the gap positions and starts at the first offset that is not in a gap, or at the end of the last gap if nothing follows; the view's end stays. If everything was trimmed off it merely moves on by one byte, possibly staying before the stream's start (C13_next_data_of_empty_stream, C13_trimmed_empty_refuted).", "quantifier": "all views and chunk/gap layouts", "why_tests_cant": "Used for error recovery at arbitrary positions.", "anchors": ["hilti/runtime/src/types/stream.cc: View::advanceToNextData"]}
{"id": "C14", "title": "In-order data reaches connected units unchanged", "statement": "If data is written to a sink without explicit sequence numbers (or with each segment starting right at the end of the previous one), connected units receive exactly the concatenation of all written data, and the sink's size equals its length.", "quantifier": "all sequences of writes", "why_tests_cant": "Fast path and buffered path have to agree for all sequences.", "anchors": ["spicy/runtime/src/sink.cc: Sink::write, Sink::_newData, Sink::_deliver"]}
{"id": "C15", "title": "Reassembly is independent of arrival order", "statement": "If non-overlapping segments that tile an interval starting at the current position arrive in any order, the units receive exactly the interval's bytes in order, each byte exactly once, as soon as the prefix is complete.", "quantifier": "all tilings, all permutations of arrival", "why_tests_cant": "Factorially many orders of unboundedly many segments.", "anchors": ["spicy/runtime/src/sink.cc: Sink::_addAndCheck, Sink::_newData, Sink::_tryDeliver"]}
{"id": "C16", "title": "Overlapping segments: no new byte is lost and none is delivered twice", "statement": "Overlapping segments, first-wins: after any sequence of writes, the units have received exactly the bytes of the positions from the initial one up to the first position not provided so far, each once, with the value of the earliest segment covering it; the reassembly position and size agree. This holds for all overlaps with automatic trimming off, and with automatic trimming on if no segment reaches across the position up to which everything has been delivered. A write throws only because a unit has completed or (automatic trimming on) because it contains only delivered data. For the remaining case - automatic trimming on and a segment straddling the delivered position - the claim is false of the code: bytes are lost, the position jumps ahead, or OutOfRange is thrown (C16_first_wins_refuted, C16_position_refuted, C16_no_exception_refuted).", "quantifier": "all overlapping segment sequences", "why_tests_cant": "Overlap arithmetic has many relative positions and depends on the whole buffer history.", "anchors": ["spicy/runtime/src/sink.cc: Sink::_addAndCheck, Sink::_newData, Sink::_trim"]}
{"id": "C17", "title": "Gaps in reassembly", "statement": "Reporting a gap over positions for which nothing has been received, at the delivered position, never crashes; the units see that gap exactly once at its position, and after skipping to its end they get the data that has arrived behind it, in order, up to the next missing position. (Gaps further ahead are covered by C18's reassembly theorem.) Data behind the gap is not delivered before the skip (C17_delivery_refuted), and a gap starting before and overlapping buffered data crashes (C17_no_crash_refuted).", "quantifier": "all buffered states and gap positions", "why_tests_cant": "Needs particular overlap of gap and buffered data.", "anchors": ["spicy/runtime/src/sink.cc: Sink::gap, Sink::_addAndCheck, Sink::_tryDeliver"]}
{"id": "C18", "title": "Skipping and trimming in a sink", "statement": "Any sequence of writes, gap reports, skips and trims, each admissible where it happens (a write starts at or behind the reader's position, or ends before it, or repeats everything before it with automatic trimming off; a gap covers nothing received; a skip goes forward and not into the middle of a segment; a trim not beyond the position), does to the sink what it does to a map from positions to bytes or gaps read from a moving position: positions are delivered in increasing order, after skip(seq) nothing below seq is delivered and delivery continues at seq as soon as there is data, the position never moves backwards, and trimming has no effect on what is delivered. Outside: skipping backwards redelivers, skipping or trimming into the middle of a segment loses its rest (C18_*_refuted).", "quantifier": "all sink states and positions", "why_tests_cant": "Positions interact with buffered chunks of arbitrary layout.", "anchors": ["spicy/runtime/src/sink.cc: Sink::skip, Sink::_skip, Sink::trim, Sink::_trim"]}
{"id": "C19", "title": "Sequence numbers are relative to the initial one, modulo 2^64", "statement": "The bytes, gaps, skips and reports produced by a sink are unchanged if the initial sequence number and the sequence numbers of all operations are shifted by the same constant modulo 2^64.", "quantifier": "all operation sequences, all shifts", "why_tests_cant": "Wrap-around can happen at any operation.", "anchors": ["spicy/runtime/src/sink.cc: Sink::_rseq, Sink::_aseq"]}
{"id": "C20", "title": "Delivered bytes are never revised", "statement": "Whatever is done to a sink in whatever state: the events reported only grow by appending, each unit's input only grows by appending and not at all once the unit has completed, failed or been disconnected; every operation gives each non-failed unit exactly the data reported as delivered and the sink's size grows by as much, or by more if the operation throws (in which case it also counts data refused because a unit had completed: C20_size_refuted).", "quantifier": "all operation sequences", "why_tests_cant": "Monotonicity over histories.", "anchors": ["spicy/runtime/src/sink.cc: Sink::_deliver, Sink::_close"]}
{"id": "C21", "title": "Waiting for input decides correctly", "statement": "waitForInput(n) returns true exactly when n bytes are available, returns false exactly when fewer are available and no more can come (view complete), and otherwise suspends; after resumption the same holds for the then current data. atEod() is true iff no byte is available now and none can come.", "quantifier": "all views, all n, all arrival schedules", "why_tests_cant": "Every arrival schedule of data and end-of-data must give the same decision.", "anchors": ["spicy/runtime/src/parser.cc: waitForInput, waitForInputNoThrow, waitForInputOrEod, waitForEod, atEod"]}
{"id": "C22", "title": "Parsing does not depend on how the input is cut or when it arrives", "statement": "A parser built from bytes fields (&size, &until, &eod, chunked or not, skipped or not), literals, integers and addresses, end-of-data tests and units or fields with &size or &max-size nested to any depth yields the same values, the same error and stops at the same position for every way the same input is split into increments and scheduled, with or without trimming. Two exceptions, with counterexamples: bytes &size=n &eod inside a limit smaller than n, and &until over input with gaps.", "quantifier": "all parsers of this kind, all inputs (gaps included), all splittings and schedules", "why_tests_cant": "Exponentially many splittings.", "anchors": ["spicy/runtime/src/parser.cc: extractBytes, expectBytesLiteral, waitForInput*", "spicy/toolchain/src/compiler/codegen/parser-builder.cc: initFullFieldParsing, preAggregate, _checkSizeAmount, advanceInput, skip", "spicy/toolchain/src/compiler/codegen/parsers/types.cc, literals.cc"]}
{"id": "C23", "title": "Parser lookup is deterministic", "statement": "lookupParser(name) for a non-empty name returns parser p exactly if there is some public parser and the name or alias is registered exactly once, for p, and p has the requested linker scope if one is given; otherwise it is an error. The empty name returns the only public parser if there is exactly one, and is an error with none or an even number of public parsers; with another odd number it returns the one registered last (the default flips with each public parser, a defect: C23_default_refuted). A name registered in two scopes is never found, whatever the scope (contrary to the documentation: C23_scope_refuted).", "quantifier": "all registries and names", "why_tests_cant": "Registries are built by arbitrary registration order.", "anchors": ["spicy/runtime/src/init.cc", "spicy/runtime/src/parser.cc: lookupParser, registerParserAlias"]}
{"id": "C24", "title": "Bytes sub-ranges", "statement": "sub(from,to) of bytes returns exactly the range [from, min(to,size)) for from <= to, and throws OutOfRange if from is behind the end; for to < from it returns everything from `from` on (C24_sub_refuted shows that this is not the addressed range); in every case the result is a contiguous part of the bytes. extract returns exactly the requested prefix and the rest or throws; find is exact.", "quantifier": "all byte strings, all 64-bit offsets", "why_tests_cant": "Wrap-around of to-from on arbitrary 64-bit values.", "anchors": ["hilti/runtime/include/types/bytes.h: Bytes::sub, Bytes::extract"]}
{"id": "C25", "title": "Text-to-integer conversion of bytes", "statement": "toInt(base)/toUInt(base): exact characterisation for all byte strings and bases: which strings are accepted, with which value, and which error is thrown otherwise (C25_toInt_exact, C25_toUInt_exact). In particular, for bases 2..36 and plain numerals of at most 255 characters the result is the value if representable (toUInt: below 2^63) and an error otherwise, and strings with other characters are errors. The plain reading fails in these cases: ':' is accepted in base 16, 'A' is 17 in base 36, a lone sign is 0, toInt(\"9223372036854775808\") is -2^63, numerals of 256 characters are rejected, base 266 acts as base 10 (C25_*_refuted).", "quantifier": "all byte strings, all bases 2..36", "why_tests_cant": "Unbounded digit strings, overflow boundaries.", "anchors": ["hilti/runtime/src/types/bytes.cc: Bytes::toInt, Bytes::toUInt", "hilti/runtime/include/util.h: atoi_n"]}
{"id": "C26", "title": "Binary-to-integer conversion of bytes", "statement": "toUInt(order)/toInt(order) with order Big, Network or Little on 1..8 bytes return the unsigned/two's-complement value of the bytes in that byte order and are an error on other lengths; big endian of a string is little endian of its reverse; Undef is rejected. With order Host, on a little-endian machine, the result is the little-endian value if its top bit is clear and Overflow is thrown otherwise (C26_host_order; not the expected value: C26_host_refuted).", "quantifier": "all byte strings up to 8 bytes, all byte orders", "why_tests_cant": "2^64 inputs per length.", "anchors": ["hilti/runtime/src/types/bytes.cc: Bytes::toInt(ByteOrder), toUInt(ByteOrder)"]}
{"id": "C27", "title": "Bytes iterators are safe", "statement": "An iterator into bytes yields the byte at its index of the current content or throws; it never reads outside the content, also after the bytes object was modified, reassigned or destroyed.", "quantifier": "all interleavings", "why_tests_cant": "Histories.", "anchors": ["hilti/runtime/include/types/bytes.h: bytes::SafeIterator, Bytes::operator="]}
{"id": "C28", "title": "split and join are inverse", "statement": "split(s,d) for non-empty d cuts s at the first occurrence of d, then the rest at its first occurrence, and so on; these pieces are unique, none contains d, and joining them with d gives s. For delimiters that cannot overlap themselves (all single characters) that is always the result. Otherwise, if s ends in d but the last piece is not empty, a spurious empty piece is appended (C28_split_exact; then join(split) /= s: C28_split_join_refuted). The empty delimiter does not split. Splitting at white space gives exactly the maximal runs of other characters, white space being space, \\t, \\n, \\v, \\f, \\r.", "quantifier": "all strings and delimiters", "why_tests_cant": "Self-overlapping delimiters.", "anchors": ["hilti/runtime/src/util.cc: split, join"]}
{"id": "C29", "title": "Trimming, splitting off and replacing", "statement": "trim removes exactly the longest prefix/suffix made of the given characters; split1/rsplit1 split at the first/last occurrence; replace substitutes every left-to-right non-overlapping occurrence and nothing else; startsWith/endsWith decide prefix/suffix.", "quantifier": "all strings", "why_tests_cant": "Unbounded strings.", "anchors": ["hilti/runtime/include/util.h: trim, ltrim, rtrim, startsWith", "hilti/runtime/src/util.cc: split1, rsplit1, replace"]}
{"id": "C30", "title": "Escaping is lossless", "statement": "Un-escaping the escaped rendering of any byte string yields the original byte string, for every style without UseOctal in which backslashes are escaped (or for strings without backslashes); different strings have different renderings in every style in which backslashes are escaped (or for strings without backslashes); the output consists of printable ASCII only, in every style. With UseOctal un-escaping does not invert (C30_octal_roundtrip_refuted), with NoEscapeBackslash information is lost (C30_no_escape_backslash_refuted).", "quantifier": "all byte strings, all styles", "why_tests_cant": "Every byte sequence including escapes that look like escapes.", "anchors": ["hilti/runtime/src/util.cc: escapeBytes, expandUTF8Escapes"]}
{"id": "C31", "title": "Hex and MAC rendering", "statement": "bytes_to_hexstring renders each byte as two upper-case hex digits; the rendering is injective and decoding it gives back the bytes; bytes_to_mac likewise with ':' separators.", "quantifier": "all byte strings", "why_tests_cant": "All lengths.", "anchors": ["spicy/runtime/src/util.cc: bytes_to_hexstring, bytes_to_mac"]}
{"id": "C32", "title": "Integer packing round-trips", "statement": "unpack(pack(v,order) ++ rest, order) returns v and rest for every width, signedness and byte order and every v except negative int8 values, whose packing throws Overflow (C32_negative_int8_refuted); conversely packing what was unpacked gives back the bytes; unpack errors iff too few bytes; pack gives the two's-complement bytes in the given order (Big equals Network, the reverse of Little); Undef is rejected.", "quantifier": "all values of all 8 integer types, all byte orders, all trailing data", "why_tests_cant": "2^64 values.", "anchors": ["hilti/runtime/include/types/integer.h: pack, unpack"]}
{"id": "C33", "title": "Byte-order flipping", "statement": "flip16/32/64 reverse the bytes of their argument, are involutions, and flip(v,n) reverses the low n bytes.", "quantifier": "all values, all n", "why_tests_cant": "2^64 values.", "anchors": ["hilti/runtime/include/types/integer.h: flip, flip16, flip32, flip64"]}
{"id": "C34", "title": "Bit-field extraction", "statement": "bits(v,lo,hi,order) returns the number formed by bits lo..hi (LSB0) or the mirrored positions (MSB0) of v, and throws iff the range is inverted or outside of the type.", "quantifier": "all values, ranges, orders, widths", "why_tests_cant": "All value/range combinations for 64 bits.", "anchors": ["hilti/runtime/include/types/integer.h: bits"]}
{"id": "C35", "title": "Network membership is prefix matching", "statement": "For networks made from an address and a length, net.contains(a) iff a and the network's address agree in the first length bits of their family; the network's address is masked to length bits and contained; masking twice is masking with the smaller length; invalid lengths are rejected. Networks made from a text take any length: exactly characterised by C35_construct_from_string, that lengths are not validated there is C35_construct_from_string_refuted.", "quantifier": "all addresses and lengths", "why_tests_cant": "2^128 addresses.", "anchors": ["hilti/runtime/include/types/address.h: Address::mask", "hilti/runtime/include/types/network.h: Network"]}
{"id": "C36", "title": "Address packing round-trips", "statement": "Packing an address and unpacking with the same family and byte order returns an equal address for both families and byte orders.", "quantifier": "all addresses", "why_tests_cant": "2^128.", "anchors": ["hilti/runtime/src/types/address.cc: Address::pack, address::unpack"]}
{"id": "C37", "title": "Address order is consistent with equality", "statement": "The order of addresses is a strict total order: by the 128-bit value and then by family. Within a family a == b iff neither a<b nor b<a; likewise for networks. Across families == identifies 0.0.0.1 and ::1 although one is less than the other (C37_families_refuted).", "quantifier": "all addresses", "why_tests_cant": "All triples.", "anchors": ["hilti/runtime/include/types/address.h: Address::operator==, operator<"]}
{"id": "C38", "title": "Port text round-trip", "statement": "Parsing the printed form of a valid port returns the port; numbers above 65535 and unknown protocols are rejected.", "quantifier": "all ports", "why_tests_cant": "Unbounded strings.", "anchors": ["hilti/runtime/src/types/port.cc"]}
{"id": "C39", "title": "Time and interval arithmetic and conversions", "statement": "Time/interval addition, subtraction and integer scaling return the exact result or throw; t + i - i = t when defined. A time or interval made from a number of seconds given as double is the product with 10^9 rounded to the nearest double without its fraction: there is a result for every finite value in range, off by less than 1 ns plus 2^-52 of the value, exact for whole seconds up to 4611686018, monotone; values out of range and infinities throw OutOfRange. seconds() and back is off by at most the rounding, by 0 or 1 ns (towards zero) below 2^52 ns. Scaling by a double rounds once. current_time() is within 500 ns of the system's time. mktime() rejects invalid fields and gives libc's time exactly otherwise. Exceptions (refuted): adding the smallest interval; NaN and the first value that does not fit pass the range check; years from 2^31 on.", "quantifier": "all 64-bit values, all doubles", "why_tests_cant": "Boundary combinations; 2^64 doubles.", "anchors": ["hilti/runtime/include/types/time.h: Time", "hilti/runtime/include/types/interval.h: Interval", "hilti/runtime/src/types/time.cc: current_time, mktime"]}
{"id": "C40", "title": "Vector accesses are bounds-checked", "statement": "Indexing, front/back, pop_back, sub, insert and assign affect exactly the addressed elements or throw IndexError/InvalidIterator; assign beyond the end grows the vector with default elements; no access is out of bounds - for every program over any number of vectors and iterators that does not append a vector to itself, does not assign at index 2^64-1, and inserts only at iterators of the same vector. In the first two of these excluded cases the behaviour is undefined (C40_self_append_refuted, C40_assign_wraps_refuted).", "quantifier": "all vectors, all 64-bit indices", "why_tests_cant": "Index arithmetic near 2^64.", "anchors": ["hilti/runtime/include/types/vector.h: Vector"]}
{"id": "C41", "title": "Vector iterators are safe", "statement": "A vector iterator yields the element currently at its index in the vector it was made for, or throws InvalidIterator if there is none (any more), and iterators compare by position iff made for the same vector, through any sequence of modifications, copies, moves, reassignment and destruction within the conditions of C40. insert() does not check whose iterator it is given (C41_foreign_insert_refuted).", "quantifier": "all interleavings", "why_tests_cant": "Histories.", "anchors": ["hilti/runtime/include/types/vector.h: vector::Iterator"]}
{"id": "C42", "title": "Map iterators are safe and maps behave as finite maps", "statement": "get/index_assign/erase/clear/contains/size behave as a finite map; dereferencing or incrementing an iterator gives the entry it denotes or throws, never touching a removed node; a loop yields each key once in increasing order - for every program that takes no iterators from copy- or move-constructed maps, does not move from a map with live iterators, compares iterators only if at least one is valid, and does not increment a const iterator at the end. Each exclusion is needed: undefined behaviour otherwise (C42_copy_end_refuted, C42_copy_dangling_refuted, C42_moved_from_refuted, C42_const_increment_refuted).", "quantifier": "all operation sequences with all outstanding iterators", "why_tests_cant": "Histories.", "anchors": ["hilti/runtime/include/types/map.h"]}
{"id": "C43", "title": "Set iterators are safe and sets behave as finite sets", "statement": "insert/erase/contains/clear/size behave as a finite set; iterators give the element they denote or throw; insertions keep iterators valid and removals invalidate them - for every program within the conditions of C42 that uses hints of the same set only. Otherwise undefined behaviour (C43_foreign_hint_refuted, C43_copy_refuted).", "quantifier": "all operation sequences with all outstanding iterators", "why_tests_cant": "Histories.", "anchors": ["hilti/runtime/include/types/set.h"]}
{"id": "C44", "title": "Resumable life cycle", "statement": "A resumable function, however often it yields and however resumables are nested, behaves as a plain coroutine on every size of the fiber cache: it produces its result exactly once and exactly when its body finished, resume after completion is rejected, an exception thrown by the body surfaces at the run/resume call and ends the execution, and the values observed by the body are unaffected by suspension. Resuming after an explicit abort() is outside the contract; it is not rejected but undefined (C44_resume_after_abort_refuted).", "quantifier": "all computations, all yield points, all client call sequences", "why_tests_cant": "Every schedule.", "anchors": ["hilti/runtime/src/fiber.cc: Resumable::run, resume, abort, yielded; Fiber::run, yield, resume, abort"]}
{"id": "C45", "title": "Fiber pool accounting", "statement": "In every sequence of creating, finishing, destroying and cleaning up fibers in which statistics are reset only while no fiber is in use, the numbers of current and cached fibers reported are exact, the cache never exceeds its configured size, no fiber is in use twice, and the maximum is the maximum over time of the current number since the start. Resetting statistics while a fiber is in use makes the counter wrap later (C45_reset_refuted).", "quantifier": "all sequences of create/finish/destroy/cleanup", "why_tests_cant": "Histories.", "anchors": ["hilti/runtime/src/fiber.cc: Fiber::create, Fiber::destroy, Fiber::reset, Fiber::statistics"]}
{"id": "C46", "title": "Nested resumables restore the context", "statement": "After any run/resume returns or throws, the active resumable of the context is what it was before the call, for any nesting.", "quantifier": "all nestings and outcomes", "why_tests_cant": "Arbitrary nesting depth and exceptions.", "anchors": ["hilti/runtime/src/fiber.cc: Resumable::run, Resumable::resume"]}
{"id": "C47", "title": "Compiled regular expressions are cached soundly", "statement": "Provided pattern texts do not imitate the end of a rendered pattern: two regular expression objects are the same object (and equal) exactly if built from the same list of patterns and flags, each object keeps the patterns and flags requested, and a construction fails with PatternError exactly if the patterns do not compile, whatever was constructed before. Without the proviso the cache key is ambiguous and an object with other patterns is returned (C47_collision_refuted).", "quantifier": "all pattern lists", "why_tests_cant": "Collision of cache keys over all strings.", "anchors": ["hilti/runtime/src/types/regexp.cc: RegExp"]}
{"id": "C48", "title": "Filters see and forward data faithfully", "statement": "Whatever the filters do and however input and flushes interleave (filters pairwise different): the unit behind filters has in its input exactly what the last filter has forwarded, and sees the end of data exactly if the last filter signalled it or ended; each filter sees exactly the input so far, respectively what the filter before it forwarded so far, and no filter lags behind when the unit continues; if each filter computes a stream function, the unit gets their composition on the whole input, independent of chunking; ended filters are not resumed. A sink with filters delivers that composition as long as its writes succeed. Violations: a sink write after a filter ended is an internal error, closing a sink loses data held back by filters, one filter connected twice loses data (C48_*_refuted).", "quantifier": "all schedules", "why_tests_cant": "Schedules.", "anchors": ["spicy/runtime/include/filter.h"]}
{"id": "C49", "title": "Nullable/FIRST/FOLLOW tables are exact", "statement": "For every accepted grammar, a production is in the nullable table iff it derives the empty token string, t is in its first table iff it derives a string starting with t, and the follow table contains every token that can come after it in a derivation from the root.", "quantifier": "all grammars (incl. recursive), all derivations", "why_tests_cant": "Recursive grammars have infinitely many derivations.", "anchors": ["spicy/toolchain/src/compiler/codegen/grammar.cc: Grammar::_computeTables, _isNullable, _getFirst, _add"]}
{"id": "C50", "title": "Look-ahead parsing is unambiguous", "statement": "If a grammar passes the checks, then for each look-ahead production the tokens that can come next for the two alternatives - in any derivation, and at run time in grammars without loops and optional blocks - have different descriptions, so one token of look-ahead determines the alternative. Conversely a grammar is rejected only if some token is common to both alternatives of the production named in the error, or if no token can come next at all for it. The checks do not find: a literal vs. the same literal as skipped field, both alternatives empty at the end of input, tokens after loop bodies and after conditional blocks without else (C50_*_refuted).", "quantifier": "all grammars accepted by the checks, all inputs", "why_tests_cant": "Infinitely many inputs.", "anchors": ["spicy/toolchain/src/compiler/codegen/grammar.cc: Grammar::_check, lookAheadsForProduction"]}
{"id": "C51", "title": "Table computation terminates", "statement": "The fixpoint iteration computing the tables stops for every grammar.", "quantifier": "all grammars", "why_tests_cant": "Termination.", "anchors": ["spicy/toolchain/src/compiler/codegen/grammar.cc: Grammar::_computeTables"]}
{"id": "C52", "title": "Constant folding preserves meaning", "statement": "If constant folding replaces an expression by a constant and evaluating the expression gives a value, the value is that constant; folding whole expressions terminates and preserves values; compile-time errors are reported only if some subexpression's evaluation fails; and a single folding step on operands that have values never hides a run-time error. Over several steps errors can be hidden: uint32(uint8(300)) folds to 300, negation of the smallest int64 is undefined in the compiler, and negated unsigned constants fold to negative numbers (C52_*_refuted).", "quantifier": "all foldable expressions", "why_tests_cant": "Unboundedly nested expressions.", "anchors": ["hilti/toolchain/src/compiler/constant-folder.cc"]}
{"id": "C53", "title": "Batch driver flow management", "statement": "Processing a batch feeds each flow exactly its own data in order, from its begin to its end, and nothing else; commands for unknown flows and connections change nothing; the two flows of a connection share a fresh context; and no freed memory or null function is used as long as parsers are externally usable, flows of an open connection are ended only together with it, and connections that are open at the same time do not share flow ids when one ends or begins without parsers. Violations outside: use after free with @end-flow before @end-conn, shared flow ids and unknown parsers; null call for units requiring arguments (C53_*_refuted).", "quantifier": "all command sequences", "why_tests_cant": "Command orders.", "anchors": ["spicy/runtime/src/driver.cc: processPreBatchedInput, ParsingState::_process"]}
{"id": "C54", "title": "MIME types", "statement": "Parsing accepts exactly the texts main/sub (with surrounding white space) and reports everything else with InvalidMIMEType; parsing and rendering are inverse; the lookup keys of parsed types are equal exactly if both have main type '*', or the same main type and subtype '*', or the types are equal; equality and wildcard tests are exact; uninitialised types refuse every use. Types built by the two-argument constructor from names containing '/' can collide (C54_two_argument_constructor_refuted).", "quantifier": "all strings", "why_tests_cant": "All strings.", "anchors": ["spicy/runtime/include/mime.h"]}
{"id": "C55", "title": "Reference counting", "statement": "A reference-counted object is destroyed exactly when the last owner goes away, never before and never twice, for every sequence of copies, moves, assignments (incl. self-assignment) and releases.", "quantifier": "all operation sequences", "why_tests_cant": "Histories.", "anchors": ["hilti/runtime/include/intrusive-ptr.h"]}
{"id": "C56", "title": "Integer power", "statement": "pow(b, e) of checked integers returns exactly b^e if representable in the base's type and throws Overflow otherwise, for every base, every exponent >= 0 and every width. For negative exponents it throws Overflow if |b| >= 2 and never terminates for b in {-1, 0, 1} (C56_negative_exponent; a defect: C56_negative_exponent_refuted).", "quantifier": "all bases and exponents of every integer width", "why_tests_cant": "Unbounded.", "anchors": ["hilti/runtime/include/util.h: pow"]}
{"id": "C57", "title": "Address text round-trip", "statement": "Parsing the printed form of any IPv4 or IPv6 address yields an address equal to it; the family is kept except that IPv6 addresses with 96 leading zero bits become IPv4 addresses.", "quantifier": "all 128-bit addresses of both families, any libc fulfilling the inet_pton/inet_ntop contract", "why_tests_cant": "2^128 addresses; tests check a handful", "anchors": ["hilti/runtime/src/types/address.cc: Address::_parse, Address::operator std::string, asInAddr, _init"]}
{"id": "C58", "title": "Connecting parsers by MIME type", "statement": "Connecting a sink by a (parsed) MIME type connects exactly the parsers that can be connected, are public or in the caller's linker scope, and declare a matching type (same type, wildcard subtype for the same main type, or full wildcard); each of them once if the requested type has no wildcard and no parser declares two matching types. A request with a wildcard connects the same parser several times (C58_wildcard_connects_twice_refuted).", "quantifier": "all registries, all MIME types, all scopes", "why_tests_cant": "the registry is an arbitrary set of parsers with arbitrary declared types; only a proof covers all combinations of keys", "anchors": ["spicy/runtime/src/sink.cc: Sink::connect_mime_type", "spicy/runtime/src/init.cc: init"]}
{"id": "C59", "title": "bytes &until, &until-including and &eod see the input, not its pieces", "statement": "A field bytes &until=X (or &until-including=X) on gapless input yields everything before (through) the first occurrence of X and parsing continues right behind X; if X does not occur it is a parse error once no more input can come and otherwise the parser waits. bytes &eod, with or without &chunked, yields in total exactly everything up to the end of input. This holds for every way the input is cut and delivered, with and without trimming. With a gap in the input the outcome depends on the cutting (C59_until_gap_refuted).", "quantifier": "all delimiters (including empty and self-overlapping ones), all inputs, all schedules of appends and end-of-data", "why_tests_cant": "A delimiter can be cut at any position, over any number of chunks, with partial matches in between.", "anchors": ["spicy/toolchain/src/compiler/codegen/parsers/types.cc: operator()(hilti::type::Bytes*)", "spicy/runtime/src/parser.cc: waitForInput, waitForEod", "hilti/runtime/include/types/stream.h: View::find, View::sub, View::advance"]}
{"id": "C60", "title": "Driver hands over the whole input", "statement": "Driver::processInput with an increment of at most the buffer size (4096) hands the parser the content of the input stream in order, `increment` more bytes with each call (4096 if not given), marks the end of data exactly when everything has been handed over, and goes on until the parser finishes, fails, or has seen all of it. A larger increment overflows a buffer on the stack (C60_increment_refuted).", "quantifier": "all inputs, all increments, all behaviours of the parser", "why_tests_cant": "Input sizes around multiples of the increment and parser behaviour are unbounded.", "anchors": ["spicy/runtime/src/driver.cc: Driver::processInput"]}
{"id": "C61", "title": "Parsing state delivers the input since the last reset", "statement": "Whatever sequence of process(), finish(), skipRemaining() and reset() a host application performs on a parsing state, the parser gets exactly the input given since the last reset and before skipRemaining, one call per piece, until it finishes or fails; for streams isFinished() tells whether further input will be ignored; reset() makes the state like new; finish() returns the offset where the last parse since the last reset stopped, and none if no parse finished. For blocks isFinished() is true after an exception although further blocks are parsed (C61_block_finished_refuted).", "quantifier": "all call sequences, all parser behaviours", "why_tests_cant": "Call sequences are unbounded.", "anchors": ["spicy/runtime/include/driver.h: ParsingState", "spicy/runtime/src/driver.cc: ParsingState::_process, finish"]}
{"id": "C62", "title": "Escape sequences expand to exactly what they denote", "statement": "Expanding the escape sequences of a string literal (expandUTF8Escapes) succeeds exactly if every backslash starts one of the documented sequences (\\\\ \\\" \\0 \\a \\b \\e \\f \\n \\r \\t \\v, \\u with four digits, \\U with eight, \\x with two, or one at the very end), and the result is the text they denote, code points in the shortest UTF-8 form; otherwise an exception of the runtime is thrown, for all inputs, without reading outside of the string. Known violations: a sign and the six characters after '9' are accepted as digits, surrogates are accepted (C62_*_refuted).", "quantifier": "all byte strings", "why_tests_cant": "Byte strings are unbounded and escape sequences nest arbitrarily.", "anchors": ["hilti/runtime/src/util.cc: expandUTF8Escapes", "hilti/runtime/include/util.h: atoi_n"]}
{"id": "C63", "title": "Rendered strings can be read back", "statement": "Rendering a string (escapeUTF8) escapes exactly the characters its style says, for all strings and styles; expanding the rendering of a valid UTF-8 string gives back the string in all styles that escape backslashes. A string that is not valid UTF-8 cannot be read back (C63_invalid_refuted).", "quantifier": "all byte strings, all 16 styles", "why_tests_cant": "Strings are unbounded.", "anchors": ["hilti/runtime/src/util.cc: escapeUTF8"]}
{"id": "C64", "title": "UTF-8 and ASCII decoding and encoding follow the error strategy", "statement": "bytes.decode and string.encode with UTF-8: valid text is unchanged; STRICT fails exactly on invalid text; REPLACE and IGNORE replace by U+FFFD or drop exactly the bytes where no sequence starts, so the result is always valid UTF-8; every failure is a RuntimeError. ASCII keeps exactly 32..126. The size of a string is the number of its characters. Known violations: REPLACE and IGNORE fail on a sequence cut off at the end, on surrogates and on numbers that are too large (C64_repair_fails_refuted); size() then throws an exception of a library, and does not end if the strategy is undefined (C64_size_*_refuted); ASCII drops line feeds and tabs.", "quantifier": "all byte strings, all strategies", "why_tests_cant": "Byte strings are unbounded; the invalid sequences are too many to enumerate.", "anchors": ["hilti/runtime/src/types/bytes.cc: Bytes::decode", "hilti/runtime/src/types/string.cc: string::encode, string::size"]}
{"id": "C65", "title": "UTF-16 encoding and decoding are inverse", "statement": "Encoding valid text as UTF-16 gives its units in the byte order asked for; decoding gives the text back under every error strategy, always for little-endian and for big-endian unless the text starts with U+FEFF or U+FFFE; invalid data is decoded exactly as the strategy says (unpaired surrogates, odd length). Known violations: data with a big-endian byte order mark is read as little-endian (C65_byte_order_mark_refuted); REPLACE and IGNORE fail on a surrogate at the very end (C65_repair_fails_refuted).", "quantifier": "all texts, all byte strings, both byte orders, all strategies", "why_tests_cant": "Texts are unbounded.", "anchors": ["hilti/runtime/src/types/bytes.cc: U16Iterator, Bytes::decode", "hilti/runtime/src/types/string.cc: string::encode"]}
{"id": "C66", "title": "Case conversion maps characters one by one", "statement": "upper() and lower() of a valid string map each character by the Unicode case mapping and keep everything else, for strings and for bytes in UTF-8 and UTF-16; on invalid text the strategy decides byte by byte: RuntimeError, U+FFFD or nothing.", "quantifier": "all strings, all case mappings of characters to characters, all strategies", "why_tests_cant": "Strings are unbounded.", "anchors": ["hilti/runtime/src/types/string.cc: upper, lower", "hilti/runtime/src/types/bytes.cc: Bytes::upper, Bytes::lower"]}
{"id": "C67", "title": "Life of a sink: connecting units, closing, initial sequence number", "statement": "A closed sink behaves like a new one: the same later operations have the same outcome whatever happened before, and the units connected before are disconnected. The initial sequence number can be set, repeatedly, until the position has moved; after that it raises SinkError and closes the sink. A unit that fails when it is started is not connected and changes nothing else; any other unit is connected behind the earlier ones and from then on gets every piece of data passed on, starting with the first.", "quantifier": "all histories of operations on a sink, all unit behaviours", "why_tests_cant": "Histories before a close and orders of operations are unbounded.", "anchors": ["spicy/runtime/src/sink.cc: Sink::_close, connect, set_initial_sequence_number", "spicy/runtime/include/sink.h: Sink"]}
{"id": "C68", "title": "&size and &max-size confine what they are attached to", "statement": "What a unit or field with &size=n produces depends on nothing but its n bytes of input, not on what follows, an enclosing limit or how the input arrives. When it succeeds there were n bytes and parsing continues exactly n bytes behind its beginning; if it leaves bytes unused or the input ends before, a parse error is reported. With &max-size=n parsing continues where the body stopped, at most n bytes behind its beginning.", "quantifier": "all bodies (nested to any depth), sizes, inputs, enclosing limits and schedules", "why_tests_cant": "Bodies, inputs and arrival orders are unbounded.", "anchors": ["spicy/toolchain/src/compiler/codegen/parser-builder.cc: initFullFieldParsing, finishFullFieldParsing, _checkSizeAmount, advanceLimited", "hilti/runtime/include/types/stream.h: View::limit, View::advance"]}
{"id": "C69", "title": "Packing and unpacking reals", "statement": "A double packed as IEEE754_Double and unpacked with the same byte order is the same double, NaN payload and sign of zero included, and any eight bytes unpack to a double that packs to the same bytes. Packed as IEEE754_Single it comes back rounded to the nearest single (ties to even), unchanged if it is a single, infinite with the same sign if too large, NaN if it was NaN; any four bytes but those of a signaling NaN survive. The bytes are the IEEE 754 interchange format in the given byte order. Unpacking consumes exactly 4 or 8 bytes, and fails exactly if there are fewer or type or order is undefined.", "quantifier": "all doubles, all byte sequences, all byte orders, both host byte orders", "why_tests_cant": "2^64 doubles and unbounded trailing data.", "anchors": ["hilti/runtime/src/types/real.cc: real::pack, real::unpack"]}
{"id": "C70", "title": "Data-flow facts used by the optimizer", "statement": "For every function the control-flow analysis ends, and the facts it attaches to a point of the program are exactly the updates of a variable that reach the point on some path through the control-flow graph without being overwritten and without leaving the variable's scope; they do not depend on the order in which nodes are visited. Edges of the graph lead between its nodes and no leftover join points without predecessors remain.", "quantifier": "all functions (any nesting of if, while, try, blocks), all visiting orders", "why_tests_cant": "Programs and paths through loops are unbounded.", "anchors": ["hilti/toolchain/src/compiler/cfg.cc: CFG::CFG, addBlock, addIf, addWhile, addTryCatch, _populateDataflow, DataflowVisitor", "hilti/toolchain/include/compiler/detail/cfg.h"]}
{"id": "C71", "title": "Removing dead code does not change what a program does", "statement": "A function that has no break, continue or try and does not assign to globals does after removal of unused assignments, unused declarations, expression statements without side effects and unreachable code what it did before: it returns the same value or throws the same exception, with the same inout parameters on return, the same globals and the same calls to other functions in the same order, for all arguments; only a failure in an operator may disappear.", "quantifier": "all functions, arguments, global states, behaviours of called functions, numbers of loop iterations", "why_tests_cant": "Programs, inputs and paths are unbounded.", "anchors": ["hilti/toolchain/src/compiler/optimizer/passes/dead-code-cfg.cc", "hilti/toolchain/src/compiler/cfg.cc: CFG::unreachableNodes"]}
{"id": "C72", "title": "Propagating values does not change what a program does", "statement": "A function that has no break, continue or try, initializes its locals, neither assigns to globals nor copies them plainly, and does not end with y = f(inout x); return x or with x = e; return x for an inout parameter x, behaves after replacement of variables by the constants or variables they are known to hold, and of a final x = e; return x by return e, exactly as before: the same result or exception, inout parameters, globals and calls, for all arguments. The analysis starts with each node that can be reached, once.", "quantifier": "all functions, arguments, global states, behaviours of called functions, numbers of loop iterations", "why_tests_cant": "Programs, inputs and paths are unbounded.", "anchors": ["hilti/toolchain/src/compiler/optimizer/passes/value-propagation.cc", "hilti/toolchain/src/compiler/cfg.cc: CFG::postorder"]}
{"id": "C73", "title": "The outcome of parsing with look-ahead does not depend on how the input arrives", "statement": "For every unit, whatever mixture of sequences, literals, variables, look-ahead switches and lists, counted and for-each loops, conditions, &size and nested units it is made of, the parser ends with the same result (parsed up to the same offset with the same values and effects, error, or waiting for more) for all ways of cutting the input into pieces; and once it has decided before the input is complete, it decides the same whatever data follows.", "quantifier": "all units and programs computing with the fields, all inputs, all ways of cutting them, all continuations", "why_tests_cant": "Units, inputs and cuts are unbounded.", "anchors": ["spicy/toolchain/src/compiler/codegen/parser-builder.cc", "spicy/toolchain/src/compiler/codegen/parsers/literals.cc", "spicy/runtime/src/parser.cc: waitForInput, atEod, trySkip"]}
{"id": "C74", "title": "What is parsed successfully with look-ahead is what the unit declares", "statement": "If parsing a unit succeeds, the consumed input can be divided into its fields as the declaration says: each literal stands where it is declared, each variable takes the bytes its type asks for, alternatives and list lengths are admissible, &size is respected, and the values and effects are those of that division. Holds for units whose look-ahead symbols are bytes constants and that do not look ahead into data limited by &size.", "quantifier": "all units, programs, inputs, ways of arrival", "why_tests_cant": "Units and inputs are unbounded, and look-ahead carries state from one production into others.", "anchors": ["spicy/toolchain/src/compiler/codegen/parser-builder.cc: parseProduction, parseLookAhead, getLookAhead", "spicy/toolchain/src/compiler/codegen/parsers/literals.cc"]}
{"id": "C75", "title": "Look-ahead parsing finds the reading of the input, and there is only one", "statement": "For units accepted by the compiler whose look-ahead symbols are non-empty bytes constants, none a prefix of another one in the same decision, with no &size, counted loops or conditions: every division of a complete input into fields that the declaration allows is the one the parser produces; hence there is at most one. Units may be nested and recursive, and may end with lists, provided that what comes behind a unit (in the units that use it, or in the input behind the outermost one) cannot be confused with an element of the list at its end.", "quantifier": "all such units with all units they use, all inputs, ways of arrival", "why_tests_cant": "Units and inputs are unbounded; one token must be enough in every context a unit can be used in.", "anchors": ["spicy/toolchain/src/compiler/codegen/grammar.cc: Grammar::finalize, lookAheadsForProduction", "spicy/toolchain/src/compiler/codegen/parser-builder.cc", "spicy/toolchain/src/compiler/codegen/productions/while.cc"]}
{"id": "C76", "title": "A switch by look-ahead takes the case the input begins with", "statement": "In an accepted unit with a switch without expression, whose cases begin with non-empty bytes constants none of which is a prefix of another one: if the input continues with a literal a case begins with, the parser continues with that case, having consumed nothing. If it continues with none of them, the parser continues with the default case (if that is the first case, or the last one of two); without a default, it continues with the last case if that begins with something other than a literal, and reports a parse error otherwise. At the end of the data the switch is a parse error. A condition that is false leaves out the whole switch. A default as the third or a later case makes the compiler reject the unit.", "quantifier": "all accepted units, switches in them with any number of cases in any order, parser states in front of the switch and inputs", "why_tests_cant": "The number and order of the cases, what surrounds the switch (which decides its look-ahead sets) and the input are unbounded.", "anchors": ["spicy/toolchain/src/compiler/codegen/grammar-builder.cc: operator()(spicy::type::unit::item::Switch*)", "spicy/toolchain/src/compiler/codegen/grammar.cc: Grammar::_addProduction, finalize", "spicy/toolchain/src/compiler/codegen/parser-builder.cc: parseLookAhead, getLookAhead", "spicy/toolchain/src/compiler/validator.cc"]}
{"id": "C77", "title": "Moving the last use of a variable does not change what a program does", "statement": "The optimizer replaces a use of a local variable by a move (which leaves an unspecified value behind) exactly if it is the only use in its expression and no path leads from there to another use before an assignment; what a return statement returns is left alone. A function without break, continue and try, in which a variable given for an inout parameter occurs only once in that expression, behaves with the moves exactly as without: the same result or exception, inout parameters, globals and calls, whatever the moves leave in the variables. The liveness analysis ends for every function.", "quantifier": "all functions, arguments, global states, behaviours of called functions, numbers of loop iterations, values left behind by moves", "why_tests_cant": "Programs, inputs and paths are unbounded; a moved-from value often happens to be the old one.", "anchors": ["hilti/toolchain/src/compiler/optimizer/passes/move-last-uses.cc", "hilti/toolchain/src/compiler/cfg.cc: CFG::postorder"]}
{"id": "C78", "title": "Conditional compilation includes what the conditions say", "statement": "For every source text that is well-nested in @if, @else and @endif, with at most one @else per block and valid conditions wherever they matter, the compiler reports no error and sees exactly the text that the documented meaning of the conditions includes, in order; text inside of skipped blocks, including invalid conditions there, does not matter. Conversely a source accepted without error and with all blocks closed is well-nested (up to repeated @else), and conditions are accepted only in the documented forms. No sequence of directives makes the preprocessor access an empty stack.", "quantifier": "all source texts (sequences of text and directives, any nesting), all conditions, all sets of defined constants", "why_tests_cant": "Nesting depth, sequences of directives and conditions are unbounded.", "anchors": ["hilti/toolchain/src/base/preprocessor.cc: processLine, _parseIf", "spicy/toolchain/src/compiler/parser/driver.cc: Driver::processPreprocessorLine", "spicy/toolchain/src/compiler/parser/scanner.ll: setIgnoreMode"]}
{"id": "C79", "title": "Error recovery: &synchronize, trial mode, confirm and reject", "statement": "For every unit and input: without a failure &synchronize makes no difference; after a failure parsing goes on at the closest synchronization point behind it or not at all; the search goes on at the first occurrence of one of the point's literals (the longest if several are there), behind it with %synchronize-after, and fails only if there is none; a parse with a failed field succeeds only if somebody confirmed; recovery ends. A unit with one synchronization point whose fields leave nothing pending does exactly what the manual says of synchronization and trial mode: search, try, confirm or search on behind what has been tried.", "quantifier": "all units (any number of fields and synchronization points, any field and hook behaviour), all inputs with or without gaps, with and without trimming", "why_tests_cant": "Fields, points, failures, retries and input are unbounded; a failure may occur at any field any number of times.", "anchors": ["spicy/toolchain/src/compiler/codegen/parser-builder.cc: getLookAhead (Search), syncProduction, startSynchronize, finishSynchronize, the grouping of fields", "spicy/toolchain/src/compiler/codegen/parsers/literals.cc", "hilti/runtime/src/types/stream.cc: View::advanceToNextData", "doc/programming/parsing.rst: Error Recovery"]}
{"id": "C80", "title": "Backtracking: &try and backtrack()", "statement": "For every tree of units and fields, any nesting of &try, and whatever hooks (of fields, %error) do: a call of backtrack() transfers control to the field following the most recent &try, with the input position where that field began; the data needed for it has not been trimmed, so the outcome is the same with and without trimming and there is exactly one documented outcome; where nobody backtracks, &try makes no difference.", "quantifier": "all trees of units and fields of any depth, all atomic parsers, all hook behaviours depending on everything parsed so far, with and without trimming", "why_tests_cant": "Nesting, positions and the moments hooks backtrack are unbounded.", "anchors": ["spicy/toolchain/src/compiler/codegen/parser-builder.cc: initBacktracking, finishBacktracking, _parseProduction (per-field try), preParseField, postParseField", "spicy/runtime/include/parser.h: Backtrack, backtrack", "doc/programming/parsing.rst: Backtracking"]}
{"id": "C81", "title": "Error recovery inside of lists", "statement": "For every list whose elements are marked &synchronize, with a count or ended by look-ahead: the elements it gets follow each other without anything in between, except after a failure, where the parser goes on at the next place where an element can begin, strictly behind the failure, running %synced there, and fails if there is none or if %synced rejects; in a list with a count each failure takes the place of exactly one element; where nothing fails, &synchronize makes no difference; recovery ends for every input; unless a hook confirms, the error stays pending behind the list.", "quantifier": "all inputs (with gaps for literals), all elements as functions of the parser's state, all sets of literals or regular expressions elements begin with, all counts, all hooks, with and without trimming", "why_tests_cant": "Inputs, positions of failures and numbers of failures are unbounded.", "anchors": ["spicy/toolchain/src/compiler/codegen/parser-builder.cc: syncProductionNext, syncProduction, operator()(Counter), operator()(While), operator()(ForEach), parseLookAhead, finishLoopBody, newContainerItem", "doc/programming/parsing.rst: Error Recovery"]}
{"id": "C82", "title": "Value, strong and weak references", "statement": "For every history of operations on value, strong, weak and generic references: an instance exists exactly as long as some value, strong or generic reference manages it, and never comes back; every access yields the value of the instance referred to, or throws NullReference (null) or ExpiredReference (a weak reference whose instance is gone), and throwing changes nothing; copies of value references are independent of the original whatever happens to it; binding a strong or weak reference shares the instance; assigning to a value reference is seen by all references to its instance and by no others; nothing is undefined unless a wrapped 'this' outlives its instance.", "quantifier": "all value types, all histories of all operations on any number of variables and instances, local objects included", "why_tests_cant": "Histories, numbers of references and the ways they alias are unbounded.", "anchors": ["hilti/runtime/include/types/reference.h: ValueReference, StrongReference, WeakReference, StrongReferenceGeneric", "hilti/runtime/src/types/reference.cc: throw_null"]}
{"id": "C83", "title": "Regular-expression matching", "statement": "Incremental matching (advance() on a token matcher) reports the longest match of all data fed, the pattern it belongs to and where it ends, independently of how the data is cut into pieces and blocks; it returns 0 only if no further data can give a match, and a negative code only if there is none yet. Once it has returned a non-negative code every further call fails with MatchStateReuse until the state is assigned; states do not influence each other. match() is positive exactly if a prefix of the value matches; find() returns the longest match at any position, the left-most among equals. A regular-expression literal of a unit consumes the longest match of the rest of the input, however that arrives, and fails exactly if there is none.", "quantifier": "all automata (pattern sets), all data, all divisions into pieces and blocks, all histories of operations on any number of match states", "why_tests_cant": "Patterns, data, divisions and histories are unbounded.", "anchors": ["hilti/runtime/src/types/regexp.cc: MatchState::advance, MatchState::_advance, MatchState::captures, RegExp::match, RegExp::matchGroups, RegExp::find, RegExp::_search_pattern", "spicy/toolchain/src/compiler/codegen/parsers/literals.cc: LiteralParser operator()(hilti::ctor::RegExp*)"]}
{"id": "C84", "title": "Optimising parameters does not change the program", "statement": "Removing unused function parameters (with the arguments passed for them) and turning unmodified `copy` and `inout` parameters into `in` parameters leaves a program's results, output, exceptions, divergence and globals as they were, provided the removed arguments can be left out, calls that lose arguments are not nested in an order that leaves one behind, and a variable passed for a promoted `copy` parameter belongs to the caller alone and is not also passed `inout`. The optimised program is again well formed: calls match signatures and no `in` parameter is written. Functions that are part of the interface keep their signatures; only parameters a body does not name are removed; only parameters it does not modify are promoted; an argument that is a function call is never removed.", "quantifier": "all programs, start functions, globals and numbers of steps", "why_tests_cant": "Programs and executions are unbounded.", "anchors": ["hilti/toolchain/src/compiler/optimizer/passes/optimize-parameters.cc: CollectorParameters, Mutator", "hilti/toolchain/include/compiler/detail/optimizer/collector-callers.h: CollectorCallers", "hilti/toolchain/src/compiler/cfg.cc: DataflowVisitor::processCall", "hilti/toolchain/src/ast/node.cc: Node::_newChild, node::detail::deepcopy", "hilti/toolchain/src/compiler/codegen/types.cc: CodeGen::compile (TypeUsage)"]}
{"id": "C85", "title": "The life of a unit: hooks, conversions, requirements, conditions and containers", "statement": "Parsing a unit runs %init first; on success then the hooks of one way through its fields in order, %done and %finally; on failure %error with the error and %finally (if %error does not itself fail), and the caller gets the error. The same holds for every unit nested inside. A field hook runs with the converted value, after it has been stored and after all &requires of the field were met; hooks run at most once each and in the order the fields are written; a field's %error hook only runs when parsing fails. A field whose condition is false is as if it was not there; switch takes the first case that lists the value, else the default, else fails. A vector holds the elements parsed: as many as its size says, up to the end of input, up to the element meeting &until (not added), up to and including it (&until-including), or as long as &while holds; `stop` in foreach ends it without adding the element; foreach sees the container with the elements before the current one; every element parsed meets its requirements. Parsing ends when containers are bounded or their elements take input.", "quantifier": "all units (any nesting of fields, if, switch, sub-units, vectors), all user hooks and expressions (arbitrary functions that may throw), inputs and states", "why_tests_cant": "Units, inputs and user code are unbounded.", "anchors": ["spicy/toolchain/src/compiler/codegen/parser-builder.cc: ProductionVisitor (225-300, 440-545), _parseProduction (583-812), preParseField, postParseField, operator() of Block, Counter, ForEach, Switch, Unit; newValueForField, newContainerItem, applyConvertExpression, initializeUnit, finalizeUnit, finishLoopBody", "doc/programming/parsing.rst: 449-463, 541-610, 668-674, 1410-1486"]}
{"id": "C86", "title": "Flattening blocks does not change what a program does", "statement": "The optimizer folds blocks that are inside of other blocks into the outer one, giving new names to locals that clash. Unless a variable from outside of the blocks is captured that way, the function has the same output, ends the same way (normally, return, break, endless loops included) for all values of its parameters, and every name still refers to the variable it was resolved to. Nothing is captured in the blocks of the function's body, nor in functions whose variables all have different names. New names are the old ones with underscores added, not in the outer block's scope, and different for different locals; a local keeps its name if nothing else has it. The pass ends and leaves no block inside of another.", "quantifier": "all functions (any nesting of blocks, if, while, break, return), all parameters and their values, any number of blocks folded in any order, any choice of the locals reset at the end of a block", "why_tests_cant": "Programs and the ways of nesting and naming in them are unbounded.", "anchors": ["hilti/toolchain/src/compiler/optimizer/passes/flatten-blocks.cc: Collector (25-48), Mutator (62-151)", "hilti/toolchain/src/compiler/codegen/expressions.cc: 138-255 (locals are names in C++)", "hilti/toolchain/src/compiler/scope-builder.cc: declarations, parameters"]}
{"id": "C87", "title": "Propagating function returns does not change what calls do", "statement": "The optimizer removes elements from the tuple a function returns, where they only hand back a parameter to the variable that was passed for it, at every use. The function then does the same as before and returns the other values in their order; each use assigns as many values as are returned, and leaves all variables, members and output as before. This holds where no parameter is shadowed by a local or passed to a method by reference, and where the use assigns to variables, each once, which the function does not change itself.", "quantifier": "all functions without loops (any statements and branches, any returned tuples), any number of uses with any arguments and left sides, all states", "why_tests_cant": "Functions, uses and states are unbounded.", "anchors": ["hilti/toolchain/src/compiler/optimizer/passes/propagate-function-returns.cc: makeParamMap, calculatePlacements (117-184), collectFn (279-290), CollectorPrunePlacements (313-396), Mutator (403-645)", "tests/hilti/output/optimization/no-propagate-returns.hlt"]}
{"id": "C88", "title": "Peephole simplifications do not change what a program does", "statement": "The optimizer's last simplifications (default<void> statements, moves at the top of a statement, handlers that only rethrow, groupings with a local that only stands for a constant or name, and pairs that hand the parser's error over to the unit and take it back) do not change how a function ends, its variables, its output, or the units it changes, except for a unit's internal __error member, which no hook sees if each is run after the error has been handed over. Without such pairs nothing changes at all. Simplifying comes to an end.", "quantifier": "all programs of statements, loops, handlers and groupings, all hooks, all states, any simplifications in any order", "why_tests_cant": "Programs, hooks and the order of simplifications are unbounded.", "anchors": ["hilti/toolchain/src/compiler/optimizer/passes/peephole.cc: Mutator (26-219)", "hilti/toolchain/src/compiler/cfg.cc: mayHaveSideEffects (1292-1324)", "spicy/toolchain/src/compiler/codegen/parser-builder.cc: beforeHook, afterHook (3024-3061)"]}
