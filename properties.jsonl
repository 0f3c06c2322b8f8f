{"id": "C01", "title": "UTF-8 codec round trip", "statement": "Writing any code point up to U+10FFFF with the UTF-8 encoding and reading the bytes back with the UTF-8 decoder yields the same code point, consumes exactly the written bytes whatever follows them, and leaves the stream good; encoding a larger number writes nothing and marks the stream failed.", "quantifier": "every code point and every following byte sequence", "why_tests_cant": "1.1 million code points times arbitrary suffixes; tests use a handful of characters", "anchors": ["include/configor/details/encoding.hpp: utf8::encode, utf8::decode"]}
{"id": "C02", "title": "UTF-16 and UTF-32 codec round trip", "statement": "Same round trip for the UTF-16 and UTF-32 encodings: every Unicode scalar value written then read back is unchanged with exactly its units consumed; an unpaired lead surrogate unit is reported as an error by the UTF-16 decoder.", "quantifier": "every scalar value, every following unit sequence, every unit following a lead surrogate", "why_tests_cant": "unbounded suffixes and all surrogate combinations", "anchors": ["include/configor/details/encoding.hpp: utf16, utf32, unicode::encode_surrogates, decode_surrogates"]}
{"id": "C03", "title": "UTF-8 output is well formed", "statement": "For every Unicode scalar value the UTF-8 encoder writes exactly the unique shortest byte sequence of RFC 3629 (right length, right lead byte, continuation bytes in 80..BF).", "quantifier": "every Unicode scalar value", "why_tests_cant": "needs all 1.1M code points against an independent definition of well-formedness", "anchors": ["include/configor/details/encoding.hpp: utf8::encode"]}
{"id": "C04", "title": "UTF-8 decoding of arbitrary bytes", "statement": "On arbitrary bytes the UTF-8 decoder either reports end of input, reports an error, or yields a code point not above U+10FFFF; a sequence cut short by the end of input is always an error. Every well-formed UTF-8 text is decoded to its code points. (Ill-formed text is not always rejected: overlong forms, surrogates and wrong continuation bytes are accepted.)", "quantifier": "every byte string", "why_tests_cant": "all byte strings of every length", "anchors": ["include/configor/details/encoding.hpp: utf8::decode"]}
{"id": "C05", "title": "Surrogate pair arithmetic", "statement": "Splitting a supplementary code point into a surrogate pair and recombining is the identity, the two halves are a lead and a trail surrogate, and recombining any lead/trail pair gives a supplementary code point that splits back into that pair.", "quantifier": "every supplementary code point and every lead/trail pair", "why_tests_cant": "about a million pairs each way", "anchors": ["include/configor/details/encoding.hpp: unicode::encode_surrogates, decode_surrogates, is_lead_surrogate, is_trail_surrogate"]}
{"id": "C06", "title": "Parsing terminates with a classified result", "statement": "Parsing any finite input terminates after a number of steps linear in the input length, and the only outcomes are: a value, a configor_deserialization_error, an assertion failure, or signed-overflow undefined behaviour; no other exception type can escape.", "quantifier": "every finite byte or wide string, every encoding option", "why_tests_cant": "all strings of every length and nesting depth", "anchors": ["include/configor/json.hpp: json_parser", "include/configor/details/parser.hpp: basic_parser::parse, do_parse"]}
{"id": "C07", "title": "Parser accepts exactly its dialect", "statement": "json::parse succeeds with value v on a text if and only if the text belongs to a declaratively given JSON dialect (RFC 8259 values, plus comments, trailing commas, a leading plus sign, ...) with meaning v; in particular the result is a function of the decoded code points only.", "quantifier": "every input text and every value, both directions", "why_tests_cant": "language equality over an infinite language", "anchors": ["include/configor/json.hpp: scan, skip_spaces, skip_comments, scan_string, scan_number", "include/configor/details/parser.hpp: do_parse, parse"]}
{"id": "C08", "title": "Integer literals", "statement": "Every integer strictly between -2^63 and 2^63, written in decimal with optional sign, parses to exactly that integer value of integer type; a literal of magnitude 2^63 or more is signed overflow (undefined behaviour), including the dump of the minimum 64-bit integer.", "quantifier": "every 64-bit integer and every longer digit string", "why_tests_cant": "2^64 values and unbounded digit strings", "anchors": ["include/configor/json.hpp: scan_number, scan_integer, get_integer, put_integer"]}
{"id": "C09", "title": "Floating literals", "statement": "A number with a fraction or exponent parses to a value of floating type computed by the documented digit accumulation in IEEE double arithmetic; literals whose fraction digits are all zero and whose integer part is below 2^53 are exact; a literal with n digits after the point and exponent k, integer part below 2^63 and n+|k| at most 280, parses to a finite double whose relative error is at most (2n+2|k|+2)*2^-52; the nearest-double property does not hold in general.", "quantifier": "every floating literal", "why_tests_cant": "infinitely many literals; rounding behaviour cannot be sampled", "anchors": ["include/configor/json.hpp: scan_float, scan_exponent, get_float"]}
{"id": "C10", "title": "String literals and escapes", "statement": "A string literal parses to the concatenation of its unescaped characters in the target encoding: simple escapes, \\uXXXX with either hex case, and surrogate pairs combined; raw control characters, unknown escapes, bad hex digits and a lead surrogate without trail are errors.", "quantifier": "every string literal body", "why_tests_cant": "all strings and all escape combinations", "anchors": ["include/configor/json.hpp: scan_string, read_escaped_codepoint"]}
{"id": "C11", "title": "Whitespace and comments are insignificant", "statement": "Inserting or removing spaces, tabs, newlines and closed comments between tokens never changes the parse result, wherever some text follows the place; at the very end of the text a closed comment after a dangling exponent sign does change it.", "quantifier": "every document, every token boundary, every blank text", "why_tests_cant": "unbounded choices of blanks at unboundedly many places", "anchors": ["include/configor/json.hpp: skip_spaces, skip_comments"]}
{"id": "C12", "title": "Duplicate keys: first one wins", "statement": "When an object literal repeats a key, the parsed object maps the key to the value of its first occurrence, every distinct key appears once, and iteration order is key order independent of source order.", "quantifier": "every object literal", "why_tests_cant": "all member lists of any length", "anchors": ["include/configor/details/parser.hpp: do_parse (emplace)"]}
{"id": "C13", "title": "Lenient separators", "statement": "One trailing comma before ] or } is accepted and changes nothing; a key with no value directly before } is accepted and dropped; a missing comma, a double comma, a leading comma or a missing colon elsewhere is an error.", "quantifier": "every array and object literal", "why_tests_cant": "all containers of any length and content", "anchors": ["include/configor/details/parser.hpp: do_parse"]}
{"id": "C14", "title": "Nothing may follow the document", "statement": "After the value only blanks may follow: any further token is a configor_deserialization_error (unless it is a number that trips C16's assertion or overflow); the one exception is a NUL character, which ends the document and hides whatever follows.", "quantifier": "every value text and every suffix", "why_tests_cant": "unbounded suffixes", "anchors": ["include/configor/details/parser.hpp: basic_parser::parse", "include/configor/json.hpp: scan"]}
{"id": "C15", "title": "RFC 8259 texts are accepted", "statement": "Every text generated by the RFC 8259 grammar is accepted, with the meaning RFC 8259 gives it, provided its integers fit, numbers avoid the exponent forms configor rejects, and strings have no lone lead surrogate escape.", "quantifier": "every RFC 8259 text", "why_tests_cant": "infinite language inclusion", "anchors": ["include/configor/json.hpp: json_parser"]}
{"id": "C16", "title": "Aborts and undefined behaviour are confined to bad numbers", "statement": "If no plus or minus sign in number position is followed by a non-digit and no integer part reaches 2^63, parsing never hits the assertion or undefined behaviour; and disabling assertions changes nothing on inputs that do not trip them. There are inputs that do trip each.", "quantifier": "every input text", "why_tests_cant": "absence claim over all inputs", "anchors": ["include/configor/json.hpp: scan_number, scan_integer, CONFIGOR_ASSERT"]}
{"id": "C17", "title": "Non-ASCII characters are never taken for syntax", "statement": "With wide 32-bit input no character above U+007F is ever treated as a digit, literal letter or punctuation, except directly after an exponent sign where any character passes; with 8-bit char input this fails because code points are narrowed before comparison.", "quantifier": "every code point in every position", "why_tests_cant": "all code points in all lexical positions", "anchors": ["include/configor/json.hpp: is_digit, scan_literal"]}
{"id": "C18", "title": "Compact dump equals the canonical text", "statement": "With default options dump writes exactly the canonical JSON rendering of the value: no blanks, members in key order separated by single commas, literals true/false/null, minimal decimal integers, and strings with the escapes of the specification.", "quantifier": "every value", "why_tests_cant": "all values of any depth and size", "anchors": ["include/configor/json.hpp: json_serializer", "include/configor/details/serializer.hpp: do_dump"]}
{"id": "C19", "title": "Pretty printing layout", "statement": "With an indent step and character, dump writes one element or member per line, each line indented by depth*step characters, closing brackets at their opener's depth, an empty container as its two brackets on successive lines, and one indent character after each colon.", "quantifier": "every value nested less than 65536 deep, every step and indent character", "why_tests_cant": "all shapes of values", "anchors": ["include/configor/json.hpp: json_serializer::next", "include/configor/details/serializer.hpp: indent"]}
{"id": "C20", "title": "dump then parse is the identity", "statement": "parse(dump(v)) equals v, with the same types, for every value whose strings are valid in the value's encoding and free of the badly escaped control characters, integers above the minimum, and floats integral below 2^63 in magnitude; for compact output and for every blank indent character and step, with and without unicode escaping (where escaped characters are at least U+1000); with arbitrary finite floats (integral ones below 2^63 in magnitude) the value read back is the same with each float replaced by the number its text denotes.", "quantifier": "every value in that set, every such option", "why_tests_cant": "all values; infinitely many", "anchors": ["include/configor/json.hpp", "include/configor/details/parser.hpp", "include/configor/details/serializer.hpp"]}
{"id": "C21", "title": "When dump fails", "statement": "dump throws configor_serialization_error exactly when some string in the value contains a sequence its decoder rejects or a character the output encoding cannot express, and in no other case; nothing else can throw. An integral float outside the 64-bit range is undefined behaviour.", "quantifier": "every value and option set", "why_tests_cant": "all values and byte strings", "anchors": ["include/configor/json.hpp: put_string", "include/configor/details/serializer.hpp: dump"]}
{"id": "C22", "title": "Unicode escaping yields printable ASCII", "statement": "With unicode escaping on and printable indent, every unit dump writes is printable ASCII (or newline when pretty printing), whatever the strings contain.", "quantifier": "every value", "why_tests_cant": "all values and code points", "anchors": ["include/configor/json.hpp: put_string"]}
{"id": "C23", "title": "Dump output is RFC 8259 JSON", "statement": "Compact output is in the RFC 8259 grammar whenever the strings contain no control characters other than \\b \\t \\n \\f \\r and floats are finite (integral ones below 2^63 in magnitude), and denotes the value with each float replaced by the number its text denotes; a string with another control character is written with a two-digit \\u escape, which is not JSON, and can even be read back as a different string.", "quantifier": "every value", "why_tests_cant": "language inclusion over all values", "anchors": ["include/configor/json.hpp: json_hex, put_string"]}
{"id": "C24", "title": "Float output", "statement": "A float that is integral and below 2^63 in magnitude is written as its integer followed by .0 and reads back as an equal float; integral floats outside that range are undefined behaviour; other finite floats are written as the C standard prescribes for the stream's float format (fixed, scientific or general) and precision, correctly rounded, and may lose digits or read back as an integer.", "quantifier": "every double", "why_tests_cant": "2^64 doubles and all formats", "anchors": ["include/configor/json.hpp: put_float"]}
{"id": "C25", "title": "Dump is canonical", "statement": "Two values have the same compact dump only if they are the same value (in the round-trip class); the members of each object appear exactly once in strictly increasing key order however the object was built.", "quantifier": "every pair of values, every construction history", "why_tests_cant": "pairs of values and histories", "anchors": ["include/configor/details/serializer.hpp: do_dump"]}
{"id": "C26", "title": "Indentation buffer is safe at any depth", "statement": "Pretty printing never reads past its indentation buffer, for any nesting depth, although the depth counter wraps at 65536.", "quantifier": "every value of any depth and every step", "why_tests_cant": "needs nesting beyond 65535 and all steps", "anchors": ["include/configor/details/serializer.hpp: indent"]}
{"id": "C27", "title": "Error policies", "statement": "Without a handler or with the strict one, a failing parse or dump throws; with the ignore or record policy dump never throws and parse never throws unless decoding the very first character fails, and the record policy stores a non-empty message exactly when something failed.", "quantifier": "every input, value and policy", "why_tests_cant": "all failing inputs", "anchors": ["include/configor/details/parser.hpp: parse", "include/configor/details/serializer.hpp: dump", "include/configor/details/exception.hpp: error_handler_with", "include/configor/json.hpp: json_parser::parse"]}
{"id": "C28", "title": "What a failed parse leaves behind", "statement": "When parsing into an existing value fails, the value is either untouched (failure at the first token) or holds a prefix of the document: completed array elements in order, completed members of an object; never elements that are not in the text.", "quantifier": "every failing input and every previous value", "why_tests_cant": "all failure points in all documents", "anchors": ["include/configor/details/parser.hpp: do_parse"]}
{"id": "C29", "title": "Objects behave as finite maps", "statement": "For any history of operator[], assignment through it, erase, clear, emplace-style construction: at/find/count/size agree with a finite map from keys to values, and iteration is in strictly increasing key order.", "quantifier": "every sequence of operations", "why_tests_cant": "all histories", "anchors": ["include/configor/details/value.hpp: operator[], at, find, count, erase, size"]}
{"id": "C30", "title": "Arrays behave as lists", "statement": "For any history of push_back, operator[] with an index below 2^64-1 (growing with nulls), assignment, erase and clear: size, at and iteration agree with a list; existing elements are never disturbed by growth; at out of range throws std::out_of_range; erasing at or past the end is undefined behaviour, and so is operator[] with the largest index on an empty array.", "quantifier": "every sequence of operations", "why_tests_cant": "all histories", "anchors": ["include/configor/details/value.hpp: operator[], at, push_back, emplace_back, erase, size"]}
{"id": "C31", "title": "Misuse throws and changes nothing", "statement": "Every operation applied to a value of the wrong type throws the documented exception type and leaves the value unchanged; null silently becomes an array or object where documented. A chain of at() calls ending in a failing operation changes nothing; with operator[] in the chain new nulls may stay behind.", "quantifier": "every value and every operation", "why_tests_cant": "all values crossed with all operations", "anchors": ["include/configor/details/value.hpp"]}
{"id": "C32", "title": "size, empty, count, find agree", "statement": "empty() iff size()==0; count(k) is 1 iff find(k)!=end() iff at(k) does not throw; distance(begin,end)==size().", "quantifier": "every value and key", "why_tests_cant": "all values", "anchors": ["include/configor/details/value.hpp: size, empty, count, find"]}
{"id": "C33", "title": "clear resets but keeps the type", "statement": "clear() leaves the type unchanged and the value equal to the type's default; containers become empty.", "quantifier": "every value", "why_tests_cant": "all values", "anchors": ["include/configor/details/value.hpp: clear"]}
{"id": "C34", "title": "Equality", "statement": "operator== is symmetric on all values, reflexive exactly on values without NaN, agrees with structural equality on values without floats and with equality of content in general; it is transitive when all integers are within 2^53 and not transitive when larger integers and doubles mix; != is its negation.", "quantifier": "every pair (triple) of values", "why_tests_cant": "all pairs and triples", "anchors": ["include/configor/details/value.hpp: operator==, operator!="]}
{"id": "C35", "title": "Ordering", "statement": "operator< is irreflexive and asymmetric on all values (NaN included), numeric on integers, by code units on strings, false below true, lexicographic on arrays and objects, and a strict order total up to == on each sort of values: one scalar type (numbers within 2^53 and doubles without NaN count as one), arrays with a fixed sort at each position, objects with a fixed sort for each key; across types or on mixed arrays it is not a strict weak order, and can even be cyclic; <= can hold both ways between unequal values.", "quantifier": "every pair and triple of values", "why_tests_cant": "all triples", "anchors": ["include/configor/details/value.hpp: operator<, <=, >, >="]}
{"id": "C36", "title": "Copy, move, swap, assignment", "statement": "Copies are equal and independent; a moved-from value is null; move assignment gives the target the source's content; swap exchanges; self assignment and assignment from a sub-element of the target keep the assigned content intact.", "quantifier": "every value, every sub-element, every later mutation", "why_tests_cant": "all aliasing situations", "anchors": ["include/configor/details/value.hpp: copy/move constructors, operator=, swap"]}
{"id": "C37", "title": "Ownership: no leak, no double free", "statement": "For any history of constructions, copies, moves, swaps, assignments, element access, erasures and destructions of live values in which no value is moved or swapped into its own inside, every heap block has exactly one owner, is freed exactly once and never used after being freed; after all values are destroyed no block remains. Moving or swapping a value into one of its own sub-elements (v[0] = std::move(v), swap(v, v[0]), v.push_back(std::move(v))) leaks a block that owns itself.", "quantifier": "every sequence of operations, every nesting and aliasing of source and target", "why_tests_cant": "all histories", "anchors": ["include/configor/details/value.hpp: value_constructor, constructors, destructor, operator="]}
{"id": "C38", "title": "Forward traversal", "statement": "Stepping from begin() to end() takes exactly size() steps and yields every element once in order: list order for arrays, key order with matching key() for objects, the value itself once for scalars, nothing for null.", "quantifier": "every value", "why_tests_cant": "all sizes", "anchors": ["include/configor/details/iterator.hpp: iterator", "include/configor/details/value.hpp: begin, end"]}
{"id": "C39", "title": "Reverse traversal", "statement": "Stepping from rbegin() to rend() yields exactly the reverse of forward traversal.", "quantifier": "every value", "why_tests_cant": "all sizes", "anchors": ["include/configor/details/iterator.hpp: reverse_iterator", "include/configor/details/value.hpp: rbegin, rend"]}
{"id": "C40", "title": "Checked iterator access", "statement": "Dereferencing end() throws std::out_of_range for every value; key() on a non-object throws configor_invalid_iterator (or out_of_range at end); arithmetic on object iterators and comparison across values throw; it+n, it-n and the order on array iterators are those of the positions; ++ then -- is the identity inside the range. Not checked are moves out of the range and iterators kept while the value changes its type: into a container they are undefined, into a scalar they pass for the beginning.", "quantifier": "every value and position", "why_tests_cant": "all values and positions", "anchors": ["include/configor/details/iterator.hpp"]}
{"id": "C41", "title": "Integer conversions", "statement": "For every standard integer type T and every x of T, value(x).get<T>() == x; reading with another integer type gives the congruent integer modulo its width; reading a value of another kind as integer, floating, boolean or string throws configor_type_error.", "quantifier": "every integer type and value", "why_tests_cant": "2^64 values per type", "anchors": ["include/configor/details/conversion.hpp: to_value, from_value (integral)"]}
{"id": "C42", "title": "Container conversions round trip", "statement": "For every supported C++ type built from scalars, strings, configor values, array_type and object_type, pointers, sequence, set and map containers and bound structs, converting an object of that type to a configor value and (for the types for which get compiles: pointers to and other containers of basic_value can only be written) back succeeds, whatever the iteration order of unordered containers, and yields the same object if and only if it contains no pointer to something that converts to null and no OPTIONAL struct field that compares equal to its default without being it (-0.0).", "quantifier": "every supported type nesting and every inhabitant", "why_tests_cant": "infinitely many types", "anchors": ["include/configor/details/conversion.hpp"]}
{"id": "C43", "title": "Failed conversions", "statement": "get<T>() returns an object of T or throws a C++ exception: which object, and which class (configor_type_error, configor_invalid_key, configor_invalid_iterator, std::out_of_range for structs), is fixed by the value and the type; get(x) returns false exactly when get would throw, leaving scalars, strings, values, pointers, array_type and object_type unchanged and other containers partly overwritten. array_type and object_type are read only from null and from arrays or objects, unlike other containers, and replace what was there. Only a NaN read into a std::set is undefined behaviour.", "quantifier": "every value and target type", "why_tests_cant": "all values crossed with all types", "anchors": ["include/configor/details/conversion.hpp: from_value", "include/configor/details/value.hpp: get"]}
{"id": "C44", "title": "Bound structs", "statement": "Fields bound REQUIRED or OPTIONAL round trip through to_value/from_value as in C42; a written struct lacks exactly the OPTIONAL fields that equal a value-initialised one; reading throws if and only if a REQUIRED key is missing, std::out_of_range on objects and configor_invalid_key on other values; a missing OPTIONAL key leaves the field; a field whose member cannot be read is left as get(field) leaves it, silently, even if REQUIRED.", "quantifier": "every struct description, every field values, every source value", "why_tests_cant": "all structs and sources", "anchors": ["include/configor/details/conversion.hpp: CONFIGOR_BIND"]}
{"id": "C45", "title": "Reading through an adapter or FILE equals reading the string", "statement": "Parsing through iadapterstream, or from a FILE, gives the same outcome as parsing the same text from a string, provided the text has no NUL (and for adapters no 0xFF) and the end is signalled by EOF; an adapter that signals the end by NUL makes an unterminated comment loop forever.", "quantifier": "every text", "why_tests_cant": "all texts; non-termination", "anchors": ["include/configor/details/stream.hpp: basic_iadapterstream, fast_cfile_istreambuf, fast_string_istreambuf"]}
{"id": "C46", "title": "Stream insertion and extraction", "statement": "out << wrap(v) writes what dump writes with the indentation given by the stream's width (below 256) and fill and with its precision and float format, and resets the width even if it throws (not if there is no memory for the serializer, C63), leaving the rest of the stream's state alone; in >> wrap(v) parses the whole rest of the stream (up to the first NUL), and leaves v untouched if the stream was not good or had only blanks; what << writes, >> reads back as the same value or, through the conversions, the same C++ object.", "quantifier": "every value, width, fill, stream content, locale blank classification below U+0021, C++ type", "why_tests_cant": "all values and stream states", "anchors": ["include/configor/details/wrapper.hpp", "include/configor/json.hpp: json_serializer constructor"]}
{"id": "C47", "title": "Running out of memory", "statement": "Whatever allocations are refused, a program on values (construction, copying, moving, push_back, operator[], erase, clear, destruction; not value_constructor::reset) has no undefined behaviour: each operation either does what it does with enough memory or throws std::bad_alloc because one of its own requests was refused, and then every variable keeps its value, except that push_back and operator[] may leave the null they started from an empty array or object. The only memory lost is the storage create_data took when the constructor in it threw: at most one block per level of the value copied; for to_value from a vector, the blocks built so far. Moving, swapping, erasing, clearing and destroying request nothing.", "quantifier": "every command sequence, every plan of refused allocations, every starting store", "why_tests_cant": "all combinations of failing allocations and states", "anchors": ["include/configor/details/value.hpp:87-163 constructors, 428-440 push_back, 711-746 operator[], 1095-1106 create_data", "include/configor/details/conversion.hpp:294-305 to_value vector"]}
{"id": "C48", "title": "value_constructor::reset is not exception safe", "statement": "value_constructor::reset either succeeds or throws std::bad_alloc, the latter only when the new content is a string, array or object and an allocation was refused; and whenever it throws, the value's destructor has undefined behaviour, whatever it held and whatever it was to hold.", "quantifier": "every store, variable, content and plan of refused allocations", "why_tests_cant": "failing allocations; undefined behaviour", "anchors": ["include/configor/details/value.hpp:1023-1031 reset", "include/configor/details/conversion.hpp: to_value"]}
{"id": "C49", "title": "Dumping to any target delivers the text of the string dump", "statement": "When a value is dumped to a stream, the stream buffer is handed, up to the first request it refuses, exactly the text of the string dump in order, and all of it with the same outcome if it refuses nothing; an output adapter therefore receives exactly that text, and a target with room for n characters ends with the first n. After a refusal the dump either has the string dump's outcome or throws the exception for an unencodable character; the latter when some string or key has a character without a two-character escape, never when there is none, so that a failed dump may return normally. The stream's state bits are not touched.", "quantifier": "every stream buffer behaviour, character kinds, formatting, options, value", "why_tests_cant": "quantifies over all behaviours of the target and all values", "anchors": ["include/configor/details/serializer.hpp:47-71 basic_serializer", "include/configor/details/serializer.hpp:222-232 dump", "include/configor/details/stream.hpp:38-112 basic_oadapterstream", "include/configor/json.hpp:716-991 json_serializer"]}
{"id": "C50", "title": "Input stream buffers deliver the text; read() does so only in places", "statement": "Every sequence of get, peek and clear on a stream over a string, a C string, an adapter or a file gives the characters of the text in order, with end of file exactly at its end. On an adapter stream the same holds with read(s,n) mixed in, provided no read directly follows a peek, asks for nothing or passes the end. Elsewhere read is wrong: after a peek on an adapter it reports one character too few and end of file, and is undefined for n = 0; it never notices an adapter's end; on a string it does not advance; on a C string it delivers characters from the start of the buffer; on a file it delivers at most n-1 characters and a NUL as n.", "quantifier": "every character kind, text, adapter, operation sequence and count", "why_tests_cant": "arbitrary sequences of operations; undefined behaviour", "anchors": ["include/configor/details/stream.hpp:116-198 basic_iadapter, basic_iadapterstream", "include/configor/details/stream.hpp:248-423 fast_string_istreambuf, fast_buffer_istreambuf, fast_cfile_istreambuf"]}
{"id": "C51", "title": "Parsing when memory runs out", "statement": "When allocations may be refused, parsing into a value or part of one either does what it does with enough memory, losing none, or ends with std::bad_alloc or an encoding error; then the target is the old value or holds a beginning of the text's own document (its members and elements in the order of the text), no other variable changed, every block is owned once, and the only loss is storage (at most 2n+3 blocks for n units) left by a failed copy of an object member. A parse that throws creates no variable. A parse that returns (or records nothing) has read the document up to characters written as escapes at the end of strings or keys, which are silently dropped when memory is refused there; values with no string or key ending that way are exact.", "quantifier": "every text, configuration, error handler, target place, state of memory and sequence of refusals", "why_tests_cant": "every allocation of every parse would have to be refused in turn; loss is invisible from outside", "anchors": ["include/configor/details/parser.hpp:55-204 basic_parser::parse, do_parse", "include/configor/json.hpp:344-480 scan_string", "include/configor/details/stream.hpp:211-242 fast_string_ostreambuf", "include/configor/details/value.hpp:117-145 copy"]}
{"id": "C52", "title": "What the error says", "statement": "A text is rejected with a message exactly when a separate description of the complaints gives that message: it finds the boundary between tokens where the well-formed beginning ends and says which token, character, escape, digit or undecodable unit stands there, what was expected (by kind of place: value, element, separator, key, colon, end) and under which name; one text has one message, documents have none. A recording handler sees the message behind a prefix up to the first NUL; only a literal cut by a NUL or the end of the text hides anything. Decoding errors are reported only for undecodable texts. After a complete document the message always names 'end_of_input', whatever is there.", "quantifier": "every text, source and target encoding, character kind, assertion mode", "why_tests_cant": "an equivalence over all texts and all messages; tests sample a few malformed inputs", "anchors": ["include/configor/json.hpp:157-650 json_parser: scan, scan_* and fail", "include/configor/details/parser.hpp:55-216 basic_parser::parse, do_parse, fail", "include/configor/details/token.hpp:50-86 to_string", "include/configor/details/exception.hpp:99-155 error handlers"]}
{"id": "C53", "title": "What the other errors say", "statement": "dump throws exactly the message specified: the first string or key that cannot be written decides, and the message names the first code point the target encoding lacks or else the number the decoder is left with. Every exception of get<T>() is one of those listed: a value inside that does not fit a type inside T, naming both types, an array or object missing where one is read, or a missing REQUIRED member; without maps it is exactly one, with maps evaluation order chooses between at most two. Misused subscripts, erase, push_back and iterators have fixed texts. what() and recording handlers show each text in full behind the prefix of its class. That the number named is a code point and that a missing member is named are false.", "quantifier": "every value, serializer configuration, C++ type of the model and evaluation order", "why_tests_cant": "an equivalence over all values, types and messages; tests look at a few messages", "anchors": ["include/configor/json.hpp:653-900 json_serializer", "include/configor/details/conversion.hpp:45-50 make_conversion_error", "include/configor/details/declare.hpp:69-89 to_string", "include/configor/details/exception.hpp:33-97 exception classes"]}
{"id": "C54", "title": "How deep the recursion goes", "statement": "Counting the calls of do_parse, skip_comments, do_dump, operator==, operator<, and of copy constructors and destructors of containers in progress at once: for a document the greatest number is the one the annotated grammar assigns to it; for every text, accepted or not, it is at most one more than the length of the text and the nesting of the value overwritten. dump goes exactly as deep as the value is nested, less if it throws; == and < at most as deep as the flatter value, exactly if equal. There is no depth limit: n+1 arrays inside each other, 2n+2 characters, are read n+1 calls deep; nor a bound by the value read, since every comment takes a call inside that of the comment before it.", "quantifier": "every text, previous value, configuration and handler; every value and pair of values", "why_tests_cant": "bounds over all texts and values, exact counts that a test cannot observe without instrumenting the stack", "anchors": ["include/configor/details/parser.hpp:96-202 do_parse", "include/configor/json.hpp:263-323 skip_spaces, skip_comments", "include/configor/details/serializer.hpp:97-197 do_dump", "include/configor/details/value.hpp:821-933 operator==, operator<"]}
{"id": "C55", "title": "How much is copied and compared", "statement": "Parsing copies at most as many values as the square of the text's length, for a document at most the depth times the length, and none if no object has members. It is not linear: n+1 objects inside each other, 5n+2 characters, cost n(n+1)/2 copies, because every member value is copied into its object. a == b makes at most as many calls as the smaller value has parts, exactly that many if equal. a < b doubles the calls with each level of nesting, at most parts times 2^levels, and on two equal towers of n+1 arrays makes 2^(n+1)-1 calls. Both stop at the first difference: elements and members before it have been compared in full (by < in both directions), nothing after it; values of different kinds, and for == of different sizes, take one call.", "quantifier": "every text, configuration and handler, however parsing ends; every pair of values", "why_tests_cant": "complexity bounds over all inputs; exponential growth shows only on inputs no test uses", "anchors": ["include/configor/details/parser.hpp:160-196 members", "include/configor/details/value.hpp:117-143 copy constructor", "include/configor/details/value.hpp:821-854 operator==", "include/configor/details/value.hpp:889-933 operator<"]}
{"id": "C56", "title": "Input adapters that throw", "statement": "An adapter hands out a text and throws when asked for more. The exception never reaches the caller of parse: the outcome is that of parsing the text as a string, or a deserialization error 'decoding failed with codepoint', the code being what the decoder makes of the failed read. A complete document followed by the exception is rejected that way; accepted is only a document that a NUL ended before. Every other rejection has the message the grammar assigns to the text with an undecodable end. That parse passes the exception on, or reads the document all the same, is false.", "quantifier": "every text of units below the end marker (no NUL for UTF-8), every source encoding and character type, every previous value; containment for every handler", "why_tests_cant": "failures at every point of every text; a test injects a few", "anchors": ["include/configor/details/stream.hpp:113-200 basic_iadapter, basic_iadapterstream", "include/configor/json.hpp:247-261 read_next", "include/configor/details/encoding.hpp decoders"]}
{"id": "C57", "title": "Objects in other containers", "statement": "basic_value takes the container of objects as a template argument; the parser uses it through emplace alone. For every container the call ends as it does for std::map, with the same message, also when it fails. The result is one document, the same for all containers, its members put into the container in the order of the text; for accepted texts it is the document the grammar assigns to the text. In an insertion-ordered container (fifo_map) the members come in the order of the text, of members with the same key the first; sorted by key they are the members of the std::map result. Dumping an insertion-ordered value and parsing the text into such a container gives the value back, order included; parsing it into a std::map gives it sorted.", "quantifier": "every emplace function, input, budget, handler, previous value and configuration; round trip for every value with distinct keys, encodable strings and integral floats", "why_tests_cant": "the container is a parameter; tests instantiate one or two and never parse into them", "anchors": ["include/configor/details/parser.hpp:96-202 do_parse", "include/configor/details/value.hpp:40-66 object_type", "include/configor/details/serializer.hpp:97-197 do_dump", "tests/test_basic_config/test_basic.cpp:384-392 fifo_value"]}
{"id": "C58", "title": "Objects and streams used more than once", "statement": "k calls of parse on one parser succeed exactly on k documents separated by NULs, and so do k calls json::parse(is) on one stream; sign, number and character left by a document do not influence the next, failing calls included. After the last document every further call throws \"unexpected token 'end_of_input'\" and leaves its value; an empty document is an error, not skipped. A serializer writes the texts of several values one after the other with nothing between. After failed calls it ends every call as a new one does and without indentation writes the same text; with indentation it writes the value at the sum of the depths at which calls failed (that it writes the same is false). Once the stream has failed nothing is written, yet a call returns normally exactly when no character of the value needs the encoder. No sequence of calls has undefined behaviour unless a float cannot be written. Values written with a NUL after each are read back from one stream; without NULs they are not.", "quantifier": "every number of calls, sequence of values, text, buffer, configuration, encoding and handler, every parser state with a good stream", "why_tests_cant": "tests construct a parser or serializer per call; state carried over shows only in sequences, after failures", "anchors": ["include/configor/details/parser.hpp:45-70 basic_parser, parse", "include/configor/json.hpp:100-162 json_parser state, parse", "include/configor/details/serializer.hpp:57-71 dump", "include/configor/json.hpp:738-830 next", "include/configor/details/serializer.hpp:97-197 do_dump", "include/configor/details/serializer.hpp:259-320 indent"]}
{"id": "C59", "title": "Options of parse and dump", "statement": "For every list of options, the source encoding, target encoding and error handler of parse, and encodings, handler, indentation, escaping and float format of dump, are those of the last option that names them, otherwise the default encoding of the character type, no handler, no indentation, no escaping, general format of precision 6; hexfloat counts as general. Nothing else about the options matters; that their order does not matter is false. The handler options change neither the value parse leaves nor the text dump leaves. A value written under some options and read under others, into any variable and with any handlers, comes back when the last words on the encodings agree crosswise; without agreement it may not.", "quantifier": "every list of options of any length and order, every default encoding, character types, value, text", "why_tests_cant": "lists of options are unbounded and interact through shared settings; tests pass one or two", "anchors": ["include/configor/json.hpp:114-155 parser options, prepare", "include/configor/json.hpp:666-736 serializer options, prepare", "include/configor/details/parser.hpp:241-270 parse with options", "include/configor/details/serializer.hpp:221-242 dump with options"]}
{"id": "C60", "title": "Other integer and float types", "statement": "The parser template for any integer_type and float_type: a text is accepted exactly if it says a document of literals each of which has a value in the arithmetic of the types, and the result is that document with every literal computed in them; for int64_t and double this is the parser of the other properties. For two pairs of types without undefined overflow every parse of every text, also a rejected one, with any handler, ends in the same way with the same message, and the values differ in their numbers only. For the signed and unsigned integers of 8, 16, 32 and 64 bits an integer literal is its number modulo 2^bits, except that for signed types as wide as int a number beyond the greatest one, and the least one, are undefined behaviour. Texts whose literals fit read as with unbounded integers. The text dumped is the layout of the default types with integers in decimal, except that those of 8 bits become one unit of a stream of char, that of their number modulo 256. Values whose integers are within the type, without the least one of a wide signed type, and whose floats are integral and of a size within the type, are read back from their text. False are: that floats do not depend on the integer type, that the least integer and integral floats beyond the integer type come back, and that integers of 8 bits come back from a stream of char. With float as float_type every parse has the same integers, strings, end and message as with double, and integral floats come back from their text; false are that a float read is the double read from the same text rounded, and that every finite float comes back.", "quantifier": "every integer and float arithmetic, every integer type of 8 to 64 bits, every text, value, handler, configuration", "why_tests_cant": "the tests instantiate the default types only; overflow depends on the type and the value of each literal", "anchors": ["include/configor/details/value.hpp:40-66 template parameters of basic_value", "include/configor/json.hpp:482-599 scan_integer, scan_float, scan_exponent", "include/configor/json.hpp:164-172 get_integer, get_float", "include/configor/json.hpp:858-874 put_integer, put_float", "include/configor/details/parser.hpp:96-204 do_parse"]}
{"id": "C61", "title": "Converting C++ objects when memory runs out", "statement": "Whatever allocations are refused, making a value from a C++ object (json v(x), v = x, v.emplace_back(x)) for every type of C42 has no undefined behaviour: it either gives the value the object converts to with enough memory, or throws std::bad_alloc because one of its own requests was refused, and then every variable keeps its value, except that emplace_back may leave the null it started from an empty array. At most as many blocks are lost as the converted value consists of. This holds whichever operand of = in to_value is evaluated first. For arrays, sequences, sets and maps nothing is lost only if the very first request was refused. False is: that a constructor that throws gives its memory back.", "quantifier": "every C++ type built from scalars, strings, values, pointers, arrays, sequences, sets, maps and bound structs, every object of it, every plan of refused allocations, every starting store, both evaluation orders", "why_tests_cant": "the tests never let an allocation fail, and where the failure falls depends on the type and the object", "anchors": ["include/configor/details/value.hpp:117-145 copy constructor", "include/configor/details/value.hpp:155-163 converting constructor", "include/configor/details/value.hpp:428-440 emplace_back", "include/configor/details/value.hpp:689-707 operator=", "include/configor/details/value.hpp:1021-1031 value_constructor::reset", "include/configor/details/conversion.hpp:55-110 to_value of scalars, strings and containers of values", "include/configor/details/conversion.hpp:194-201, 220-229, 248-257, 276-285, 297-306, 319-328, 341-351, 364-374, 388-398, 411-421, 436-444, 461-469 to_value of arrays, pointers, sequences, sets and maps", "include/configor/details/conversion.hpp:786-826 CONFIGOR_BIND"]}
{"id": "C62", "title": "Reading C++ objects when memory runs out", "statement": "Whatever requests for memory are refused (messages of exceptions, copies of strings and values, pointers, nodes, resize, value-initialisation, names of fields), reading a value into a C++ object of every type of C42 has no undefined behaviour where there is none with enough memory. get<T>() can return exactly the objects listed in the specification, throws std::bad_alloc for some refusals exactly where the specification lets it stop, and any other exception exactly if it is the one thrown with enough memory. It returns only if it does with enough memory, and for types without bound structs then the same object. get(x) never throws; what it leaves in x when it returns true and when it returns false is exactly what the specification lists; true only where it is true with enough memory, and scalars, strings, values and pointers (not array_type and object_type) are unchanged when it is false. Without refusals everything is as with enough memory. False is: that get<T>() returns the object read with enough memory or throws, since a bound field, also a REQUIRED one, for which there is no memory is left without a word.", "quantifier": "every C++ type built from scalars, strings, values, pointers, arrays, sequences, sets, maps and bound structs, every value, every object read into, every pattern of refused requests, both evaluation orders", "why_tests_cant": "the tests never let an allocation fail, and the result depends on which of unboundedly many requests is refused", "anchors": ["include/configor/details/value.hpp:586-594 do_get<T>()", "include/configor/details/value.hpp:626-632 get<T>()", "include/configor/details/value.hpp:655-672 get(x), catch (...)", "include/configor/details/conversion.hpp:112-190 from_value of scalars, strings and values", "include/configor/details/conversion.hpp:203-482 from_value of arrays, pointers, sequences, sets and maps", "include/configor/details/conversion.hpp:786-836 CONFIGOR_BIND"]}
{"id": "C63", "title": "Dumping when memory runs out", "statement": "Whatever requests for memory are refused (the serializer's locale, indentation, messages of exceptions, growth of the target string), a dump gives its target a prefix of the text, in order; all of it unless the target refused something or the call ends with std::bad_alloc. It ends as with enough memory, with std::bad_alloc, with the error for a target that refused, or with its own message cut off between two pieces; each cut can happen. With all requests granted it is the dump of C49. Once the serializer is made, a value that can be written makes a request exactly if it is indented and nested more than four deep. The stream's width is reset unless the serializer cannot be made, where the error handler is not asked either. json::dump(v) that returns without an error handler returns a prefix of the text of a value that can be written, the whole if the string could grow. False is: that json::dump(v) returns the text or throws, since a string that cannot grow loses the rest without a word.", "quantifier": "every value, option list, stream state, target stream buffer, pattern of refused requests", "why_tests_cant": "the tests never let an allocation fail, and the result depends on which of unboundedly many requests is refused", "anchors": ["include/configor/json.hpp:716-736 json_serializer constructor and prepare", "include/configor/json.hpp:738-856 next", "include/configor/json.hpp:876-963 put_string", "include/configor/json.hpp:993-998 fail", "include/configor/details/serializer.hpp:39-71 serializer_base, dump and its catch clause", "include/configor/details/serializer.hpp:222-251 dump into a stream or string", "include/configor/details/serializer.hpp:258-322 indent", "include/configor/details/stream.hpp:211-242 fast_string_ostreambuf"]}
{"id": "C64", "title": "json::wrap on streams with state bits and exceptions() masks, and in loops", "statement": "in >> json::wrap(x): a stream that is not good gets failbit, one with only blanks left eofbit and failbit, x keeping its value; std::ios_base::failure is thrown exactly if the bits then set meet the mask. Otherwise the text is parsed as by json::parse and the stream's bits stay as they are and never throw, even if parse throws, so what cannot be read does not set failbit. while (in >> json::wrap(x)) reads documents with NULs between them one by one to the last, for json values and other types, and ends with eofbit and failbit; a mask changes only how the end is reported; conversely a loop that ends so has read exactly the documents of the text; without skipws it always ends with an exception of parse. Insertion leaves the bits as they are, and on a stream that is not good writes nothing and keeps the width. Values written each followed by a NUL are read back by the loop; with a blank, a newline or nothing between them they are not.", "quantifier": "every stream state, mask, skipws flag, text, value, C++ type, number of documents and rounds", "why_tests_cant": "the tests extract one document from good streams without a mask; the claim is about all states, masks and lengths of the loop", "anchors": ["include/configor/details/wrapper.hpp:42-52 operator<<", "include/configor/details/wrapper.hpp:72-82 operator<< for values", "include/configor/details/wrapper.hpp:99-112 operator>>", "include/configor/details/wrapper.hpp:129-142 operator>> for values", "include/configor/details/parser.hpp:39-70 basic_parser constructor and parse", "include/configor/details/serializer.hpp:39-71 serializer_base and dump"]}
{"id": "C65", "title": "Hand-written conversions inside containers, pointers and bound structs", "statement": "Let a class come with its own to_value and from_value, which may throw anything at any point. Writing a vector, deque, list, forward_list, array, map or CONFIGOR_BIND struct of such objects converts the elements in order; the first conversion that throws ends it with just that exception, leaving the elements before it and, if c[i] is evaluated first, a null. Reading stops likewise at the first element that throws: a vector has been resized and keeps its old elements from there on, a list is left with those read, a forward_list is read from the back, a map keeps entries it had; a pointer keeps its old object; a bound struct swallows exceptions of its fields, keeps what they left and reads the rest. If the functions of the class only return or throw, then so do all conversions of types built from it to any depth, throwing only its exceptions and the library's four complaints, and get(x) never throws. Objects the class gets back are got back inside sequences, arrays and maps; inside structs if from_value(c, x) gets them back from T{}; inside pointers exactly if they are not written as null. A class with both kinds of from_value has container elements read by the returning one, fields by the other. With the library's own types as elements this agrees with C42 and C43.", "quantifier": "every class, conversion function, container kind, nesting, value, object, order of evaluation and iteration", "why_tests_cant": "the conversions are arbitrary functions, and the element at which one throws may be any of unboundedly many; the tests' own conversions never throw", "anchors": ["include/configor/details/value.hpp:137-141 converting constructor", "include/configor/details/value.hpp:568-673 do_get, get<T>() and get(x)", "include/configor/details/conversion.hpp:188-481 arrays, pointers and containers", "include/configor/details/conversion.hpp:484-545 to_value, from_value and value_binder", "include/configor/details/conversion.hpp:786-831 CONFIGOR_BIND", "include/configor/details/declare.hpp:164-238 has_to_value, has_from_value, has_non_default_from_value"]}
{"id": "C66", "title": "References to values kept across statements", "statement": "Let auto& r = v.at(..) or v[..] be kept while other statements run. r goes on meaning the object it was bound to, wherever that is: members of objects stay where they are when other members are inserted or erased; what is inside an element of an array moves with the element when the array grows or an element before it is erased; move construction, move assignment, push_back of an rvalue and swap take the references into the value along to its new owner, while references to the moved-from value itself stay with it, now null; copies take none. Using r is then the same as using the place at() finds, for every statement, also to bind further references, and two references mean one object exactly if they did before. All other references dangle (those inside values overwritten, cleared, erased or destroyed, and those to the elements themselves of an array whose length changes): reading one is undefined behaviour. A program that uses only references of the first kind runs without undefined behaviour, with the results it has on trees.", "quantifier": "every program of such statements, every nesting of values, every number of references", "why_tests_cant": "the tests use references at once; whether a reference dangles is not observable in a test run, and the interleavings of statements are unbounded", "anchors": ["include/configor/details/value.hpp:147-153 move constructor", "include/configor/details/value.hpp:348-364 erase by key and by index", "include/configor/details/value.hpp:418-467 push_back, emplace_back and clear", "include/configor/details/value.hpp:681-707 swap and assignment", "include/configor/details/value.hpp:711-801 operator[] and at"]}
{"id": "C67", "title": "Iterators kept while their value changes", "statement": "An iterator obtained from v by begin(), end(), find(), ++, -- or erase(it) stands at an element or past the last one. It still stands there after every statement that spares its spot: with objects v[k] = x, *it = x, v.erase(k) and v.erase(it) of other members (end() even after v.clear()); with arrays *it = x and v[i] = x for i < size(). After the others (v = x, std::move(v), a changed number of elements of an array, erasure of its own member) it stands nowhere and never will again, not even if the same key is inserted once more; as long as v is an array or object any use of it is undefined behaviour. If v is a number, string or boolean now, the iterator reads v itself unless its primitive position is not 0 (so end() of a former array reads v), and if v is null it throws std::out_of_range. Where it stands it reads what v holds there now, ++ and -- go to the spot that is next now, two iterators are equal exactly if they stand at one spot, and the statements change v as they do without iterators. The loop `it = v.erase(it)` or `++it` removes exactly the chosen elements and spares the iterators of the other members; with v.erase(it++) it does the same for objects and is undefined for arrays as soon as something is erased; assigning f(*it) to each element replaces each once; over a scalar that loop is undefined exactly if f makes an array or object of it; inserting a longer key at each step never ends. v.erase(first, last) removes exactly the elements from first up to last and returns an iterator at last; with objects the iterators outside the range stay and those inside are lost; if last is in front of first it is undefined. it + n, it - it and it < it are those of the positions for arrays, and throw for objects. A reverse iterator gives the element in front of the iterator it keeps, as v is now: a member inserted there is given instead, and it is lost with the member after its own.", "quantifier": "every value, every program of such statements, every iterator obtained before, every predicate and function in the loops", "why_tests_cant": "the tests walk over values that stay as they are; a lost iterator often seems to work, and the interleavings of statements and iterators are unbounded", "anchors": ["include/configor/details/iterator.hpp:185-215 key, value and operator*", "include/configor/details/iterator.hpp:221-293 operator++ and operator--", "include/configor/details/iterator.hpp:357-380 operator==", "include/configor/details/iterator.hpp:480-513 check_iterator and members", "include/configor/details/value.hpp:234-264 begin and end", "include/configor/details/value.hpp:321-341 find", "include/configor/details/value.hpp:348-467 erase, push_back, clear", "include/configor/details/value.hpp:689-746 assignment and operator[]", "include/configor/details/iterator.hpp:295-352 offsets and differences", "include/configor/details/iterator.hpp:394-412 operator<", "include/configor/details/iterator.hpp:517-543 reverse_iterator", "include/configor/details/value.hpp:394-416 erase of a range"]}
{"id": "C68", "title": "Pointers to the content of a value kept while values change", "statement": "get_ptr<T*>() gives a pointer exactly if the value is of type T, and it gives the content of that value. A pointer to a string, array or object goes with it: after x.swap(y) or y = std::move(x) it points to the content of y; every other member function, also one that throws and also on an element, leaves it pointing to the changed content of x; if x is assigned (or moved to), it dangles, and does so for good. A pointer to a boolean, integer or float stays with the variable: it gives what the variable holds whenever that has its type and must not be read otherwise. A store through a pointer is seen by the one variable it points to and by all pointers to it, and by no other variable. Each block belongs to one variable and none is kept without. Programs with such pointers change the values as if each store were an assignment. That a pointer obtained from x gives the content of x as long as it can be read is false.", "quantifier": "every program of assignments, copies, moves, swaps, member functions and stores through pointers, every number of variables, every pointer obtained before", "why_tests_cant": "the tests read a reference at once; a dangling pointer often seems to work, and the interleavings of commands and pointers are unbounded", "anchors": ["include/configor/details/value.hpp:71-79 data_type", "include/configor/details/value.hpp:442-467 clear", "include/configor/details/value.hpp:472-530 do_get_ptr", "include/configor/details/value.hpp:532-562 get_ptr and do_get_ref", "include/configor/details/value.hpp:634-652 get of a pointer and of a reference", "include/configor/details/value.hpp:681-707 swap and assignment", "include/configor/details/value.hpp:1036-1053 destroy"]}
