{"id": "C01", "title": "Parsing is total", "statement": "Json::parse returns Ok or Err for every input string: it never panics and its recursion always terminates.", "quantifier": "every string (any length, any Unicode scalar values, any nesting)", "why_tests_cant": "unbounded inputs and nesting; a test samples finitely many strings", "anchors": ["src/lib.rs::Json::parse", "src/lib.rs::Json::_parse", "src/lib.rs::parse_array", "src/lib.rs::parse_object", "src/lib.rs::parse_string", "src/lib.rs::parse_number"]}
{"id": "C02", "title": "A valid JSON text is accepted with exactly the value it denotes, or rejected", "statement": "For every RFC 8259 text that denotes a representable value v, Json::parse returns Ok(v) when no empty array or object contains white space and every string nested in a container has as many opening as closing brackets, and Err otherwise; it never returns another value. (So the unconditional claim 'every valid text is accepted' is false, with witnesses [ ] and [\"[\"].)", "quantifier": "every RFC 8259 text and every value it denotes", "why_tests_cant": "the grammar generates infinitely many texts; interactions of strings, brackets and white space at all depths", "anchors": ["src/lib.rs::Json::parse", "src/lib.rs::parse_array", "src/lib.rs::parse_object"]}
{"id": "C03", "title": "Exactly which texts are accepted", "statement": "Json::parse returns Ok(v) for a text if and only if the text belongs, with value v, to an explicitly given lenient grammar: RFC 8259 plus leading zeros, arbitrary text after [] and {}, white space inside numbers and literals of a container, extra colons after a key. (So the claim 'only RFC 8259 texts are accepted' is false, with witnesses []garbage, [1 2], {\"a\"::1:2}, 01.5.)", "quantifier": "every string", "why_tests_cant": "needs all rejected strings, an infinite set", "anchors": ["src/lib.rs::Json::parse", "src/lib.rs::parse_array", "src/lib.rs::parse_object", "src/lib.rs::valid_number"]}
{"id": "C04", "title": "Literals and strings are parsed exactly", "statement": "For a text that starts (after white space) with n, t, f or a quote, Json::parse returns Ok(v) if and only if the text is an RFC 8259 text denoting v.", "quantifier": "every string beginning with such a character", "why_tests_cant": "infinitely many texts on both sides of the equivalence", "anchors": ["src/lib.rs::parse_null", "src/lib.rs::parse_boolean", "src/lib.rs::parse_string"]}
{"id": "C05", "title": "Surrounding white space is irrelevant", "statement": "Adding any amount of JSON white space before or after a text does not change the result of Json::parse, error included.", "quantifier": "every text, every pair of white-space strings", "why_tests_cant": "unbounded", "anchors": ["src/lib.rs::Json::parse", "src/lib.rs::is_whitespace"]}
{"id": "C06", "title": "Parsed values are well formed", "statement": "Every value Json::parse returns holds only finite numbers, strings of Unicode scalar values and objects with unique keys.", "quantifier": "every string for which parse succeeds", "why_tests_cant": "all inputs, all depths", "anchors": ["src/lib.rs::Json::parse", "src/lib.rs::object_insert"]}
{"id": "C07", "title": "Numbers are correctly rounded", "statement": "A number text is read as the IEEE double nearest to its decimal value (ties to even), and is rejected exactly when that rounds beyond the largest finite double.", "quantifier": "every number text (any number of digits, any exponent)", "why_tests_cant": "infinitely many decimals; rounding ties", "anchors": ["src/lib.rs::parse_number", "src/lib.rs::valid_number"]}
{"id": "C08", "title": "Duplicate keys keep document order", "statement": "If an object text has several members with one key, get/find/index see the last one, and index_and_merge lists all values of that key in document order.", "quantifier": "every sequence of members", "why_tests_cant": "any number of members and interleavings of keys", "anchors": ["src/lib.rs::parse_object", "src/lib.rs::object_insert", "src/lib.rs::index_and_merge"]}
{"id": "C09", "title": "Print/parse round trip", "statement": "For every finite well-formed value v whose nested strings are bracket balanced, parse(v.to_string()) = Ok(v).", "quantifier": "every value, any depth and width", "why_tests_cant": "structural induction over all values", "anchors": ["src/lib.rs::Json::to_string", "src/lib.rs::Json::parse", "src/lib.rs::escape"]}
{"id": "C10", "title": "A printed value is never read back as a different value", "statement": "For every finite well-formed v, parse(v.to_string()) is Ok(v) or Err; it is Err exactly when some nested string or key has unequal numbers of opening and closing brackets.", "quantifier": "every value", "why_tests_cant": "needs all values, including adversarial strings", "anchors": ["src/lib.rs::Json::to_string", "src/lib.rs::parse_array", "src/lib.rs::parse_object"]}
{"id": "C11", "title": "Printed text is printable ASCII", "statement": "Every character to_string emits lies between U+0020 and U+007E.", "quantifier": "every value", "why_tests_cant": "all Unicode strings", "anchors": ["src/lib.rs::escape", "src/lib.rs::hex", "src/lib.rs::Json::to_string"]}
{"id": "C12", "title": "Printing is deterministic", "statement": "to_string does not depend on the iteration order of the hash maps: equal values print equally, with members in ascending key order.", "quantifier": "every value and every iteration order at every object", "why_tests_cant": "random hash seeds: a test sees one order", "anchors": ["src/lib.rs::Json::to_string"]}
{"id": "C13", "title": "Printed text is valid JSON for the value", "statement": "For every well-formed value with only finite numbers, to_string yields an RFC 8259 text that denotes that value. (Refuted for NaN and infinities.)", "quantifier": "every value", "why_tests_cant": "all values", "anchors": ["src/lib.rs::Json::to_string", "src/lib.rs::escape"]}
{"id": "C14", "title": "Strings round trip through text", "statement": "For every String s, decode::<String>(encode(s)) = Ok(s).", "quantifier": "every string of Unicode scalar values", "why_tests_cant": "every code point, every combination", "anchors": ["src/lib.rs::escape", "src/lib.rs::hex", "src/lib.rs::parse_string", "src/lib.rs::encode_utf8"]}
{"id": "C15", "title": "Numbers round trip through text", "statement": "For every finite f64 x, decode::<f64>(encode(x)) = Ok(x), sign of zero included.", "quantifier": "all 2^64 doubles that are finite", "why_tests_cant": "2^64 inputs", "anchors": ["src/lib.rs::Json::to_string", "src/lib.rs::parse_number"]}
{"id": "C16", "title": "UTF-8 encoding of escapes is correct", "statement": "A \\\\u escape (or surrogate pair) decodes to exactly its code point; every lone or reversed surrogate is rejected.", "quantifier": "every 16-bit escape and pair of escapes", "why_tests_cant": "2^32 pairs", "anchors": ["src/lib.rs::encode_utf8", "src/lib.rs::parse_hex_digit", "src/lib.rs::parse_string"]}
{"id": "C17", "title": "get navigates", "statement": "find/get along a path returns exactly the value reached by stepping through object members (last duplicate) and array elements, and otherwise the error of the first failing step.", "quantifier": "every value, every path", "why_tests_cant": "all depths", "anchors": ["src/lib.rs::Path::find", "src/lib.rs::Finder::find", "src/lib.rs::Json::get"]}
{"id": "C18", "title": "set then get", "statement": "After update/set of a value at a path, find/get at that path returns that value, whatever the document was before.", "quantifier": "every document, path and value", "why_tests_cant": "all documents and paths", "anchors": ["src/lib.rs::Path::update", "src/lib.rs::Finder::update", "src/lib.rs::Json::set"]}
{"id": "C19", "title": "set touches nothing else", "statement": "update/set at a path leaves every other location whose path diverges from it (at a step that existed before) unchanged, and changes no other member of the objects it passes.", "quantifier": "every document, pair of diverging paths, value", "why_tests_cant": "frame condition over all other locations", "anchors": ["src/lib.rs::Path::update", "src/lib.rs::Finder::update"]}
{"id": "C20", "title": "set succeeds on any document", "statement": "update/set never returns an error for a well-formed path; it creates missing members and elements, pads arrays with null and replaces values of the wrong kind. (The only exception is a panic when an index exceeds the maximal Vec capacity.)", "quantifier": "every document and path", "why_tests_cant": "all documents and paths", "anchors": ["src/lib.rs::Path::update", "src/lib.rs::Finder::update", "src/lib.rs::Json::set"]}
{"id": "C21", "title": "del returns what get returned", "statement": "discard/del succeeds exactly when find/get does, returns the same value, and otherwise the same error.", "quantifier": "every document and path", "why_tests_cant": "all documents and paths", "anchors": ["src/lib.rs::Path::discard", "src/lib.rs::Finder::discard", "src/lib.rs::Json::del"]}
{"id": "C22", "title": "del removes exactly one location", "statement": "After deleting a member, looking it up fails and all other members are unchanged; after deleting an array element the later elements move down by one and nothing else changes.", "quantifier": "every document and path", "why_tests_cant": "frame condition", "anchors": ["src/lib.rs::Path::discard", "src/lib.rs::Finder::discard"]}
{"id": "C23", "title": "Failed operations change nothing", "statement": "Every operation that returns Err (del, discard, insert, append, delete, push, replace, remove, set with a bad path) leaves the document as it was.", "quantifier": "every document and argument", "why_tests_cant": "all documents", "anchors": ["src/lib.rs::Json::del", "src/lib.rs::Json::add_option", "src/lib.rs::Json::delete", "src/lib.rs::Json::push", "src/lib.rs::Json::replace", "src/lib.rs::Json::remove"]}
{"id": "C24", "title": "Path strings denote the documented steps", "statement": "A path string is split at unescaped dots, \\\\. is a literal dot, #n is an index, a leading backslash is dropped; every list of steps whose keys do not end in a backslash (except in last position) is written by a path string, and no other list is.", "quantifier": "every list of steps, every path string", "why_tests_cant": "all strings", "anchors": ["src/lib.rs::parse_path"]}
{"id": "C25", "title": "Path syntax errors", "statement": "get/set/del return PathSyntaxError exactly when the path string is empty or some #-segment is not a decimal usize, and never panic while reading a path.", "quantifier": "every path string", "why_tests_cant": "all strings", "anchors": ["src/lib.rs::parse_path", "src/lib.rs::Json::get"]}
{"id": "C26", "title": "Objects behave as ordered multimaps", "statement": "Any sequence of insert, append, delete, index_and_merge and lookups on an object behaves like the abstract map from keys to lists of values (insert replaces the list, append extends it, delete removes it).", "quantifier": "every operation sequence", "why_tests_cant": "unbounded histories", "anchors": ["src/lib.rs::Json::add_option", "src/lib.rs::Json::delete", "src/lib.rs::index_and_merge", "src/lib.rs::object_insert"]}
{"id": "C27", "title": "Arrays behave as sequences", "statement": "Any sequence of push, replace and remove on an array behaves like the same operations on a list; replace out of range fails with IndexOutOfRange, remove out of range panics.", "quantifier": "every operation sequence", "why_tests_cant": "unbounded histories", "anchors": ["src/lib.rs::Json::push", "src/lib.rs::Json::replace", "src/lib.rs::Json::remove"]}
{"id": "C28", "title": "Text-level get, set and del", "statement": "get(set(t,p,x),p) = x and del/get on text agree with the operations on parsed values, for texts whose values are bracket balanced.", "quantifier": "every text, path, value", "why_tests_cant": "all texts", "anchors": ["src/lib.rs::get", "src/lib.rs::set", "src/lib.rs::del"]}
{"id": "C29", "title": "Scalar conversions are lossless", "statement": "bool, String, Json and f64 survive to_json followed by from_json.", "quantifier": "every value of the type", "why_tests_cant": "all values", "anchors": ["src/lib.rs::ToJson", "src/lib.rs::FromJson"]}
{"id": "C30", "title": "Integer conversions round to nearest", "statement": "An integer converts to the nearest double; it survives to_json/from_json if |n| <= 2^53, and exactly when the nearest double converts back (saturating) to it; larger integers may change.", "quantifier": "every integer of every width", "why_tests_cant": "2^128 values", "anchors": ["src/lib.rs::number_imp"]}
{"id": "C31", "title": "Number to integer conversion truncates and saturates", "statement": "from_json of a number to an integer type truncates toward zero, clamps to the type's range, maps NaN to 0, and never fails.", "quantifier": "every double, every integer width", "why_tests_cant": "2^64 values x 12 types", "anchors": ["src/lib.rs::number_imp"]}
{"id": "C32", "title": "Vec and Option conversions", "statement": "Vec<T> round trips if T does; Option<T> round trips if T does and no T encodes as null; Option<Option<T>> does not.", "quantifier": "every value", "why_tests_cant": "type-parametric", "anchors": ["src/lib.rs::ToJson for Vec", "src/lib.rs::FromJson for Option"]}
{"id": "C33", "title": "Map conversions", "statement": "HashMap<K,V> and Vec<(K,V)> round trip (the latter up to reordering of different keys, keeping per-key order) when key printing is injective, whatever the iteration order.", "quantifier": "every map, every iteration order", "why_tests_cant": "hash order, all sizes", "anchors": ["src/lib.rs::ToJson for HashMap", "src/lib.rs::FromJson for Vec<(K, V)>"]}
{"id": "C34", "title": "Conversion errors", "statement": "from_json fails with ConvertError exactly on a wrong kind (or key that does not parse), and a container conversion fails with the first failing element's error.", "quantifier": "every value", "why_tests_cant": "all values", "anchors": ["src/lib.rs::FromJson"]}
{"id": "C35", "title": "encode/decode", "statement": "decode(encode(x)) = Ok(x) for every type built from round-tripping pieces whose encoding is finite and bracket balanced.", "quantifier": "every such value", "why_tests_cant": "type-parametric", "anchors": ["src/lib.rs::encode", "src/lib.rs::decode"]}
{"id": "C36", "title": "Derived codecs round trip", "statement": "For a struct with distinct keys deriving JsonEncode and JsonDecode, from_json(to_json(x)) = Ok(x with ignored fields replaced by their default).", "quantifier": "every struct shape and value", "why_tests_cant": "all struct definitions", "anchors": ["json_derive/src/lib.rs::to_json", "json_derive/src/lib.rs::from_json"]}
{"id": "C37", "title": "Derived decoding errors", "statement": "Derived from_json fails with ConvertError on non-objects, MissingKey on the first absent non-ignored member, and ignores unknown members.", "quantifier": "every struct shape and value", "why_tests_cant": "all struct definitions", "anchors": ["json_derive/src/lib.rs::from_json"]}
{"id": "C38", "title": "Indexing panics exactly when lookup fails", "statement": "json[step] yields the value find returns and panics exactly when find fails.", "quantifier": "every value and step", "why_tests_cant": "all values", "anchors": ["src/lib.rs::Index", "src/lib.rs::IndexMut"]}
{"id": "C39", "title": "set is last-write-wins", "statement": "Setting a path twice equals setting it once with the last value.", "quantifier": "every document, path, pair of values", "why_tests_cant": "all documents", "anchors": ["src/lib.rs::Path::update"]}
{"id": "C40", "title": "Distinct values print distinctly", "statement": "to_string is injective on well-formed finite values.", "quantifier": "every pair of values", "why_tests_cant": "all pairs", "anchors": ["src/lib.rs::Json::to_string"]}
{"id": "C41", "title": "Writing through a mutable reference touches one location", "statement": "find_mut and IndexMut return the value find returns (or the same error); writing z through the reference makes find return z there, writing the old value back changes nothing, and every location whose path leaves this one, every other member and every older duplicate keep their values.", "quantifier": "all documents, all paths, all written values", "why_tests_cant": "the frame condition ranges over all other locations of all documents", "anchors": ["src/lib.rs: Json::find_mut", "src/lib.rs: Path::find_mut", "src/lib.rs: Finder::find_mut", "src/lib.rs: IndexMut"]}
{"id": "C42", "title": "Editing keeps documents well formed", "statement": "Every update, set, discard, del, insert, append, delete, push, replace and remove on a well-formed document (unique keys, Unicode strings, valid numbers) with well-formed arguments leaves a well-formed document, also when it fails; finiteness of all numbers is kept too.", "quantifier": "all well-formed documents, paths and arguments", "why_tests_cant": "an invariant over all reachable documents", "anchors": ["src/lib.rs: Json::update", "src/lib.rs: Json::discard", "src/lib.rs: Json::add_option"]}
{"id": "C43", "title": "Each rejected text is rejected with one documented error", "statement": "For every text that parse rejects, the error kind and message are those of the first fault of the text reading left to right (as laid down by a declarative relation on texts); every text is either read or blamed, never both; and every possible error is in a finite table of kinds and messages.", "quantifier": "all Unicode texts", "why_tests_cant": "ranges over all texts and all places and sorts of faults, including faults nested in containers", "anchors": ["src/lib.rs: Json::parse", "src/lib.rs: Json::parse_null", "src/lib.rs: Json::parse_boolean", "src/lib.rs: Json::parse_number", "src/lib.rs: Json::parse_string", "src/lib.rs: Json::parse_array", "src/lib.rs: Json::parse_object", "src/lib.rs: ErrorKind"]}
{"id": "C44", "title": "Lookup and edit errors name the first impossible step", "statement": "find, find_mut, discard, get, del fail exactly when some step of the path is impossible (or the path text is faulty), with exactly the kind and message of the first impossible step: the missing key, the index out of range, or the wrong kind of value, each quoted in the message; set fails only for a faulty path text; insert, append, delete, index_and_merge, push, replace and remove fail exactly on the wrong kind of value (or missing key, or replace index out of range) with exactly the documented message.", "quantifier": "all values, paths, path texts, keys, indices and operations", "why_tests_cant": "an if-and-only-if over all documents and all paths, with messages depending on the inputs", "anchors": ["src/lib.rs: Finder::find", "src/lib.rs: Finder::discard", "src/lib.rs: parse_path", "src/lib.rs: Json::add_option", "src/lib.rs: Json::replace", "src/lib.rs: Json::index_and_merge"]}
{"id": "C45", "title": "Key texts", "statement": "When an object is converted to a map or list of pairs, a member's text is accepted as a key exactly if it is a text of the key type: any text for String; true or false for bool; one character for char; for an integer type an optional plus sign (or a minus sign for signed types) followed by decimal digits whose value is in the type's range; for f64 an optional sign followed by inf, infinity or nan in any case or by a decimal number, giving the nearest double. A key is written as: itself, true/false, the character, the decimal digits without superfluous zeros or plus sign, and for floats a JSON number that reads back as the same double, NaN, inf or -inf.", "quantifier": "every key type in the model, every text, every key", "why_tests_cant": "Infinitely many texts; boundary values of twelve integer types; rounding of arbitrary decimal texts", "anchors": ["src/lib.rs: impl FromJson for Vec<(K, V)>, HashMap<K, V>", "src/lib.rs: impl ToJson for Vec<(K, V)>, HashMap<K, V>"]}
{"id": "C46", "title": "The JSON form of a value", "statement": "to_json gives every value of a supported type exactly one documented form: strings, booleans and f64 the JSON scalar; integers the nearest double (ties to even); f32 the double of the same value; a Vec the array of its elements' forms in order; None null and Some(x) the form of x; a map or list of pairs an object without repeated entries in which every key text has exactly the forms of the values paired with keys written as that text, oldest first.", "quantifier": "every supported type, nested to any depth, and every value of it", "why_tests_cant": "Types nest without bound and values are unbounded", "anchors": ["src/lib.rs: trait ToJson and its implementations 758-990"]}
{"id": "C47", "title": "The derive macros cover exactly the declared fields", "statement": "For every struct with named fields in the supported syntax, the generated to_json writes, and the generated from_json reads, exactly the fields without the ignore attribute, each once and in the order of declaration, under exactly one key: the string its first key attribute denotes, else its name; from_json gives the others their Default and names the struct in its messages. The generated code is thereby the one the round-trip theorems about derived conversions speak of.", "quantifier": "all struct declarations of the supported syntax: any number of fields, attributes of every form and nesting, visibilities, nested types, generic parameters and where clauses", "why_tests_cant": "declarations are unboundedly many and nested; a splitting mistake shows only for some nesting of brackets, arrows and commas", "anchors": ["json_derive/src/lib.rs: json_encode", "json_derive/src/lib.rs: json_decode", "json_derive/parse/src/field.rs: Fields::parse, StructFieldItem::parse", "json_derive/parse/src/meta.rs: Meta::parse, MetaItem::parse, Lit::parse", "json_derive/parse/src/utils.rs: split_tokens_by"]}
{"id": "C48", "title": "Field types survive the derive macro", "statement": "In the generated from_json each field is converted with the type it was declared with, for every type built from paths with generic arguments, tuples, arrays, function types, references and dyn bounds in which no generic argument is an immutable reference with a lifetime (other than to a tuple, array or slice) and no named argument is other than a plain name; an outermost reference loses its lifetime and mut. The excluded types come out wrong: Vec<&'a u8> becomes Vec<&'au8>, Item = &T becomes &Item = T.", "quantifier": "all types of the supported syntax, nested to any depth", "why_tests_cant": "types nest without bound", "anchors": ["json_derive/parse/src/name.rs: Name::parse, Type::parse, Type::used_ty, to_string", "json_derive/parse/src/utils.rs: split_tokens_by"]}
{"id": "C49", "title": "The generated implementation has the declared parameters and conditions", "statement": "The header of the generated implementations repeats the declared lifetimes and type parameters in order, each with its bounds (traits, then lifetimes, then ?Sized), the struct with those parameters as arguments, and the where clause; the same for both macros. Constant parameters come out as lifetimes, and parameter defaults are repeated, so a declaration with either never gets the header it should have; a constant parameter with a literal as its default is refused.", "quantifier": "all lists of parameters and where clauses of the supported syntax", "why_tests_cant": "bounds and parameters nest without bound", "anchors": ["json_derive/parse/src/generic.rs: Generics::parse, GenericItem::parse, WhereClause::parse, to_string, only_idents"]}
{"id": "C50", "title": "What the derive macros accept", "statement": "Whatever tokens they are given, both derive macros accept the same declarations, with the same header, and the keys and fields the one writes are the keys and fields the other reads, in the same order; anything accepted has the word struct, a name and a non-empty body in braces, so enums, functions, tuple structs, unit structs and structs without fields are rejected.", "quantifier": "all token sequences", "why_tests_cant": "ranges over every possible input of the macros", "anchors": ["json_derive/src/lib.rs: json_encode, json_decode", "json_derive/parse/src/lib.rs: Item::parse, StructItem::parse"]}
{"id": "C51", "title": "Keys given as string literals", "statement": "A string literal denotes exactly one string, and every field has exactly one key. The key literals that the macros change are only those ending in an escaped quote, raw ones with backslashes, quotes or more than two hashes, and a raw literal containing just its own opening: a key ending in an escaped quote gives an unclosed literal, a raw backslash sequence is read as an escape, r\"r\" gives the empty key, and a raw identifier keeps its r# in the key. A field that is not ignored and whose first key attribute is anything but a string literal (a number, a boolean, a byte string, a negative number) makes both macros refuse the struct.", "quantifier": "all string literals", "why_tests_cant": "all texts of literals", "anchors": ["json_derive/parse/src/meta.rs: Lit::parse, fix_string"]}
{"id": "C52", "title": "Numbers print as the shortest decimal that reads back", "statement": "The text of a finite number is plain positional notation (no exponent, no superfluous leading or trailing zeros) of a decimal that reads back as exactly that double; no decimal reading back as it has fewer digits (so never more than 17), among those with as few digits none is closer to the double, and of two equally close ones the larger is printed. Zero prints as 0 or -0, infinities as inf/-inf, NaN as NaN. The text is uniquely determined by this.", "quantifier": "every double", "why_tests_cant": "2^64 doubles; minimality and closeness quantify over all decimals for each of them", "anchors": ["src/lib.rs: Json::to_string (JsonNumber arm)", "f64::to_string"]}
{"id": "C53", "title": "The printed text is exactly determined", "statement": "to_string yields exactly one text for a value: arrays as [a, b], objects as {\"k\": v, ...} with keys in ascending order and older duplicates of a key first, quote, backslash, slash and the five control characters with their two-character escapes, other characters outside 0x20..0x7E as \\uXXXX with four capital hex digits (surrogate pairs above 0xFFFF), every other character as itself; numbers as in C52.", "quantifier": "every Json value, any map iteration order, any depth", "why_tests_cant": "values are unbounded in size and depth and the escape rule ranges over all 1.1 million scalar values", "anchors": ["src/lib.rs: Json::to_string, escape, hex"]}
{"id": "C54", "title": "Equality of values", "statement": "a == b holds exactly when a and b are the same kind of value with the same content: arrays element by element, objects with the same keys and per key equal values and equal older duplicates, numbers with the same real value or the same infinity. It is symmetric and transitive, reflexive exactly on values without NaN, ignores nothing but the map order and the signs of zeros, and a value that is printed and read back (when that succeeds) is equal to the original.", "quantifier": "all pairs and triples of Json values", "why_tests_cant": "values are unbounded and the laws quantify over triples", "anchors": ["src/lib.rs: #[derive(PartialEq)] on Json"]}
{"id": "C55", "title": "Text of an error", "statement": "The text of an error is the name of its kind, a colon, a space, and its message; two errors with the same text are the same error, and the text up to the first colon is the name of the kind.", "quantifier": "all errors", "why_tests_cant": "messages are arbitrary texts", "anchors": ["src/lib.rs: impl Display for JsonParseError, JsonParseErrorKind"]}
{"id": "C56", "title": "What the iteration order of hash maps can affect", "statement": "Lookups by path, merged lookups and printing do not depend on the iteration order of the hash maps inside a value, errors included. Conversions to types without maps, and derived conversions over such fields, do not either. For every type, whether a conversion succeeds does not depend on it, and the result does not unless two keys of one object are read as the same key (impossible for String, bool and char keys). With colliding integer keys the result does depend on it, and so does which error a failing map conversion reports.", "quantifier": "all values, all pairs of iteration orders, all convertible types", "why_tests_cant": "the order is chosen by a random hash seed at run time", "anchors": ["src/lib.rs: FromJson for HashMap/Vec/Option, Json::find, Json::to_string; json_derive/src/lib.rs"]}
{"id": "C57", "title": "How deep the parser recurses", "statement": "While Json::parse reads a text, the number of nested calls of the recursive parser is at most one more than the highest bracket level of the text (brackets in strings counted, escaped characters not), hence at most one more than the number of opening brackets, and at least the nesting of the value returned. There is no fixed limit: n nested arrays need at least n calls.", "quantifier": "all texts", "why_tests_cant": "nesting depth is unbounded", "anchors": ["src/lib.rs: Json::_parse, parse_array, parse_object"]}
{"id": "C58", "title": "32-bit bracket counters", "statement": "The scanner's bracket and quote counters are i32. For texts of up to 2^31 characters they never overflow, so the parser behaves as with unbounded counters, in debug and in release builds. For longer texts a debug build gives the same answer or panics, a release build wraps around but never panics. The limit is exact (a text of 2^31+1 characters panics), and beyond it debug, release and unbounded counters can all differ.", "quantifier": "all texts of any length, both build modes", "why_tests_cant": "needs inputs of more than two gigabytes", "anchors": ["src/lib.rs: parse_array, parse_object (variables i and j)"]}
{"id": "C59", "title": "How often the parser reads a character", "statement": "Parsing reads at most (levels of bracket nesting + 3) times the length of the text in characters, hence at most quadratically many; texts of n nested empty arrays do cost quadratically many.", "quantifier": "all texts", "why_tests_cant": "asymptotic bound over unboundedly long texts", "anchors": ["src/lib.rs: Json::parse, _parse, parse_array, parse_object"]}
{"id": "C60", "title": "quote! templates stand for their documented meaning", "statement": "For every template of quote! built from the documented forms (plain tokens, groups, attributes, ##, #x, #(e), #(#x: ...)+ and -, #(#x)?, #(#x:v ...)?, #(#x)*, with separators between or after the elements, and #(#x:v ...)*) in any nesting, and all values of the variables, the macro returns exactly the tokens the documentation describes: one meaning, found form by form, regardless of what stands before or after. Code without hashes is copied token for token with its operators kept whole. The exception: + and - do not work as separators after a body, they are taken for the boolean forms.", "quantifier": "all templates, all environments", "why_tests_cant": "templates nest without bound and the macro's forty rules are tried in order, so every combination of neighbours could be misread", "anchors": ["json_derive/quote/src/lib.rs: quote!, __append_to_token!, __gen_punct, __parse"]}
{"id": "C61", "title": "The tokens the derive macros generate", "statement": "For every sequence of tokens given to JsonEncode and JsonDecode, the macro either fails or returns one impl block: its header repeats the parameters, name and conditions of the declaration; its body contains, for exactly the fields without ignore and in their order, one statement (or initializer) with the field's key, name and type, for the ignored fields a default, the capacity literal is the number of fields written, and nothing else.", "quantifier": "all token sequences; for the description in terms of the declaration all struct declarations of the supported grammar", "why_tests_cant": "declarations have unboundedly many fields, types, attributes and parameters", "anchors": ["json_derive/src/lib.rs: json_encode, json_decode", "json_derive/quote/src/lib.rs: quote!"]}
{"id": "C62", "title": "What the generated conversions do when they run", "statement": "Running the to_json that JsonEncode generates for a struct declaration gives, for every value of the struct, an object with exactly one entry per field without ignore, under its key, holding what the field's own to_json gives; running the from_json that JsonDecode generates gives, for every JSON value, an error if it is not an object or a key is missing or a field does not convert (the first such field in declaration order), and otherwise the struct with every field converted from the entry under its key and defaults in the ignored fields; what the one returns the other turns back.", "quantifier": "all struct declarations of the supported grammar, all field types with their own conversions, all values, all JSON values", "why_tests_cant": "the generated program differs for each of infinitely many declarations, and each ranges over all values", "anchors": ["json_derive/src/lib.rs: json_encode, json_decode", "json_derive/quote/src/lib.rs: quote!", "src/lib.rs: ToJson, FromJson"]}
{"id": "C63", "title": "Structs of every form are read as written", "statement": "For every struct declaration (unit, tuple or named fields; attributes, visibility, generic parameters, where clause) of the supported grammar, Item::parse returns a struct with exactly those attributes, visibility, name, parameters, conditions and fields in order; declarations with an empty body, or with a public field that is a tuple, are refused.", "quantifier": "all struct declarations of the supported grammar", "why_tests_cant": "declarations nest types, attributes and parameters without bound", "anchors": ["json_derive/parse/src/lib.rs: Item::parse, StructItem::parse", "json_derive/parse/src/field.rs: Fields::parse, TupleFieldItem::parse, StructFieldItem::parse"]}
{"id": "C64", "title": "Enums are read as written", "statement": "For every enum declaration of the supported grammar Item::parse returns an enum with exactly the attributes, visibility, name, parameters, conditions and variants written, each variant with its fields and its value as an isize; a value is read exactly if the compiler's text for its tokens is a decimal isize, so negative values are read only where the compiler writes no space after the minus sign; empty enums are refused.", "quantifier": "all enum declarations of the supported grammar, all ways the compiler may write tokens", "why_tests_cant": "declarations and values are unbounded, and the behaviour depends on the compiler's way of writing tokens, which no one test run varies", "anchors": ["json_derive/parse/src/lib.rs: EnumItem::parse", "json_derive/parse/src/enum_value.rs: EnumValues::parse, EnumValueItem::parse"]}
{"id": "C65", "title": "Functions are read as written", "statement": "For every function of the supported grammar Item::parse returns its attributes, visibility, qualifiers, ABI, name, parameters, parameter list, result type, conditions and body as written; a result type that contains Fn(..) or fn(..) is read only where the compiler writes a space before the parenthesis, otherwise the function is refused; functions without parameters and parameters with a path such as a::B outside angle brackets are refused; extern without an ABI is forgotten; a parameter mut x is called mut.", "quantifier": "all functions of the supported grammar, all ways the compiler may write tokens", "why_tests_cant": "signatures are unbounded, and the behaviour depends on the compiler's way of writing tokens", "anchors": ["json_derive/parse/src/lib.rs: FnItem::parse", "json_derive/parse/src/param.rs: Params::parse, ParamItem::parse", "json_derive/parse/src/name.rs: __token_num"]}
{"id": "C66", "title": "The derive macros accept structs with named fields only", "statement": "For every sequence of tokens, JsonEncode and JsonDecode generate code only if the tokens are read as a struct with named fields; every enum, function, tuple struct and unit struct is refused.", "quantifier": "all token sequences; all declarations of the supported grammar", "why_tests_cant": "there are infinitely many token sequences", "anchors": ["json_derive/src/lib.rs: json_encode, json_decode", "json_derive/parse/src/lib.rs: Item::parse"]}
{"id": "C67", "title": "The text of an item is read back as the same item", "statement": "For every struct, enum and function of the supported grammar whose parts can be written back, to_string of what was read is the declaration with its bounds sorted, its commas normalised and its values in plain decimal, and reading that text gives the same item if no attribute has a minus sign or a group without items; the where clause of a unit struct is always lost.", "quantifier": "all struct, enum and function declarations of the supported grammar", "why_tests_cant": "a round trip over unboundedly many declarations", "anchors": ["json_derive/parse/src/lib.rs: ToString for Item, StructItem, EnumItem, FnItem", "json_derive/parse/src/field.rs, enum_value.rs, param.rs, generic.rs, name.rs, meta.rs: ToString"]}
{"id": "C68", "title": "Literals in attributes are read as written", "statement": "For every literal of the Rust language, Lit::parse returns its value and its text: booleans, the text between the quotes of strings and byte strings (raw ones with at most two hashes), decimal integers within i32 with or without a suffix, decimal floats as the nearest double; a whole number beyond i32 without a suffix is read as a float; characters, other bases, digits with underscores, raw strings with more hashes and integers beyond i32 with a suffix are refused.  Texts that repeat their own opening mark, or end with the closing mark, are cut.", "quantifier": "all literals of the Rust reference's lexical grammar", "why_tests_cant": "literals are unbounded texts, and the order in which prefixes and suffixes are tried matters for all of them", "anchors": ["json_derive/parse/src/meta.rs: Lit::parse, fix_suffix!, fix_bytes!, fix_string!, Lit::bytes, Lit::string, Lit::integer, Lit::float, Lit::boolean"]}
{"id": "C69", "title": "Attributes are read exactly", "statement": "For all tokens whose literals are Rust's, MetaItem::parse succeeds exactly if they are a word, a value (perhaps with a minus sign), a pair with = or :, or a word before brackets of any kind that contain such items between commas (with nothing between two commas allowed, but not nothing at all), and returns exactly what was written; Meta::parse reads a sequence of attributes one by one and takes two tokens for each.", "quantifier": "all token sequences with clear literals; all attributes and sequences of them, at any depth", "why_tests_cant": "attributes nest without bound and the refused token sequences are infinitely many", "anchors": ["json_derive/parse/src/meta.rs: MetaItem::parse, NestedMeta::parse, Meta::parse, Meta::__token_num, MetaItem::ident, MetaItem::literal, MetaItem::pair, MetaItem::group"]}
{"id": "C70", "title": "The text of an attribute is read back", "statement": "to_string of an attribute that was read gives what was written with round brackets, without stray commas and without minus signs; if it has no minus sign and no group without items, reading that text gives the same attribute; otherwise the sign is lost, and a group of commas only becomes one that is refused.", "quantifier": "all attributes", "why_tests_cant": "a round trip over unboundedly nested attributes", "anchors": ["json_derive/parse/src/meta.rs: ToString for MetaItem, NestedMeta, Lit"]}
{"id": "C71", "title": "Looking up attributes", "statement": "get with a number gives that one, counted from 0, of the words and values; with a key the value of the first pair with that key; with a group's name the inside of the first group of that name, or what a further index finds in it and nowhere else; nothing otherwise.  idents and literals list all words and values in order; the maps pairs and groups have each key once, with the last value.  get and pairs agree on a key that occurs once.", "quantifier": "all lists of attributes and all indices, however nested", "why_tests_cant": "lists of attributes and nested indices are unbounded", "anchors": ["json_derive/parse/src/meta.rs: Meta::get, MetaIndex, Meta::idents, Meta::literals, Meta::pairs, Meta::groups"]}
{"id": "C72", "title": "References in quote's @params and @scope texts", "statement": "In a text under @params or @scope, #x is replaced by the value of x, #(f(a, b)) by the text of the macro f with the (already replaced) arguments for its parameters, both also inside groups and attributes; what is not defined becomes nothing; everything else stays.  More steps never change a result; no result has a reference left at its top level, and none in its groups if the values have none; code without a hash is unchanged.  If no macro calls itself through any chain and all calls have the right number of arguments the translation ends; a macro reachable from itself, or a variable whose value has itself in it, never returns; a wrong number of arguments is a panic.", "quantifier": "all libraries of variables and macros, all texts, any number of steps", "why_tests_cant": "libraries, nesting and chains of calls are unbounded, and non-termination cannot be observed by a test", "anchors": ["json_derive/quote/src/lib.rs: __translate, split_tokens_by"]}
{"id": "C73", "title": "Templates with at-forms give what they mean", "statement": "quote! of any mix of ordinary templates, #(@literal: ..), #(@params(..): ..) and #(@scope: ..) gives exactly the concatenation of what the parts mean: @literal copies its tokens unread, @params replaces references by the texts of the parameters (x = e also defines x for the rest of the template), @scope runs its commands; templates without at-forms give what they gave before. At the top @literal/@params/@scope apply to the whole template; @span changes nothing; of several options the last of literal, params and scope counts and an unknown option fails to compile; an unknown modifier or an empty form inside #( ) is no error but is copied, hash and all.", "quantifier": "all environments, all templates and at-forms with settled values, all option lists, any number of steps", "why_tests_cant": "templates, parameter lists and option lists are unbounded", "anchors": ["json_derive/quote/src/lib.rs: quote, __parse_options, __append_to_token"]}
{"id": "C74", "title": "Commands in @scope", "statement": "A @scope gives what its parts mean in order, each with the variables and macros defined before it: blocks are texts, #define/#undef change the variables, #include and #quote insert texts, #foreach repeats each of its blocks for every element and then restores the variable, conditions select. Of #if and its #elifs every branch with a true condition comes out (the one branch if conditions exclude each other), and #if/#else takes exactly one. The expansion never succeeds if #elif/#else/#endif has no open #if (so conditions cannot be nested), if anything but a block stands in a loop, if #endfor has no loop, if anything follows #end, or if a command is unknown.", "quantifier": "all scopes, all variables of the program, any number of steps; the refusals for all lists of commands whatever", "why_tests_cant": "lists of commands and the ranges of loops are unbounded, and a refusal must hold for every continuation", "anchors": ["json_derive/quote/src/lib.rs: __scope_command, __append_to_token"]}
{"id": "C75", "title": "No program can see how hash maps arrange their entries", "statement": "Take any program that builds, parses, copies, edits (insert, append, delete, push, replace, remove, update, set, discard, del, writing through find_mut), looks up, prints and compares Json values, each call depending on all answers before it. For every two implementations of HashMap that keep the contract (each key once, insert and remove change only their key), whatever arrangement of entries they produce at each insertion, removal and copy, the program gets exactly the same answers: results, error texts, printed texts, comparisons and panics. They are the answers the methods give one after the other, variable by variable.", "quantifier": "all programs (adaptive sequences of calls of any length), all hash map implementations, all documents", "why_tests_cant": "a test runs one history with one arrangement; the claim is about all histories and all arrangements", "anchors": ["src/lib.rs: Json, insert, append, delete, push, replace, remove, find, find_mut, update, discard, get, set, del, to_string, PartialEq"]}
{"id": "C76", "title": "Edits of different places commute", "statement": "Two updates (or sets) of places that part at a different step of the same sort (another member, another element) can be made in either order: the other order also succeeds, returns the same and gives the same document, padding and created parents included. An update and a deletion, and two deletions, commute too if the paths part at a member or before the last step of the deletion(s); of two deletions of elements of one array the later element has to be addressed one lower if the earlier one goes first. insert, append and delete of different keys commute on any value, errors included.", "quantifier": "all documents, all paths of any length that part somewhere, all values", "why_tests_cant": "documents and paths are unbounded and the claim compares two histories for each", "anchors": ["src/lib.rs: Path::update, Path::discard, Json::set, Json::insert, Json::append, Json::delete"]}
{"id": "C77", "title": "Edits can be undone", "statement": "Setting a new member of an existing object, or the element just behind the end of an existing array, and then deleting the same path returns the value and gives back exactly the document before; deleting a member with exactly one value, or the last element of an array, and then setting the returned value gives back exactly the document before; setting a value to what is already there (a member without older duplicates, or an element) changes nothing. The same for insert/append and delete, push and remove, replace and replace.", "quantifier": "all documents, all paths of any length, all values", "why_tests_cant": "documents and paths are unbounded", "anchors": ["src/lib.rs: Path::update, Path::discard, Json::set, Json::del, Json::insert, Json::append, Json::delete, Json::push, Json::remove, Json::replace"]}
{"id": "C78", "title": "Types that contain themselves", "statement": "Structs with the derives may contain themselves or each other through Vec, Option of Vec, maps and lists of pairs. The generated implementations then determine the conversions of every type of the program completely (no other functions satisfy the generated equations); converting any JSON value to such a type ends with a value or an error, never a panic or an endless recursion; a value whose integers fit into doubles and that has no Some of a null survives to_json followed by from_json, and encode followed by decode, with ignored fields replaced by their defaults, whenever its JSON is finite and has balanced brackets in strings; from_json of a struct succeeds exactly if every field that is not ignored is present and converts, and otherwise reports the first field in declaration order that is missing or does not convert.", "quantifier": "all programs of mutually recursive struct declarations, all types over them, all values of any depth, all JSON values", "why_tests_cant": "declarations, nesting depth and values are unbounded; uniqueness and termination are statements about all of them", "anchors": ["json_derive/src/lib.rs: json_encode, json_decode", "src/lib.rs: ToJson, FromJson and their implementations", "src/lib.rs: encode, decode"]}
{"id": "C79", "title": "Sizes of values and texts", "statement": "Parsing does not amplify: the number of values and members in a parsed document plus the bytes of all its strings and keys is at most the number of bytes of the text. Printing is linear: a value's text is at least that long and at most seven times as long plus 322 characters for each number (no number prints longer than 327 characters; both bounds are reached). What find returns is smaller than the document; writing through find_mut or IndexMut exchanges exactly the old value's size for the new one's; del gives back a value that is no longer counted; set adds at most the value and, for every step of the path, its key or its index. append and push add exactly the value (and key). An index in a path can cost as much as its value, whatever the length of the path. Hence print(parse(t)), text-level set and del produce texts linear in their input.", "quantifier": "all texts, all values, all paths, all indices", "why_tests_cant": "the bounds are over texts, values and doubles of every size; the 327 is a maximum over all doubles", "anchors": ["src/lib.rs: Json::parse, Json::to_string, escape, Path::find, Path::find_mut, Path::discard, Path::update, Json::append, Json::push, Json::set, set, del, encode"]}
{"id": "C80", "title": "A document cut short, or with something after it, is noticed", "statement": "If the text of a JSON document is cut anywhere before its last non-blank character, what is left is rejected by parse - whatever the document's strings hold and whether or not parse accepts the whole - unless the document is a number (part of a number can be a number). If anything but white space follows a JSON document, parse rejects the whole, unless the document is a number or an empty container ([] and {} are accepted with anything after them). So in a stream that begins with such a document the only beginning that parse accepts is the document itself, with its value. The same holds of to_string's output: no proper beginning of it is accepted, and of two outputs each followed by anything one can tell where each ends.", "quantifier": "all RFC 8259 texts, all cuts, all continuations, all well-formed values without NaN or infinities", "why_tests_cant": "texts, cuts and continuations are unbounded", "anchors": ["src/lib.rs: Json::parse, parse_null, parse_boolean, parse_string, parse_array, parse_object, Json::to_string"]}
{"id": "C81", "title": "Numbers keep their order", "statement": "Going between texts, numbers and Rust numbers never puts two numbers out of order. Of two JSON number texts the one writing the greater real number is read as a number at least as great (rounding may merge neighbours, never swap them), texts writing the same number are read as the same number, and if a number is accepted so is every number text of at most its magnitude. Of two different doubles the lesser is printed as the strictly lesser decimal. Converting JSON numbers (infinities included) to any integer type or to f32, integers of any type to JSON numbers, and integers through JSON into another integer type all preserve <=; f32 to JSON preserves and reflects it.", "quantifier": "all number texts, all doubles, all f32, all integers of all twelve types", "why_tests_cant": "pairs of reals, doubles and integers cannot be enumerated; monotonicity is a statement about rounding at every point", "anchors": ["src/lib.rs: Json::parse, parse_number, Json::to_string, ToJson and FromJson for the integer types, f32 and f64"]}
{"id": "C82", "title": "Struct declarations can change", "statement": "For the derived conversions of a struct: the result of reading an object depends only on the newest values of the keys the struct uses, so unknown members and earlier duplicates never matter. If a document is read by one declaration, it is read by every declaration whose fields (by key, type and conversions) are among the first's, whatever their Rust names, order and ignored fields, and every field gets the same value; in particular the order of declaration is irrelevant, and ignored fields get their defaults. What is written depends only on the keys and JSON values of the fields that are not ignored. A text written by a declaration with more fields is read by one with fewer, each field getting an equivalent value; a reader with an additional field that is not ignored (even an optional one) rejects every text written before with a missing key error naming that key.", "quantifier": "all structs, all their values, all objects and documents, all pairs of declarations", "why_tests_cant": "declarations, their pairs and the documents are unbounded", "anchors": ["json_derive/src/lib.rs: derive_to_json, derive_from_json", "src/lib.rs: Json::parse, Json::to_string, encode, decode"]}
{"id": "C83", "title": "Operations do not look at scalars, and equal values behave equally", "statement": "Replacing every string, number and boolean of a document and of the value written by others of the same kind, before or after get, set, del, find, find_mut, update, discard, insert, append, delete, push, replace, remove or index_and_merge, makes no difference: success, error texts and places are the same. Hence == is respected by all of them: on equal documents with equal arguments lookups return equal values or the same error, and edits leave equal documents and the same outcome. Equal values convert to equal results for every type without floats, to equal floats, and print the same text but for the signs of zeros.", "quantifier": "all documents, values, paths, keys, indices, all functions replacing scalars, all types without floats", "why_tests_cant": "a statement about pairs of executions on arbitrary documents and arbitrary replacements of their contents", "anchors": ["src/lib.rs: Json::get, set, del, find, find_mut, update, discard, insert, append, delete, push, replace, remove, index_and_merge, PartialEq for Json, convert, to_string"]}
{"id": "C84", "title": "Texts can be assembled and taken apart", "statement": "If [t] is accepted as a non-empty array, then [t,t'] is accepted exactly when [t'] is accepted as a non-empty array, and denotes the elements of the first followed by those of the second; likewise {t,t'}, where each key holds the first object's values and then the second's, so that the later text decides its main value. Conversely an accepted non-empty array text is, in exactly one way, a comma-separated row of texts each of which is accepted on its own between brackets; likewise objects. In particular values printed one by one and joined with commas between brackets (or members between braces) are read back as the array (object) of those values.", "quantifier": "all texts, all accepted values, all numbers of parts, all printable values with balanced strings", "why_tests_cant": "a statement about unboundedly long texts and all places where a separator may stand, inside strings and nested containers too", "anchors": ["src/lib.rs: Json::from_str / parse, parse_array, parse_object, to_string"]}
{"id": "C85", "title": "Edits of a document are edits of its text", "statement": "In every JSON text the parser accepts, the value find_mut reaches (at any depth, or the document itself) has a stretch of the text of its own: that stretch parses to the value, and replacing it by the text of any value that may stand inside a container gives a text that parses to the document with the value written through the reference, everything else unchanged. Likewise push is writing the element (after a comma, if needed) before the closing bracket, append is writing a member before the closing brace, remove is cutting the element's text out with one comma, and delete of a key that occurs once is cutting its member out.", "quantifier": "all accepted JSON texts with any layout, all paths, all values and texts written", "why_tests_cant": "a statement about unboundedly deep documents, all layouts and all replacement texts", "anchors": ["src/lib.rs: Json::parse, find_mut, push, remove, append, delete"]}
{"id": "C86", "title": "White space between tokens is irrelevant", "statement": "Taking the white space outside strings out of a JSON text leaves a JSON text of the same value; it is accepted when every string inside a container has as many opening as closing brackets, even where the original was rejected for a space in an empty container, and an accepted text stays accepted. Two JSON texts that differ in such white space only denote the same value, and where both are accepted parse to the same value. Printed values stay readable when minified.", "quantifier": "all JSON texts of any size and depth, all layouts", "why_tests_cant": "a statement about all texts and all places where white space may stand", "anchors": ["src/lib.rs: Json::parse, parse_array, parse_object, is_whitespace, to_string"]}
{"id": "C87", "title": "The order of members does not matter, that of equal keys and of elements does", "statement": "Two accepted rows of members between braces denote the same object exactly when under each key they have the same values in the same order; in particular members with different keys may be written in any order. Two accepted rows of elements between brackets denote the same array exactly when they are the same values in the same order.", "quantifier": "all texts of members and elements, rows of all lengths, all permutations", "why_tests_cant": "a statement about all permutations of unboundedly many members", "anchors": ["src/lib.rs: Json::parse, parse_object, parse_array, object_insert"]}
{"id": "C88", "title": "Types can change between writing and reading", "statement": "A value written at one type and read at another is read exactly when the English rules allow it, to what they say: integers move to other integer types clamped and to floats as the nearest double, floats to integers truncated, f32 to f64 unchanged; T is read at Option<T> as Some unless it is null, and Some back at T; everything at Json; lists element by element; maps and lists of pairs entry by entry as either, with keys re-read from their texts and the last value of a repeated key winning in a map. Otherwise the conversion fails with ConvertError. What is read does not depend on the order of hash maps unless two keys are read as one. The same holds for texts (decode of encode at another type), and for structs whose fields change their types.", "quantifier": "all pairs of types of the crate's conversions, nested without bound, all values in memory, all iteration orders of hash maps, all structs", "why_tests_cant": "quantifies over all pairs of types, all values and all hash map orders", "anchors": ["src/lib.rs: ToJson, FromJson and implementations, encode, decode", "json_derive/src/lib.rs: generated conversions"]}
{"id": "C89", "title": "The text functions work on stretches of the text", "statement": "For every JSON text the parser accepts and every path to an existing value: get(text, path) is decode of a stretch of the text, at every type; set(text, path, v) is the text with that stretch replaced by encode(v), formatted; del(text, path) is the text with a stretch cut out (the value with its key and one comma), formatted. For set and del the value must be the only one of its key; when a key was written several times they remove its older values too.", "quantifier": "all accepted JSON texts with any layout, all path texts, all types and values written, all hash map orders", "why_tests_cant": "a statement about unboundedly deep documents, all layouts, all paths and all types", "anchors": ["src/lib.rs: get, set, del, encode, decode", "src/lib.rs: Json::get, Json::set, Json::del, Path"]}
{"id": "C90", "title": "A series of text edits is one parse, the edits, and one print", "statement": "Any series of set and del on a text (each reads the text and prints a new one, and the series stops at the first failure) gives exactly the text of the document that the same series of Json::set and Json::del gives in memory, and fails with the same error or panic at the same edit; reading the new text at any path and type is reading the edited document. Strings of the text and of the values written must have as many opening as closing brackets; otherwise a later edit of the text can fail where that of the document does not.", "quantifier": "all accepted texts, all series of edits of any length with all paths, types and values, all hash map orders", "why_tests_cant": "a statement about histories of any length, on documents of any size", "anchors": ["src/lib.rs: get, set, del", "src/lib.rs: Json::parse, Json::set, Json::del, Display for Json"]}
