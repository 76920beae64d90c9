{"id": "C01", "title": "Parse then print is the identity", "statement": "If yaml::from_slice(input) returns Ok(doc) and doc is not edited, doc.write_to(out) writes exactly the bytes of input.", "quantifier": "every byte string input that from_slice accepts", "why_tests_cant": "The corpus tests print back a handful of well-behaved files; the claim is about every accepted byte string, including odd flow syntax, block scalars at end of input, headers and non-UTF-8 comments.", "anchors": ["src/yaml/parsing.rs: Parser::parse, Parser::value, Parser::inline_sequence, Parser::inline_mapping, Parser::block", "src/yaml/document.rs: Document::write_to", "src/yaml/raw.rs: Raw::write_to"]}
{"id": "C02", "title": "Parse then print never loses content", "statement": "If from_slice(input) returns Ok(doc), the bytes written by write_to differ from input only by: the document header (directives and ---), whitespace and comments dropped, moved over a comma, repeated or made valid UTF-8, commas inserted between flow items, and a NUL byte that acts as a key separator in a flow mapping written as a colon. No other byte is lost, added or reordered.", "quantifier": "every byte string input that from_slice accepts", "why_tests_cant": "Bounds the damage on all inputs, where C01 fails; an enumeration of inputs cannot.", "anchors": ["src/yaml/parsing.rs: Parser::parse", "src/yaml/document.rs: Document::write_to"]}
{"id": "C03", "title": "to_string and write_to agree", "statement": "For a document obtained from from_slice on a UTF-8 input, doc.to_string() and the bytes of doc.write_to(..) are equal. (After edits they should also be equal.)", "quantifier": "every UTF-8 input accepted by from_slice; every edited document", "why_tests_cant": "The two renderers are separate code paths; the crate only has a debug cfg that compares them on the test inputs.", "anchors": ["src/yaml/document.rs: Document::write_to, Document::display", "src/yaml/raw.rs: Raw::display, Raw::write_to"]}
{"id": "C04", "title": "from_slice terminates", "statement": "from_slice returns (Ok or Err) on every input.", "quantifier": "every byte string", "why_tests_cant": "A test can only show termination on the inputs it runs; a hang on untrusted input is a denial of service.", "anchors": ["src/yaml/parsing.rs: Parser::parse, Parser::single_quoted, Parser::single_quoted_escaped, Parser::mapping_or_nul"]}
{"id": "C05", "title": "from_slice never panics and error spans are in bounds", "statement": "from_slice never panics, and when it returns Err(e), e.span() satisfies start <= end <= input.len(), so slicing input by the span is safe.", "quantifier": "every byte string", "why_tests_cant": "Index and slab panics hide on unusual inputs.", "anchors": ["src/yaml/parsing.rs: Parser", "src/yaml/error.rs: Error::span"]}
{"id": "C06", "title": "Edits never panic and keep the document well formed", "statement": "Starting from any parsed document, any sequence of API edits, each applied to a value that is in the document at that time, runs without panic, and after it every value can be read and the document can be printed without panic.", "quantifier": "every accepted input and every finite sequence of editing calls with any arguments", "why_tests_cant": "The number of edit sequences is infinite; slab reuse bugs appear only for particular histories.", "anchors": ["src/yaml/data.rs: Data::replace, Data::drop, Data::drop_kind, Data::insert", "src/yaml/value_mut.rs: ValueMut", "src/yaml/mapping/mapping_mut.rs: MappingMut", "src/yaml/sequence/sequence_mut.rs: SequenceMut"]}
{"id": "C07", "title": "Replacing a value changes only that value's bytes", "statement": "Calling a set_* method (null, bool, number, string, string with kind, block) on a value changes the printed document only inside the bytes of that value: there are before, old, new, after such that the old print is before++old++after and the new one is before++new++after, where old and new are what the value itself prints.", "quantifier": "every reachable document, every value in it, every setter and argument", "why_tests_cant": "This is the point of the crate; tests show it on a few documents, while aliasing in the slab could break it in others.", "anchors": ["src/yaml/value_mut.rs: ValueMut::set_*", "src/yaml/data.rs: Data::replace", "src/yaml/raw.rs: Raw::write_to"]}
{"id": "C08", "title": "Ids stay valid across unrelated edits", "statement": "An Id taken from a value that is in the document before and after a sequence of edits keeps denoting the same value: an edit elsewhere leaves what doc.value(id) reads and prints unchanged.", "quantifier": "every reachable document, every pair of a value and an edit on a value that does not contain it", "why_tests_cant": "Needs all interleavings of allocation and removal in the slab.", "anchors": ["src/yaml/document.rs: Document::value, Document::value_mut", "src/yaml/data.rs: Data"]}
{"id": "C09", "title": "Ids of removed values are detected", "statement": "After a value is removed, using its Id panics or denotes nothing; it never silently denotes another value.", "quantifier": "every reachable document, removed id and later edits", "why_tests_cant": "Slot reuse depends on allocation history.", "anchors": ["src/yaml/document.rs: Document::value", "src/yaml/data.rs: Data::drop, Data::insert"]}
{"id": "C10", "title": "Integers written are the integers read", "statement": "After set_uN/set_iN(v) (or insert_*/push_*), as_uN/as_iN of the value returns Some(v), reading it at another width returns Some(v) iff v fits that width, and the printed text is the decimal numeral of v without leading zeros.", "quantifier": "every width 8..128, signed and unsigned, every value v of that width", "why_tests_cant": "2^128 values per width.", "anchors": ["src/yaml/value_mut.rs: set_number", "src/yaml/value.rs: as_number", "src/yaml/mapping/mapping_mut.rs: insert_number", "src/yaml/sequence/sequence_mut.rs: push_number"]}
{"id": "C11", "title": "Values written are the values read", "statement": "After set_string(s), set_string_with(s, k) or set_block(parts, b) the value is a string whose as_bstr is s (for a block: the parts joined by the block's separator, plus a newline unless stripped); after set_bool(b) as_bool is Some(b); after set_null the value is null. The other accessors return None.", "quantifier": "every reachable document, value and argument", "why_tests_cant": "Quantifies over all strings and documents.", "anchors": ["src/yaml/value_mut.rs: ValueMut::set_string, set_string_with, set_block, set_bool, set_null", "src/yaml/value.rs: Value::as_bstr, as_bool, as_any"]}
{"id": "C12", "title": "A mapping behaves like an ordered association list", "statement": "get(k) returns the value of the first item with key k; insert(k, ..) on a present key replaces the value of the first such item in place and keeps length and order; on an absent key it appends one item at the end; remove(k) removes the first item with key k and returns whether there was one; clear empties the mapping; len, is_empty and iteration agree with the item list; other mappings are unaffected.", "quantifier": "every reachable document, mapping in it, key and inserted value", "why_tests_cant": "All interleavings of operations and all keys, including duplicate keys that only parsing can create.", "anchors": ["src/yaml/mapping/mapping_mut.rs: MappingMut::inner_insert, remove, clear, get_mut", "src/yaml/mapping/mapping.rs: Mapping::get, len, is_empty, iter"]}
{"id": "C13", "title": "A sequence behaves like a list", "statement": "get(i), first, last, len, is_empty and iteration agree with the item list; push appends one item at the end; remove(i) removes exactly item i and returns whether i was in range; clear empties the sequence.", "quantifier": "every reachable document, sequence in it, index and pushed value", "why_tests_cant": "All interleavings of operations.", "anchors": ["src/yaml/sequence/sequence_mut.rs: SequenceMut::inner_push, remove, clear, get_mut", "src/yaml/sequence/sequence.rs: Sequence::get, first, last, len, iter"]}
{"id": "C14", "title": "Iterators are lawful double-ended iterators", "statement": "For both iterators: any interleaving of next, next_back, nth, nth_back yields items of the collection from the respective end, each at most once, in order, and size_hint is the number left; nth_back(n) skips n items from the back.", "quantifier": "every item list and every sequence of iterator calls", "why_tests_cant": "Law over all call sequences; adaptors such as rev().skip(n) rely on it.", "anchors": ["src/yaml/mapping/iter.rs: Iter", "src/yaml/sequence/iter.rs: Iter"]}
{"id": "C15", "title": "Single-quoted output reads back exactly", "statement": "For every string s, the text written for set_string_with(s, Single) parses back (as a whole document) to a string value equal to s.", "quantifier": "every byte string s", "why_tests_cant": "Quoting bugs appear for particular contents.", "anchors": ["src/yaml/raw.rs: escape_single_quoted", "src/yaml/parsing.rs: Parser::single_quoted, single_quoted_escaped"]}
{"id": "C16", "title": "Double-quoted output reads back exactly", "statement": "For every string s, the text written for set_string_with(s, Double) parses back to a string value equal to s.", "quantifier": "every byte string s", "why_tests_cant": "Escapes of particular characters can be wrong while the tested ones work.", "anchors": ["src/yaml/raw.rs: escape_double_quoted", "src/yaml/parsing.rs: Parser::double_quoted, double_quoted_escaped, unescape, unescape_unicode"]}
{"id": "C17", "title": "set_string picks a representation that reads back", "statement": "For every string s, after set_string(s) on a one-value document the printed text parses back to a string value equal to s.", "quantifier": "every UTF-8 string s", "why_tests_cant": "The chosen quoting depends on s; the tests cover about ten strings.", "anchors": ["src/yaml/raw.rs: RawStringKind::detect", "src/yaml/value_mut.rs: ValueMut::set_string", "src/yaml/parsing.rs: Parser::value"]}
{"id": "C18", "title": "Plain scalars are classified exactly", "statement": "A one-line plain document is null exactly for ~ and any casing of null, bool exactly for any casing of true and false, number exactly for the crate's number syntax followed by nothing but blanks, and otherwise a string equal to the line.", "quantifier": "every line that does not start with an indicator character and holds no colon followed by white space", "why_tests_cant": "Infinite set of lines; hand-written character loops.", "anchors": ["src/yaml/parsing.rs: Parser::value, Parser::number, Parser::key_or_eol"]}
{"id": "C19", "title": "Escapes in double-quoted strings decode as YAML defines", "statement": "Each escape of YAML 1.2 that the parser supports decodes to the character YAML assigns to it; in particular an escaped backslash is a backslash and an escaped double quote is a double quote; \\xHH and \\uHHHH decode to the UTF-8 encoding of the code point, and surrogates are rejected.", "quantifier": "every escape and all hex digit combinations", "why_tests_cant": "65 536 code points; two of the escapes are wrong and one test pins the wrong value.", "anchors": ["src/yaml/parsing.rs: Parser::unescape, Parser::unescape_unicode"]}
{"id": "C20", "title": "Block chomping follows the indicator", "statement": "A block scalar read with no indicator ends in at most one newline (clip), with - in none (strip), with + in as many as the text has (keep), as the Chomp documentation says.", "quantifier": "every block scalar text", "why_tests_cant": "All combinations of trailing blank lines and indicators.", "anchors": ["src/yaml/parsing.rs: Parser::block, Parser::value", "src/yaml/value.rs: Chomp"]}
{"id": "C21", "title": "Collections made by the API are aligned", "statement": "After make_mapping (or make_sequence) on any value and two inserts, both items start in the same column, which is deeper than the column of the enclosing mapping, so the text reads back with both items in the new collection.", "quantifier": "every reachable document and value", "why_tests_cant": "Depends on where the value sits; the tests use a few positions.", "anchors": ["src/yaml/value_mut.rs: ValueMut::make_mapping, make_sequence", "src/yaml/raw.rs: make_indent", "src/yaml/mapping/mapping_mut.rs: make_prefix", "src/yaml/sequence/sequence_mut.rs: make_prefix"]}
{"id": "C22", "title": "Blocks written read back without disturbing siblings", "statement": "After set_block, insert_block or push_block the printed document parses back to a document with the same sibling values and the block's text.", "quantifier": "every reachable document, position, list of lines", "why_tests_cant": "Indentation depends on nesting depth.", "anchors": ["src/yaml/raw.rs: new_block", "src/yaml/value_mut.rs: ValueMut::set_block", "src/yaml/mapping/mapping_mut.rs: insert_block", "src/yaml/sequence/sequence_mut.rs: push_block"]}
{"id": "C23", "title": "Deserialization terminates", "statement": "Every Deserializer method called on any value of a document returns; it never recurses without bound.", "quantifier": "every document value and every requested type", "why_tests_cant": "Fallbacks call each other; the loop appears only for numbers that do not parse at their own hint.", "anchors": ["src/yaml/serde/de.rs: Deserializer for Value", "src/yaml/mod.rs: serde_hint"]}
{"id": "C24", "title": "Serialization mirrors the accessors", "statement": "Serializing a value visits null, bool, string, sequence and mapping values with the contents that as_any, get and iteration report, in order; integers are serialized with the value as_uN/as_iN returns at their own type.", "quantifier": "every reachable document value", "why_tests_cant": "Structure of arbitrary depth.", "anchors": ["src/yaml/serde/ser.rs: Serialize for Value, Mapping, Sequence, Number"]}
{"id": "C25", "title": "Stored strings are never confused", "statement": "Every string handed to the document (keys, values, white space) is returned unchanged whenever it is looked up later, whatever is inserted in between, provided the 128-bit hash has no collision among them; with a collision, the first string wins.", "quantifier": "every sequence of insertions and every hash function", "why_tests_cant": "Needs all insertion orders and all hash functions.", "anchors": ["src/yaml/data.rs: Data::insert_str, Data::str, StringId"]}
{"id": "C26", "title": "Quoted keys are found by their content", "statement": "If a mapping key is written in quotes, get(content) finds it, whatever the position of the key and whether the mapping is in block or flow style.", "quantifier": "every mapping in every accepted document", "why_tests_cant": "Positions beyond the first use different code from the first.", "anchors": ["src/yaml/parsing.rs: Parser::next_mapping_key, Parser::until_colon, Parser::value", "src/yaml/mapping/mapping.rs: Mapping::get"]}
{"id": "C27", "title": "Document header is preserved", "statement": "Directives (% lines) and the --- marker at the start of the input are printed back.", "quantifier": "every accepted input with a header", "why_tests_cant": "Tests with headers only look at values.", "anchors": ["src/yaml/parsing.rs: Parser::start_of_document", "src/yaml/document.rs: Document::write_to"]}
{"id": "C28", "title": "Integer accessors return exactly the values that fit", "statement": "as_uN/as_iN on a number value returns Some(v) iff its text is an optional minus sign (signed types only) or plus sign followed by one or more digits denoting v, and v is in the range of the type.", "quantifier": "every number text and every width", "why_tests_cant": "Infinite texts, boundary values of ten types.", "anchors": ["src/yaml/value.rs: as_number", "src/yaml/number.rs: as_number"]}
{"id": "C29", "title": "Inserting and removing items is local", "statement": "insert of a new key or push adds bytes only directly after the last item of the collection (and the separating comma of a flow collection); remove deletes only the bytes of the item (its leading white space, key, value) and a flow separator; clear deletes only the items. All other bytes of the printed document are unchanged.", "quantifier": "every reachable document, collection, key, index, value", "why_tests_cant": "Same as C07 for structural edits.", "anchors": ["src/yaml/mapping/mapping_mut.rs: MappingMut", "src/yaml/sequence/sequence_mut.rs: SequenceMut", "src/yaml/raw.rs: Mapping::write_to, Sequence::write_to"]}
{"id": "C30", "title": "Removed values are released", "statement": "The number of live slots in a document equals the number of values and items in it, after any sequence of edits; nothing is leaked.", "quantifier": "every accepted input and every sequence of edits", "why_tests_cant": "Leaks accumulate over histories no test runs.", "anchors": ["src/yaml/data.rs: Data::drop, Data::drop_kind, Data::replace"]}
{"id": "C31", "title": "Documents built with the API read back", "statement": "Building nested block mappings and sequences of scalars in an empty document with make_mapping and insert, make_sequence and push, and the set calls prints the two-space layout of the structure. That text parses to exactly that structure and prints back identically. The two exceptions: a text that starts like a directive or a document marker, and a collection as the first item of an inner sequence.", "quantifier": "every tree of mappings with distinct plain keys, sequences and scalars that read back, of any depth and width, outside the two exceptions", "why_tests_cant": "Infinitely many trees.", "anchors": ["src/yaml/parsing.rs: Parser::mapping_or_nul, Parser::sequence, Parser::value", "src/yaml/raw.rs: make_indent"]}
{"id": "C32", "title": "A key without a value reads as null", "statement": "In a block mapping, a key with nothing after its colon has the value null, and the following keys are unaffected, also for the last key.", "quantifier": "every block mapping", "why_tests_cant": "Depends on position: rewinding logic against end of input.", "anchors": ["src/yaml/parsing.rs: Parser::mapping_or_nul, Parser::value"]}
{"id": "C33", "title": "UTF-8 in, UTF-8 out", "statement": "If the input is UTF-8, every key and every string value of the document is UTF-8, so as_str is Some wherever as_bstr is, and the printed document is UTF-8; edits with &str arguments keep this.", "quantifier": "every accepted UTF-8 input and edits", "why_tests_cant": "Byte-wise cursor movement could cut a character anywhere.", "anchors": ["src/yaml/parsing.rs: Parser", "src/yaml/value.rs: Value::as_str"]}
{"id": "C34", "title": "A flow list of well-formed items reads back as that list", "statement": "[i1, i2, ..., in] with any white space after commas, where each item is a plain word, a number or a quoted string, parses to the sequence of those items and prints back identically.", "quantifier": "every list of items, every white space", "why_tests_cant": "Infinitely many lists; flow parsing has its own separator logic.", "anchors": ["src/yaml/parsing.rs: Parser::inline_sequence, Parser::value"]}
{"id": "C35", "title": "Texts of a grammar are accepted, mean what they say and print back", "statement": "Every text built by a grammar of block mappings and sequences (any indentation, blank lines, comments), plain, quoted and block scalars, and flow collections is accepted; as_any and the iterators show exactly the data the grammar assigns to it; and printing gives the text back.", "quantifier": "every text of the grammar, of any size and nesting", "why_tests_cant": "The grammar has infinitely many texts; tests read a few dozen.", "anchors": ["src/yaml/parsing.rs: Parser::value, Parser::mapping_or_nul, Parser::sequence, Parser::block, Parser::inline_sequence, Parser::inline_mapping", "src/yaml/document.rs: Document", "src/yaml/value.rs: Value::as_any"]}
{"id": "C36", "title": "Deserialization presents the document's data", "statement": "If the numbers of a document parse at their own type, each Deserializer method on a value tells the visitor what the accessors show: null as none, a boolean, a string as str or bytes, a number at the requested type if it parses so and else at its own, a sequence or mapping with its iterator. A self-describing type therefore gathers exactly the data of the document: the same kinds, contents, keys and order. Options are none exactly for null.", "quantifier": "every reachable document, value and requested type", "why_tests_cant": "Structure of arbitrary depth; every combination of requested and actual type.", "anchors": ["src/yaml/serde/de.rs: Deserializer for Value, MappingIter, SequenceIter, BStrDeserializer"]}
{"id": "C37", "title": "The text written by each setter", "statement": "After a writing call the value prints as the text the call stands for: null, ~ or nothing; true or false; the decimal numeral of an integer without leading zeros; the string itself, between single quotes with its single quotes doubled, or between double quotes without control bytes; a block as its header and each line on its own line behind one fixed indentation of at least two spaces.", "quantifier": "every reachable document, value, call and argument", "why_tests_cant": "Quantifies over all strings, numbers and documents.", "anchors": ["src/yaml/raw.rs: new_string, new_bool, new_block, escape_single_quoted, escape_double_quoted", "src/yaml/value_mut.rs: ValueMut", "src/yaml/mapping/mapping_mut.rs: MappingMut", "src/yaml/sequence/sequence_mut.rs: SequenceMut"]}
{"id": "C38", "title": "Edited documents print texts that read back as the edited data", "statement": "Load a text of the grammar of C35 in which no comment or blank follows a value on its line, and call set, insert, push, remove, clear and make methods on it, where each scalar written fits its place and each call has room there. The calls change the data as they say: a value is replaced, an entry or item appended or removed, and nothing else changes. Printing gives a text of the grammar that is read as exactly the changed data, and the document itself shows the same.", "quantifier": "every text of the grammar, every sequence of calls under the stated conditions, every hash without collision in the document", "why_tests_cant": "Quantifies over all texts, nestings and lengths of sessions; every call must keep the layout right for all later ones.", "anchors": ["src/yaml/value_mut.rs: ValueMut", "src/yaml/mapping/mapping_mut.rs: MappingMut", "src/yaml/sequence/sequence_mut.rs: SequenceMut", "src/yaml/raw.rs: make_indent, new_string, display", "src/yaml/parsing.rs: Parser"]}
{"id": "C39", "title": "Every edited document reads back", "statement": "If a loaded text prints and reads back as its data, then after any call the printed text is accepted and read as the data the document shows.", "quantifier": "every text, value and call", "why_tests_cant": "Quantifies over all texts, values and calls; a test shows single cases.", "anchors": ["src/yaml/value_mut.rs: ValueMut", "src/yaml/mapping/mapping_mut.rs: MappingMut", "src/yaml/sequence/sequence_mut.rs: SequenceMut", "src/yaml/raw.rs: make_indent, new_string, display", "src/yaml/parsing.rs: Parser"]}
{"id": "C40", "title": "Lines of a block scalar lose exactly their outer white space", "statement": "The content of a block scalar is its lines joined by newlines (or by spaces for a folded one). Each line is stripped of all characters with the Unicode property White_Space at its start and end, written in UTF-8, and of nothing else: no other byte is removed, also not from bytes that are not UTF-8.", "quantifier": "every header, indentation and list of lines that start with neither white space nor #, at the end of a text with any number of newlines behind", "why_tests_cant": "Quantifies over all lines; the 25 white space characters in UTF-8 share bytes with other characters and with each other.", "anchors": ["src/yaml/parsing.rs: Parser::block", "src/yaml/raw.rs: Raw::String"]}
{"id": "C41", "title": "to_string replaces exactly the invalid UTF-8", "statement": "doc.to_string() is valid UTF-8 whatever bytes were parsed or put in. For a parsed document it is what write_to writes, where within each key, scalar and piece of layout every maximal part that begins a character but does not complete it, and every byte that begins none, is replaced by U+FFFD, and all other bytes are kept.", "quantifier": "every input accepted by from_slice; for validity every document reached by edits", "why_tests_cant": "Quantifies over all byte strings, including truncated, overlong and surrogate encodings next to valid ones.", "anchors": ["src/yaml/document.rs: Document::fmt, Document::write_to", "src/yaml/raw.rs: Raw::display, Raw::write_to"]}
{"id": "C42", "title": "Errors point at what they report", "statement": "When from_slice fails, the span of the error lies in the text and shows what is wrong. Expected end-of-file: from the first byte that is neither layout nor part of the document to the end. Bad sequence terminator: ends where no ] stands behind an opened [, and (without block scalar headers in the text) covers only layout behind it. Bad mapping terminator: ends where no } stands behind an opened {, and covers layout, or layout and one entry. Bad mapping separator: layout and a non-empty key with no colon, up to the end of the text or a NUL byte, inside a mapping. Bad escape, hex escape and unicode escape: a backslash with at most 1, 3 and 5 bytes (the last two: x or u, and digits of which only the last may be no hex digit), where no escape sequence begins and, unless the text ends there, none could.", "quantifier": "every input that from_slice refuses", "why_tests_cant": "Quantifies over all refused texts; the spans are computed at seven places in the parser from saved positions.", "anchors": ["src/yaml/error.rs: Error::span, Error::kind", "src/yaml/parsing.rs: Parser"]}
{"id": "C43", "title": "The text of an error tells its kind and its place", "statement": "The display of an error is a name of its kind, and the bounds of its span in decimal as in ' (at 7-11)'. Errors that differ in kind or span are displayed differently.", "quantifier": "every kind and every span", "why_tests_cant": "Quantifies over all pairs of errors.", "anchors": ["src/yaml/error.rs: impl Display for Error, impl Display for ErrorKind"]}
{"id": "C44", "title": "Every scalar and key of an accepted text shows what its own characters say", "statement": "In a document just read, a scalar prints as a piece of the input, and what as_any shows of it is what that piece says: a number, null or boolean word or plain text (the rest of its line, or up to one of ,:]} or a NUL in a flow collection); the content of a single-quoted text, a doubled quote standing for one; the content of a double-quoted text with the escapes of YAML (an escaped backslash however shows a double quote); the trimmed lines of a block scalar, joined by the newlines there are or, if folded, by one space, with only line ends added behind; a missing value is null. A key is a piece of the input that stands before a colon (or a NUL) and shows itself or, if quoted, its content. A non-empty piece that is no block scalar says one thing only.", "quantifier": "every accepted input, every scalar and every key of the document, every hash without collision", "why_tests_cant": "Quantifies over all accepted inputs, well-formed YAML or not, and all places in them.", "anchors": ["src/yaml/parsing.rs: Parser::value, number, single_quoted, double_quoted, unescape, block, key_or_eol, until_colon, next_mapping_key", "src/yaml/value.rs: Value::as_any"]}
{"id": "C45", "title": "as_raw gives a string's text as written or as set", "statement": "String::as_raw exists exactly for strings. In a document just read it is the string's text in the input, quotes and escapes included, without the header of a block scalar. In any edited document it is the text the value prints, again without such a header, or, for a string set in a session and printed in quotes, the string itself.", "quantifier": "every document reached by reading and editing, every value in it, every hash without collision", "why_tests_cant": "Quantifies over all documents and edit histories.", "anchors": ["src/yaml/string.rs: String::as_raw", "src/yaml/raw.rs: String"]}
{"id": "C46", "title": "into_any_mut tells the kind of a value and keeps its id", "statement": "into_any_mut of a value never panics, gives a mapping, a sequence or a scalar exactly when as_any shows a mapping, a sequence or a scalar, and AnyMut::id is the id of the value.", "quantifier": "every document reached by reading and editing, every value in it, every hash without collision", "why_tests_cant": "Quantifies over all documents and edit histories.", "anchors": ["src/yaml/value_mut.rs: ValueMut::into_any_mut", "src/yaml/any_mut.rs: AnyMut::id"]}
{"id": "C47", "title": "The accepted texts are exactly those a declarative syntax describes, with exactly its data", "statement": "A fixed set of rules says what each text stands for: layout, comments, directives and the document marker, quoted, plain and block scalars, numbers, block sequences and mappings arranged by columns, flow collections. from_slice accepts a text exactly if it stands for some data by these rules, and the document then shows exactly that data. A text stands for one thing at most. Columns count the characters since the last newline, a maximal invalid part counting as one. The rules record where the crate departs from YAML: one comma of a flow collection may be missing before its last item; dashes after the first need no space; keys after the first go to the next colon, over line ends if need be; a block scalar takes the next line in any column.", "quantifier": "every byte string as input, every datum, every hash (data shown: every hash without collision)", "why_tests_cant": "An equivalence between acceptance and a syntax over all byte strings; each direction quantifies over infinitely many texts.", "anchors": ["src/yaml/parsing.rs: Parser::parse, value, sequence, mapping, inline_sequence, inline_mapping, mapping_or_nul, block, number, key_or_eol, until_colon, next_mapping_key, ws, start_of_document", "src/yaml/mod.rs: from_slice"]}
{"id": "C48", "title": "The hash of the string table has no influence on what is read and written", "statement": "Reading the same text with two hash functions gives two documents, two errors of the same kind with the same end, or no answer both times (an open single quote); two documents show the same data and write the same text if neither has a collision. This stays so when the same calls are made at the same places of both, in any number: they write and display the same text and show the same data.", "quantifier": "every byte string as input, every two hash functions, every list of editing calls at every places", "why_tests_cant": "The hash is fixed in the crate; tests cannot vary it, nor all texts.", "anchors": ["src/yaml/data.rs: Data::insert_str, StringId", "src/yaml/mod.rs: from_slice"]}
{"id": "C49", "title": "Every accepted text is written back as exactly the text a set of rules gives", "statement": "A fixed set of rules over places of the text says what an unedited document writes. from_slice accepts a text exactly if the rules give an output for it, the document shows exactly the data of the rules and write_to writes exactly their output, which is unique. So a text comes back unchanged exactly if the rules give the text itself. The rules say where texts change: directives and the document marker are dropped and only the layout behind them is kept; a comma missing before the last item of a flow collection is put in; layout before the commas and the brace of a flow mapping is dropped; layout behind a block scalar in a flow sequence moves behind the comma; a NUL behind a key becomes a colon; layout behind a block scalar at the end of the text is doubled if it has no line; invalid UTF-8 in comments between sequence items is replaced; everything else is copied.", "quantifier": "every byte string as input, every hash without collision", "why_tests_cant": "An equivalence over all byte strings; tests compare a few outputs.", "anchors": ["src/yaml/parsing.rs: Parser::parse, value, sequence, mapping, inline_sequence, inline_mapping, block, start_of_document", "src/yaml/raw.rs: Raw::write_to", "src/yaml/document.rs: Document::write_to"]}
{"id": "C50", "title": "Exactly which texts are refused, with which error at which place, and which never return", "statement": "A fixed set of rules over places of the text says what is wrong with a text: the kind of the error and both ends of its span, or that the parser never returns. from_slice fails with an error of kind k from x to y exactly if the rules say so, and never returns exactly if the rules say so: a single quote that is never closed stands where a value is read before anything else is wrong. Every text is either accepted by the rules of C49 or wrong by these, never both, and wrong in one way only. So the rules of C49 and C50 together give the result of from_slice for every byte string.", "quantifier": "every byte string as input; every hash (the start of a bad sequence terminator, which is counted back by the length of an interned string, for injective hashes)", "why_tests_cant": "An equivalence over all byte strings, and non-termination cannot be tested at all.", "anchors": ["src/yaml/parsing.rs: Parser::parse, value, sequence, mapping, inline_sequence, inline_mapping, double_quoted, single_quoted, unescape", "src/yaml/error.rs: Error::span, ErrorKind", "src/yaml/mod.rs: from_slice"]}
{"id": "C51", "title": "Output to a sink that fails: what it received and what is reported", "statement": "The calls a document makes on its output do not depend on the output: they are a fixed list of chunks whose concatenation is what write_to writes to a Vec, made in order up to the first call that fails. So write_to returns an error exactly if a call fails, namely that call's error, makes no call after it, and never panics; the output has received a beginning of the text, and all of it if write_to returns Ok. A buffer with room for n bytes holds exactly the first n bytes afterwards, and write_to fails exactly if the text is longer. The same holds for Display of documents and values.", "quantifier": "every document reached by parsing and editing, every output (any state, any errors, any point of failure), every way the formatting machinery cuts its text into calls", "why_tests_cant": "Tests write to a Vec or a String, which do not fail; the points of failure and kinds of outputs cannot be enumerated.", "anchors": ["src/yaml/document.rs: Document::write_to, Display for Document", "src/yaml/raw.rs: Raw::write_to, Raw::display, escape_single_quoted, escape_double_quoted", "src/yaml/value.rs: Display for Value"]}
{"id": "C52", "title": "How deep calls nest", "statement": "Reading a text nests calls of Parser::value exactly as deep as the data of the text are nested (a scalar or an empty collection counts one, a collection one more than its deepest element): given that many calls the text is read to the same document, given fewer the limit is reached. Writing and displaying a document, however it was edited, nest calls of Raw::write_to and Raw::display exactly as deep as its data; replacing a value nests calls of Data::drop_kind twice as deep as the data it held, less one. A limit never changes the reason a text is refused for, and one call more than the text has bytes always suffices; no fixed limit does: for every d there is a text of 2(d+1) bytes that needs more than d calls to be read, written and displayed (so deep nesting overflows the stack).", "quantifier": "every text, every limit, every hash function; every document reached by parsing and editing", "why_tests_cant": "Depths are unbounded, and a test that exceeds the stack aborts instead of failing.", "anchors": ["src/yaml/parsing.rs: Parser::parse, Parser::value", "src/yaml/data.rs: Data::replace, Data::drop_kind", "src/yaml/raw.rs: Raw::write_to, Raw::display", "src/yaml/document.rs: Document::write_to, Display for Document"]}
{"id": "C53", "title": "A snapshot gives the document back, for reading and for further edits", "statement": "With the feature serde-edits, a document stored and loaded again through a format that carries numbers, strings and maps (in any order of their entries): every reader and iterator gives the same for every id, the same ids are values, the document and every value print the same text, also after hash collisions. Without collisions, the same calls at the same places afterwards never panic, answer the same on both (handles they give are at the same place) and both documents have the same text and data after every call, although the slots that become reused differ; and so on through any further snapshots.", "quantifier": "every document reached by parsing and editing, every order of the stored entries, every list of later calls and snapshots, every hash function", "why_tests_cant": "Edits leave free slots whose order is lost in the snapshot; later inserts then take other slots, and no finite set of edit histories before and after covers the combinations.", "anchors": ["src/yaml/document.rs: Document (derive Serialize, Deserialize)", "src/yaml/data.rs: Data, Entry, Id, StringId (derive Serialize, Deserialize)", "src/yaml/serde/mod.rs: serde-edits, saving of a snapshot"]}
{"id": "C54", "title": "Removed values give their slots back", "statement": "The store of a document has exactly as many slots as the document had values and items when it had most of them: parsing leaves no free slot, and a call makes the store grow only if more values and items are in use than there were slots before. Loading a snapshot needs no more slots than the document stored, and later calls obey the same law. (Strings are different: an interned string is never given up, so a document of one value can hold any number of them.)", "quantifier": "every document reached by parsing and editing, every call, every snapshot, every hash function", "why_tests_cant": "A lost free slot changes no text and no answer; it only shows as growth over long histories of inserts and removals, and tests look at a few short ones.", "anchors": ["src/yaml/data.rs: Data::insert, drop, drop_kind, replace, replace_with, insert_str", "src/yaml/mapping/mapping_mut.rs: inner_insert, remove, clear", "src/yaml/sequence/sequence_mut.rs: inner_push, remove, clear"]}
{"id": "C55", "title": "Debug output shows values with the white space before them", "statement": "{:?} of a value is Value(\u2026) around the white space before the value and its text, as they are in the document (both left out when the value has no text: an empty null, an empty block collection); {:#?} puts the same on lines of its own, every line of it four columns in. {:?} of a mapping or sequence handle lists all entries in order, each value as {:?} of it, keys as the unescaped bytes; {:#?} the same with one indentation. Display of a mapping or sequence handle is Display of the value. Formatting a value of the document, or its Any, never panics; with a removed handle it panics. {:?} of a document shows the id of the suffix in hexadecimal and the number of the root, {:?} of Any names the kind of the value around what it holds, and Null alone. {:?} of an error shows the two ends of the span and the name of the kind. Display of an id is the number of its slot in hexadecimal, in eight digits or more, and tells ids apart.", "quantifier": "every document reached by parsing and editing without hash collision, every value of it, both formats, every Debug of BStr", "why_tests_cant": "The text depends on the white space in front of every value and on line breaks in it, in any nesting and after any edit.", "anchors": ["src/yaml/value.rs: Debug and Display for Value", "src/yaml/mapping/mapping.rs: Debug and Display for Mapping", "src/yaml/sequence/sequence.rs: Debug and Display for Sequence", "src/yaml/any.rs: Any (derive Debug)", "src/yaml/number.rs: Debug for Number", "src/yaml/data.rs: Debug and Display for StringId, Hex, Id", "src/yaml/document.rs: Debug for Document", "src/yaml/error.rs: Error, ErrorKind (derive Debug)"]}
{"id": "C56", "title": "Documents are linear in their text", "statement": "A text of n bytes is a document of at most n + 1 values, and its store has at most 2n + 1 slots. Every document has exactly one value more than items of mappings and sequences, and these are its entries. A call adds at most one value and its item; only inserts and pushes add any. So after k inserts and pushes, and any other calls, the store has at most 2(n + k) + 1 slots. The bound on values can not be lowered by more than two: n + 2 bytes can hold n + 1 values.", "quantifier": "every text that parses, every document reached by parsing and editing, every call, every hash function", "why_tests_cant": "A text that blows up (one that makes a loop add entries without reading, or a call that adds entries twice) would have to be found; tests run a few friendly texts and never count entries.", "anchors": ["src/yaml/parsing.rs: Parser::value, mapping_or_nul, sequence, inline_mapping, inline_sequence", "src/yaml/data.rs: Data::insert, drop, replace", "src/yaml/mapping/mapping_mut.rs: inner_insert, remove, clear", "src/yaml/sequence/sequence_mut.rs: inner_push, remove, clear"]}
{"id": "C57", "title": "How editing calls combine", "statement": "Two calls at values of which neither is inside the other can be made in either order: both orders run, give back the same (new handles at the same place) and leave documents that print and show the same, now and after any further calls. A set_* call takes over from any earlier call at the same value or inside it, and leaves the document that it would have left alone; not after make_mapping or make_sequence at the value itself, which move it to another line, and set_block on a collection indents by it. clear takes over likewise from calls on the collection and inside it. The second of two insertions of one key takes over from the first, and gives the same handle (with the same separator, or where the key was there before). An insertion of a new key undone by remove, and a push undone by remove of the last index, leave the document as it was. make_mapping or make_sequence a second time changes nothing at all.", "quantifier": "every document reached by parsing and editing, all pairs of values in it, every pair of calls with all arguments, every hash function without collisions in the two documents, every list of further calls", "why_tests_cant": "Pairs of calls at pairs of places in all documents are far more than tests can enumerate, and equality after all later calls is no finite check: two documents can print the same and differ in what the next call does.", "anchors": ["src/yaml/value_mut.rs: set_*, make_mapping, make_sequence", "src/yaml/mapping/mapping_mut.rs: insert, insert_*, remove, clear", "src/yaml/sequence/sequence_mut.rs: push, push_*, remove, clear", "src/yaml/data.rs: make_indent, replace, replace_with, drop"]}
{"id": "C58", "title": "Texts one behind the other", "statement": "Files that each hold a block mapping at column 0 and end with a newline can be put one behind the other: the result is accepted, holds the entries of all files in order, and prints back unchanged. The same of block sequences. This includes a file that ends with a block scalar, whose trailing newlines stay as they are. White space and comment lines in front of a text change nothing. The files start with their first entry, and in the case of mappings not with a quote or a dash; examples show that each of these changes what is read.", "quantifier": "all lists of files whose texts the grammar of C35 describes, all numbers and sizes of files, every hash function", "why_tests_cant": "What follows a value decides where the value ends, at every level of nesting: a test would have to pair every kind of ending with every kind of start, in texts of any depth and length.", "anchors": ["src/yaml/parsing.rs: block mappings and sequences, block scalars, white space and comments", "src/yaml/document.rs: Display, write_to"]}
{"id": "C59", "title": "Texts further to the right, below keys and below dashes", "statement": "Putting k blanks in front of every non-empty line of a text leaves what is read as it was: the data is the same, and the new text prints back unchanged. So texts can be put together by nesting: texts that end with a newline, each moved to the right by at least one column below a line with a key and a colon, are read as a mapping from the keys to the data of the texts; below lines with a dash, as a sequence. This includes literal and folded block scalars, comments, empty lines and flow collections over several lines. It does not include texts in which a quoted string, or a word in a flow collection, spans lines; examples show that its value then changes.", "quantifier": "all texts the grammar of C35 describes in which no string is written over several lines in quotes or in a flow collection, all numbers of columns, all numbers of keys and texts, every hash function", "why_tests_cant": "The column of each line decides what it belongs to, at every level of nesting; a test moves a few texts by a few columns.", "anchors": ["src/yaml/parsing.rs: indent, count_indent, block mappings and sequences, block", "src/yaml/document.rs: Display, write_to"]}
{"id": "C60", "title": "Texts with CR LF line ends", "statement": "If each newline of a text is replaced by CR LF, the new text is accepted if and only if the text was, and then holds the same data.", "quantifier": "all texts, of any length and nesting, every hash function without collisions in the two documents", "why_tests_cant": "Line ends occur in every kind of value and at every level of nesting; whether a CR ends up in a value depends on what stands at the end of that line.", "anchors": ["src/yaml/parsing.rs: white space and comments, block mappings and sequences, block, quotes, plain values"]}
{"id": "C61", "title": "Lines of white space and comments in front of a text", "statement": "If lines of white space and comments are put in front of any text, the new text is accepted if and only if the text was, and then holds the same data; it is written back as those lines and then as the text was, or, if the text has a directive or a document marker, exactly as the text was. If the text was refused, the same error is reported, its span moved by the length of those lines; and parsing returns if and only if it did before.", "quantifier": "all texts, accepted or not, of any length and nesting, all lines of white space and comments in front, every hash function (without collisions in the two documents for what is read and written; injective for the start of a missing bracket of a flow sequence)", "why_tests_cant": "Indentation, the space kept before values and the spans of errors are all computed from absolute positions in the text; tests try few positions and few texts, and refused texts at different positions not at all.", "anchors": ["src/yaml/parsing.rs: Parser::parse, count_indent, ws, errors with spans", "src/yaml/document.rs: Display, write_to"]}
{"id": "C62", "title": "White space behind a text", "statement": "If white space of any kind and length is put behind a text that ends with a newline, the new text is accepted if and only if the text was. It then holds the same data, but for white space at the end of the last string in it (a block string at the end keeps the new newlines); if the last value is not a string, the data is exactly the same. If the text was refused, the new one is refused with the same kind of error; the span is the same if it is in an escape of a double-quoted string, and else a place of it at the end of the text moves to the new end. Parsing returns if and only if it did before.", "quantifier": "all texts that end with a newline, accepted or not, of any length and nesting, all white space behind them, every hash function (without collisions in the two documents for what is read, and without collisions at all for the start of a missing bracket of a flow sequence)", "why_tests_cant": "Every rule that looks ahead meets the end of the text in its own way: words, numbers, block strings, open quotes, keys without values. Tests try a few of these at the end of a few texts.", "anchors": ["src/yaml/parsing.rs: Parser::parse, ws, ws_nl, block"]}
{"id": "C63", "title": "Errors in texts with CR LF line ends", "statement": "If each newline of a text is replaced by CR LF and the text was refused, the new text is refused with the same kind of error, and with none if it was not. The span is at the same bytes of the text: each of its places moves by the number of newlines before it. A span in an escape of a double-quoted string keeps its length, so an escape broken by a line end is reported without the LF. Parsing returns if and only if it did before.", "quantifier": "all texts, of any length and nesting, accepted or not, every hash function (the start of a missing bracket of a flow sequence is left out)", "why_tests_cant": "Every kind of error can follow any number of lines and values at any level of nesting; each rule that skips a line end must count the CR.", "anchors": ["src/yaml/parsing.rs: Parser::parse, ws, ws_nl, block, quotes and escapes, mappings and sequences", "src/yaml/error.rs: Error::span, ErrorKind"]}
{"id": "C64", "title": "All lines of a text moved to the right", "statement": "If the same number of blanks is put in front of every line of a text, the new text is accepted if and only if the text was. It then holds the same data, but for strings and keys written over several lines, which may have the blanks behind their newlines; if no string and no key has a newline, the data is exactly the same. If the text was refused, the new one is refused with the same kind of error at the same bytes: each place moves by the number of blanks put in before it, and a span in an escape of a double-quoted string keeps its length. Parsing returns if and only if it did before.", "quantifier": "all texts, of any length and nesting, accepted or not, any number of blanks, every hash function (without collisions in the two documents for what is read; the start of a missing bracket of a flow sequence is left out)", "why_tests_cant": "Columns are compared between any two lines of a text, and every kind of value looks at them in its own way; an absolute column in one of these comparisons shows only at certain depths.", "anchors": ["src/yaml/parsing.rs: Parser::parse, ws, block mappings and sequences, block", "src/yaml/raw.rs: count_indent"]}
{"id": "C65", "title": "Tabs, spaces and other blanks are interchangeable", "statement": "If in a text any of the blanks (tab, form feed, carriage return, space) are replaced by other blanks, one for one, the new text is accepted if and only if the text was. It then holds the same data and is written back as the same text, but for blanks inside of strings, keys, comments and white space; if no string and no key has a blank, the data is exactly the same. So tabs indent like spaces. If the text was refused, the new one is refused with the same kind of error at the same span. Parsing returns if and only if it did before.", "quantifier": "all texts, of any length and nesting, accepted or not, every choice of blanks, every hash function (without collisions in the two documents for what is read and written, without collisions at all for the start of a missing bracket of a flow sequence)", "why_tests_cant": "Every rule of the parser looks at blanks in its own way (skipping, columns, ends of keys, ends of numbers, trimmed lines of block scalars); one that forgets one of the four shows only where that blank is in that position.", "anchors": ["src/yaml/parsing.rs: ws!, Parser::ws, ws_nl, eol, block, key and number scanning", "src/yaml/raw.rs: count_indent"]}
{"id": "C66", "title": "Anchors, aliases, tags and other characters without a meaning", "statement": "The characters !$&()*/;<=?@^_` and the ASCII letters that no keyword, escape or number uses have no meaning, also where YAML gives them one (anchors, aliases, tags, complex keys, reserved indicators). If in a text any of them are replaced by others of them, one for one, the new text is accepted if and only if the text was. It then holds the same data and is written back as the same text, but for these characters; numbers, booleans, nulls and the structure are the same. If the text was refused, the new one is refused with the same kind of error at the same span. Parsing returns if and only if it did before.", "quantifier": "all texts, of any length and nesting, accepted or not, every choice of the 41 characters, every hash function (without collisions in the two documents for what is read and written, without collisions at all for the start of a missing bracket of a flow sequence)", "why_tests_cant": "A rule that gives one of these characters a meaning at one position only (first in a value, behind a backslash, behind a dash) shows only for that character at that position.", "anchors": ["src/yaml/parsing.rs: Parser::value, escapes, key and number scanning, keywords"]}
