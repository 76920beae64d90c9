# Formal model of `nondestructive` (YAML editor) in Rocq / Coq 8.16.1

Source: `/repo` (udoprog/nondestructive, pinned commit), read as text, never run.

## 1. What is modelled

Model (definitions only; those that follow code of the crate cite its file and lines, those that
follow an external crate or the standard library name the function):

| file under `rocq/theories` | models |
|---|---|
| `Bytes.v`, `Utf8.v` | bytes, slices, `memchr`; the parts of `bstr` the crate uses (lossy decoding, `chars()`, `trim()`), `char::from_u32`, `encode_utf8` |
| `Num.v` | `itoa` and `lexical_core` for integers |
| `ErrorText.v` | `error.rs`: the display of errors |
| `Debug.v` | `Debug` of values, handles, documents, ids and errors, with the builders of `core::fmt` |
| `Data.v` | `src/yaml/data.rs` (string table keyed by hash, slab of entries with slot reuse), the data types of `raw.rs`, `error.rs` kinds |
| `Parser.v` | all of `src/yaml/parsing.rs`, function by function |
| `Render.v` | `display` and `write_to` of `raw.rs` and `document.rs` |
| `Sink.v` | the same code call by call, on an output that may fail |
| `Depth.v` | reading and writing with a limit on the nesting of calls |
| `Api.v` | `value.rs`, `value_mut.rs`, `mapping/*.rs`, `sequence/*.rs`, `number.rs`, `any.rs`, and the constructors of `raw.rs` (`new_string`, `new_block`, `make_indent`, quoting detection) |
| `Handles.v` | `string.rs` (`as_raw`), `any_mut.rs` and `into_any_mut` |
| `Serde.v` | `serde/de.rs`, `serde/ser.rs`: the dispatch of each `deserialize_*` method to a visitor method, the entries drawn through `MapAccess` and `SeqAccess`, and the calls `Serialize` makes |
| `Snapshot.v` | the derived `Serialize` and `Deserialize` of `Document` (feature `serde-edits`), and `slab`'s `Builder` |
| `Tests.v`, `DocTests.v` | the crate's unit tests and doc tests replayed on the model by computation (tests, not proofs) |

Specifications, written without the model's parser:

| file | says |
|---|---|
| `Shown.v` | `datum`: what a reader of a document sees; `shows`: as_any and the iterators show this datum |
| `Plain.v` | numbers, keywords, plain and quoted scalars, as texts |
| `Grammar.v` | which texts stand for which data (block and flow collections, block scalars, comments, indentation) |
| `Session.v` | sessions: a text is loaded and edited, and how its data change; what each call needs |
| `Exact.v`, `EscByte.v`, `Slashes.v` | what the parser makes of any text that begins with a double quote, of any text of one line, and of escaped strings |
| `White.v`, `Valid.v` | white space of Unicode and trimming; encodings of code points and the replacement of invalid bytes |
| `Means.v` | for every text, what it stands for in terms of its places: the whole syntax the crate accepts, rule by rule, YAML or not |
| `Printed.v` | for every text, what the unedited document writes: the rules of `Means.v` with the text each of them puts out |
| `Fails.v` | for every text that is not accepted, what is wrong with it and where, or that reading it never ends |
| `Lexed.v` (first part) | `told`: what the text of a scalar or key shows |
| `Ctx.v`, `Built.v` | one-hole contexts, the values of a document, documents reached by parsing and editing |

Proofs: `Slab.v`, `Tree.v`, `Abs.v`, `Refine.v`, `Utf8Props.v`, `Scan.v`, `AbsText.v`, `TextProps.v`,
`AbsNice.v`, `RenderProps.v`, `Edit.v`, `Reads.v`, `ReadsSound.v`, `GrammarSound.v`, `Laid.v`, `LaidText.v`,
`Swap.v`, `Repost.v`, `Join.v`, `Nest.v`, `Crlf.v`, `CrlfErr.v`, `Widen.v`, `WidenErr.v`, `Blanks.v`, `Inert.v`, `Lead.v`, `Trail.v`, `Grow.v`, `Open.v`, `Tidy.v`, `Back.v`, `Places.v`, `MeansSound.v`, `MeansComplete.v`, `PrintedSound.v`, `PrintedComplete.v`,
`FailsSound.v`, `FailsComplete.v`, `SinkProps.v`, `DepthProps.v`, `Restore.v`, `Twins.v`. Checks by computation for the examples: `Check.v`.
Final theorems with `Print Assumptions` and a concrete case beside each: `Props*.v`. False claims with
their witnesses: `Refuted.v`, `RefutedBack.v`.

Conventions. `usize` positions are `nat`; bytes are `N`; a Rust panic is the outcome `Panic`; an error
return is `Err start end kind`; a loop that can never make progress again is `Hang`; a fuelled
recursion that is too short is `OutOfFuel`; it does not arise from parsing (C04), editing or printing
(C06). For serde, `OutOfFuel` at every fuel stands for unbounded recursion (C23). Handles (`Value`,
`ValueMut`, `Mapping`, …) are ids; every method is a function of the store and the id.

## 2. Trusted base

* Coq's kernel. `Print Assumptions` of every final theorem answers *Closed under the global context*:
  no axioms, neither ours nor the standard library's. (`coqchk` lists seven constants of
  `Coq.ssr.ssrunder` among the axioms of the loaded standard library; no theorem here depends on them.)
* That the definitions say what the Rust code does. They were written by reading the source; the
  crate's own tests are replayed in `Tests.v` and its doc tests in `DocTests.v`.
* External crates are modelled after their documentation: `slab` (LIFO reuse of slots; `Builder`, which loads a stored slab), `memchr`, `bstr`
  (maximal-subpart replacement, Unicode `White_Space`), `itoa`, `lexical-core` for integers. Float
  formatting and parsing (`ryu`, `lexical-core`) are arbitrary functions or texts given by the caller.
* The xxh3-128 hash is an arbitrary function `hash : bytes -> sid`; every theorem is quantified over it.
  Theorems that read strings back assume `no_collision`: no two different strings *of that document* have
  the same hash. C25 says what holds without this.

## 3. What is not modelled

Allocation failure; the size of the stack (C52 says how deep the calls of reading, writing and removing nest, not how
many fit); wrap-around of the 32-bit newline counter (needs
2^32 newlines); formatter options other than `{:#?}` (width, fill; `Display` of the crate ignores them), `Debug` of `BStr` (a parameter) and the derived `Debug` of `Null`, `Block`, `Chomp`, `Separator` and the like; the derived `serde` impls of the caller (a visitor is arbitrary); the data formats snapshots are stored in; the encoding of
`Id` as a non-zero integer (but that `Debug` shows the slot plus one).


## 4. Per property


### C01 — Parse then print is the identity (partial)

False as stated; seven separate causes, each with a witness. `AbsText.v` proves by one induction over the parser that the printed text is the input up to a list of lexeme changes. `C01_identity_partial`: identity for UTF-8 input with no header, no `{` or `[` anywhere and no empty block scalar at the end. `C01_commas_partial`: for UTF-8 input with no header and no `{`, `|` or `>` anywhere, the output is the input with commas inserted. C35 gives identity for the texts of the grammar, which include flow collections. C49 gives the output for every accepted text, and with it an exact condition for identity (`C49_identity`).

Theorems: `C01_identity_partial`, `C01_commas_partial`, `C01_identity_refuted`, `C01_flow_mapping_layout_refuted`, `C01_flow_mapping_comment_refuted`, `C01_number_split_refuted`, `C01_empty_block_refuted`, `C01_block_in_list_refuted`, `C01_nul_refuted`, `C01_idempotent_refuted`.


### C02 — Parse then print never loses content (proved)

Same induction for all inputs, with a rewriting relation on bytes instead of equality; the relation lists every way in which print differs from input.

Theorems: `C02_nothing_lost`.


### C03 — to_string and write_to agree (partial)

For parsed UTF-8 input both renderers agree; without the UTF-8 condition see C41. After edits false (witness: a key inserted without a value); `C03_agree_edited` says exactly when they agree.

Theorems: `C03_agree_parsed_partial`, `C03_agree_edited`, `C03_after_edit_refuted`.


### C04 — from_slice terminates (partial)

The parser's fuel is always enough (no condition). It returns unless the input holds a single quote behind which single quotes come only in pairs; this is a sufficient condition for returning. `C04_hangs` (`PropsMore.v`): it never returns when such a quote opens the document or the value of its first key; `C50_stuck` says exactly which inputs hang; `C04_open`: they hold a single quote behind which single quotes come only in pairs. Witness for a hang.

Theorems: `C04_terminates_partial`, `C04_terminates_refuted`, `C04_hangs`, `C04_open`, `C50_stuck`.


### C05 — from_slice never panics and error spans are in bounds (proved)

No outcome is `Panic`; spans are bounded by the input length. Same induction.

Theorems: `C05_no_panic`, `C05_span`.


### C06 — Edits never panic and keep the document well formed (proved)

`Edit.v`: each editing call maps a store that models a tree to a store that models the edited tree, so it does not panic. `C06_readable`: every value can then be read, iterated, printed.

Theorems: `C06_edits_run`, `C06_readable`, `C06_handle`.


### C07 — Replacing a value changes only that value's bytes (proved)

One-hole contexts: print (plug c v) = before c ++ print v ++ after c, and a set call changes v only.

Theorems: `C07_set_local`, `C07_set_local_display`.


### C08 — Ids stay valid across unrelated edits (proved)

From the same account: the store entries of the other nodes are unchanged. Stated for every value but the edited one and the one the call returns a handle on.

Theorems: `C08_stable`.


### C09 — Ids of removed values are detected (partial)

False: slots are reused, so a stale id may denote a new value (witness). Proved: a value that a call takes out of the document has a dead id; reads of a dead id panic; writes panic or leave the slab unchanged; a call does not make a dead id a value again unless it returns that id.

Theorems: `C09_dead_reads`, `C09_dead_writes`, `C09_removed_dead_partial`, `C09_dead_stays_partial`, `C09_stale_id_refuted`.


### C10 — Integers written are the integers read (proved)

Decimal printing and parsing over Z; through run, write and the accessors of every width.

Theorems: `C10_integers`.


### C11 — Values written are the values read (proved)

Effect of each set call on the tree, then the accessors on it.

Theorems: `C11_written`, `C11_applicable`.


### C12 — A mapping behaves like an ordered association list (proved)

Refinement of get, insert, remove, clear, len, is_empty, iteration to an association list, for every document reached by parsing and editing.

Theorems: `C12_reads`, `C12_insert`, `C12_remove`, `C12_clear`, `C08_stable`.


### C13 — A sequence behaves like a list (proved)

Refinement to lists.

Theorems: `C13_reads`, `C13_push`, `C13_remove`, `C13_clear`.


### C14 — Iterators are lawful double-ended iterators (partial)

Iterators as lists consumed from both ends, for any interleaving of calls. `nth_back` counts from the front: refuted; `C14_nth_back_exact` says when this makes no difference. `C14_once` holds with all four calls.

Theorems: `C14_mapping_partial`, `C14_sequence_partial`, `C14_both_ends`, `C14_once`, `C14_nth_back_exact`, `C14_nth_back_refuted`.


### C15 — Single-quoted output reads back exactly (proved)

The writer's text is a quoted text of `Plain.v`, which the parser reads as its content.

Theorems: `C15_single_quotes`.


### C16 — Double-quoted output reads back exactly (partial)

Refuted for strings with a backslash or a double quote; proved for all others. `C16_exact` makes this an equivalence: `dq_cases` splits any text after a double quote into the longest part that is the inside of quotes and the rest, and `dq_counts` shows that decoding an escaped string with backslashes loses a backslash or a byte.

Theorems: `C16_double_quotes_partial`, `C16_exact`, `C16_backslash_refuted`, `C16_quote_refuted`.


### C17 — set_string picks a representation that reads back (partial)

Refuted (twelve witnesses); proved for every string satisfying `settable`, a condition on the string alone: it needs quotes for a reason the crate checks, or it is a plain string. `C17_exact` makes this an equivalence (with the one extra string `-`): a string left bare that reads back begins at the first byte of the text, is no longer than the text behind that byte, and so starts no other construct.

Theorems: `C17_set_string_partial`, `C17_exact`, `C17_set_string_refuted`, `C17_more_refuted`.


### C18 — Plain scalars are classified exactly (proved)

For every line that starts like a plain scalar and holds no key, with layout behind it: both directions of each classification.

Theorems: `C18_plain_line`.


### C19 — Escapes in double-quoted strings decode as YAML defines (partial)

Refuted for `\\` and `\"`. All other escapes of the parser decode as YAML assigns, with UTF-8 specified separately (`utf8_of`); anything else after a backslash is an error at the backslash. C19_exact is read off from C47 for all texts that begin with a double quote.

Theorems: `C19_decodes_partial`, `C19_exact`, `C19_rejects`, `C19_backslash_refuted`, `C19_quote_refuted`.


### C20 — Block chomping follows the indicator (partial)

Proved for strip and keep with any number of trailing newlines, and for clip with one, literal and folded, as document and before a sibling key. Clip with more newlines refuted; `C20_actual` says what is read in every case: without an indicator all are kept.

Theorems: `C20_chomp_partial`, `C20_actual`, `C20_clip_refuted`.


### C21 — Collections made by the API are aligned (partial)

Refuted in the first item of an indented list. `C21_mapping_text` and `C21_sequence_text` give the text of the whole document after any number of inserts or pushes, and `stands` the column and indentation at every kind of place; the one crooked place is an item of a block sequence without a line break before its dash. The reading-back theorems take a document of a session (C38), make the collection and run any number of inserts or pushes of scalars on it; each call keeps the session, and the text reads back as the data with the new collection in place of the old value.

Theorems: `C21_mapping_text`, `C21_sequence_text`, `C21_make_mapping_partial`, `C21_make_sequence_partial`, `C21_aligned_refuted`.


### C22 — Blocks written read back without disturbing siblings (partial)

Refuted in nested mappings, and at the end of a text without a line break. The positive theorems extend the sessions of C38 by the three block calls. The text behind the value is named through the API, by writing two words in its place; the call reads back if the text written and the text behind it are a block scalar of the grammar with the lines as content. For insert and push the columns follow from the layout of the document; for set they are a condition.

Theorems: `C22_insert_block_partial`, `C22_push_block_partial`, `C22_set_block_partial`, `C22_block_refuted`, `C22_end_refuted`.


### C23 — Deserialization terminates (partial)

Refuted for a number that does not parse at its own type. Every request terminates if the value parses at its own type; otherwise `deserialize_any` recurses without end.

Theorems: `C23_terminates_partial`, `C23_loops_otherwise`, `C23_deserialize_refuted`.


### C24 — Serialization mirrors the accessors (proved)

Recursion over the tree against the accessors.

Theorems: `C24_mirrors`.


### C25 — Stored strings are never confused (proved)

String table over an arbitrary hash function; what holds with a collision is stated too.

Theorems: `C25_first_wins`, `C25_no_confusion`, `C25_edits`.


### C26 — Quoted keys are found by their content (partial)

Refuted for later keys and in flow mappings; proved for the first key of a block mapping. PropsKeys.v reads off from the rules of C47, by induction over all of them, what every other key is: a part of the text as it is, up to the next colon or NUL.

Theorems: `C26_first_key_partial`, `C26_actual_keys`, `C26_not_found`, `C26_block_key_refuted`, `C26_flow_key_refuted`.


### C27 — Document header is preserved (partial)

The header is dropped (witness). Under the conditions of `C01_identity_partial` other than the header, the rest is printed unchanged. `C27_header` (from C49): what is printed is the layout behind the last directive or the marker, then the value, then the layout behind it.

Theorems: `C27_rest_partial`, `C27_header`, `C27_header_refuted`.


### C28 — Integer accessors return exactly the values that fit (proved)

Both directions, over Z, for every text.

Theorems: `C28_integers`, `C28_total`.


### C29 — Inserting and removing items is local (proved)

Contexts as in C07, for insert, push, remove, clear, in block and flow collections.

Theorems: `C29_insert`, `C29_insert_present`, `C29_remove_key`, `C29_clear_mapping`, `C29_push`, `C29_remove_index`, `C29_clear_sequence`.


### C30 — Removed values are released (proved)

Slab invariant: the live slots are exactly the nodes of the tree.

Theorems: `C30_live`, `C30_count`.


### C31 — Documents built with the API read back (proved)

A plan says what to build; `follow` makes the calls for it. By induction on the plan each call's effect on the tree (C09) keeps the printed text equal to the two-space layout of the part built so far (`C31_built`). A function prints trees of any size in that layout and its text is in the grammar of C35 (`C31_layout`). Scalars are those of C38. The exceptions have witnesses: `C31_first_item_refuted` prints a text the parser refuses, `C31_start_refuted` texts that read as other data.

Theorems: `C31_built`, `C31_layout`, `C31_first_item_refuted`, `C31_start_refuted`.


### C32 — A key without a value reads as null (partial)

Proved for all keys but the last; the last is refuted, and C32_last_empty proves that it is the empty string in every such mapping.

Theorems: `C32_keys_partial`, `C32_last_empty`, `C32_last_key_refuted`.


### C33 — UTF-8 in, UTF-8 out (proved)

`utf8_spec` ties the model's check to the definition of the encodings of code points (`Valid.v`). UTF-8 boundaries in the parser induction; edits with UTF-8 arguments keep it.

Theorems: `C33_printed`, `C33_values`, `utf8_spec`.


### C34 — A flow list of well-formed items reads back as that list (proved)

The text is in the grammar of C35.

Theorems: `C34_flow_list`.


### C35 — Texts of a grammar are accepted, mean what they say and print back (proved)

`Reads.v` describes, tree by tree, the surroundings in which a printed tree is read as that tree, and `ReadsSound.v` proves that the parser does so. `GrammarSound.v` derives the grammar from it by mutual induction.

Theorems: `C35_grammar`.


### C36 — Deserialization presents the document's data (proved)

The dispatch of every method is computed by cases on the value. The recursive visitor draws the entries through the modelled `next_key_seed`, `next_value_seed` and `next_element_seed`; induction on the tree of the document.

Theorems: `C36_presents`, `C36_gathers`.


### C37 — The text written by each setter (proved)

From the effect of each call on the tree (`Edit.v`): the value is the scalar the call writes, and its printed text is read off case by case.

Theorems: `C37_text`.


### C38 — Edited documents print texts that read back as the edited data (proved)

The grammar is stated on trees (`Laid.v`, `LaidText.v`). `Swap.v`, `Repost.v`, `Grow.v` and `Open.v` prove that exchanging, appending and removing values keeps a tree in the grammar as long as the text around the place allows it; `Tidy.v` proves that tidy texts load to such trees. `Back.v` carries this invariant through every call of a session (`Session.v`), by induction; C35 then reads the printed text.

Theorems: `C38_session`, `C38_set`, `C38_insert`, `C38_push`, `C38_remove`, `C38_remove_item`.


### C39 — Every edited document reads back (partial)

Eighteen witnesses by computation (`RefutedBack.v`). Each text reads back before the call. The positive part is C38.

Theorems: `C39_session_partial`, `C39_set_empty_refuted`, `C39_set_comment_refuted`, `C39_remove_comment_refuted`, `C39_insert_comment_refuted`, `C39_push_comment_refuted`, `C39_set_after_comment_refuted`, `C39_insert_block_scalar_refuted`, `C39_clear_refuted`, `C39_clear_flow_refuted`, `C39_remove_directive_refuted`, `C39_remove_marker_refuted`, `C39_remove_last_refuted`, `C39_empty_string_refuted`, `C39_flow_string_refuted`, `C39_flow_bool_refuted`, `C39_flow_make_refuted`, `C39_key_refuted`, `C39_header_refuted`.


### C40 — Lines of a block scalar lose exactly their outer white space (proved)

`White.v` defines the white space characters by their code points and `trimmed` by: what is cut off on either side is a sequence of such characters, and what is left neither starts nor ends with one. `trim_spec`: the model's trim computes exactly this. The reading theorem is an instance of the reading relation of C35.

Theorems: `C40_trimmed`, `trim_spec`.


### C41 — to_string replaces exactly the invalid UTF-8 (proved)

`Valid.v` defines encodings of code points by arithmetic, and `made_valid` by maximal bad parts; `lossy_spec`: the model's decoder computes exactly this relation. `C41_shown` combines this with the lexeme account of C02. `C41_valid` is an induction on the tree of the document.

Theorems: `C41_shown`, `C41_valid`, `lossy_spec`.


### C42 — Errors point at what they report (proved)

A logic of errors on the abstract parser (`Located.v`: each error that can be raised is where it should be, as an invariant of every parser function), carried over by `refine`. Non-vacuity: the examples in the documentation of error.rs, and more.

Theorems: `C42_points_at`, `parse_located`.


### C43 — The text of an error tells its kind and its place (proved)

The model is in `ErrorText.v`. Names contain no bracket and numerals only digits, so the text can be taken apart.

Theorems: `C43_shows`, `C43_nothing_lost`.


### C44 — Every scalar and key of an accepted text shows what its own characters say (proved)

`told` and `told_key` (first part of `Lexed.v`) say what a piece of text shows, without the parser. A pass over the abstract parser (`Lexed.v`) proves them for every scalar and key, carried over by `refine`. Double-quoted text may also end at a NUL or the end of the input, as the parser allows. Non-vacuity: a text with each kind of scalar; a wrong reading is excluded by `C44_definite`.

Theorems: `C44_scalars`, `C44_keys`, `C44_definite`, `parse_lexed`.


### C45 — as_raw gives a string's text as written or as set (proved)

The model is in `Handles.v`. Read strings: the pass for C44 records how the stored original relates to the string. Edits: an invariant of every call (`effect_raw`).

Theorems: `C45_raw`, `C45_source`.


### C46 — into_any_mut tells the kind of a value and keeps its id (proved)

The model is in `Handles.v`; by cases on the node.

Theorems: `C46_any_mut`.


### C47 — The accepted texts are exactly those a declarative syntax describes, with exactly its data (proved)

`stands_for` (`Means.v`) gives the rules over places of the text, without the parser or any of its scanning functions except `count_indent` for columns, which `C47_column` states independently. Soundness (`MeansSound.v`): a pass over the abstract parser. Completeness (`MeansComplete.v`): induction on the rules, evaluating the parser. Each primitive (layout, quotes, numbers, words, keys, block scalars) is evaluated exactly and its rule proved to be deterministic (`Places.v`). Carried over by `refine`. Non-vacuity: a text derived by the rules alone; texts that are not YAML; refused texts.

Theorems: `C47_exact`, `C47_accepts`, `C47_means`, `C47_one`, `C47_refused`, `C47_column`, `means_sound`, `means_complete`.


### C48 — The hash of the string table has no influence on what is read and written (proved)

Both readings are related to the abstract parser, which has no hash, by `refine`. The start of one kind of error span depends on the length of an interned string and may differ with a collision, so the claim is about the end and the kind. After edits: `C48_edits`, from the twins of C53.

Theorems: `C48_hash`, `C48_writes`, `C48_outcome`, `C48_edits`.


### C49 — Every accepted text is written back as exactly the text a set of rules gives (proved)

`printed` (`Printed.v`) gives the output by rules that follow those of C47 and name what is kept, dropped and put in. Soundness (`PrintedSound.v`): a pass over the abstract parser, relating the trees it builds to the rules; completeness (`PrintedComplete.v`): induction on the rules, evaluating the parser. `models_write_to` relates trees to `write_to`. Non-vacuity: one text derived by the rules alone; one text for each way of changing; an unchanged text.

Theorems: `C49_exact`, `C49_writes`, `C49_one`, `C49_means`, `C49_identity`, `printed_sound`, `printed_complete`.


### C50 — Exactly which texts are refused, with which error at which place, and which never return (proved)

`wrong` (`Fails.v`) follows the rules of C49 up to the first place where none applies and says what is reported there. Soundness (`FailsSound.v`): a pass over the abstract parser that carries the rules of C49 for what was read and those of C50 for the failure; completeness (`FailsComplete.v`): induction on the rules, evaluating the parser along them with `puts_eval` (C49) for what is read before the failure. `refine` carries both to `from_slice`. Totality and exclusion follow because the fuel suffices. Non-vacuity: one text derived by the rules alone, one text for each kind of error, one that never returns.

Theorems: `C50_exact`, `C50_stuck`, `C50_error`, `C50_reports`, `C50_total`, `C50_one`, `fails_sound`, `fails_complete`.


### C51 — Output to a sink that fails: what it received and what is reported (proved)

`Sink.v` models both renderers again, call by call, on an arbitrary sink (state, error and result of one call are parameters), with the escape loops of the code (chunks between `memchr` hits, pending piece and index) that `Render.v` gives in closed form. `SinkProps.v`: each action makes a list of calls that is the same for every sink and whose concatenation is the output of `Render.v`; for `display` this needs that lossy decoding may be cut between chars. `feed` (make the calls in order, stop at the first error) is the specification. How `write!` cuts its text into calls is arbitrary. Non-vacuity: buffers of 20 and 200 bytes, the noted calls of edited strings with escapes and invalid bytes.

Theorems: `C51_calls`, `C51_display_calls`, `C51_value_calls`, `C51_beginning`, `C51_display_beginning`, `C51_room`, `C51_display_room`, `C51_fine`, `C51_error`, `C51_cut`.


### C52 — How deep calls nest (proved)

`Depth.v`: the entry points with the number of nested calls as a parameter (the definitions of `Parser.v` and `Render.v` at that fuel), and `nesting` of data. `DepthProps.v`: a larger limit changes nothing but reaching it (congruence through all loops); the abstract parser of `Abs.v` that returns a tree had at least as much fuel as the tree is nested, and returns it with any fuel that large (the loops only append to their items); `Refine.v`'s simulation at every fuel carries both to the parser; the same for the printers by induction on the tree. Removing (`drop_need`) threads the slab through the items as `Edit.drop_tree` does. Nesting is that of the data shown, with or without hash collisions. Non-vacuity: a text five deep with 4 and 5 calls, a refused text, an edited document, `[[[]]]`.

Theorems: `C52_read`, `C52_refused`, `C52_length`, `C52_write`, `C52_display`, `C52_replace`, `C52_brackets`, `C52_no_bound_refuted`.


### C53 — A snapshot gives the document back, for reading and for further edits (proved)

`Snapshot.v` models the stored form (the entries of the two maps in any order, free slots left out) and loading it, with the slab crate's `Builder` (its free list is rebuilt in an order that depends on the entries). `Restore.v`: what is loaded has the same lookups and the same occupied slots, on a slab with a sound free list. `Twins.v`: `effect` of `Edit.v` gives trees of the same shape (ids forgotten) on trees of the same shape at the same path, so two documents of one shape stay of one shape under the same calls; hash functions may differ as well.

Theorems: `C53_takes`, `C53_restore`, `C53_start`, `C53_same`, `C53_places`, `C53_answers`, `C53_calls`, `C53_later`, `C53_play`.


### C54 — Removed values give their slots back (proved)

The free list of `Slab.v` (`slab_wf`) holds every free slot, so an insertion takes a new slot only if none is free (`has_grow`). Every part of a call of `Api.v` either leaves the number of slots alone or inserts an item and its value at once. The simulation of `Refine.v` carries that the parser has no free slots. `peaks` is a history with the largest number of entries so far. Non-vacuity: a history of clearing and inserting with its counts.

Theorems: `C54_parse`, `C54_call`, `C54_peak`, `C54_built`, `C54_snapshot`, `C54_strings_stay`, `C54_strings_unbounded`.


### C55 — Debug output shows values with the white space before them (proved)

`Debug.v` models the builders of `core::fmt` (with the adapter that indents for `{:#?}`) and the `Debug` impls of the crate. The statements say what is indented (`indented`: every line gets four columns) and which values are left out (`without_text`, in terms of `as_any`, the iterators and `Display`) without the model's functions; the prefix is left out exactly for the nodes whose writer writes nothing, which needs that a null written as a keyword has a text (`Lexed.v`). Non-vacuity: a mapping with a nested mapping, a flow sequence and an empty null in both formats.

Theorems: `C55_value`, `C55_mapping`, `C55_sequence`, `C55_display`, `C55_any`, `C55_dead`, `C55_document`, `C55_id`, `C55_error`.


### C56 — Documents are linear in their text (proved)

Induction over the rules of `Means.v`, which say which texts stand for which data: every value needs a byte of its own (a dash, a colon, a comma or a bracket), the root none. C47 carries this to the parser, C30 and the tree of the document to the slots, C54 to the slots after calls. `PropsSize.v` counts what each call inserts and drops. `C56_tight` is a family of texts, `[,,…,]`. Non-vacuity: `:` has two values and three slots, as many as the bound allows.

Theorems: `C56_text`, `C56_slots`, `C56_built`, `C56_call`, `C56_calls`, `C56_any`, `C56_tight`.


### C57 — How editing calls combine (proved)

Two values of a tree either contain each other or stand in two separate holes (`two_holes`); the indentation that `make_mapping` looks for comes from the ancestors, so it does not see the other hole. The effects of the calls (`Edit.v`) then give trees of the same shape, ids aside, and such trees stay so under the same calls at the same places (`Twins.v`, C53): `alike` says this with lists of later calls. The ids of new entries do depend on the order (`c57_slots`), so handles are compared by their place. `c57_needed` has a case for each exception in the statement.

Theorems: `C57_runs`, `C57_commute`, `C57_last_set`, `C57_clear`, `C57_last_insert`, `C57_undo_insert`, `C57_undo_push`, `C57_make_again`.


### C58 — Texts one behind the other (proved)

What a value needs of the text behind it is part of the rules of `Grammar.v`. `Join.v` proves by induction over these rules that layout ending at column 0 may be followed by anything that starts at column 0: values deeper in the text end there, block scalars keep the number of newlines behind them, and the mapping or sequence at column 0 goes on. C35 then reads the joined text. Non-vacuity: a file that ends with a block scalar and two newlines, and a second file; `c58_needed` has a case for each condition.

Theorems: `C58_maps`, `C58_seqs`, `C58_lead`.


### C59 — Texts further to the right, below keys and below dashes (proved)

`Nest.v` defines the moved text (`shift`) and proves by induction over the rules of `Grammar.v` that the moved text follows the same rules, k columns further right, with the same data; conditions on what follows a value move along. The texts excluded are those in which a string of the data is written over several lines in quotes or in a flow collection (`calm`, with a check that can be computed). A moved text below a key or a dash is then a file in the sense of C58, and C58 puts the files together. Non-vacuity: a mapping with a quoted string and a block scalar with an empty line, below two keys and below two dashes; `c59_needed` shows the exceptions.

Theorems: `C59_shift`, `C59_keys`, `C59_dashes`.


### C60 — Texts with CR LF line ends (partial)

False as given: `null` and words at the end of a line are read with the CR (`C60_same_refuted`). `Crlf.v` maps the places of a text to those of the text with CR LF and proves by induction over the rules of C47 (`Means.v`) that every value is found again at the mapped place; `cr_datum` says how the data may differ: a word at the end of a line that is no number becomes a string ending with CR, and strings and keys may have a CR before newlines. Numbers, block scalars, keys of one line, and the structure are the same. Data of numbers only is the same (`C60_numbers`). The same map taken backwards shows that a text accepted with CR LF is accepted without (`C60_accepted`). Missing: `cr_datum` relates data, not texts, so it does not tell a word from the same string in quotes.

Theorems: `C60_same_refuted`, `C60_crlf_partial`, `C60_accepted`, `C60_numbers`.


### C61 — Lines of white space and comments in front of a text (proved)

`Lead.v` shows for any text put in front that ends with a newline that all the rules of C49 (`Printed.v`, what is read and written) and of C50 (`Fails.v`, what is reported) hold at every place moved by its length, by mutual induction over these rules, and that layout in front is skipped. Both directions follow since the rules are complete and leave no choice (C49, C50). The errors carry the condition of C50 on the hash. `has_header` is stated on the text alone and proved to be what the parser decides.

Theorems: `C61_accepted`, `C61_same`, `C61_hang`, `C61_error`, `C61_errors`.


### C62 — White space behind a text (proved)

`Trail.v` maps every place of the text to its place in the longer text (only the end moves) and shows by mutual induction over the rules of C47 (`Means.v`), once in each direction, that they hold at mapped places. The data of both is related by `tail`: equal, but for white space at the end of the last string. `string_last` is stated on the data alone. The same is shown for the rules of C49 and C50 (`Printed.v`, `Fails.v`) from the text to the longer text, which gives the errors and hangs; the other direction follows since the rules of C50 leave no choice. Layout before a missing bracket starts at the same place in both (`back`).

Theorems: `C62_accepted`, `C62_same`, `C62_value`, `C62_hang`, `C62_error`, `C62_errors`.


### C63 — Errors in texts with CR LF line ends (proved)

`CrlfErr.v` takes the map of places of C60 (`Crlf.v`) and shows by mutual induction over the rules of C49 and C50 (`Printed.v`, `Fails.v`) that every error of a text is an error of the text with CR LF at the mapped places. Since the rules of C50 leave no choice, and cover everything that is not accepted, the other direction follows with C60_accepted. The theorem counts newlines (`afterwards`) and does not use the map. The start of a missing bracket is left out since it need not be at the same byte: `C63_start_refuted`, with a block scalar in front of the missing bracket.

Theorems: `C63_hang`, `C63_error`, `C63_start_refuted`, `C63_errors`.


### C64 — All lines of a text moved to the right (proved)

`Widen.v` maps the places of a text to those of the text with blanks in front of each line, where the column grows by the number of blanks, and shows by mutual induction over the rules of C47 (`Means.v`) that they hold at mapped places with all columns raised. `WidenErr.v` does the same for the rules of C49 and C50. That a refused text stays refused gives the other direction, since the rules of C50 cover all that is not accepted and leave no choice. `sp_datum` relates data, so it does not tell block strings, which are the same, from strings in quotes. C59 has the same for the texts of the grammar, with empty lines left empty. The start of a missing bracket is left out since it need not move along: `C64_start_refuted`, with a block scalar and a comma in front of the missing bracket.

Theorems: `C64_accepted`, `C64_data`, `C64_same`, `C64_hang`, `C64_error`, `C64_start_refuted`, `C64_errors`.


### C65 — Tabs, spaces and other blanks are interchangeable (proved)

`Blanks.v` shows by mutual induction over the rules of C49 and C50 (`Printed.v`, `Fails.v`) that what they say of a text they say of each text that differs in blanks only (`near_text`), at the same places, with data and written text that differ in blanks only (`near_datum`). Columns agree since characters are decoded alike, and trimmed lines since all four blanks are Unicode white space of one byte. The relation is symmetric, so one direction is enough. The start of a missing bracket is exact here, unlike in C63 and C64, as layout keeps its length.

Theorems: `C65_accepted`, `C65_data`, `C65_same`, `C65_hang`, `C65_error`.


### C66 — Anchors, aliases, tags and other characters without a meaning (proved)

`Inert.v` is `Blanks.v` for another class of bytes: mutual induction over the rules of C49 and C50 (`Printed.v`, `Fails.v`) for texts that differ in these characters only, at the same places. No rule names one of them, and numbers, keywords, escapes and encodings of white space have none. The theorems are those of C65 for the other relation.

Theorems: `C66_accepted`, `C66_data`, `C66_same`, `C66_hang`, `C66_error`.


## 5. Wrong programs

`seeded/LOG.jsonl`: chosen wrong versions of the model's definitions, with the claim each breaks, the
theorems that fail and the theorems that were added or tightened because of it. `seeded/SWEEP.jsonl`: one
line for each of 849 single edits made mechanically (constants, comparisons, branches, results) to all
definitions of `Api.v`, `Bytes.v`, `Data.v`, `ErrorText.v`, `Handles.v`, `Num.v`, `Render.v`, `Serde.v`, `Sink.v`, `Utf8.v` and, in step with the abstract parser of
`Abs.v`, `Parser.v`. All edits that type check make a proof fail except seven, in code that is not reachable
or where the edit changes nothing.
