# A Rocq model of Boyux/rust-json

Source: `/repo` (read only).  Model and proofs: `/verif/rocq/theories`, Coq 8.16.1.

## How the code is modelled

* `char` is its code point (`N`), `&str`/`String` is the list of its `char`s.  The code never looks
  at bytes except in `encode_utf8`/`str::from_utf8`, `String` comparison and `buf.index(1..)` after
  an ASCII character; the first two are modelled on bytes, the order on UTF-8 bytes is proved equal to the
  order on code points.
* `Result` is `res`: `Ok | Err {kind; msg} | Panic | Fuel`.  `Fuel` is produced only when the explicit
  recursion fuel of `_parse` runs out; it is proved never to happen.
* `f64` is the standard library's `spec_float` (precision 53, emax 1024).  `str::parse::<f64>`, `f64::to_string`, and the `as`
  casts are the Rust standard library's, not this crate's: they are modelled by their documented contract
  (correct rounding, shortest round-tripping digits, truncation with saturation).
* `HashMap<String,_>` is an association list.  The list order stands for the iteration order, which is
  unspecified; the model's operations keep the list in ascending key order as canonical form, and
  everything that iterates is shown not to depend on the order (`same_value`).
* A function that takes `&mut self` returns the new value beside its result, also on `Err`.
* Memory exhaustion and stack overflow are not modelled, except the `Vec` capacity overflow of `set`.

## Properties

See `properties.jsonl` for the text and `MANIFEST.json` for the theorem names.

| id | modelled | proof |
|----|----------|-------|
| C01 | `_parse` and the four sub-parsers on fuel | inner texts are strictly shorter; no `Panic`, no `Fuel` |
| C02 | RFC 8259 grammar as inductive relation with denotation | scanner lemmas, mutual induction; refutations for the full statement |
| C03 | same | refuted by witnesses; lenient grammar for what is accepted |
| C04 | string grammar | inversion of the string loop both ways |
| C05 | `trim_matches` | list lemmas |
| C06 | `wf` predicate | induction on fuel |
| C07 | decimal denotation over Q/R, Flocq `round` | Flocq `binary_round_correct`, `Bdiv_correct_aux` |
| C08 | members as list, spec `filter` | induction on members |
| C09, C10, C13 | `to_string`, `escape` | printed text is derivable in the grammar + C02 |
| C11, C12 | sort of entries, permutation | uniqueness of sorted permutations |
| C14, C15, C16 | `escape`, `hex`, UTF-8, floats | bit lemmas; Flocq |
| C17-C25, C38, C39 | `Path`, `Finder`, `parse_path` | induction on paths |
| C26, C27 | op sequences | refinement to spec multimap / list |
| C28, C35 | text-level functions | composition |
| C29-C34 | codecs as records | parametric lemmas, Flocq for numbers |
| C36, C37 | derive output as a function of a field list | induction on fields |
| C40 | grammar unambiguity | reference reader |
| C41, C42 | writing through `find_mut`; well-formedness of every edit | induction on paths |
| C43, C44 | a table of errors; which rule blames which part of a rejected text | an inductive relation `Blame` proved functional and total against the parser |
| C45, C46 | key texts of each key type; the JSON form of each convertible type | inductive form relation, induction on the type |
| C47-C51 | tokens, `parse` crate (attributes, types, generics, fields, structs), key/ignore handling of both macros | declarations as programmers write them (`SpecTokens`, attributes in `SpecAttr`), rendered to tokens, parsed back |
| C52 | `f64::to_string` contract | Flocq: monotone rounding, 17 digits always suffice, minimality and closeness over all decimals |
| C53 | whole `to_string` | rule system `prints`, proved equivalent and functional |
| C54 | derived `PartialEq` on `Json` | decides `SpecEquality.equal`; induction on the value |
| C55 | `Display` of errors | the kind names contain no colon |
| C56 | order parameter of every conversion | two runs on permuted maps related; counterexamples for the two exceptions |
| C57 | fuel of `_parse` as call depth | scanner invariant: the collected text has the counted level; fuel monotonicity |
| C58 | the two scanner loops again with i32 counters (`Parse32`), panicking or wrapping | lock-step with `Parse` |
| C59 | the parser again with a step counter (`Cost`) | potential: steps so far plus (levels left) x (characters left); erasure theorem |
| C60 | `quote!` as an ordered list of rewriting rules on tokens (`Quote`) | relational meaning of the documented forms (`SpecQuote`); one lemma per form that its rule is the first to match, then mutual induction |
| C61 | the two templates of the macros as text, expanded by `Quote` (`Macros`) | templates split into fixed code and holes, each expanded by the lemmas of C60; composed with C46-C48 |
| C62 | the generated tokens, read and run by a small semantics of Rust (`SpecRust`) | the generated code is parsed once and for all (`encode_reads`, `decode_reads`), then run by induction on the fields; related to `Derive` through C46-C49 |
| C63 | `StructItem::parse` and `Fields::parse` in all forms; declarations as a grammar (`SpecItems`) | the splitting lemmas of C50-C53 for tuple fields; attributes before an array are told apart from it by the mark |
| C64 | `EnumItem::parse`, `EnumValueItem::parse`; `TokenStream::to_string` is a parameter with two documented behaviours | a separator passes over a variant; the value's text is read by the same integer reader as the keys (C34) |
| C65 | `FnItem::parse`, `Params::parse`, `__token_num` | the number of tokens of a type by mutual induction on types, exact with the space, too small without it |
| C66 | `json_encode`, `json_decode`, `Item::parse` | the keyword decides; for tuple and unit structs from C63 |
| C67 | `to_string` of items, as the tokens it is read back as | the text is the normalised declaration, which is read to the same item by C63-C65 |
| C68 | `Lit::parse` on one token and the accessors of `Lit` | a data type of Rust's literals; the quotes are cut once if the text is clear; suffixes contain a letter that decimal numbers do not, so exactly the written one is cut; then the characterisation of `FromStr` of integers and floats used for map keys |
| C69 | `MetaItem::parse`, `NestedMeta::parse`, `Meta::parse` | both directions by induction on the nesting: what is written is read (by C68), and what is read was written |
| C70 | `to_string` of attributes, as the tokens it is read back as | induction on the attribute; reading back by C69 |
| C71 | `Meta::get` with every index type, `idents`, `literals`, `pairs`, `groups` | induction on the list and on the index; the maps by induction from the end |
| C72 | `__translate` of the quote crate with fuel for nested calls, `split_tokens_by` at commas | soundness by induction on the fuel, completeness by mutual induction on the meaning; termination by rank, non-termination by induction on the meaning |
| C73 | `quote!` with `@options`, `@span`, `@literal`, `@params`, `@scope` (`QuoteAt`): the rules of the macros over tokens, with fuel | fixed point of the fuelled expansion (`gives`), one lemma per rule; induction on the template |
| C74 | the commands of `@scope` as a state machine over flag, loop and dictionary | simulation between the dictionary and a library of variables and macros, by induction on the items; refusals by invariants on the state |
| C75 | all editing operations over any hash map (`AnyMap`), and programs that call them: each call chosen by the answers so far | simulation between any two maps through the canonical one, call by call; induction on the number of calls |
| C76 | the existing model of paths and methods (`Path`, `Ops`) | every edit one step down is a function of one map entry or one element; these commute by extensionality of maps and vectors; induction on the common part of the paths |
| C77 | the same | edits of one place compose to the identity on the parent; induction on the path to it |
| C78 | struct declarations that refer to each other by name (`Types`), each with the code of `Derive` | the conversions are cut off at a depth and the depth of a value is proved enough; unique solution by induction on depth; the lemmas of C29-C34 and C36 applied below each constructor |
| C79 | the existing model; `SpecSize` measures texts, values and paths | parsing: induction on the lenient grammar; printing: induction on the layout rules of C53, and the last digit of the shortest decimal of a double is never behind the 324th place (Flocq: doubles are at least 2^-1074 apart); edits: sums over maps and vectors |
| C80 | the existing model | prefixes of what the scanners copy are copied and end without a closing bracket; a text accepted by a loop is not with something after it (induction on the loops) |
| C81 | the existing model; `SpecMonotone` the order of floats over the reals | from correct rounding alone (C07, C30, C31, C52): nearest values cannot cross; a printed decimal is read back, so its order follows from reading |
| C82 | the existing model of the derived code (`Derive`); `SpecEvolve` what it means for a field to have a value, and one declaration to cover another | from the characterisation of reading (C37) and writing (C36); both declarations' fields are tied through the one member of the object |
| C83 | the existing model; `SpecScalars` what replacing scalars means | naturality of every operation by induction on the path; equality is equality after dropping signs of zeros, which is one such replacement |
| C84 | the existing model; `SpecJoin` texts side by side and what they denote | the lenient grammar of the accepted texts (C03): its pieces end where the first separator at depth 0 stands, so splitting is a function |
| C85 | the existing model; `SpecSpan` places and parts | inversion of the RFC grammar level by level along the path, with a rebuilding function for every replacement; objects by the grouping of members |
| C86 | the existing model; `SpecMinify` texts without white space outside strings | induction on the RFC grammar: minifying a derivation gives a derivation without white space |
| C87 | the existing model; `SpecJoin` | C84 takes the rows apart; objects are determined by the grouping of their members |
| C88 | the existing model; `SpecRetype` the relation becomes between values of two types | induction on the writer's type and on the reader's; hash map contents as groups of pairs up to order |
| C89 | the existing model | C85 at the place the path leads to; update of an existing single value is writing through the reference, discard is delete or remove in the container |
| C90 | the existing model; `SpecSeries` series of edits of texts and of documents | invariant: the document is well formed, finite and balanced, so it prints and reads back (C09) |

## Files

`Base F64 Utf8 Json Parse Print Ops Path Convert Derive Tokens Equality Display Parse32 Cost Quote Macros Items Meta Translate QuoteAt AnyMap Types` are the model.  Every `Spec*` file is a specification that can be
read without the proofs and refers to the model only for the data types it talks about.  `*Proofs` are lemmas, `Props*` hold the theorems
named in `MANIFEST.json`, each next to an `Example` that shows its hypotheses can be met.
`Tests.v` replays the repository's own unit tests and the readme's examples on the model.

## Trusted base

* Coq 8.16.1's kernel (with its `vm_compute`), and the `coqchk` run of the gate.
* The axioms of the standard library that `Print Assumptions` lists, and no others:
  * nothing (“Closed under the global context”) — 263 theorems: all theorems of the manifest not named below.
  * `ClassicalDedekindReals.sig_forall_dec`, `ClassicalDedekindReals.sig_not_dec`, `Classical_Prop.classic`, `FunctionalExtensionality.functional_extensionality_dep` — 134 theorems: `at_most_is_le`, `attribute_lists_read`, `attribute_text_reads_back`, `attributes_are_looked_for`, `attributes_mean_one_thing`, `attributes_read_exactly`, `attributes_token_num`, `bare_extern_is_forgotten`, `constants_and_defaults_spoil_the_header`, `conversion_errors_are_convert_errors`, `conversions_ignore_order`, `converted_value`, `converts_iff_fits`, `decode_encode`, `decoding_ignores_order`, `denoted_double_correctly_rounded`, `derived_header_in_general`, `derived_header_repeats_the_parameters`, `derived_reader_covers_the_declared_fields`, `derived_text_round_trip`, `derived_writer_covers_the_declared_fields`, `documents_outlive_types`, `empty_enums_are_refused`, `encoding_is_linear`, `enum_texts_read_back`, `enums_are_read_as_written`, `equal_after_round_trip`, `equal_numbers_convert_alike`, `equal_values_behave_equally`, `equal_values_convert_alike`, `equal_values_print_alike`, `equality_decides`, `equality_ignores_only_order_and_zero_signs`, `equality_is_an_equivalence`, `everything_is_json`, `extended_output_rejected`, `f32_round_trip`, `f32_to_number_keeps_order`, `f32_to_same_number`, `fails_with_the_first_error`, `function_texts_read_back`, `functions_are_read_as_written`, `functions_without_parameters_are_refused`, `generated_code_is_for_the_described_fields`, `generated_code_round_trips`, `generated_from_json_runs`, `generated_to_json_runs`, `histories_are_those_of_the_model`, `integer_round_trip_iff`, `integer_to_integer_keeps_order`, `integer_to_nearest_double`, `integer_to_number_keeps_order`, `integers_are_clamped`, `json_decode_generates`, `json_encode_generates`, `keys_are_read_as_these_texts`, `keys_are_written_as_these_texts`, `keys_must_be_strings`, `keys_read_back`, `literals_read_as_written`, `literals_refused`, `macros_refuse_other_structs`, `narrow_integers_round_trip`, `negative_values_depend_on_the_compiler`, `newer_documents_read`, `no_program_sees_the_order`, `number_length`, `number_text_correctly_rounded`, `number_text_round_trip`, `number_texts_keep_order`, `number_texts_reflect_order`, `number_to_f32_keeps_order`, `number_to_nearest_f32`, `older_documents_lack`, `other_types_fail`, `output_self_delimiting`, `own_type_gives_it_back`, `parsed_values_well_formed`, `paths_in_parameter_types_are_refused`, `print_parse_round_trip`, `printed_layout`, `printed_members_assemble`, `printed_never_misread`, `printed_number_digits`, `printed_number_is_shortest`, `printed_numbers_keep_order`, `printed_text_is_determined`, `printed_text_is_printable_ascii`, `printed_text_is_valid_json`, `printed_then_minified`, `printed_values_are_parts`, `printed_values_assemble`, `printing_is_linear`, `programs_get_the_answers_of_the_methods`, `reading_after_text_edits`, `reading_succeeds_iff`, `recursion_is_not_bounded`, `recursive_text_round_trip`, `recursive_values_round_trip`, `repeated_keys_have_several_stretches`, `reprinting_is_linear`, `results_with_calls_depend_on_the_compiler`, `same_number_same_value`, `small_integers_round_trip`, `smaller_numbers_accepted`, `some_bodies_are_refused`, `string_text_round_trip`, `struct_texts_read_back`, `structs_are_read_as_written`, `text_at_another_type`, `text_del_cuts_a_stretch`, `text_del_is_linear`, `text_del_result`, `text_edits_are_document_edits`, `text_get_after_set`, `text_set_inv`, `text_set_is_linear`, `text_set_keeps_others`, `text_set_outcome`, `text_set_replaces_a_stretch`, `to_json_legal`, `to_string_injective`, `truncated_output_rejected`, `types_are_read_at`, `types_may_change`, `unbalanced_encoding_fails`, `values_are_written_in_this_form`, `values_round_trip`, `what_is_read`, `what_it_becomes_is_determined`, `where_clause_of_a_unit_struct_is_lost`, `whole_numbers`, `wider_integers`, `wrapped_counters_can_be_right`.
  * `ClassicalDedekindReals.sig_forall_dec`, `FunctionalExtensionality.functional_extensionality_dep` — 14 theorems: `attribute_text`, `attribute_text_changes`, `exact_keys_are_unambiguous`, `floats_as_wider_floats`, `integers_as_floats`, `kinds_do_not_mix`, `layout_is_unique`, `lists_element_by_element`, `maps_as_maps`, `maps_as_pairs`, `number_to_integer`, `number_to_integer_keeps_order`, `out_of_some`, `some_of_it`.
  They come from the real numbers (`Reals`), used by Flocq and by the statements about rounding.  Library constants that the gate
  lists besides (`Rdefinitions.RbaseSymbolsImpl.*`, `ssr.ssrunder.Under_rel.*`) are sealed definitions of the standard library, not axioms.
* That the model is the code: each definition cites the lines it was read from.  Nothing is extracted or run.

## What is modelled

* `src/lib.rs`: all of `Json` (parse, print, `kind`, object and array operations, find/find_mut/set/discard and the four text-level
  functions, `Index`/`IndexMut`), `parse_path`, `Path`, `Finder`, the macros, every `ToJson`/`FromJson` and key implementation, the error kinds and texts.
* `json_derive/src/lib.rs`: both macros, from tokens to the list of (key literal, field, type), and the meaning of the code they generate.
* Programs of several derived structs that refer to themselves and each other by name (`Types`).
* `json_derive/quote/src/lib.rs`: `quote!` with all documented forms.
* The language of the generated code (`SpecRust`, a specification): paths, calls, methods, `?`, `match`, `if let`, `let`, struct literals, blocks
  with scopes and shadowing; the methods of `HashMap`, `Option`, `Result`, `Json` and `Error` that the templates name.  References are erased, types
  only decide which conversion `<T as Trait>::f` calls, and `Default::default()` in a struct literal is the default of that field's type.
* `json_derive/parse/src`: `utils`, `meta`, `name`, `generic`, `field`, `enum_value`, `param` and `lib`.  `TokenStream::to_string` is a parameter
  (`render`): the crate looks at its result for the value of a variant and for the number of tokens of a function type, and compilers differ in the
  spaces they write; theorems that depend on it say so (`compiler`, `joins_minus`, `spaces_calls`, ..), and `PropsItems` has a witness for each.

## What is not modelled, or simplified

* The Rust standard library: `f64` parsing/printing/casting by their documented contracts; UTF-8 encoding and decoding are modelled.
* Resources: memory and time (the depth of recursion and the characters read are counted, C57 and C59, but there is no stack limit).  The scanner's `i32` counters are unbounded integers in `Parse`; `Parse32`
  has them as they are, and C58 shows that it makes no difference up to 2^31 characters.  `usize` is 64 bits wide.
* NaN has one representation; its payload and sign are not distinguished (`Json` has no operation that does).
* The hash map's iteration order is a parameter (`order`, any permutation) where it can matter.
* `Default` of an ignored field is a constant.
* In `Types` a type with parameters stands with its arguments filled in, so that a struct that uses itself with ever larger arguments is not covered.
* Of the `quote` crate spans are not modelled, nor the compiler's recursion limit.  In the forms with an at sign (`QuoteAt`) code that is not
  executed is assumed to compile, operators that the compiler reads back are taken as they were written, and a statement in `#execute` has no effect
  on the variables of the template.  The
  compiler's rendering of tokens to text with spaces and its reading of them is trusted: C61 holds for every reader that gives back the same tokens
  up to spacing.  The texts of the templates are turned into tokens by the small lexer in `Quote`.  Compiler messages of the macros are not modelled; errors and panics of a macro are one outcome, failure.
* Of the `parse` crate, error texts and `Debug` are not modelled.  Texts of items are
  modelled as the tokens they are read back as.
* `debug_assert!` in `Meta::parse` is on, as in debug builds of a macro crate.
