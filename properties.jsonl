{"id": "C01", "title": "Parsing a named struct never panics", "statement": "For every struct with named fields whose schema the derive macro accepts, calling the generated parser on any token streams returns Ok or Err; the `unreachable!()` / `unwrap` calls that the macro generates after the error check are never reached, and every error value it returns contains at least one message.", "quantifier": "all accepted named-struct schemas (any number of fields, any mix of plain, default, skip, flatten, append, rest, container fields, any field parsers, transforms and struct-level and_then functions that themselves do not panic), all modes, prefixes and token streams", "why_tests_cant": "Generated code runs over unbounded token streams and user schemas; a test fixes both.", "anchors": ["macros/types/field.rs: Field::to_pre_post_tokens, Field::to_parsing_tokens", "macros/parse_meta_item.rs: impl_for_struct", "core/util.rs: Errors::check"]}
{"id": "C02", "title": "Parsing a derived enum never panics", "statement": "For every enum the derive macro accepts, the generated parser returns Ok or Err on any token streams; it never reaches its `unreachable!()`.", "quantifier": "all accepted enum schemas (any variants, flattened or not, transparent or not, with any field transforms), all inputs", "why_tests_cant": "The panicking path depends on a combination of schema options and input; finitely many tests cannot exclude it.", "anchors": ["macros/types/variant.rs: Variant::to_parsing_tokens, Variant::to_field_parsing_tokens"]}
{"id": "C03", "title": "Parsing terminates", "statement": "Parsing any token stream into any collection, set, map, tuple, array, struct or enum terminates, whatever the element parsers do, provided each element parser itself returns and only consumes input from the front.", "quantifier": "all element/field parsers that only advance the stream, all finite token streams", "why_tests_cant": "Non-termination can only be excluded by an argument over all inputs.", "anchors": ["core/parse_meta.rs: impl_parse_meta_item_collection, impl_parse_meta_item_set, impl_parse_meta_item_map, Punctuated", "core/parse_helpers.rs: parse_struct, parse_tuple_struct"]}
{"id": "C04", "title": "Named struct round trip", "statement": "If each required field of a named struct (no flattened fields) is written once as `name = value`, `name(value)` or `name`, in any order, under any of its names or aliases, separated by commas with an optional trailing comma, and each value parses on its own to v_i, then parsing yields exactly the struct whose i-th field is the transform of v_i; optional fields left out take their defaults.", "quantifier": "all schemas without flat fields, all subsets of optional fields present, all orders of the items, all spellings of each item, all field parsers that accept the written value leaving the following comma", "why_tests_cant": "Permutations x aliases x schemas is unbounded.", "anchors": ["macros/types/field.rs: Field::to_parsing_tokens (875-933), to_pre_post_tokens", "core/parse_helpers.rs: parse_struct, FieldStatus::parse_named_item_with"]}
{"id": "C05", "title": "Field order is irrelevant", "statement": "Permuting the comma separated items given to a derived named struct without flat fields does not change whether parsing succeeds nor the value produced.", "quantifier": "all schemas without flat fields, all item lists and permutations of them", "why_tests_cant": "n! permutations of unbounded n.", "anchors": ["macros/types/field.rs: Field::to_parsing_tokens", "core/parse_helpers.rs: parse_struct"]}
{"id": "C06", "title": "A missing required field is always reported", "statement": "If a field of a named struct has no default, its type gives no value when missing, the struct has no struct-level default, and none of its names occurs among the parsed keys, then parsing fails and the returned error contains a `missing required field` message naming that field, spanned at the struct (name of the attribute or the whole input).", "quantifier": "all schemas, all inputs in which no key equals a name of that field", "why_tests_cant": "Must hold for every schema and every input that lacks the key.", "anchors": ["macros/types/field.rs: to_pre_post_tokens (608-636)", "core/parse_helpers.rs: missing_field_error", "core/parse_meta.rs: ParseMetaItem::missing_meta_item"]}
{"id": "C07", "title": "A repeated field is always reported", "statement": "If two keys in the input name the same non-flattened field (under the same name or different aliases), parsing fails and the error contains `duplicate attribute for` with the field's first name, spanned at the second key; the first occurrence's value is never overwritten.", "quantifier": "all schemas, all inputs with at least two keys of the same field", "why_tests_cant": "Unbounded inputs, alias combinations and other fields' behaviour in between.", "anchors": ["core/parse_helpers.rs: FieldStatus::parse_named_item_with"]}
{"id": "C08", "title": "An unknown key is always reported", "statement": "If a key is not one of the names advertised by field_names(), the struct does not accept all keys and unknown fields are not allowed, then parsing fails and the error contains an `unknown field` message quoting that key at the key's span; conversely, when parsing succeeds, every key was an advertised name.", "quantifier": "all schemas, all inputs", "why_tests_cant": "Unbounded key space.", "anchors": ["core/parse_helpers.rs: check_unknown_attribute, unknown_error", "macros/types/field.rs: 891-920"]}
{"id": "C09", "title": "All item errors are reported, in order", "statement": "Parsing a named struct does not stop at the first bad item: the returned error is the concatenation, in source order, of the errors of every item (duplicate, bad value, unknown key), followed by one missing-field error per absent required field in declaration order. A bad value in one item does not suppress or alter the errors reported for other items.", "quantifier": "all schemas without flat fields, all item lists whose keys are well-formed paths and whose failing values are resynchronised at the next comma", "why_tests_cant": "Error accumulation over arbitrary combinations of failures.", "anchors": ["core/parse_helpers.rs: parse_struct, skip_meta_item, FieldStatus::parse_named_item_with", "core/util.rs: Errors"]}
{"id": "C10", "title": "A default is used exactly when the field is absent", "statement": "A field with a default takes the default's value iff no key naming the field occurs; if the key occurs with a bad value parsing fails rather than falling back to the default; transforms are applied to the default value as well as to a parsed value, in the written order.", "quantifier": "all schemas, all inputs, all default expressions and transforms", "why_tests_cant": "Quantifies over inputs and user functions.", "anchors": ["macros/types/field.rs: to_pre_post_tokens (655-687)", "core/parse_helpers.rs: FieldStatus::or_else"]}
{"id": "C11", "title": "Struct-level default fills absent fields only", "statement": "With a struct-level default, parsing keeps the default struct's field exactly for those fields that are absent and have no field-level default; present fields take their parsed value; a field-level default wins over the struct-level one; no missing-field errors are produced.", "quantifier": "all schemas with a struct-level default, all inputs", "why_tests_cant": "All subsets of present fields over all schemas.", "anchors": ["macros/types/field.rs: to_pre_post_tokens (755-770)", "macros/types/struct.rs: to_parsing_tokens (200-205)"]}
{"id": "C12", "title": "Splitting over several attributes is equivalent to one attribute", "statement": "Parsing a named struct, a collection or a tuple from several attributes `#[a(X)] #[a(Y)]` gives the same success and value as from the single attribute `#[a(X, Y)]`.", "quantifier": "all schemas, all splits of all item lists", "why_tests_cant": "Every split point of every item list.", "anchors": ["core/parse_helpers.rs: parse_struct, parse_tuple_struct, parse_struct_attr_tokens", "core/parse_meta.rs: parse_meta_flat_unnamed impls"]}
{"id": "C13", "title": "Tuple structs are positional with exact arity", "statement": "A tuple struct/tuple without flattened fields parses `(v0, ..., vn)` with an optional trailing comma to the value with those components in order; too few items fail (unless the missing ones have defaults, which must be at the end) and too many items fail.", "quantifier": "all arities, all component parsers, all inputs", "why_tests_cant": "Unbounded arity and inputs.", "anchors": ["core/parse_helpers.rs: parse_tuple_struct", "macros/types/field.rs: 934-1009", "core/parse_meta.rs: impl_parse_meta_item_tuple"]}
{"id": "C14", "title": "Fixed-size arrays have exactly N elements", "statement": "Parsing `[T; N]` succeeds only if exactly N items are present and each parses; the value lists them in order; otherwise an error is returned, never a panic.", "quantifier": "all N, all element parsers, all inputs", "why_tests_cant": "Unbounded N.", "anchors": ["core/parse_meta.rs: impl for [T; N] (458-522)"]}
{"id": "C15", "title": "Vec keeps every element in order", "statement": "Parsing a list of n comma separated items (each of which parses) into a Vec-like collection gives the n values in source order, for every split of the items over the input streams and with an optional trailing comma per stream.", "quantifier": "all n, all element parsers, all splits", "why_tests_cant": "Unbounded lists.", "anchors": ["core/parse_meta.rs: impl_parse_meta_item_collection (524-609)"]}
{"id": "C16", "title": "Collections report every bad element", "statement": "If some elements of a comma separated list fail to parse, the returned error consists of exactly the errors of the failing elements, in order, and good elements do not affect it.", "quantifier": "all element lists where each failing element is resynchronised at its comma", "why_tests_cant": "Any subset of failing elements in unbounded lists.", "anchors": ["core/parse_meta.rs: 542-566"]}
{"id": "C17", "title": "Sets reject duplicates, and keep exactly the given keys", "statement": "Parsing into a set succeeds iff every element parses and no two are equal; the resulting set has exactly those elements; each repeated element yields one `Duplicate key` error.", "quantifier": "all element lists, all element parsers, any equality that is an equivalence", "why_tests_cant": "Unbounded lists.", "anchors": ["core/parse_meta.rs: impl_parse_meta_item_set (611-708)"]}
{"id": "C18", "title": "Maps reject duplicate keys and keep every pair", "statement": "Parsing into a map succeeds iff every key and value parses and no key repeats; the map then contains exactly the written pairs; each repeated key yields one `Duplicate key` error spanned at the key.", "quantifier": "all key/value lists, parsers and key equalities", "why_tests_cant": "Unbounded maps.", "anchors": ["core/parse_meta.rs: impl_parse_meta_item_map (710-836)"]}
{"id": "C19", "title": "Option semantics", "statement": "An Option<T> field is None when absent; when present as a named item it is Some of what T parses (never None, and T's failure is an error, not None); as an unnamed item it accepts exactly `None` and `Some(<T inline>)`.", "quantifier": "all T, all inputs and modes", "why_tests_cant": "All element parsers.", "anchors": ["core/parse_meta.rs: impl ParseMetaItem for Option (411-442)"]}
{"id": "C20", "title": "Flag semantics", "statement": "A Flag field is set iff its name occurs as a bare word; a value after `=` or in parentheses is always an error; an absent flag is unset and never an error. bool: `name`, `name = true`, `name(true)` mean true; `name = false` means false.", "quantifier": "all inputs following the key", "why_tests_cant": "All token sequences after the key.", "anchors": ["core/util.rs: Flag (464-567)", "core/parse_meta.rs: bool (323-347)"]}
{"id": "C21", "title": "Exactly one enum variant is selected", "statement": "For an enum without flattened variants: if parsing succeeds then exactly one key of the input (counting repetitions) is a variant name, the value is that variant's parse, and all other keys are rejected unless unknown fields are allowed; two variant keys always produce an error naming both; no variant key gives the enum default if there is one, and otherwise an error listing the variants.", "quantifier": "all enum schemas without flattened variants, all inputs", "why_tests_cant": "All combinations of keys.", "anchors": ["macros/types/variant.rs: Variant::to_parsing_tokens", "core/parse_helpers.rs: only_one_variant, variant_required"]}
{"id": "C22", "title": "A flattened variant is selected by its fields", "statement": "For enums with flattened variants: if no ordinary variant key is given, the chosen flattened variant is one whose required field names all occur among the keys; and any key belonging only to another flattened variant is rejected when the enum itself is embedded by flatten in a parent.", "quantifier": "all enum schemas with flattened variants, all inputs", "why_tests_cant": "All combinations of keys and variants.", "anchors": ["macros/types/variant.rs: 303-430", "core/parse_helpers.rs: has_paths, remove_paths, disallow_paths"]}
{"id": "C23", "title": "Flattening splits keys between parent and child", "statement": "A named struct with `flatten` fields parses successfully exactly when the keys are split between the parent's own fields and the flattened structs' fields, each part parsing on its own; the value is composed from the two values; no key is consumed twice or lost.", "quantifier": "all parent and child schemas with disjoint names, all inputs", "why_tests_cant": "Unbounded schemas and inputs.", "anchors": ["macros/types/field.rs: to_pre_post_tokens (714-740), to_parse_call_tokens", "core/parse_helpers.rs: fork_inputs"]}
{"id": "C24", "title": "Flatten prefixes compose", "statement": "With `flatten(prefix = p)` the child's field `x` is addressed as `p::x` and only so; prefixes of nested flattened structs compose by `::`; stripping the joined prefix from a joined key yields the child's key.", "quantifier": "all prefixes, all keys, all nestings", "why_tests_cant": "All strings.", "anchors": ["core/parse_helpers.rs: join_path, join_prefix, join_paths", "macros/types/field.rs: 411-435"]}
{"id": "C25", "title": "Append collects every occurrence in order", "statement": "An `append` field collects the value of every item whose key is one of its names, in source order across all streams, and ignores all others.", "quantifier": "all inputs, all name sets, all element parsers", "why_tests_cant": "Unbounded repetition.", "anchors": ["core/parse_meta.rs: parse_meta_append impls (570-593)", "macros/types/field.rs: 397-405"]}
{"id": "C26", "title": "Rest collects exactly the unclaimed keys", "statement": "A `rest` map field contains exactly the items whose key is not one of the parent's field names, each parsed with the map's value parser; nothing is lost or duplicated.", "quantifier": "all schemas with a rest field, all inputs", "why_tests_cant": "Unbounded keys.", "anchors": ["core/parse_meta.rs: parse_meta_rest (779-815)", "macros/types/field.rs: 406-410"]}
{"id": "C27", "title": "extract_attributes removes exactly the matching attributes", "statement": "After extract_attributes, the object's attribute list is the original list without the matching attributes, in the original order, regardless of whether parsing succeeded; the tokens parsed are exactly those of the matching attributes in order, so the result equals that of parse_attributes on the same object.", "quantifier": "all attribute lists, all matchers", "why_tests_cant": "Index-shifting removal loop over unbounded lists.", "anchors": ["core/parse_helpers.rs: take_tokens, ref_tokens", "macros/parse_attributes.rs: impl_parse_attributes"]}
{"id": "C28", "title": "Non-matching attributes never matter", "statement": "The result of parse_attributes depends only on the sub-list of attributes whose path matches; inserting, removing or changing any non-matching attribute changes nothing.", "quantifier": "all attribute lists differing only in non-matching attributes", "why_tests_cant": "All lists.", "anchors": ["core/parse_helpers.rs: ref_tokens", "src/lib.rs: parse_attributes"]}
{"id": "C29", "title": "Attribute parsing reports every error", "statement": "When parsing attributes fails, the returned error contains every error collected while parsing (all bad fields, missing fields and leftover tokens).", "quantifier": "all inputs", "why_tests_cant": "Interaction of syn's deferred unexpected-token check with collected errors, over all inputs.", "anchors": ["core/parse_helpers.rs: parse_tokens, parse_struct_attr_tokens"]}
{"id": "C30", "title": "No stray token is silently accepted", "statement": "If a parse succeeds then every token of the input was accounted for: junk tokens after a value, inside a delimited group, or after the last item always lead to an error.", "quantifier": "all inputs and types", "why_tests_cant": "All token sequences.", "anchors": ["core/parse_helpers.rs: parse_eof_or_trailing_comma, parse_first, ParseDelimited", "core/parse_meta.rs: impl ParseMetaItem for ()", "macros/types/field.rs: 862-872"]}
{"id": "C31", "title": "Errors is an ordered accumulator", "statement": "check()/into_result() of an Errors accumulator succeed iff nothing was pushed since creation; otherwise the error lists exactly the pushed messages with their spans in push order (a pushed multi-message error contributes all its messages); push_result returns the value of an Ok unchanged and adds nothing.", "quantifier": "all sequences of push/push_syn/push_result/extend/check operations", "why_tests_cant": "All histories.", "anchors": ["core/util.rs: Errors (22-239)"]}
{"id": "C32", "title": "Optional parsing never fails and never loses errors", "statement": "parse_attributes_optional / extract_attributes_optional / parse2_optional always return a value: the parsed value when parsing succeeded (recording nothing), otherwise the type's default after appending all errors to the accumulator.", "quantifier": "all inputs, all accumulators", "why_tests_cant": "All inputs.", "anchors": ["src/lib.rs: parse_optional, parse_attributes_optional, extract_attributes_optional (704-778)"]}
{"id": "C33", "title": "SmallString behaves as String", "statement": "Any sequence of SmallString operations (new, from, push, push_str, into_owned, write) yields the same text as the same operations on String, never panics, and equality, ordering and hashing depend on the text only, not on the representation.", "quantifier": "all operation sequences, all strings including those crossing the 56 byte inline limit", "why_tests_cant": "All histories around the inline/heap boundary.", "anchors": ["core/small_string.rs: SmallString"]}
{"id": "C34", "title": "Key strings name paths unambiguously", "statement": "The text of a key is its path segments joined by `::`; a key matches a list of segment names iff the segments are equal one by one without generic arguments; a multi segment key never equals a single segment name.", "quantifier": "all paths", "why_tests_cant": "All strings and paths.", "anchors": ["core/parse_helpers.rs: key_to_string, path_matches, parse_any_path", "core/parse_meta.rs: ToKeyString for Path (1404-1418)"]}
{"id": "C35", "title": "Error recovery stops exactly at the next comma", "statement": "skip_meta_item consumes exactly the tokens before the first top-level comma (commas inside groups do not count) and never the comma; skip_all consumes everything.", "quantifier": "all token streams", "why_tests_cant": "All token sequences.", "anchors": ["core/parse_helpers.rs: skip_meta_item, skip_all"]}
{"id": "C36", "title": "A trailing comma is optional, once", "statement": "The end-of-input check accepts exactly the empty stream and a stream consisting of one comma; the peeking variant agrees with it and consumes nothing.", "quantifier": "all token streams", "why_tests_cant": "All token sequences.", "anchors": ["core/parse_helpers.rs: parse_eof_or_trailing_comma, peek_eof_or_trailing_comma"]}
{"id": "C37", "title": "Named item spelling selects the right parser", "statement": "After a key, `= value` is parsed as an item, `(...)` as an inline list whose content must be fully consumed up to one trailing comma, and anything else as a flag consuming no token; parse_named_meta_item, parse_named_meta_item_with and try_parse_named_meta_item agree on this. What is in delimiters gives what its content gives, or its errors, or one error `unexpected token` at the first token left over.", "quantifier": "all parsers and token streams", "why_tests_cant": "All token sequences.", "anchors": ["core/parse_helpers.rs: parse_named_meta_item, parse_named_meta_item_with, try_parse_named_meta_item"]}
{"id": "C38", "title": "`name(value)` equals `name = value` for single-value types", "statement": "For types that do not override inline parsing (integers, strings, syn types, ...) and whose parser consumes exactly the written value, `name(value)` and `name = value` parse to the same result.", "quantifier": "all such parsers and values", "why_tests_cant": "All parsers.", "anchors": ["core/parse_helpers.rs: parse_first, parse_named_meta_item", "core/parse_meta.rs: ParseMetaItem defaults"]}
{"id": "C39", "title": "Integer fields accept exactly the representable values", "statement": "An integer-typed field accepts an integer literal iff its decimal value lies in the type's range, and then holds exactly this value; it never wraps or truncates.", "quantifier": "all integer types and all integer literals", "why_tests_cant": "All integers.", "anchors": ["core/parse_meta.rs: impl_parse_meta_item_primitive (267-312)"]}
{"id": "C40", "title": "Transparent structs behave as their inner field", "statement": "A `transparent` struct parses (as item, inline list, flag) exactly what its single parsable field parses, with transforms applied and other fields at their defaults; its errors are the inner errors.", "quantifier": "all transparent schemas, inputs and modes", "why_tests_cant": "All inner parsers and inputs.", "anchors": ["macros/types/struct.rs: 206-370"]}
{"id": "C41", "title": "only_one! reports iff two or more are present", "statement": "only_one! pushes no error when at most one of the fields is present; otherwise one error per present field, spanned to it, with the prefixed names.", "quantifier": "all field lists and presence patterns", "why_tests_cant": "2^n presence patterns.", "anchors": ["core/validations.rs: only_one"]}
{"id": "C42", "title": "all_or_none! reports iff some but not all are present", "statement": "all_or_none! pushes no error when all or none of the fields are present; otherwise exactly one error per present field, listing every missing field.", "quantifier": "all field lists and presence patterns", "why_tests_cant": "2^n presence patterns.", "anchors": ["core/validations.rs: all_or_none"]}
{"id": "C43", "title": "FieldStatus is a lawful three-state option", "statement": "or/or_else/and/and_then/map/flatten/unwrap_or/into_option behave like Option with an absorbing error state: ParseError is never turned into None or Some, and conversions from Option are inverse to into_option.", "quantifier": "all statuses and functions", "why_tests_cant": "All functions.", "anchors": ["core/parse_helpers.rs: FieldStatus"]}
{"id": "C44", "title": "Advertised field names are exactly the keys that parse", "statement": "field_names() of a derived struct/enum lists a name iff using that name as a key (with a value the field accepts) is recognised, including flattened and prefixed fields.", "quantifier": "all schemas", "why_tests_cant": "All schemas.", "anchors": ["macros/types/field.rs: to_field_names_tokens", "macros/types/enum.rs: to_field_names_tokens"]}
{"id": "C45", "title": "Suggestion in unknown-field errors is a real field", "statement": "Whenever an unknown-field error says `did you mean X`, X is one of the allowed names, is at least as similar as any other allowed name, and its similarity exceeds the threshold; if some allowed name exceeds the threshold a suggestion is made.", "quantifier": "all keys, all allowed name lists, any similarity function", "why_tests_cant": "All strings.", "anchors": ["core/parse_helpers.rs: unknown_error"]}
{"id": "C46", "title": "`with = quoted` parses the string's content", "statement": "with::quoted and friends parse T from the text of the string literal; the result equals parsing T from those tokens; all errors are placed at the literal's span; maybe_quoted accepts both spellings with the same result.", "quantifier": "all T and inputs", "why_tests_cant": "All parsers.", "anchors": ["core/with.rs: quoted, maybe_quoted, syn_quoted, from_str"]}
{"id": "C47", "title": "Flag/empty parsing errors are spanned at the key", "statement": "When an item given as a bare word is parsed from an empty stream, every error it produces is placed at the key's span.", "quantifier": "all parsers producing any number of errors", "why_tests_cant": "All error lists.", "anchors": ["core/parse_helpers.rs: parse_empty, parse_empty_meta_item"]}
{"id": "C48", "title": "Punctuated sequences round trip", "statement": "Parsing n comma separated items into a Punctuated<T, ,> gives those n elements.", "quantifier": "all n", "why_tests_cant": "Unbounded lists.", "anchors": ["core/parse_meta.rs: Punctuated (1203-1258)"]}
{"id": "C49", "title": "Missing tuple-field errors name the right position", "statement": "The missing-field error for a tuple struct field names its 0-based position in the flattened sequence of items.", "quantifier": "all tuple schemas with any flattened fields, all inputs that are too short", "why_tests_cant": "All schemas and lengths.", "anchors": ["macros/types/field.rs: 578-606, 641-650"]}
{"id": "C50", "title": "Enum variants under a flatten prefix", "statement": "For an enum flattened with a prefix p, variant `v` is addressed as `p::v(...)` and the fields inside the variant by their plain names.", "quantifier": "all prefixes, enum schemas and inputs", "why_tests_cant": "All prefixes.", "anchors": ["macros/types/variant.rs: to_field_parsing_tokens", "macros/types/field.rs: 914"]}
{"id": "C51", "title": "The derive macro rejects ambiguous schemas", "statement": "If the derive accepts a struct, no name addresses two different fields; if it accepts an enum, no name addresses two variants; flattened variants have pairwise different required-name sets.", "quantifier": "all schemas", "why_tests_cant": "All schemas.", "anchors": ["macros/types/struct.rs: 517-537", "macros/types/enum.rs: 235-304", "macros/types/variant.rs: 499-696"]}
{"id": "C52", "title": "SpannedValue is transparent", "statement": "SpannedValue<T> parses exactly what T parses, with T's value and errors, and comparison/hashing ignore the span.", "quantifier": "all T and inputs", "why_tests_cant": "All parsers.", "anchors": ["core/util.rs: SpannedValue (246-452)"]}
{"id": "C53", "title": "No implementation reads past its item", "statement": "For every library type, `with` module and derived type, what parse_meta_item and parse_meta_item_named return for an item depends only on the item's own tokens (up to the next top-level comma), and they never consume a comma outside of delimiters.", "quantifier": "all types built from the library and the derives, all inputs", "why_tests_cant": "All types nested to any depth, all token sequences and continuations.", "anchors": ["core/parse_meta.rs", "core/with.rs", "core/util.rs: Flag", "macros/parse_meta_item.rs"]}
{"id": "C54", "title": "A flattened enum depends on its own keys only", "statement": "An enum flattened into a struct takes its value from the items with its own names as keys; items with other keys (those of the struct) neither change the result nor make it fail.", "quantifier": "all enum schemas, prefixes and inputs", "why_tests_cant": "Depends on all combinations of foreign keys and variants; the tests flatten few enums.", "anchors": ["macros/types/enum.rs: to_parsing_tokens", "macros/parse_meta_item.rs"]}
{"id": "C55", "title": "A flattened variant all of whose fields are given is selected", "statement": "If no variant is named, all required fields of a flattened variant are given and the items are values of its fields, then the enum parses to that variant.", "quantifier": "all enum schemas with flattened variants, all inputs", "why_tests_cant": "Whether one variant's fields include another's matters, and the order in which variants are tried.", "anchors": ["macros/types/enum.rs: 303-366"]}
{"id": "C56", "title": "A variant's key excludes the keys of flattened variants", "statement": "If an ordinary variant is named, a key for a field of a flattened variant is rejected (unless unknown fields are allowed).", "quantifier": "all enum schemas with flattened and ordinary variants, all inputs", "why_tests_cant": "All combinations of variants and keys; depends on whether the enum is itself flattened.", "anchors": ["macros/types/enum.rs: 303-466", "core/parse_helpers.rs: disallow_paths"]}
{"id": "C57", "title": "The derive macro itself never panics", "statement": "For every struct or enum the Rust grammar admits, with any tokens in its deluxe attributes, the derive macro returns code or a compile error; it does not panic and does not loop.", "quantifier": "all items, all attribute token streams", "why_tests_cant": "Every shape of item times every token stream in its attributes.", "anchors": ["macros/types/struct.rs", "macros/types/enum.rs", "macros/types/variant.rs", "macros/types/field.rs", "macros/parse_meta_item.rs: 7-257", "macros/parse_attributes.rs: 14-175"]}
{"id": "C58", "title": "Parsers generated for accepted sources never panic", "statement": "Whenever the derive accepts an item, the parsers generated for it return a value or an error on every input, provided the implementations for the field types do.", "quantifier": "all accepted items, all inputs", "why_tests_cant": "All items times all inputs.", "anchors": ["macros/types/field.rs", "macros/parse_meta_item.rs", "macros/parse_attributes.rs"]}
{"id": "C62", "title": "Defaults in tuple structs come last", "statement": "In an accepted tuple struct or tuple variant no required field follows a field with a default.", "quantifier": "all tuple structs and variants", "why_tests_cant": "All field lists.", "anchors": ["macros/types/struct.rs: 538-556", "macros/types/variant.rs: 666-682"]}
{"id": "C63", "title": "An enum with a default has no flattened variant without required fields", "statement": "If an enum has a default, every flattened variant has at least one required field, so that the default is not shadowed.", "quantifier": "all enums", "why_tests_cant": "All enums.", "anchors": ["macros/types/enum.rs: 235-304"]}
{"id": "C59", "title": "Which attributes the derive accepts, and what they mean", "statement": "The attributes of a field, struct, variant or enum are accepted exactly when their text is a comma separated list of known options, each followed by the value it takes, and the options go together (none of the single ones twice, no conflicting pair, no name twice, transparent only where one field is parsed, defaults last in tuples, ...); the derive then works with exactly the names, defaults, flags, prefixes, conversions and containers that the options state.", "quantifier": "all source items, all attribute texts", "why_tests_cant": "All texts and combinations of options.", "anchors": ["macros/types/field.rs: 117-188, 920-1240", "macros/types/struct.rs: 330-570", "macros/types/variant.rs: 480-700", "macros/types/enum.rs: 170-318"]}
{"id": "C60", "title": "No option of an attribute is lost", "statement": "Every item written in a `#[deluxe(..)]` attribute of an accepted source is an option of its own, and has its effect on the schema.", "quantifier": "all source items, all attribute texts", "why_tests_cant": "All texts and combinations of options.", "anchors": ["macros/types/field.rs: 30-60, 920-1240", "macros/types/struct.rs: 330-570", "macros/types/variant.rs: 480-700", "macros/types/enum.rs: 170-318"]}
{"id": "C61", "title": "Options that conflict or cannot be read are an error", "statement": "When the options of a field, struct, variant or enum cannot be read or do not go together, the derive reports an error (it does not panic and does not pick one of them).", "quantifier": "all source items, all attribute texts", "why_tests_cant": "All texts and combinations of options.", "anchors": ["macros/types/field.rs: 920-1240", "macros/types/struct.rs: 330-570", "macros/types/variant.rs: 480-700", "macros/types/enum.rs: 170-318", "core/parse_helpers.rs: only_one, field_status"]}
{"id": "C64", "title": "From the source of a struct to the values it parses", "statement": "For a struct with named fields (none flattened, appended or a `rest`) that the derive accepts, the derived parser returns a value exactly if: every item's key is a name of a field that is neither skipped nor the container (the `rename` and `alias` names, else the field's own name) and its value is one the field's type (or `with` module) accepts, or unknown fields are allowed; no field is written twice; and every field gets its value from its item, the container object, its `default`, the struct's `default`, or the missing value of its type, then through its `map` and `and_then` in order. The value returned is that one, through the struct's `and_then` functions.", "quantifier": "all sources, all attribute texts, all inputs, all field types", "why_tests_cant": "Quantifies over every source struct and every input at once; tests fix both.", "anchors": ["macros/types/field.rs: 60-1240", "macros/types/struct.rs: 100-570", "macros/parse_meta_item.rs: 19-214", "macros/parse_attributes.rs: 60-124", "core/parse_helpers.rs: parse_struct"]}
{"id": "C65", "title": "What can follow the name of an enum variant", "statement": "After its name, a variant without fields takes nothing, an empty pair of parentheses (a lone comma allowed) or `=` and such a pair. A variant with named fields takes nothing, `(items)` or `= {items}`, and accepts exactly the items a struct with the same fields would, with the same values. A tuple variant takes `(values)` or `= (values)`, one value per field in order, fields missing at the end being filled in as in a tuple struct; it takes nothing only if all its fields have a default. On any other input the errors are those of the fields, as for structs; a token left behind the last value is unexpected; after `=` another kind of delimiter is refused; and the first error of a bare name is placed at the name.", "quantifier": "all variants without flattened fields, all field types, all inputs", "why_tests_cant": "All field lists and token sequences.", "anchors": ["macros/types/variant.rs: 56-224", "macros/types/field.rs: 873-1044", "core/parse_helpers.rs: parse_named_meta_item_with!, parse_empty"]}
{"id": "C66", "title": "A derived enum parses what its source says", "statement": "For an enum without flattened variants and fields, from the texts of its deluxe attributes to the value: the derived parser returns a value exactly if every item has a key, exactly one item is called by a name of a variant that is not skipped (its new name, or its own in snake case, or an alias) and what follows the name is a value of that variant (`()`-style for unit, tuple and named variants with the rules of structs of the same fields; for a transparent variant, whatever the type of its only parsed field accepts after a name, `with` being ignored), with no other items unless `allow_unknown_fields` is set; or no item calls for a variant and the enum has a default. The enum's `and_then`s are applied to the result.", "quantifier": "all enum sources the macro accepts without flatten, append or rest and with distinct field names in each variant, all field types, all inputs", "why_tests_cant": "All sources, all attribute texts, all inputs.", "anchors": ["macros/types/enum.rs: 320-560", "macros/types/variant.rs: 56-224, 546-655", "macros/types/field.rs: 873-1044"]}
{"id": "C67", "title": "A derived tuple struct parses what its source says", "statement": "For a tuple struct without flattened fields, from the texts of its deluxe attributes to the value: the derived parser reads a whole input and returns a value exactly if the items are, in order, values of the fields that are neither skipped nor the container (with the `with` module where one is given), items missing only at the end, every field without an item obtains a value (its default, the struct's default for that position, Default::default() when skipped, the missing value of its type, the object), the `map` and `and_then` options are applied in order, and the struct's `and_then`s succeed.", "quantifier": "all tuple struct sources the macro accepts without flatten, append or rest, all field types, all inputs without blank items", "why_tests_cant": "All sources, all attribute texts, all inputs.", "anchors": ["macros/types/struct.rs: 52-260", "macros/types/field.rs: 873-1044", "core/parse_helpers.rs: parse_struct"]}
{"id": "C68", "title": "The attributes a syntax node carries can be read and extracted", "statement": "For every syn node type that implements HasAttributes (structs with an attrs field, and the enums Expr, ForeignItem, ImplItem, Item, Pat and TraitItem): attrs() returns exactly the attributes the node carries; attrs_mut() gives access to the same list; and extract_attributes on the node leaves the same node with exactly the matching attributes removed while returning what parse_attributes returns. The write half is false for `Expr::Infer`, which attrs() reads but attrs_mut() refuses.", "quantifier": "all node kinds and variants, all attribute lists, all derived structs", "why_tests_cant": "The match arms are a long hand-written table in two copies; the tests only use DeriveInput and ItemStruct.", "anchors": ["core/parse_attributes.rs: 37-513"]}
{"id": "C69", "title": "The headers of the ParseAttributes and ExtractAttributes impls", "statement": "With a container field the impl is for the type held in that field (behind `&`, `&mut` or Option, or the type given with `ty = ..`), under the lifetime that is given, written on the reference or found first in the type; it asks for Clone exactly where the object is held by value. Without a container field it is for every type of object that has attributes, under parameters whose names do not clash with those of the item. The parameters are distinct, include the item's own, and every lifetime and type parameter named in the header is declared there. ContainerFrom fills the field with the object, by reference or clone according to the field's type.", "quantifier": "all accepted structs and enums, all field types of the modelled syntax, all generics", "why_tests_cant": "All shapes of container types and generics; the tests use a handful.", "anchors": ["macros/parse_attributes.rs: 8-31, 86-103, 141-160, 195-300, 314-345", "core/parse_attributes.rs: 513-627"]}
{"id": "C70", "title": "A derive emits the complete impl, or says why not", "statement": "The output of each of the three derives carries no compile_error exactly when the front end accepts the item and the path of the deluxe crate is known, and then the impl is that of the accepted schema under that crate path. Otherwise all errors of the item are emitted and no others; an impl is left out, or its body left unreachable!(), only beside an error. A union is refused at its keyword; a crate that cannot be found is reported at the call site, but only for an item that was read. The macro emits something for every item the front end does not panic on.", "quantifier": "all three derives, all items, all answers of the crate lookup", "why_tests_cant": "The tests only expand macros that succeed (and a handful of errors); the combinations of errors and fallback output are not visible in them.", "anchors": ["macros/lib.rs: 33-44, 113-124, 400-408", "macros/util.rs", "macros/parse_attributes.rs: 34-193", "macros/parse_meta_item.rs: 19-330"]}
{"id": "C71", "title": "field_names() returns the item's own names at every call", "statement": "The generated field_names() of a struct or enum (and the names a flattened variant allows) returns, at every call, the names of its parsed fields: own names and aliases, and for flattened fields the names their type reports, joined with the prefix. Full statement: for the instantiation of the item that calls; this is false for generic items, whose instantiations share the static cells, so all report the names computed at the first call.", "quantifier": "all accepted named structs and enums, all field types, all sequences of calls in any instantiations", "why_tests_cant": "A test sees one instantiation of each item; the sharing shows only when several instantiations of one generic item are used in one process.", "anchors": ["macros/types/field.rs: 315-388", "macros/types/enum.rs: 68-165"]}
{"id": "C72", "title": "The cells in the emitted field_names() have the type of their contents", "statement": "In the code emitted for field_names(), every static cell is declared with the element type that its initialiser (join_paths, returning Vec<Cow<str>>) produces. True for the code of structs and variants, and of enums unless a flattened variant has a flattened field with a prefix: there the cell is declared Vec<String>, so the accepted enum does not compile.", "quantifier": "all accepted structs and enums", "why_tests_cant": "No test has a flattened variant with a prefixed flattened field.", "anchors": ["macros/types/field.rs: 325-345", "macros/types/enum.rs: 92-112", "core/parse_helpers.rs: 780-782"]}
{"id": "C73", "title": "From the source of a struct with flatten, append and rest fields to the values it parses", "statement": "For a struct with named fields of any kind that the derive accepts, the derived parser returns a value exactly if every item has a key; the key is one of those of the fields, unless unknown keys are allowed; a plain field has at most one item, whose value its type (or `with` module) accepts, or gets its value without an item as in C64; and each `flatten`, `append` and `rest` field gets its value from a parse of its own part of the items alone: for `flatten` the items whose key is the prefix followed by a name of the field's type, for `append` those with a name of the field, for `rest` those with none of the names of the struct's fields. The value returned is that one, through the `map` and `and_then` functions.", "quantifier": "all sources, all attribute texts, all inputs, all field types whose implementation looks at its own part of the items only", "why_tests_cant": "Quantifies over every source struct with any mix of fields and every order and spreading of the items; tests fix both.", "anchors": ["macros/types/field.rs: 274-441", "macros/types/field.rs: 640-1000", "macros/types/struct.rs: 100-570", "core/parse_helpers.rs: parse_struct, fork_inputs", "core/parse_meta.rs: 222-260"]}
{"id": "C74", "title": "Every map key has one text, and distinct keys have distinct texts", "statement": "`with_key_string` calls its function exactly once, without panicking, on the text of the key, whether the impl borrows a string or formats into a SmallString: the text itself for Display types and strings, `None`/`Some(..)`, `[a, b]`, `{k = v, ..}`, `(a, b)`, and the text of the contents for Box, Rc, Cell, RefCell and Cow. Two keys of one type have the same text only if they are equal.", "quantifier": "all keys of all types implementing ToKeyString, nested to any depth", "why_tests_cant": "The repository has no test of key strings; the texts are built recursively from values of any size, inline or on the heap.", "anchors": ["core/parse_meta.rs: 250-281", "core/parse_meta.rs: 357-402", "core/parse_meta.rs: 444-456", "core/parse_meta.rs: 511-522", "core/parse_meta.rs: 596-608", "core/parse_meta.rs: 695-707", "core/parse_meta.rs: 817-836", "core/parse_meta.rs: 876-945", "core/parse_meta.rs: 1260-1275", "core/parse_meta.rs: 1404-1418", "core/parse_meta.rs: 1463-1531", "core/parse_helpers.rs: 725-739"]}
{"id": "C75", "title": "What the values of `flatten`, `container`, `transparent` and `default` mean", "statement": "The value of one of these options is accepted exactly if it is written in one of its forms, and then means what it says: `flatten`, `container` and `transparent` stand alone, or are `= true` or `= false`, or hold options in `(..)` or `= {..}`, each at most once and no others: a `prefix` path for `flatten`; a `lifetime` and a `ty` for `container`; a bool each for `flatten_named`, `flatten_unnamed`, `append` and `rest` of `transparent`. `default` stands alone, holds an expression in `(..)`, or is `=` and all tokens that follow.", "quantifier": "all token sequences after the option's name, all orders and spellings of the nested options, for each trait being derived", "why_tests_cant": "Quantifies over every text of the option and over all parsers for the nested values; tests use a few spellings.", "anchors": ["macros/types/field.rs: 13-201", "macros/types/struct.rs: 14-102", "core/parse_helpers.rs: parse_named_meta_item_with!"]}
{"id": "C76", "title": "A variant's key is its name in snake case", "statement": "Unless renamed, a variant's key keeps the letters and digits of its name, in small letters and without `r#`, and puts one `_` before each word but the first; a word starts after any other character than a letter or digit, and at a capital whose last letter before was small or that a small letter follows. Applying this twice changes nothing more. The key is an identifier (and the derive does not panic on it) exactly if the first letter or digit of the name is a letter.", "quantifier": "all (ASCII) names", "why_tests_cant": "All strings; the repository's tests use a handful of CamelCase names.", "anchors": ["macros/types/variant.rs: 625-650 (to_snake_case, Ident::new)", "heck 0.4 ToSnakeCase (dependency)"]}
{"id": "C77", "title": "Every one- or two-token type has exactly its spellings", "statement": "For String, char, the integer and float types, bool, u8, Ident, TokenTree, Literal, Punct, Group and the from_str modules, an item is accepted exactly if it starts with a spelling of a value of the type: the literal, a minus sign before a number where the type has one, a byte literal for u8, an integer only if it is in the range of the type. The value is that of the spelling and what follows is left. Anything else is one error at the next token or at the end. After a name, the value stands after `=` or in parentheses with an optional comma; only bool and from_str_default have a value for the name alone, and only from_str_default for a missing item. Anything else gives exactly one error, whose text and place are those of a table (what was expected, at the next token or at the end; or why the number or string is not a value, at the literal).", "quantifier": "all token sequences, all modes, all integer types, all FromStr functions", "why_tests_cant": "All inputs; the tests have a few literals per type.", "anchors": ["core/parse_meta.rs: 288-355 (primitives, String)", "core/parse_meta.rs: 947-1082 (TokenTree, Literal, Punct, Group)", "core/parse_meta.rs: 1357-1362 (Ident)", "core/with.rs: 7-97 (from_str, from_str_default)", "core/parse_helpers.rs: 363-471"]}
{"id": "C78", "title": "A `with` module reads what the module it is built from reads", "statement": "A module made by define_with_optional!, define_with_collection! or define_with_map!, and the modules identity, quoted, maybe_quoted, syn and syn_quoted, accept after a name `=` and an item of the module, a parenthesised list, or the name alone where it has a value. The optional module reads an item of the inner module after a name, otherwise `None` or `Some(item)`; a name without a value should be an error unless the inner module has one. A collection module reads a list whose items are those of the inner module, bracketed, in parentheses, flattened, or appended from all items with a name. A map module reads entries of a key of the key module and a value of the value module, with distinct keys, in braces, in parentheses, flattened, or as the rest of a struct. A missing item is None, empty, or what the inner type says.", "quantifier": "all inner modules whose parsers do not look past the item, all inputs", "why_tests_cant": "All inner modules and inputs; the tests use three modules with one or two inputs each.", "anchors": ["core/with.rs: 183-354", "core/with.rs: 376-437 (define_with_optional!)", "core/with.rs: 461-580 (define_with_collection!)", "core/with.rs: 604-755 (define_with_map!)", "core/with.rs: 761-797 (identity)"]}
{"id": "C79", "title": "Box, Rc, Cell, RefCell and Cow read what the wrapped type reads", "statement": "A wrapped value is read from the same items, with the same value, as the type inside: after `=`, in parentheses, from the name alone, and when the item is missing.", "quantifier": "all wrapped types, all inputs", "why_tests_cant": "All wrapped types; the tests wrap none.", "anchors": ["core/parse_meta.rs: 859-934"]}
{"id": "C80", "title": "A TokenStream is the tokens up to the next comma", "statement": "An item of type TokenStream is all tokens up to the next comma outside groups, at least one; the name alone and a missing item are the empty stream. Flattened into a tuple, it takes the tokens of all remaining items.", "quantifier": "all token sequences, any number of streams", "why_tests_cant": "All token sequences.", "anchors": ["core/parse_meta.rs: 981-1035"]}
{"id": "C81", "title": "The unit type is `()` or the name alone", "statement": "An item of type () is a parenthesised group; after a name, parentheses hold nothing or a comma, and the name alone is accepted.", "quantifier": "all token sequences", "why_tests_cant": "All token sequences.", "anchors": ["core/parse_meta.rs: 1440-1461"]}
{"id": "C82", "title": "A SmallString is the content of a string literal", "statement": "SmallString reads a string literal and its value is the content of the literal, as for String.", "quantifier": "all string literals, escapes and raw strings included", "why_tests_cant": "All literals.", "anchors": ["core/small_string.rs: 242-252"]}
{"id": "C83", "title": "The types of syn are read by syn's parsers; assignments and meta items in parentheses", "statement": "A value of a syn type is read by syn's own parser, after `name =`, alone in `name(..)`, or in a list; the name alone and a missing item are errors. ExprAssign, Meta and MetaNameValue are read as they are in a list, and after a name from a group in parentheses: `name = (a = b)`, `name((a = b))`; nothing may be left over in the group. Refuted: that `name(value)` works for these too.", "quantifier": "every syn parser that returns and advances, every key, every token stream", "why_tests_cant": "no test uses a parenthesised syn type; the set of types and token streams is unbounded", "anchors": ["core/parse_meta.rs:1272-1320", "core/parse_meta.rs:1337-1438"]}
{"id": "C84", "title": "The derive macros report every mistake in the attributes, in order", "statement": "Reading the #[deluxe(..)] attributes of a field, struct, variant or enum (and the options inside flatten(..), container(..), transparent(..)) collects the error of every entry: a repeated key, a value that does not parse, a key not allowed together with an earlier one or for this kind of field, an unknown key with its suggestion. To these are added the errors about the whole item: clashing options, aliases that repeat a name, fields or variants with the same name, a second container, a transparent struct with several fields, tuple fields with a gap, flattened variants that cannot be told apart, a default that would never be used. The errors are returned together, in this order, and there is an error only if there is such a mistake.", "quantifier": "all fields, structs, variants and enums with any number of attributes whose entries are read to their end; all syn parsers that return and advance", "why_tests_cant": "the tests contain no failing derive; the combinations of options are unbounded", "anchors": ["macros/types/field.rs:71-199", "macros/types/field.rs:1055-1211", "macros/types/struct.rs:30-90", "macros/types/struct.rs:396-569", "macros/types/variant.rs:504-701", "macros/types/enum.rs:174-318"]}
{"id": "C85", "title": "A flattened field of a tuple struct takes a block of consecutive items", "statement": "The items of a tuple struct are shared out over its fields in order: one item for an ordinary field, and for a flattened field a block of consecutive items. An array [T; N] takes exactly N items, a tuple one for each element, a flattened tuple struct the items of its own fields (which may again be flattened), a Vec all that are left. Only the last fields may be left out: they get their default, or, if flattened, the value their type has for no items. The struct is accepted exactly if the items can be shared out in this way, and nothing is left over; the value of a block does not depend on its position.", "quantifier": "all tuple structs with any number of flattened fields nested to any depth; all element types that read no further than their item; all token streams of one attribute, group or list", "why_tests_cant": "the number and nesting of flattened fields and the number of items are unbounded", "anchors": ["macros/types/field.rs:880-985", "core/parse_helpers.rs:513-560", "core/parse_meta.rs:472-560", "core/parse_meta.rs:1487-1560", "macros/types/field.rs:546-607"]}
{"id": "C86", "title": "`allow_unknown_fields` is obeyed", "statement": "With `allow_unknown_fields` on a struct or an enum, items whose key is none of those of its fields or variants make no difference: the same value is returned with and without them.", "quantifier": "all schemas, all inputs, all sets of unknown items", "why_tests_cant": "Any number of unknown items of any form at any place, for every schema.", "anchors": ["macros/lib.rs: 191-193", "macros/types/field.rs: 891-920", "macros/types/variant.rs: 327-380", "macros/types/enum.rs: 40-60"]}
{"id": "C87", "title": "An element that is not accepted is reported by its own errors", "statement": "If an element of a collection (Vec, set, map, array, tuple), or one of the values of an appended or rest field, is not accepted, the errors of the whole contain the errors of that element. This holds for arrays and tuples and for values appended to a Vec, whatever follows the element; for a Vec if no tokens are left after any of its elements. Refuted for rest maps: after a value that is not accepted the remaining tokens of its item are not skipped, and only `expected ,` is reported.", "quantifier": "all element types that read no further than their item, all lengths, all token streams", "why_tests_cant": "The number of elements, the place of the bad one and its tokens are unbounded; no test has a bad value in a rest map.", "anchors": ["core/parse_meta.rs:472-560", "core/parse_meta.rs:560-630", "core/parse_meta.rs:780-815", "core/parse_meta.rs:1487-1560"]}
{"id": "C88", "title": "What an item means that is only a name", "statement": "For an item that is a bare name: types that need a value (numbers, characters, strings, tokens, syn types, collections, maps, arrays, tuples, from_str, tuple structs with a required field) report exactly one error, `unexpected flag, expected `=` or parentheses`, at the name; bool gives true, () and TokenStream the empty value, Flag is set at the name, from_str_default its default, the optional and collection `with` modules the empty value; Option, Box and the like, SpannedValue, quoted, identity and transparent structs give what the type inside gives; with::syn, structs with named fields, tuple structs whose fields may be left out, enums and variants give what they read from nothing, the first error being moved to the name. Nothing is read, and the first error is at the name unless an and_then function returned it.", "quantifier": "all types of the library, `with` modules and derived types, nested to any depth; all names, positions and following tokens", "why_tests_cant": "The nesting of types is unbounded and the tests never look at the position or the text of an error for a bare name of most types.", "anchors": ["core/parse_meta.rs:117-120", "core/parse_helpers.rs:333-345", "core/parse_helpers.rs:885-898", "core/with.rs:275-354", "core/with.rs:376-580", "macros/types/field.rs:900-1042", "macros/types/variant.rs:188-214"]}
{"id": "C89", "title": "Where a SpannedValue says it was", "statement": "The span in a SpannedValue joins the place where reading began (the first token of the value, or its key) with the place where reading stopped (the token behind the value or the end of the stream), and is the first of the two if they cannot be joined; for a bare name it is the name; for flattened, appended and rest fields both places are those of all streams joined. Refuted for inline values: if the places cannot be joined, or there is no stream, the span is that of the macro call.", "quantifier": "all types, modes, token streams and implementations of Span::join", "why_tests_cant": "The tests compare SpannedValues, and comparison ignores the span.", "anchors": ["core/util.rs:323-427", "core/parse_helpers.rs:862-876"]}
{"id": "C90", "title": "An Errors holds what was added since it was last cleared", "statement": "However an Errors is made (empty, from one error, from a sequence of errors) and whatever is pushed, extended or cleared afterwards, it holds the messages it was made with and those added later, in order, or, if it was ever cleared, exactly those added after the last clear; into_result, into_compile_error, the iterator (one error per message) and output_with (the item's tokens, then one compile_error! per message) all show exactly these messages, and collecting the iterator gives the accumulator back. The documentation of into_compile_errors says that each of its streams contains one invocation; in fact there is at most one stream, with all of them.", "quantifier": "all ways of making an Errors, all sequences of operations including clear, all items", "why_tests_cant": "All histories; no test of the repository calls clear, from_iter or into_compile_errors.", "anchors": ["core/util.rs: Errors (22-239)"]}
{"id": "C91", "title": "Every option of a field takes effect", "statement": "An option the derive accepts on a field changes what is parsed as documented. Refuted in three places: the `default` of an `append` or `rest` field is never used (an absent field is the empty collection), and the `with` module of the field of a transparent enum variant is never called (the field's own type is read instead), and the `default` of the field of a transparent struct is never used. For these it is proved that the option has no influence at all, for any struct or variant and any input.", "quantifier": "all named structs with append or rest fields, all transparent variants, all inputs and entry points", "why_tests_cant": "The repository has no test with these combinations, and that an option never matters is a statement about all inputs.", "anchors": ["macros/types/field.rs: to_pre_post_tokens (655-740)", "macros/types/variant.rs: to_field_parsing_tokens (74-101)"]}
{"id": "C92", "title": "What is skipped leaves no trace", "statement": "A skipped field contributes its default (with its transforms) and nothing else, and a skipped variant contributes nothing: names, types and options of what is skipped have no influence on any result. Proved for the fields of named structs that are neither `rest` nor flatten a type accepting all keys, and for variants that are not flattened. Refuted otherwise: a skipped `rest` field makes the struct accept (and drop) every unknown key; the field names of a skipped flattened variant are accepted (and dropped) beside another variant; and the name of a skipped field cannot be reused (`duplicate field name`).", "quantifier": "all named structs and enums, all inputs and entry points", "why_tests_cant": "Independence of what is skipped is a statement about all pairs of schemas and all inputs.", "anchors": ["macros/types/field.rs: to_accepts_all_tokens (299-314), to_field_names_tokens (315-388)", "macros/types/enum.rs: to_field_names_tokens (68-165)", "macros/types/variant.rs: to_parsing_tokens (255-467)", "macros/types/struct.rs: 517-531"]}
{"id": "C93", "title": "A misspelled option is reported with the most similar option", "statement": "A key in `#[deluxe(..)]` that is no option of a field, struct or variant is an error at its place. If an option of this kind of item is similar enough to it, the error suggests an option, and none is more similar. Refuted for enums: their option `allow_unknown_fields` is never suggested, however close the key is. Refuted as well: that the suggested option can be used here (on a field of a tuple struct `appen` gives the suggestion `append`, which is then refused).", "quantifier": "all keys, all similarity functions, all attributes that can be divided into entries", "why_tests_cant": "all strings and all items; no test covers the options of the macros themselves", "anchors": ["macros/types/field.rs: 284-298", "macros/types/struct.rs: 129-138", "macros/types/variant.rs: 23-32", "macros/types/enum.rs: 23-25", "core/parse_helpers.rs: unknown_error"]}
{"id": "C94", "title": "An enum with a single flattened variant is read as the struct with its fields", "statement": "An enum whose only variant is flattened accepts an input exactly if the struct with the fields of that variant accepts it and every field without a default is given, and then with the same field values; if one of them is not given, only the enum's own default can be the value; and_then comes after that. Refuted without the second condition: the struct accepts that an Option field is left out, the enum asks for it. Refuted as well when flattened with a prefix: a variant whose fields all have defaults rejects its own keys, which the struct accepts.", "quantifier": "all fields of the variant, all inputs, all field types", "why_tests_cant": "compares two generated parsers on all inputs; no test flattens an enum with one variant or with a prefix", "anchors": ["macros/types/variant.rs: 37-224, 255-466", "macros/types/enum.rs: 27-42", "macros/types/struct.rs: to_inline_parsing_tokens", "macros/types/field.rs: to_parsing_tokens"]}
{"id": "C95", "title": "A value that is no list is read from the first attribute, and the others are empty", "statement": "A transparent struct around a type that only implements parse_meta_item accepts the attributes of a node exactly if it accepts the first matching one alone, with the same value, and the other matching ones contain nothing but a comma. Without any attribute the errors are those for an empty one, the first of them placed at the name. Refuted for the helper parse_first, whose comment says it ensures that the other streams are empty: it leaves them as they are and succeeds.", "quantifier": "all types with the default parse_meta_item_inline, all lists of attributes", "why_tests_cant": "all attribute lists; no test has a second attribute for such a type", "anchors": ["core/parse_helpers.rs: parse_first, parse_struct_attr_tokens", "core/parse_meta.rs: ParseMetaItem::parse_meta_item_inline"]}
{"id": "C96", "title": "The token types of proc_macro read the tokens that those of proc_macro2 read", "statement": "TokenTree, Literal, Punct, Group and Ident of proc_macro take one token of their kind and convert it; identifiers and literals keep text and span. Refuted: groups and punctuation lose their span; Ident rejects keywords, which the Ident of proc_macro2 accepts, and panics on raw identifiers (proved: on nothing else); a proc_macro::TokenStream does not stop at the comma but takes all items after it, so that the fields given there are missing, and cannot be given by its name alone.", "quantifier": "all inputs, all answers of the compiler's literal parser that return the literal", "why_tests_cant": "all tokens; proc_macro types cannot be used in unit tests at all", "anchors": ["core/parse_meta.rs: 1084-1201"]}
{"id": "C97", "title": "Positional items followed by named ones", "statement": "A struct of named fields, or an enum, that is flattened at the end of a tuple struct takes all the items that are left as its named items: the tuple struct is accepted exactly if the first items are values of its other fields, one each and in order, and the remaining items, in any order, are the named items of the last field. Nothing can follow it, and without remaining items it has its default or its value for no items. Refuted for a struct with a rest field, which in this position rejects the items that the rest field takes elsewhere.", "quantifier": "all tuple structs with parsed fields and one flattened struct or enum at the end, all inputs", "why_tests_cant": "all schemas and inputs; the tests have no such struct with a rest field", "anchors": ["macros/parse_meta_item.rs: 157-173, 303-319", "macros/types/field.rs: to_parsing_tokens", "src/lib.rs: C#-styled attributes"]}
{"id": "C98", "title": "What a container field holds", "statement": "In a value parsed by ParseAttributes every field marked `container` holds the object the attributes are on, and by ExtractAttributes the object as it is after the attributes were removed, in both cases after the field's own map and and_then; with ParseMetaItem, where there is no object, it holds its default. This is so for named, tuple and transparent structs, with or without a default of the whole struct, and for every variant of an enum; no input has an influence on it. Refuted for the default of an enum, which is returned as it is, and for the documentation's claim that `default` is implied for container fields of an enum that also derives ParseMetaItem: the enum is rejected.", "quantifier": "all schemas with container fields, all objects, all inputs, all spellings", "why_tests_cant": "all schemas and inputs; the tests check two structs and no enum default", "anchors": ["macros/types/field.rs: container_def, to_parsing_tokens", "macros/parse_attributes.rs: 60-175", "macros/parse_meta_item.rs: 40-46, 232-246", "macros/lib.rs: 68-95", "core/parse_attributes.rs: 505-630"]}
{"id": "C99", "title": "From the source of an enum with flattened variants to the values it parses", "statement": "For an enum whose source has flattened variants, the values the derived parser accepts are exactly those the options in the source describe: if an item calls for a variant by name, that variant's content, the other items being ignored only if they belong to flattened variants (top level) or required not to (flattened into a parent); otherwise the fields, read as those of a struct, of the flattened variant that is taken: all its required fields have an item, one without required fields is taken only if no other can be, and of several the first in the order of the sorted names of the required fields, if these are the same the last in the source; otherwise the default; then and_then is applied.", "quantifier": "all enum sources with plain fields, all options, all field types as in C53, all inputs, top level, flattened and attribute parsing", "why_tests_cant": "All sources and all inputs; the tests have two enums with flattened variants.", "anchors": ["macros/types/enum.rs: 120-330", "macros/types/variant.rs: 37-54, 303-470", "macros/types/field.rs: 900-1205", "core/parse_helpers.rs: has_paths, remove_paths"]}
{"id": "C100", "title": "The prefix given to a validation is part of every name it reports", "statement": "only_one and all_or_none called with a prefix report what they report, without a prefix, for the attributes under their full names (the documentation: \"with `prefix` prepended onto the names\"). True of only_one; all_or_none reports the name of the attribute that is present without the prefix, and differs in nothing else.", "quantifier": "all lists of attributes, all prefixes, all errors already there", "why_tests_cant": "All prefixes and lists; the tests do not call all_or_none with a prefix.", "anchors": ["core/validations.rs: 10-33 (only_one)", "core/validations.rs: 35-71 (all_or_none)", "core/parse_helpers.rs: join_path"]}
{"id": "C101", "title": "An option set to `false` is as if it had not been written", "statement": "A struct or enum with options set to `false` (`skip`, `append`, `rest`, `flatten` and `container` of fields, `flatten`, `transparent`, `skip` and `allow_unknown_fields` of variants, `transparent` and `allow_unknown_fields` of structs, `allow_unknown_fields` of enums) is accepted by the derives exactly when the same source without these options is, and its parser is the same. Proved from the source with the options to the source without; refuted in the other direction, as the checks on fields, shapes and combinations of options look at the presence of an option and not at its value.", "quantifier": "all sources, all sets of options set to false, all three derives", "why_tests_cant": "All sources and combinations; no test of the repository sets an option to false.", "anchors": ["macros/types/field.rs: 1060-1210", "macros/types/struct.rs: 440-570", "macros/types/variant.rs: 560-700", "macros/types/enum.rs: 170-318"]}
{"id": "C102", "title": "The emitted code mentions only variables that are in scope", "statement": "For every struct and enum the derives accept, each function they emit (of ParseMetaItem, its flattened and transparent extra traits, ParseAttributes and ExtractAttributes) mentions only its parameters and variables declared before in an enclosing block, whatever fields, variants and options there are. Refuted for two kinds of accepted sources and proved for all others: a struct read as its only field (`transparent`) with `and_then` on a field (`errors` is not declared), and an enum with a variant that is both `flatten` and `transparent` (`input` and `p` are not declared).", "quantifier": "all sources accepted by the derives, all three derives", "why_tests_cant": "The templates are put together from pieces depending on shape, options, defaults and mode; the tests compile a few combinations.", "anchors": ["macros/types/field.rs: 313-1052", "macros/types/struct.rs: 150-387", "macros/types/variant.rs: 55-467", "macros/types/enum.rs: 68-165", "macros/parse_meta_item.rs: 51-398", "macros/parse_attributes.rs: 46-360"]}
{"id": "C103", "title": "The order of the items does not matter, also with flattened fields and for enums", "statement": "Exchanging the items given to a derived named struct (which may flatten other types and append) or to a derived enum (the variant being chosen by name, by the fields of a flattened variant, or by default) does not change whether parsing succeeds nor the value, as long as the items of each append field keep their order.", "quantifier": "all struct schemas without rest fields, all enum schemas whose flattened variants have no rest fields, flattened types of this kind at any depth, all item lists and permutations of them", "why_tests_cant": "n! permutations of unbounded n, for every way of nesting; the tests give the items of flattened types in one order.", "anchors": ["macros/types/field.rs: Field::to_parsing_tokens", "macros/types/enum.rs: to_inline_parsing_tokens", "core/parse_helpers.rs: parse_struct"]}
{"id": "C104", "title": "Adding an optional field or a variant keeps the inputs that were valid", "statement": "Adding a field with a default to a derived named struct (anywhere among its fields), or a variant that is not flattened to a derived enum (at the end), does not change the outcome for any input that does not mention the new names: the same inputs are accepted, with the same values and the default of the new field. In particular, where unknown keys are errors and the names are new, every input that was accepted before is accepted with the same values.", "quantifier": "all struct schemas without rest fields, all enum schemas, flattened types at any depth, all positions of the new field, all defaults and transforms, all item lists and prefixes", "why_tests_cant": "A relation between two types for all inputs; the tests parse fixed types.", "anchors": ["macros/types/field.rs: Field::to_parsing_tokens", "macros/types/enum.rs: to_inline_parsing_tokens", "core/parse_helpers.rs: parse_struct, check_unknown_attribute"]}
{"id": "C105", "title": "Any of its names can be used for a field or variant", "statement": "Writing an item under another name (alias) of the same field of a derived named struct, of a struct flattened into it at any depth, or of the same variant of a derived enum, does not change whether parsing succeeds nor the value.", "quantifier": "all struct and enum schemas whose flattened types read only their own keys, all names and aliases, all item lists, all prefixes, all subsets of the items being written under other names", "why_tests_cant": "A relation between the results for two inputs, for all inputs and all sets of names; the tests use one alias at a time.", "anchors": ["macros/types/field.rs: Field::to_parsing_tokens", "macros/types/variant.rs: to_parsing_tokens", "macros/types/enum.rs: to_inline_parsing_tokens"]}
{"id": "C106", "title": "Allowing unknown fields takes no input away", "statement": "Every input that a derived named struct or enum accepts is accepted, with the same value, after `allow_unknown_fields` was added to the type; and the inputs added by it have a key that is not a name of the type. The same holds for `allow_unknown_fields` on a variant.", "quantifier": "all struct and enum schemas whose flattened types read only their own keys (second half: enums without flattened variants), all entry points, prefixes and inputs", "why_tests_cant": "A relation between two types for all inputs; the tests check single types with and without unknown fields.", "anchors": ["macros/types/struct.rs: to_accepts_all_tokens, to_parsing_tokens", "macros/types/enum.rs: to_accepts_all_tokens", "macros/types/variant.rs: to_parsing_tokens", "macros/types/field.rs: Field::to_parsing_tokens", "core/parse_helpers.rs: check_unknown_attribute"]}
{"id": "C107", "title": "Adding a name keeps the inputs that were valid", "statement": "When an `alias` is added to a field of a derived named struct or to a variant of a derived enum, an input that does not use the new name gives the same value as before and is accepted only if it was before. If unknown keys are errors and the name was not used in the type, that is every input that was accepted before.", "quantifier": "all named struct and enum schemas whose flattened types read only their own keys, all fields that are neither flattened, append nor rest, all variants that are not flattened, all entry points, prefixes and inputs", "why_tests_cant": "A relation between two versions of a type for all inputs; the tests check single types.", "anchors": ["macros/types/field.rs: Field::to_parsing_tokens", "macros/types/variant.rs: to_parsing_tokens", "macros/types/enum.rs: to_inline_parsing_tokens", "core/parse_helpers.rs: parse_struct"]}
{"id": "C108", "title": "Adding a default keeps the inputs that were valid", "statement": "When `default` is added to a field of a derived named struct or of a variant, and the field had to be given before, every input that was accepted is accepted with the same value; and the inputs that are accepted in addition do not give the field.", "quantifier": "all named struct schemas without a default of their own and all enum schemas, all fields that are neither flattened, append nor rest, all variants that are not flattened, all entry points, prefixes and inputs (second half: structs whose flattened types read only their own keys)", "why_tests_cant": "A relation between two versions of a type for all inputs; the tests check single types.", "anchors": ["macros/types/field.rs: Field::to_parsing_tokens", "macros/types/variant.rs: to_parsing_tokens, field_key", "macros/types/enum.rs: to_inline_parsing_tokens", "core/parse_helpers.rs: parse_struct"]}
{"id": "C109", "title": "A field's type can be replaced by one that accepts more", "statement": "When the types of fields of a derived struct or enum are replaced by types that accept at least the same inputs with the same values (and, for flattened fields, have the same field names or count), every input the containing type accepted is accepted with the same value, through every trait the derives generate; likewise for the element types of Option, Box and the other wrappers, lists, sets, maps, arrays, tuples, append and rest fields.", "quantifier": "all struct schemas (named, tuple, unit, transparent) and all enum schemas, any number of fields replaced, all field kinds (plain, flattened, append, rest), all methods of the generated impls, all attributes and inputs", "why_tests_cant": "A relation between two families of types for all inputs; the tests check single types.", "anchors": ["macros/types/field.rs: to_parsing_tokens, to_inline_parsing_tokens", "macros/types/struct.rs: to_inline_parsing_tokens", "macros/types/enum.rs: to_inline_parsing_tokens", "macros/types/variant.rs: to_parsing_tokens", "macros/parse_attributes.rs", "core/parse_helpers.rs: parse_struct_attr_tokens", "core/parse_meta.rs: impls for Option, Box, Vec, BTreeSet, BTreeMap, arrays, tuples"]}
{"id": "C110", "title": "A derive attribute that is given twice is reported under its own name", "statement": "When the deluxe attributes of a field, struct, variant or enum contain an entry whose key already occurred, the derive fails and its error contains \"duplicate attribute for `KEY`\" at the second entry, except for the keys that may be repeated (alias, map, and_then, attributes). Refuted for `skip` on a field: `#[deluxe(skip, skip)]` is reported as a duplicate of `container`.", "quantifier": "all fields, structs, variants and enums, all lists of attribute entries, whatever else is wrong with them", "why_tests_cant": "No test of the repository runs a derive on a wrong source; here the other entries, their order and their errors are arbitrary, and the wrong name for `skip` is in no test.", "anchors": ["macros/types/field.rs: parse of the field options (lines 1040-1160)", "macros/types/struct.rs", "macros/types/variant.rs", "macros/types/enum.rs", "core/parse_helpers.rs: duplicate field errors"]}
