{
 "claims": [
  {
   "property": "C01",
   "status": "proved",
   "theorems": [
    "C01_struct_never_panics"
   ],
   "note": "All structs (named, tuple, unit) whose parts are well behaved; dictionaries, flattening and attribute entry points."
  },
  {
   "property": "C02",
   "status": "partial",
   "theorems": [
    "C02_enum_never_panics_refuted",
    "C02_enum_never_panics_partial",
    "C02_enum_attributes_partial"
   ],
   "note": "False as stated: a transparent variant whose field has an and_then that fails panics (witness in the refuted theorem). Proved for all enums without that."
  },
  {
   "property": "C03",
   "status": "partial",
   "theorems": [
    "C03_collections",
    "C03_wrappers",
    "C03_primitives",
    "C03_derived",
    "C03_punctuated_refuted",
    "C03_punctuated_partial"
   ],
   "note": "False for Punctuated<T, P> when T parses from no tokens (Visibility): the loop never ends. Everything else, and Punctuated of an element that consumes a token, is proved."
  },
  {
   "property": "C04",
   "status": "proved",
   "theorems": [
    "C04_spellings_only",
    "C04_round_trip",
    "C04_spellings"
   ],
   "note": ""
  },
  {
   "property": "C05",
   "status": "proved",
   "theorems": [
    "C05_order"
   ],
   "note": ""
  },
  {
   "property": "C06",
   "status": "proved",
   "theorems": [
    "C06_types",
    "C06_missing",
    "C06_no_attribute"
   ],
   "note": ""
  },
  {
   "property": "C07",
   "status": "partial",
   "theorems": [
    "C07_duplicate_read",
    "C07_duplicate_fails",
    "C07_duplicate_reported_partial",
    "C07_duplicate_reported_refuted"
   ],
   "note": "Failure is proved for all inputs. The message is proved for every second key that is read (C07_duplicate_read: any input, flattened fields included); reading ends at the first malformed item, and a second key after it is not mentioned (refuted theorem)."
  },
  {
   "property": "C08",
   "status": "partial",
   "theorems": [
    "C08_unknown_read",
    "C08_unknown_fails",
    "C08_known",
    "C08_unknown_reported_partial",
    "C08_unknown_reported_refuted",
    "C08_strict"
   ],
   "note": "Failure, and the converse, are proved for all inputs. The message is proved for every unknown key that is read (C08_unknown_read); a malformed item before the unknown key hides it (refuted theorem)."
  },
  {
   "property": "C09",
   "status": "proved",
   "theorems": [
    "C09_reading",
    "C09_any_input",
    "C09_errors"
   ],
   "note": "For all inputs in the quantifier, and beyond it: C09_reading and C09_any_input give the exact list of errors of any named struct, flattened fields included, on any input, malformed items included; the limit of the property as stated is shown in Example C09_limit."
  },
  {
   "property": "C10",
   "status": "proved",
   "theorems": [
    "C10_default",
    "C10_bad_value"
   ],
   "note": ""
  },
  {
   "property": "C11",
   "status": "proved",
   "theorems": [
    "C11_struct_default",
    "C11_no_missing_errors"
   ],
   "note": ""
  },
  {
   "property": "C12",
   "status": "partial",
   "theorems": [
    "C12_enum",
    "C12_flattened_enum",
    "C12_named_struct",
    "C12_collections",
    "C12_tuples_partial",
    "C12_flattened_tuple_refuted",
    "C12_blank_refuted"
   ],
   "note": "Named structs, enums (C12_enum, also with flattened variants), Vec-like collections, sets, maps and rest: proved. Arrays, tuples and tuple structs without flattened fields: proved for inputs without an empty item; both restrictions are needed: C12_blank_refuted (`#[at(1, 2)] #[at(,)]` against `#[at(1, 2,,)]`), C12_flattened_tuple_refuted (tuple structs with flattened tuples)."
  },
  {
   "property": "C13",
   "status": "proved",
   "theorems": [
    "C13_tuple_struct",
    "C13_tuple_struct_empty",
    "C13_too_many",
    "C13_too_few",
    "C13_tuple_struct_streams",
    "C13_tuple",
    "C13_tuple_arity",
    "C13_tuple_streams",
    "C13_reading",
    "C13_any_input",
    "C13_struct_reading",
    "C13_struct_any_input",
    "C13_struct_surplus",
    "C13_struct_item"
   ],
   "note": "Tuple structs without flattened fields, and tuples: exact characterisation of the accepted inputs, in parentheses and over several streams (for the latter: no empty item). The exact result on every list of streams is C13_any_input (tuples) and C13_struct_any_input with C13_struct_surplus (tuple structs). C13_struct_item: what is written between the parentheses of a tuple struct, tokens left behind the last item included."
  },
  {
   "property": "C14",
   "status": "proved",
   "theorems": [
    "C14_array",
    "C14_array_zero",
    "C14_array_returns",
    "C14_array_streams",
    "C14_any_input"
   ],
   "note": "For N = 0 a lone comma is accepted as well (C14_array_zero). The exact result of an array on every list of streams is C14_any_input."
  },
  {
   "property": "C15",
   "status": "proved",
   "theorems": [
    "C15_vec",
    "C15_vec_brackets"
   ],
   "note": ""
  },
  {
   "property": "C16",
   "status": "partial",
   "theorems": [
    "C16_errors_partial",
    "C16_errors_lost_refuted",
    "C16_any_input"
   ],
   "note": "Proved when each element is accepted or rejected as a whole. False otherwise: tokens left after an element return a single `expected ,` error and drop the errors collected so far (refuted theorem). The exact result on every input is C16_any_input."
  },
  {
   "property": "C17",
   "status": "partial",
   "theorems": [
    "C17_set",
    "C17_set_brackets",
    "C17_set_errors_partial",
    "C17_errors_lost_refuted",
    "C17_any_input"
   ],
   "note": "Success is characterised for all inputs. The error list is proved for elements accepted or rejected as a whole, false otherwise (refuted theorem). The exact result on every input is C17_any_input."
  },
  {
   "property": "C18",
   "status": "partial",
   "theorems": [
    "C18_map",
    "C18_map_braces",
    "C18_map_errors_partial",
    "C18_errors_lost_refuted",
    "C18_any_input",
    "C18_entry"
   ],
   "note": "Success is characterised for all inputs. The error list is proved for entries whose key is accepted and whose value is accepted or rejected as a whole; a bad key returns immediately and drops the errors collected so far (refuted theorem). The exact result on every input is C18_any_input."
  },
  {
   "property": "C19",
   "status": "partial",
   "theorems": [
    "C19_field",
    "C19_named",
    "C19_never_none",
    "C19_named_paren_partial",
    "C19_named_paren_refuted",
    "C19_unnamed",
    "C19_unnamed_result"
   ],
   "note": "False for `name(..)` when T overrides parse_meta_item_inline: Option<Vec<T>> does not accept `name(1, 2)` (refuted theorem). The rest is proved."
  },
  {
   "property": "C20",
   "status": "proved",
   "theorems": [
    "C20_flag_field",
    "C20_flag_value_fails",
    "C20_bool"
   ],
   "note": ""
  },
  {
   "property": "C21",
   "status": "partial",
   "theorems": [
    "C21_reading",
    "C21_any_input",
    "C21_ok",
    "C21_alone",
    "C21_two_fails",
    "C21_two_reported_partial",
    "C21_two_reported_refuted",
    "C21_none",
    "C21_others_rejected_refuted"
   ],
   "note": "C21_ok: exact condition for success, for any enum without flattened variants that the macro accepts (no field-level and_then in transparent variants, see C02), in attributes, lists and flattened. C21_two_fails, C21_none: the error cases; C21_two_reported_partial: the error names both variants if the items are well formed, C21_two_reported_refuted: a malformed item (`a = () 1, b(2)`) hides the second. C21_others_rejected_refuted: with a default and no variant key, unknown keys are silently accepted. C21_reading, C21_any_input: on every input whatsoever (malformed items, several variants, failing values, unknown keys) the exact result of such an enum, every error with its text, position and order."
  },
  {
   "property": "C22",
   "status": "proved",
   "theorems": [
    "C22_choice",
    "C22_any_input",
    "C22_selected",
    "C22_others_rejected",
    "C22_others_rejected_prefix",
    "C22_accepted",
    "C22_default"
   ],
   "note": "Selected variant has all its required fields present and is read like a struct; keys of other flattened variants are rejected, in fact at top level as well as embedded; converse and default. In the theorem with a prefix the conclusion `In k (flat_names_of v)` allows an unprefixed reading: the code compares the prefixed key with unprefixed names for variants without required fields. C22_choice: which flattened variant is chosen, uniquely, order included; C22_any_input: the exact result on every input whatsoever, every error with its text, position and order."
  },
  {
   "property": "C23",
   "status": "partial",
   "theorems": [
    "C23_split",
    "C23_one_owner",
    "C23_child_alone",
    "C23_own_keys",
    "C23_overlap_refuted"
   ],
   "note": "Proved for structs whose fields have no name in common; flattened children are any implementations that depend on their own keys only (proved for derived structs at any depth, and append of Vec and sets). Refuted without disjoint names: an item named like a field of the parent and of the child is consumed by both. Flattened enums: see C50."
  },
  {
   "property": "C24",
   "status": "partial",
   "theorems": [
    "C24_moved",
    "C24_moved_nested",
    "C24_only_so",
    "C24_nested_refuted",
    "C24_moved_enum",
    "C24_prefix_strip",
    "C24_prefix_compose"
   ],
   "note": "Prefix arithmetic, moving a struct to another prefix, and independence of other keys are proved; refuted for a struct flattened without a prefix inside of one flattened with a prefix: the outer prefix is dropped. C24_moved_enum extends moving to enums whose flattened variants take all keys."
  },
  {
   "property": "C25",
   "status": "proved",
   "theorems": [
    "C25_append",
    "C25_append_set",
    "C25_append_vec_iff",
    "C25_reading",
    "C25_vec_any_input",
    "C25_set_any_input"
   ],
   "note": "The exact result of appending on every input is C25_vec_any_input and C25_set_any_input (with C25_reading)."
  },
  {
   "property": "C26",
   "status": "partial",
   "theorems": [
    "C26_rest_partial",
    "C26_own_name_refuted",
    "C26_prefix_refuted",
    "C26_any_input"
   ],
   "note": "Proved with the parent's names as the macro passes them. False for structs flattened under a prefix, and for the name of the rest field itself (refuted theorems). The exact result of a rest map on every input is C26_any_input."
  },
  {
   "property": "C27",
   "status": "proved",
   "theorems": [
    "C27_extract_struct",
    "C27_extract_enum",
    "C27_matches",
    "C27_extract_refused"
   ],
   "note": "The equality with parse_attributes assumes that converting the object to the container value does not look at the removed attributes."
  },
  {
   "property": "C28",
   "status": "proved",
   "theorems": [
    "C28_depends_on_matching",
    "C28_insert",
    "C28_insert_enum"
   ],
   "note": ""
  },
  {
   "property": "C29",
   "status": "partial",
   "theorems": [
    "C29_struct_partial",
    "C29_enum_partial",
    "C29_lost_refuted",
    "C29_braces_refuted",
    "C29_struct_lost",
    "C29_enum_lost"
   ],
   "note": "Proved: when all tokens (also in nested groups) were consumed, the returned error is exactly the error of the generated body, for structs and enums; otherwise the error is that one or a single `unexpected token`. Refuted in general: syn's deferred check replaces all collected errors, and for the wrong delimiter everything is lost. The exact condition is C29_struct_lost / C29_enum_lost: the errors are replaced iff some attribute has an unread token, and the message is placed at the first one."
  },
  {
   "property": "C30",
   "status": "partial",
   "theorems": [
    "C30_struct",
    "C30_enum",
    "C30_equals_refuted",
    "C30_items",
    "C30_junk_refuted",
    "C30_parse2"
   ],
   "note": "Proved: attributes succeed iff each has the form #[name] or #[name(..)], the body succeeds and every content (with nested groups) is used up; every item of a named struct is read to its end by its field. Refuted for groups: a `()` field of a struct with a flattened field accepts any tokens between the parentheses. See also C13-C20, C37, C38_paren_only for the individual types. C30_equals_refuted: `#[name = (..)]` is accepted like `#[name(..)]`. C30_parse2: the same for deluxe::parse2, with the place of the error."
  },
  {
   "property": "C31",
   "status": "proved",
   "theorems": [
    "C31_errors_accumulate",
    "C31_push_result",
    "C31_list_view"
   ],
   "note": "Stored accumulator (Option<syn::Error>) and its list view."
  },
  {
   "property": "C32",
   "status": "proved",
   "theorems": [
    "C32_optional"
   ],
   "note": ""
  },
  {
   "property": "C33",
   "status": "proved",
   "theorems": [
    "C33_text",
    "C33_representation_irrelevant"
   ],
   "note": ""
  },
  {
   "property": "C34",
   "status": "proved",
   "theorems": [
    "C34_read",
    "C34_read_else",
    "C34_leading",
    "C34_path_matches",
    "C34_path_matches_plain",
    "C34_key_injective",
    "C34_multi_segment_differs"
   ],
   "note": ""
  },
  {
   "property": "C35",
   "status": "proved",
   "theorems": [
    "C35_skip_item",
    "C35_skip_item_total",
    "C35_skip_all"
   ],
   "note": ""
  },
  {
   "property": "C36",
   "status": "proved",
   "theorems": [
    "C36_parse_eof",
    "C36_peek_eof"
   ],
   "note": ""
  },
  {
   "property": "C37",
   "status": "proved",
   "theorems": [
    "C37_content",
    "C37_content_enum",
    "C37_parens",
    "C37_equals",
    "C37_paren",
    "C37_flag",
    "C37_try_parse_agrees",
    "C37_delimiter"
   ],
   "note": ""
  },
  {
   "property": "C38",
   "status": "proved",
   "theorems": [
    "C38_paren_only",
    "C38_paren_equals"
   ],
   "note": ""
  },
  {
   "property": "C39",
   "status": "proved",
   "theorems": [
    "C39_ranges",
    "C39_u8",
    "C39_int_sound",
    "C39_int_complete"
   ],
   "note": ""
  },
  {
   "property": "C40",
   "status": "partial",
   "theorems": [
    "C40_transparent",
    "C40_tokens",
    "C40_named",
    "C40_position_refuted"
   ],
   "note": "Results (values and errors), tokens consumed, and the named forms. C40_position_refuted: the code of a transparent tuple struct starts with `let index = 0usize;`, which hides the position its flattened form is given, so the inner type counts from 0 and its errors name other positions. A transparent struct does not forward the inner type's value for a missing field (C06_types)."
  },
  {
   "property": "C41",
   "status": "proved",
   "theorems": [
    "C41_only_one"
   ],
   "note": ""
  },
  {
   "property": "C42",
   "status": "proved",
   "theorems": [
    "C42_all_or_none"
   ],
   "note": ""
  },
  {
   "property": "C43",
   "status": "proved",
   "theorems": [
    "C43_laws"
   ],
   "note": ""
  },
  {
   "property": "C44",
   "status": "partial",
   "theorems": [
    "C44_enum_rejected",
    "C44_enum_listed",
    "C44_enum_looks",
    "C44_enum_fields",
    "C44_enum_listed_refuted",
    "C44_unlisted_rejected",
    "C44_unlisted_ignored",
    "C44_plain",
    "C44_flattened_prefix",
    "C44_flattened",
    "C44_nested",
    "C44_nested_prefix",
    "C44_listed_refuted"
   ],
   "note": "Structs: unlisted keys are rejected or without influence, listed keys are looked at; refuted for a nested flatten without prefix inside a prefix. Enums: unlisted keys are rejected (C21_others_rejected_refuted: not with a default), the names of variants are listed and looked at; refuted for fields of flattened variants, which are ignored next to the name of a variant."
  },
  {
   "property": "C45",
   "status": "proved",
   "theorems": [
    "C45_suggestion",
    "C45_check_unknown"
   ],
   "note": ""
  },
  {
   "property": "C46",
   "status": "proved",
   "theorems": [
    "C46_quoted",
    "C46_quoted_only",
    "C46_quoted_named",
    "C46_quoted_paren",
    "C46_syn_quoted",
    "C46_syn_quoted_only",
    "C46_maybe_quoted",
    "C46_maybe_plain",
    "C46_maybe_same"
   ],
   "note": ""
  },
  {
   "property": "C47",
   "status": "partial",
   "theorems": [
    "C47_first_error_spanned_partial",
    "C47_all_errors_spanned_refuted"
   ],
   "note": "False as stated: parse_empty re-spans only the first message. Witness in the refuted theorem; the partial theorem states what holds. C88 says what happens type by type: the first error is at the name."
  },
  {
   "property": "C48",
   "status": "partial",
   "theorems": [
    "C48_punctuated_partial",
    "C48_punctuated_brackets_partial",
    "C48_punctuated_fails",
    "C48_punctuated_refuted"
   ],
   "note": "False: two or more elements are never accepted, the loop stops at the first separator (C48_punctuated_fails). Proved for at most one element per stream."
  },
  {
   "property": "C49",
   "status": "partial",
   "theorems": [
    "C49_number",
    "C49_position_partial",
    "C49_skip_refuted",
    "C49_flatten_refuted",
    "C49_numeral"
   ],
   "note": "Proved for tuple structs without flattened fields and with no `skip` field before the missing one, in all entry points and with the offset of a flattened struct. Refuted for `skip` fields (they are counted although they take no item) and for flattened fields (their items are counted twice). C49_numeral: the number is printed in decimal. C49_number gives the exact number for all tuple structs with flattened and skipped fields: the sizes of the fields before, plus (with flattened fields) the sizes of the fields already read, which is why it is wrong there."
  },
  {
   "property": "C50",
   "status": "partial",
   "theorems": [
    "C50_moved_partial",
    "C50_inner_refuted",
    "C50_flattened_partial",
    "C50_flattened_refuted"
   ],
   "note": "C50_moved_partial: enums without flattened variants, variants without named fields; C50_flattened_partial: with flattened variants that take all keys or have only plain fields, one of them required; C50_inner_refuted: with named fields the inner keys need the outer prefix; C50_flattened_refuted: a struct flattened into a flattened variant loses its keys when the enum gets a prefix (for variants without required fields see C94_prefix_refuted)."
  },
  {
   "property": "C51",
   "status": "partial",
   "theorems": [
    "C51_struct",
    "C51_struct_generated",
    "C51_enum_partial",
    "C51_variant_fields_refuted",
    "C51_variant_or_field_refuted"
   ],
   "note": "Structs: proved (and carried over to the generated parser). Enums: names of ordinary variants are distinct and flattened variants have different required names; the code does not compare the field names within a variant, nor variant names with field names of flattened variants: both refuted."
  },
  {
   "property": "C52",
   "status": "partial",
   "theorems": [
    "C52_spanned",
    "C52_spanned_flat",
    "C52_compare",
    "C52_missing_refuted"
   ],
   "note": "All parse functions and comparisons; missing_meta_item is not forwarded (refuted theorem)."
  },
  {
   "property": "C53",
   "status": "partial",
   "theorems": [
    "C53_regular",
    "C53_fine",
    "C53_flag",
    "C53_tokentree_refuted",
    "C53_punct_refuted",
    "C53_spanned_refuted"
   ],
   "note": "Proved for all types except TokenTree and Punct, which accept the separating comma as value, and SpannedValue, whose span includes the token after the value (refuted theorems)."
  },
  {
   "property": "C54",
   "status": "partial",
   "theorems": [
    "C54_own_keys_partial",
    "C54_parent_refuted",
    "C54_open_partial"
   ],
   "note": "C54_own_keys_partial: enums without flattened variants. C54_open_partial: also with flattened variants, if these take all keys (allow_unknown_fields, or a field that takes everything) and their fields depend on their own keys only. C54_parent_refuted: with other flattened variants the struct's own key is reported as unknown."
  },
  {
   "property": "C55",
   "status": "partial",
   "theorems": [
    "C55_selected_partial",
    "C55_shadowed_refuted",
    "C55_exact",
    "C55_one"
   ],
   "note": "C55_exact: with no variant named, an enum parses exactly to the first usable flattened variant (in the order of the names of the required fields; C55_one: there is exactly one if any), or to its default. C55_selected_partial: so a variant is selected if it is the only one that can be chosen. C55_shadowed_refuted: of {a} and {a, b}, the second is never selected by any input."
  },
  {
   "property": "C56",
   "status": "partial",
   "theorems": [
    "C56_embedded_partial",
    "C56_top_refuted"
   ],
   "note": "C56_embedded_partial: in an enum flattened into a struct (validate = false); C56_top_refuted: at top level such keys are ignored."
  },
  {
   "property": "C57",
   "status": "partial",
   "theorems": [
    "C57_struct",
    "C57_enum_partial",
    "C57_enum_panics",
    "C57_ident_refuted",
    "C57_transparent_rest_refuted"
   ],
   "note": "Structs: proved. Enums: proved when the snake case form of every variant name is an identifier and no transparent variant has a single `rest` field; each of these panics (refuted). Parsing of Rust paths, types and lifetimes by syn is assumed to return."
  },
  {
   "property": "C58",
   "status": "partial",
   "theorems": [
    "C58_refuted",
    "C58_struct_partial",
    "C58_enum_partial",
    "C58_enum_attributes_partial"
   ],
   "note": "C58_struct_partial, C58_enum_partial, C58_enum_attributes_partial: proved for every accepted item without and_then on the field of a transparent struct or of a transparent variant that is not skipped. C58_refuted: such an and_then really does break the claim; an accepted source enum whose generated parser panics."
  },
  {
   "property": "C62",
   "status": "proved",
   "theorems": [
    "C62_struct",
    "C62_variant"
   ],
   "note": "Structs and variants, all field lists."
  },
  {
   "property": "C63",
   "status": "proved",
   "theorems": [
    "C63_enum"
   ],
   "note": ""
  },
  {
   "property": "C59",
   "status": "proved",
   "theorems": [
    "C59_field",
    "C59_struct",
    "C59_variant",
    "C59_enum"
   ],
   "note": "Fields, structs, variants and enums, both directions, all texts. The values of single options are described by the (separately characterised) implementations of their types."
  },
  {
   "property": "C60",
   "status": "partial",
   "theorems": [
    "C60_field_partial",
    "C60_struct_partial",
    "C60_variant_partial",
    "C60_enum_partial",
    "C60_default_refuted"
   ],
   "note": "Refuted for `default = expr`, which takes the rest of the attribute (`default = 1, skip` does not skip). Proved: every option that is read appears in the schema."
  },
  {
   "property": "C61",
   "status": "proved",
   "theorems": [
    "C61_field",
    "C61_unreadable",
    "C61_struct",
    "C61_struct_unreadable",
    "C61_variant",
    "C61_enum"
   ],
   "note": "For variants: when the snake case form of the name is an identifier (else the macro panics, C57)."
  },
  {
   "property": "C64",
   "status": "proved",
   "theorems": [
    "C64_struct"
   ],
   "note": "Named structs without collecting fields (those: C73); types whose implementations are local (C53 covers the types of the library and derived types). Tuple structs: C67; enums: C66."
  },
  {
   "property": "C65",
   "status": "proved",
   "theorems": [
    "C65_any_input",
    "C65_unit",
    "C65_named",
    "C65_tuple"
   ],
   "note": "Variants that are not transparent (those: C21) and have no flattened, appended or rest fields; field types as in C13 and C64. C65_any_input: the exact result, errors included, of whatever follows the name."
  },
  {
   "property": "C66",
   "status": "proved",
   "theorems": [
    "C66_enum"
   ],
   "note": "Enums without flattened variants (those: C22) and without flattened, appended or rest fields; field types fine (C53). Field names must be distinct within a variant, which the macro does not check (C51)."
  },
  {
   "property": "C67",
   "status": "proved",
   "theorems": [
    "C67_tuple"
   ],
   "note": "Tuple structs without flattened fields; types whose implementations are fine (C53) and whose missing value does not depend on the name shown in the error; inputs without blank items (blank items: C13)."
  },
  {
   "property": "C68",
   "status": "partial",
   "theorems": [
    "C68_read",
    "C68_write_partial",
    "C68_write_refuted",
    "C68_extract_partial",
    "C68_extract_refuted",
    "C68_locked",
    "C68_locked_only",
    "C68_borrowed",
    "C68_slice_at"
   ],
   "note": "False for `_` expressions (Expr::Infer): readable, not writable. Proved for every other variant of every family. The errors where nothing can be written are exact: C68_locked, C68_borrowed."
  },
  {
   "property": "C69",
   "status": "partial",
   "theorems": [
    "C69_struct",
    "C69_enum",
    "C69_inside",
    "C69_params_partial",
    "C69_params_refuted",
    "C69_scoped",
    "C69_false_refuted",
    "C69_bound_refuted",
    "C69_fill_partial",
    "C69_fill_refuted"
   ],
   "note": "Refuted: a const parameter called T is not avoided; `container = false` decides the impl's type; `container(ty = T)` gives no HasAttributes bound; a `&mut` container panics in ParseAttributes. The rest is proved for types of the modelled syntax (references, paths with arguments, and opaque others)."
  },
  {
   "property": "C70",
   "status": "proved",
   "theorems": [
    "C70_clean",
    "C70_reported",
    "C70_exact",
    "C70_emits"
   ],
   "note": "The crate lookup (proc_macro_crate) is an oracle; the code emitted for an accepted item is a reference to its schema, whose meaning is C64-C67. C70_exact gives the complete output (impl and errors) in every case."
  },
  {
   "property": "C71",
   "status": "partial",
   "theorems": [
    "C71_stable",
    "C71_struct_partial",
    "C71_enum_partial",
    "C71_variant_partial",
    "C71_struct_refuted",
    "C71_enum_refuted"
   ],
   "note": "Proved when all instantiations that call agree on the names of the flattened types (always so for items without type parameters); refuted for generic items."
  },
  {
   "property": "C72",
   "status": "partial",
   "theorems": [
    "C72_fields",
    "C72_enum_partial",
    "C72_enum_refuted"
   ],
   "note": "Refuted for enums: a flattened variant with a prefixed flattened field. Proved otherwise."
  },
  {
   "property": "C73",
   "status": "proved",
   "theorems": [
    "C73_struct",
    "C73_append",
    "C73_append_set",
    "C73_rest",
    "C73_paths"
   ],
   "note": "Named structs parsed at top level (prefix \"\"). keeps_to_part is proved for Vec, sets and maps (C73_append, C73_append_set, C73_rest, C73_paths), for derived structs (C23_own_keys) and enums (C54). That the names of a flattened type are not those of other fields is a hypothesis (flat_apart): the derive cannot check it, see C23_overlap_refuted. The parts of a `rest` field exclude its own name, see C26_own_name_refuted."
  },
  {
   "property": "C74",
   "status": "partial",
   "theorems": [
    "C74_text",
    "C74_to_string",
    "C74_distinct_partial",
    "C74_distinct_refuted"
   ],
   "note": "That distinct keys have distinct texts is refuted for parts that are empty or contain `, ` (`[\"a, b\"]` and `[\"a\", \"b\"]`), and proved for parts without the separators. The text is what a `rest` map compares with the names to leave out (C26)."
  },
  {
   "property": "C75",
   "status": "proved",
   "theorems": [
    "C75_flatten",
    "C75_container",
    "C75_transparent",
    "C75_default"
   ],
   "note": "That `default = ..` takes all tokens up to the end of the attribute is what the code does; C60 refutes that nothing is lost by it. Type and lifetime parsers are syn's (oracles)."
  },
  {
   "property": "C76",
   "status": "proved",
   "theorems": [
    "C76_text",
    "C76_stable",
    "C76_identifier",
    "C76_ident_new"
   ],
   "note": "heck's algorithm is part of the model (Schema.v), for ASCII names. That an accepted variant has this key is C59 (SpecOpts.own_name); that other names make the derive panic is in C57."
  },
  {
   "property": "C77",
   "status": "proved",
   "theorems": [
    "C77_item",
    "C77_error",
    "C77_named",
    "C77_missing",
    "C77_inline",
    "C77_refused",
    "C77_reported"
   ],
   "note": "Literal tokens stand for their values (DESIGN.md, tokens); which texts a literal token has is the lexer's business and not modelled. FromStr functions are arbitrary."
  },
  {
   "property": "C78",
   "status": "partial",
   "theorems": [
    "C78_named",
    "C78_missing",
    "C78_optional_named",
    "C78_optional",
    "C78_optional_bare_refuted",
    "C78_collection",
    "C78_collection_brackets",
    "C78_append",
    "C78_map",
    "C78_map_braces",
    "C78_rest"
   ],
   "note": "Refuted in one point: a name without a value is None for an optional module even if the inner module has no such value (C78_optional_bare_refuted). Items are stated with accepts, so the inner types must be fine (C53)."
  },
  {
   "property": "C79",
   "status": "partial",
   "theorems": [
    "C79_item",
    "C79_named",
    "C79_same_partial",
    "C79_same_outside_partial",
    "C79_parens_refuted",
    "C79_missing",
    "C79_missing_refuted"
   ],
   "note": "Refuted for `name(..)` of types that read several items there (Box<Vec<i32>>) and for missing items (Box<Option<i32>>). C79_named and C79_missing say exactly what is read instead."
  },
  {
   "property": "C80",
   "status": "partial",
   "theorems": [
    "C80_item",
    "C80_named",
    "C80_nothing",
    "C80_flat_partial",
    "C80_flat_refuted",
    "C80_refused"
   ],
   "note": "Flattened streams are refuted: any comma is an error. C80_flat_partial is exact."
  },
  {
   "property": "C81",
   "status": "proved",
   "theorems": [
    "C81_item",
    "C81_named"
   ],
   "note": ""
  },
  {
   "property": "C82",
   "status": "partial",
   "theorems": [
    "C82_item_partial",
    "C82_never",
    "C82_quotes_refuted"
   ],
   "note": "Refuted: the value is the text of the literal as written, quotes and escapes included (C82_quotes_refuted, C82_never: it is never the content). C82_item_partial is exact for every string literal."
  },
  {
   "property": "C83",
   "status": "partial",
   "theorems": [
    "C83_named",
    "C83_missing",
    "C83_parens_list",
    "C83_parens_item",
    "C83_parens_whole",
    "C83_parens_named",
    "C83_single_parens_refuted"
   ],
   "note": "Exact for syn_dict and paren_syn_dict over any syn parser. Refuted part: for ExprAssign, Meta and MetaNameValue `name(value)` is an error (the parentheses of the item are not those of the value). The list of which types use which form is read off the macros by hand."
  },
  {
   "property": "C84",
   "status": "proved",
   "theorems": [
    "C84_field",
    "C84_struct",
    "C84_variant",
    "C84_enum",
    "C84_flatten",
    "C84_container",
    "C84_transparent"
   ],
   "note": "Exact list of errors for fields, structs, variants, enums and the inline option groups. The entries are given by a relation (has_entries) which excludes attributes whose reading breaks off inside a group: there the collected errors are replaced by `unexpected token` (C29_struct_lost). Findings visible in the specification: a repeated `skip` is reported as `container`; `rename`/`alias` on a tuple field is an error only without `skip`."
  },
  {
   "property": "C85",
   "status": "partial",
   "theorems": [
    "C85_run",
    "C85_group",
    "C85_array",
    "C85_tuple",
    "C85_vec",
    "C85_struct",
    "C85_absent_array",
    "C85_absent_tuple",
    "C85_absent_vec",
    "C85_absent_struct",
    "C85_by_items",
    "C85_split_refuted",
    "C85_empty_refuted",
    "C85_count_partial",
    "C85_count_refuted"
   ],
   "note": "Proved as an equivalence for one stream (a group, a list or one attribute). Refuted as stated in two corners: a block cannot be continued in a second attribute (C85_split_refuted), and a flattened type without items ([T; 0]) in front of other items is an error (C85_empty_refuted; `spread` therefore gives a flattened field at least one item or nothing at the end). The declared number of items (field_count) is the number taken (C85_count_partial), except with skipped or container fields (C85_count_refuted)."
  },
  {
   "property": "C86",
   "status": "partial",
   "theorems": [
    "C86_struct",
    "C86_enum_partial",
    "C86_flattened_variant_refuted",
    "C86_flattened_enum_refuted"
   ],
   "note": "Proved for structs (also with flattened fields, given that these read only their own keys, see C23) and for enums without flattened variants. Refuted for flattened variants of an enum that allows unknown fields, and for such an enum flattened into a struct (ACCEPTS_ALL keeps its default)."
  },
  {
   "property": "C87",
   "status": "partial",
   "theorems": [
    "C87_tuple",
    "C87_array",
    "C87_append",
    "C87_vec_partial",
    "C87_rest_refuted"
   ],
   "note": "Proved for arrays, tuples and appended values, and for a Vec without tokens left after an element. Refuted for rest maps: `x = y` with integer values only reports the missing comma, because what is left of the item is not skipped."
  },
  {
   "property": "C88",
   "status": "proved",
   "theorems": [
    "C88_answer",
    "C88_exact",
    "C88_position",
    "C88_spelled",
    "C88_variant"
   ],
   "note": "Exact answer of every type to a bare name. A transparent struct is covered if the macro accepts it and its default value has as many fields as the struct."
  },
  {
   "property": "C89",
   "status": "partial",
   "theorems": [
    "C89_item",
    "C89_named",
    "C89_flag",
    "C89_inline",
    "C89_inline_none",
    "C89_flat",
    "C89_inline_refuted"
   ],
   "note": "The span is pinned for every reading function. The inline reading falls back to the macro call instead of the first token (C89_inline_refuted); the span depends on the token behind the value (C53_spanned_refuted)."
  },
  {
   "property": "C90",
   "status": "partial",
   "theorems": [
    "C90_contents",
    "C90_collected",
    "C90_one_each_refuted",
    "C90_one_each_partial"
   ],
   "note": "C90_contents and C90_collected hold for every history. into_compile_errors iterates the stored Option rather than the messages (core/util.rs 160-165), so its documentation is refuted (C90_one_each_refuted); C90_one_each_partial says what it returns."
  },
  {
   "property": "C91",
   "status": "partial",
   "theorems": [
    "C91_transparent_refuted",
    "C91_transparent_idle",
    "C91_default_refuted",
    "C91_default_idle",
    "C91_with_refuted",
    "C91_with_idle"
   ],
   "note": "Refuted by two accepted sources (C91_default_refuted, C91_with_refuted). C91_default_idle and C91_with_idle give the extent: the option never matters. The default of the field of a transparent struct has no effect either (C91_transparent_refuted, C91_transparent_idle)."
  },
  {
   "property": "C92",
   "status": "partial",
   "theorems": [
    "C92_field_partial",
    "C92_rest_refuted",
    "C92_name_refuted",
    "C92_variant_partial",
    "C92_variant_refuted"
   ],
   "note": "Partial as stated above; C92_rest_refuted, C92_name_refuted and C92_variant_refuted are accepted (or wrongly rejected) sources. Tuple structs: skipped fields are counted in the numbers of missing fields, see C49_skip_refuted."
  },
  {
   "property": "C93",
   "status": "partial",
   "theorems": [
    "C93_field",
    "C93_struct",
    "C93_variant",
    "C93_enum_refuted",
    "C93_enum_partial",
    "C93_barred_refuted"
   ],
   "note": "Fields, structs and variants: in full (C93_field, C93_struct, C93_variant). Enums: false for allow_unknown_fields (C93_enum_refuted), proved for the other four options (C93_enum_partial). That the suggestion can be followed is false (C93_barred_refuted)."
  },
  {
   "property": "C94",
   "status": "partial",
   "theorems": [
    "C94_enum",
    "C94_option_refuted",
    "C94_prefix_refuted"
   ],
   "note": "Exact relation of the two parsers on all inputs, with default and and_then (C94_enum). Equality is false: an Option left out (C94_option_refuted), a prefix and only defaults (C94_prefix_refuted)."
  },
  {
   "property": "C95",
   "status": "partial",
   "theorems": [
    "C95_attributes",
    "C95_none",
    "C95_helper_refuted"
   ],
   "note": "Attributes: in full (C95_attributes, C95_none). False for parse_first alone (C95_helper_refuted): `next.parse::<Nothing>()` checks nothing; the other attributes are checked by parse_struct_attr_tokens."
  },
  {
   "property": "C96",
   "status": "partial",
   "theorems": [
    "C96_reads_partial",
    "C96_panics_partial",
    "C96_span_refuted",
    "C96_raw_refuted",
    "C96_keyword_refuted",
    "C96_stream_refuted",
    "C96_flag_refuted"
   ],
   "note": "What is read and when it panics: in full for the five one-token types (C96_reads_partial, C96_panics_partial). That nothing is lost is false in five ways (C96_span_refuted, C96_raw_refuted, C96_keyword_refuted, C96_stream_refuted, C96_flag_refuted)."
  },
  {
   "property": "C97",
   "status": "partial",
   "theorems": [
    "C97_struct",
    "C97_enum",
    "C97_args",
    "C97_no_args",
    "C97_rest_refuted"
   ],
   "note": "Exact on every input for a flattened named struct without flattened, append or rest fields and for an enum without flattened variants; C97_rest_refuted shows that a rest field does not work in this position."
  },
  {
   "property": "C98",
   "status": "partial",
   "theorems": [
    "C98_struct",
    "C98_extract",
    "C98_meta",
    "C98_enum_partial",
    "C98_enum_extract_partial",
    "C98_enum_meta",
    "C98_derived_struct",
    "C98_derived_enum",
    "C98_derived_meta",
    "C98_default_refuted",
    "C98_implied_refuted"
   ],
   "note": "Proved for all structs and for all variants of enums. Partial because C98_default_refuted shows that the default of an enum is returned without setting the container, and C98_implied_refuted that `default` is not implied in enums although the documentation says so. The hypothesis that a transparent struct with a default has no and_then on its container field excludes only code that does not compile (the generated code has no accumulator `errors` there)."
  },
  {
   "property": "C99",
   "status": "proved",
   "theorems": [
    "C99_enum",
    "C99_taken"
   ],
   "note": "Proved, for all inputs. C99_taken: the choice between flattened variants is unique. C55_shadowed_refuted shows that the variant taken can reject an input another one would accept. Fields are not flattened, appended or rest; flattened variants are not transparent."
  },
  {
   "property": "C100",
   "status": "partial",
   "theorems": [
    "C100_only_one",
    "C100_all_or_none_refuted",
    "C100_all_or_none_partial"
   ],
   "note": "only_one: equality proved. all_or_none: refuted with a witness (the present attribute's name lacks the prefix, against the documentation); C100_all_or_none_partial shows that this last name is the only difference."
  },
  {
   "property": "C101",
   "status": "partial",
   "theorems": [
    "C101_struct_partial",
    "C101_struct_meta_partial",
    "C101_enum_partial",
    "C101_enum_meta_partial",
    "C101_refuted"
   ],
   "note": "Proved: accepted sources stay accepted without the options set to false and give the same parser (structs and enums, both kinds of derive). Refuted: the converse (C101_refuted: transparent = false with two fields, flatten = false with rename, container = false twice, allow_unknown_fields = false on a tuple). What the impl headers make of container = false is C69_false_refuted."
  },
  {
   "property": "C102",
   "status": "partial",
   "theorems": [
    "C102_meta_struct_partial",
    "C102_attr_struct_partial",
    "C102_struct_refuted",
    "C102_meta_enum_partial",
    "C102_attr_enum_partial",
    "C102_enum_refuted"
   ],
   "note": "The four theorems say exactly which accepted sources give code whose variables are all in scope. C102_struct_refuted: transparent struct with and_then on a field. C102_enum_refuted: variant with flatten and transparent. Only local variables are modelled: not types, borrows or moves."
  },
  {
   "property": "C103",
   "status": "proved",
   "theorems": [
    "C103_struct",
    "C103_enum",
    "C103_flattened_struct",
    "C103_flattened_enum"
   ],
   "note": "C103_struct, C103_enum: all runs (list, flattened, attributes). C103_flattened_struct, C103_flattened_enum: the hypothesis on flattened types holds for derived types of this kind. C103_append_ex: the order of appended items does matter. Rest fields are not covered: the map is modelled as the list of its entries."
  },
  {
   "property": "C104",
   "status": "partial",
   "theorems": [
    "C104_field",
    "C104_compatible",
    "C104_variant",
    "C104_variant_compatible",
    "C104_flattened_refuted"
   ],
   "note": "C104_field: the outcome for inputs that do not mention the new field, both directions. C104_compatible: every input accepted before, if unknown keys are errors and the names are new. C104_variant, C104_variant_compatible: the same for variants that are not flattened. C104_flattened_refuted: an added flattened variant can be used in place of an old one. Not covered: structs with rest fields (the new name is taken out of the map), a default or and_then on the struct (functions of the whole value)."
  },
  {
   "property": "C105",
   "status": "partial",
   "theorems": [
    "C105_struct",
    "C105_flattened",
    "C105_nested",
    "C105_deeper",
    "C105_append",
    "C105_append_vec",
    "C105_append_set",
    "C105_enum",
    "C105_flattened_variant_refuted"
   ],
   "note": "C105_struct: names of the struct's own fields, both directions. C105_flattened, C105_nested, C105_deeper: names of flattened structs at any depth. C105_append, C105_append_vec, C105_append_set: names of append fields, for element types that read what follows the name in the same way after any name (nameless_value). C105_enum: names of variants that are not flattened (for a transparent variant, if its type takes any name). C105_flattened_variant_refuted: of two names of a field of a flattened variant, one can select another variant."
  },
  {
   "property": "C106",
   "status": "partial",
   "theorems": [
    "C106_struct",
    "C106_struct_known",
    "C106_enum",
    "C106_enum_known",
    "C106_variant",
    "C106_flattened_variant_refuted"
   ],
   "note": "C106_struct (any named struct), C106_enum (enums whose flattened variants read only their own keys), C106_variant (on a variant that is not flattened, any enum): no input is taken away. C106_struct_known, C106_enum_known (enums without flattened variants, not under a prefix): only inputs with unknown keys are added; not proved for a variant. C106_flattened_variant_refuted: with `allow_unknown_fields` on a flattened variant the attribute is parsed with validate = false (enum.rs:44-53, parse_attributes.rs:139); the check that no field of a flattened variant is given next to the name of another variant is only made in that case (variant.rs:411-427), so that `a, b = 1` is no longer accepted."
  },
  {
   "property": "C107",
   "status": "partial",
   "theorems": [
    "C107_struct",
    "C107_compatible",
    "C107_enum",
    "C107_enum_compatible",
    "C107_flattened_variant_refuted"
   ],
   "note": "C107_struct, C107_compatible: a field that is neither flattened, append nor rest, in a named struct without rest fields; C107_enum, C107_enum_compatible: a variant that is not flattened; the flattened fields and variants read only their own keys. C107_flattened_variant_refuted: for a field of a flattened variant it is false, as the flattened variants are tried in the order of the sets of their names and a new name can change that order."
  },
  {
   "property": "C108",
   "status": "partial",
   "theorems": [
    "C108_struct",
    "C108_given",
    "C108_enum",
    "C108_flattened_variant_refuted",
    "C108_option_refuted"
   ],
   "note": "C108_struct: any named struct without a default of its own, no condition on the other fields; C108_enum: any enum, a variant with named fields that is neither flattened nor transparent. C108_given (structs whose flattened fields read only their own keys): an input that gives the field has the same result; not proved for variants. C108_flattened_variant_refuted: for a field of a flattened variant it is false, as only required fields count when the variant is chosen (variant.rs:37-54). C108_option_refuted: for a field of type Option, which could be left out before, the value of an input without it changes."
  },
  {
   "property": "C109",
   "status": "proved",
   "theorems": [
    "C109_struct",
    "C109_flattened",
    "C109_flattened_tuple",
    "C109_enum",
    "C109_flattened_enum",
    "C109_attributes",
    "C109_extract",
    "C109_enum_attributes",
    "C109_enum_extract",
    "C109_option",
    "C109_wrapper",
    "C109_vec",
    "C109_append",
    "C109_set",
    "C109_set_append",
    "C109_map",
    "C109_rest",
    "C109_array",
    "C109_tuple",
    "C109_flattened_library",
    "C109_punctuated",
    "C109_quoted",
    "C109_identity",
    "C109_with",
    "C109_allowing",
    "C109_defaulting",
    "C109_enum_defaulting",
    "C109_enum_allowing"
   ],
   "note": "No condition on the schemas. The new types are any dictionaries of functions that succeed with the same result and remaining input wherever the old ones do (reads_more, flat_reads_more, tuple_reads_more). C109_struct, C109_flattened, C109_flattened_tuple, C109_enum, C109_flattened_enum: the generated impls; C109_attributes, C109_extract, C109_enum_attributes, C109_enum_extract: ParseAttributes and ExtractAttributes; C109_option, C109_wrapper, C109_vec, C109_append, C109_set, C109_set_append, C109_map, C109_rest, C109_array, C109_tuple, C109_flattened_library: the library's generic types; C109_punctuated, C109_quoted, C109_identity, C109_with: Punctuated and the modules of core/with.rs (flattened maps and tuples are not covered). C109_allowing, C109_defaulting, C109_enum_defaulting, C109_enum_allowing give types that read more (named structs that are not transparent; variants that are not flattened). The result types of C109_struct and C109_enum are again of the form of the hypothesis, so the claim composes through nested types."
  },
  {
   "property": "C110",
   "status": "partial",
   "theorems": [
    "C110_field",
    "C110_struct",
    "C110_variant",
    "C110_enum",
    "C110_skip_refuted"
   ],
   "note": "C110_field, C110_struct, C110_variant, C110_enum: the error is among those reported, whatever else is wrong; the repeated entry is one whose value could be read or was reported as wrong. C110_skip_refuted: field.rs 1155 passes the name `container` for `skip`, so #[deluxe(skip, skip)] on a field is reported as a duplicate of `container`, and C110_field leaves `skip` out."
  }
 ]
}