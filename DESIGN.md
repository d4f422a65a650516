# Formal model of deluxe in Rocq: design

Subject: `/repo` (jf2048/deluxe at the pinned commit), read as text. Nothing in
`/repo` is built or run. Everything below lives in `/verif/rocq/theories`
(logical name `Verif`).

## 1. What is modelled

| layer | /repo | model |
|---|---|---|
| token streams, syn primitives (trusted reading of syn 2 / proc_macro2) | dependency, not in /repo | `Base.v`, `Tokens.v`, `Syn.v` |
| error accumulator, FieldStatus, validations | `core/util.rs` 19-239, `core/parse_helpers.rs` 21-236, `core/validations.rs` | `Errors.v`, `FieldStatus.v`, `Validations.v` |
| parse helpers | `core/parse_helpers.rs` | `Helpers.v` |
| ParseMetaItem & friends: trait defaults and all library impls except the syn AST types | `core/parse_meta.rs`, `core/util.rs`, `core/with.rs` | `Meta.v`, `LibPrim.v`, `LibColl.v`, `With.v` |
| token types of proc_macro | `core/parse_meta.rs` 1084-1201 | `ProcMacro.v` |
| variables of the emitted code | `macros/types/*.rs`, `macros/parse_meta_item.rs`, `macros/parse_attributes.rs` (the `quote!` templates) | `Emit.v` |
| SmallString | `core/small_string.rs` | `SmallString.v` |
| ToKeyString | `core/parse_meta.rs` 250-266 and all its impls | `KeyStr.v` |
| code generated by `derive(ParseMetaItem)`, `derive(ParseAttributes)`, `derive(ExtractAttributes)` | `macros/types/{field,struct,variant,enum}.rs`, `macros/parse_meta_item.rs`, `macros/parse_attributes.rs` | `DeriveFields.v`, `DeriveStruct.v`, `DeriveEnum.v` |
| attributes of a node, parse_attributes, extract_attributes | `core/parse_helpers.rs` 643-721, 935-1018, `core/parse_attributes.rs`, `src/lib.rs` 640-778 | `Attrs.v` |
| HasAttributes: which nodes hold attributes, readable and writable | `core/parse_attributes.rs` 37-513 | `HasAttrs.v` |
| front end of the derives: reading `#[deluxe(..)]` of structs, fields, enums and variants, all checks on the item | `macros/types/*.rs` `parse_attributes`, `macros/parse_meta_item.rs` 221-246 | `Schema.v` |
| from the accepted schema to the generated code | `macros/types/*.rs` | `Lower.v` |
| the code of `field_names()` with its static cells | `macros/types/field.rs` 315-388, `macros/types/enum.rs` 68-165 | `NamesCode.v` |
| headers of the attribute impls, ContainerFrom | `macros/parse_attributes.rs` 8-31, 86-103, 141-160, 195-345, `core/parse_attributes.rs` 513-627 | `Header.v` |
| the three derive entry points, crate path, fallback output | `macros/lib.rs`, `macros/util.rs`, `macros/parse_attributes.rs` 34-193, `macros/parse_meta_item.rs` 19-330 | `Driver.v` |

File roles: `Spec*.v` hold the specifications the theorems are stated with,
`Lem*.v` and `WfMore.v` the proofs, `Ex*.v` the concrete cases, `Props*.v` only the property
theorems (each closed by the lemma of the same statement, with `Print
Assumptions` beneath and an `Example` beside). `Lexer.v`, `TestKit.v` and `SourceKit.v`
are not part of the model; they make concrete inputs readable. `Conformance.v` replays
the repository's tests against the model, from the source text of the derived types.

### Conventions
* A syn `ParseBuffer` is a record: remaining tokens, scope span (span reported
  at end of input) and syn's shared *unexpected* cell. A parser is a total
  function `stream -> res A * stream`; the stream is returned even on error,
  because deluxe's error recovery continues from where the failing parser
  stopped. Parsers over several buffers are `list stream -> res A * list stream`.
* `res A` is `Ok a | Err e | Bad Panic | Bad Diverge`. `Panic` models every
  `unwrap`/`unreachable!`/`panic!`; `Diverge` is returned only when a loop's
  fuel is exhausted. Theorems exclude both, they do not assume them away.
  An error value is a non-empty list of (span, message).
* A type implementing the parsing traits is a *dictionary* record of its
  functions; generic Rust code over `T: ParseMetaItem` becomes a Gallina function
  from dictionaries to dictionaries. The code generated by the derive is
  modelled as an *interpreter* `schema -> dictionary`; a theorem about all
  schemas is then a theorem about every derive expansion.
* `&mut`/`RefCell` become returned state; closures become state-passing
  functions.
* Oracles are arguments of the theorems, never axioms:
  - class `Env`: `Span::join`, `strsim::jaro_winkler`, `Display` of tokens, lexing of a
    string literal's content;
  - record `synlib` (front end): syn's parsers for paths, types and
    lifetimes;
  - record `rust` (lowering): the trait implementations a field's type or its `with`
    module has, and the meaning of the expressions written in the attributes;
  - `relex` (proc_macro types): what the compiler makes of the text of a literal;
  - `ty_of` (headers): the syn::Type that a list of type tokens is;
  - `found` (driver): the answer of `proc_macro_crate::crate_name`.

  Nothing is assumed about them unless the theorem says so (e.g. `good_syn_lib`:
  the parsers return and only consume from the front; `fine`: an implementation does not
  read past its item, proved for the library's in C53). User functions (`map`, `and_then`,
  defaults) are arbitrary Gallina functions and values.

### Trusted base
* Coq 8.16.1 kernel (`coqc`; `coqchk` is run at the end). `Print Assumptions`
  stands under every property theorem and answers "Closed under the global context" for
  each: no theorem depends on an axiom. `vcheck` lists seven constants
  `Coq.ssr.ssrunder.Under_rel.*` as library axioms: they are the parameters of a module type in
  Coq's own ssreflect support, loaded with the standard library's `Require`s; no theorem
  uses them.
* The reading of Rust semantics, of the token-producing macros as an interpreter
  and of the syn/proc_macro2 behaviours listed in the header of `Syn.v`, of proc_macro in that of `ProcMacro.v`. `heck`'s
  snake case is modelled for ASCII identifiers.
* The repository's own tests are replayed against the model in `Conformance.v`: the source
  text of each test type goes through the modelled front end and code generation before the
  test inputs are parsed (a fidelity check, not a proof).

### Not modelled
* None-delimited groups (`Cursor` looks through them).
* The ~45 syn AST parsers of `parse_meta.rs` 1337-1438: they are arbitrary dictionaries in the
  theorems.
* The text of the emitted code (`quote!`, `ToTokens`, `compile_error!`, hygiene, where
  clauses): generated code is an interpreter over the schema; that rustc accepts the
  code is assumed except where a theorem is about it (C57: unwraps in the
  generator, C69: headers, C72: types of the cells, C102: variables in scope). For the
  sources C102 shows to give code with an undeclared variable (a transparent struct with
  `and_then` on a field, a variant that is both `flatten` and `transparent`) there is no parser
  to speak of, and what the other theorems say about the model's parser is void.
* Types: of a field's type the front end uses only its tokens; `Header.v` distinguishes paths
  with arguments, references and others.
* Integer overflow of `usize` counters (token streams are finite and far shorter
  than 2^64); threads (`SyncOnceCell` is called sequentially).
* Rust's `HashMap`/`BTreeMap`/`IndexMap` are association lists in insertion order; observable
  only through the set of entries.

## 2. Method
1. *Well-behavedness.* A predicate on parsers (only consumes from the front, keeps
   scope, never panics, never diverges, cell only goes from unset to set) is shown
   to be preserved by every helper, every library combinator and both derive
   interpreters: gives C01-C03 for all types.
2. *Segment refinement.* A token list is split at top-level commas. For parsers
   that obey the trait's documented contract (do not read past the next comma) the
   loops of `parse_struct`, collections, sets, maps are proved equal to a fold over the
   segments; the specification files are stated on segments/items only. Gives
   C04-C12, C15-C18, C21-C26, C53-C56.
3. *Small algebra.* C24, C27, C28, C31-C37, C39, C41-C43, C45 are direct inductions.
4. *Front end.* The options of an attribute are given a declarative reading
   (which text spells which option); the attribute loop is proved sound and complete for
   it (C59-C63); accepted schemas satisfy invariants that make the generator and the
   generated parsers free of panics (C57, C58).
5. *Source to value.* Front end, lowering and the parser theorems are
   composed: C64, C66, C67, C73, C99 relate the text of an item's attributes to the values parsed from
   any input.
6. *Refutations.* Where the faithful model falsifies the natural English
   property, a `_refuted` theorem gives a witness and the strongest true restriction
   is proved under the suffix `_partial`.

## 3. Plan per property

| id | model | proof |
|---|---|---|
| C01 | DeriveStruct, all field kinds | well-behavedness + post-processing invariant (field Some or errors non-empty) |
| C02 | DeriveEnum | same; transparent variant with failing `and_then` is a counterexample (refuted + partial) |
| C03 | loops with fuel | fuel bound by stream length; `Punctuated` diverges for non-consuming elements (refuted), all others proved |
| C04-C05 | DeriveStruct without flat fields | segment refinement, then induction over items; permutation lemma on the fold |
| C06-C09 | same; any input, flattened fields included (PropsStop) | error list invariants of the fold; `reading` says where the reading of an input stops |
| C10, C11 | post-processing | case analysis per field, lifted to the list of fields |
| C12 | several streams | parse_struct over a list of streams = fold over concatenated segments; tuple with flattened tuple is refuted |
| C13, C14 | parse_tuple_struct, tuples, arrays, tuple structs | induction over items; exact result on any streams (PropsDrop; tuple structs: PropsRow, their items: PropsVItem) |
| C15-C18 | LibCollections | segment refinement; exact result on any input (PropsDrop) |
| C19, C20 | Option, Flag, bool | case analysis for all inner dictionaries/streams |
| C21, C22 | DeriveEnum | fold over segments with key/value state; has_paths characterisation; exact result on any input (PropsEStop, PropsEFlat) |
| C23, C24 | flatten | filter lemma; string lemmas on join_prefix/strip_prefix; nested flatten without prefix drops the outer prefix (refuted) |
| C25, C26 | append/rest | fold over segments = filter/map over items; rest's own name is lost (refuted); exact result on any input (PropsDrop) |
| C27, C28 | Attrs | list induction on the removal loop |
| C29, C30 | Attrs with the unexpected cell | refuted by witness; partial positive theorems (no leftover => all errors kept; Ok => all tokens consumed, outside `()`) |
| C31, C32 | Errors | list algebra over operation sequences |
| C33 | SmallString | refinement to strings, induction over operation sequences |
| C34 | key strings | list/string induction (identifiers without `:`) |
| C35-C38 | Helpers | case analysis/induction on tokens |
| C39 | integer dictionaries | arithmetic |
| C40 | transparent structs | unfolding plus transform lemma |
| C41-C43 | Validations, FieldStatus | induction on field lists |
| C44 | field names | induction on schema; prefixed nested flatten refuted; enums: LemAdvert, PropsAdvert |
| C45 | unknown_error | induction with running maximum |
| C46 | With | for all lexers/parsers |
| C47 | parse_empty | refuted for second and later errors; partial for the first |
| C48 | Punctuated | refuted for n >= 2; partial for n <= 1 |
| C49 | tuple struct missing message | refuted for schemas with flattened fields; partial without; exact number in all cases (C49_number) |
| C50 | prefixed enum | refuted for variants with named fields and for fields flattened into flattened variants; moving proved for the others (LemMove) |
| C51 | Schema checks | list induction; variants do not check their fields (refuted for fields of a variant) |
| C52 | SpannedValue | unfolding; missing_meta_item is not forwarded (refuted) |
| C53 | all library dictionaries | locality of every implementation, by induction on types; TokenTree, Punct, SpannedValue refuted |
| C54-C56 | DeriveEnum | key/value fold over segments with flattened variants; the exact choice of the variant (PropsPick); own keys only if the flattened variants take all keys, otherwise refuted |
| C57, C58 | Schema, Lower | invariants of accepted schemas; well-behavedness of lowered ones; C58 refuted for and_then in a transparent variant |
| C59-C61 | Schema | sound and complete attribute loops; `default = ..` swallowing refuted (C60) |
| C62, C63 | Schema | inversion of the checks |
| C64, C67, C73 | Schema, Lower, DeriveStruct | composition; C73 with C23 and C26 for the fields that collect |
| C65 | DeriveEnum | what a variant accepts after its name, per shape; the exact result on any input (PropsVItem) |
| C66 | Schema, Lower, DeriveEnum | composition of C21, C59, C65 |
| C68 | HasAttrs | agreement of the two tables of match arms; exact errors of nodes whose attributes cannot be written; `Expr::Infer` refuted |
| C74 | KeyStr, SmallString | induction over the key; texts parse back when parts are clear; refuted otherwise |
| C76 | Schema (snake_case) | invariant of the word splitter against a positional description |
| C77 | LibPrim, With (from_str) | table of spellings per type and table of refusals (PropsRefuse); inversion of the literal and token readers |
| C78 | With | the three forms after a name once for all modules; elements and entries reduced to the collections (C15, C18, C25) |
| C79 | LibPrim (wrapper_dict) | equal readers; exact reading after a name |
| C80 | LibPrim (TokenStream) | unique split at the first comma; induction on the loop over streams |
| C81 | LibPrim (unit) | case analysis |
| C82 | LibPrim (SmallString) | cases on the first token; the value is the display of the literal, longer than its content |
| C83 | LibPrim (syn types) | the three forms after a name (C78) with syn's parser as an oracle |
| C84 | Schema (read_field .. read_enum) | relation of the entries of an attribute, judged one by one, plus the whole-item checks; exact list of errors |
| C85 | DeriveFields.tuple_closure, LibColl array/tuple/vec flattening | `spread`: items shared out over the fields, blocks for flattened ones; equivalence, plus what each type takes; two refuted corners |
| C86 | DeriveStruct/DeriveEnum, `allow_unknown_fields` | runs on two inputs that agree on the addressed items; two refuted corners for enums |
| C87 | LibColl | from the exact results of C13, C14, C16, C25; rest maps refuted |
| C88 | Meta, LibPrim, LibColl, With, DeriveStruct, DeriveEnum | inductive table of answers, sound and total over all types (PropsBare) |
| C89 | LibPrim, Helpers | direct, against the places before and after reading (PropsSpan); inline refuted |
| C90 | Errors | view of the accumulator as a list, over all histories (PropsAccum); into_compile_errors refuted |
| C91, C92 | DeriveFields, DeriveEnum, Lower | two runs of the generated code related field by field (PropsIdle); refuted by sources read from text (ExIdle) |
| C93 | Schema | corollary of C84 and C45 for keys that are no option (PropsAdvice); refuted by sources read from text (ExAdvice) |
| C94 | DeriveEnum, DeriveStruct | corollary of C22 and C09, which describe the two parsers by the same vocabulary (LemLone, PropsLone); refuted by sources read from text (ExLone) |
| C95 | Attrs, Helpers | corollary of C30_struct and of the locality of parse_first (LemFirst, PropsFirst) |
| C96 | ProcMacro | case analysis on the token (LemPm, PropsPm) |
| C97 | DeriveStruct, DeriveEnum | corollary of C85 with C09 and C21 for what the last field takes (LemTail, PropsTail); rest fields refuted |
| C98 | DeriveStruct, DeriveEnum, Attrs, Schema | forward invariant over the slots: nothing but set_containers writes a container slot (LemHold, LemHold2, PropsHold); an enum's default and the implied default in enums refuted |
| C99 | Schema, Lower, DeriveEnum | composition of C22, C56, C59, C65 (LemSource4, PropsVSource), with the order in which flattened variants are tried (LemPick) |
| C100 | Validations | the exact results C41 and C42 compared with those for the renamed attributes (LemValid, PropsValid); all_or_none refuted |
| C101 | Schema, Lower | C59 twice: the options left are consistent and mean the same schema up to the `false` ones (LemOff, LemOff2), which the lowering does not see; acceptance in the other direction refuted |
| C102 | Emit | scoping as a predicate that computes (LemEmit); each template needs only what surrounds it (LemEmit-LemEmit5); two refutations |
| C103 | DeriveStruct, DeriveEnum | permutations of items through C04/C55 characterisations; rest fields not covered |
| C104 | DeriveStruct, DeriveEnum | two schemas compared through C04/C55 characterisations; adding a flattened variant refuted |
| C105 | DeriveStruct, DeriveEnum | two inputs compared item by item through C04/C21 characterisations; fields of flattened variants refuted |
| C106 | DeriveStruct, DeriveEnum, Attrs | two schemas compared through the characterisations of accepted inputs for structs and enums; `allow_unknown_fields` on a flattened variant refuted |
| C107 | DeriveStruct, DeriveEnum | two schemas compared through the characterisations of accepted inputs for structs and enums; a name for a field of a flattened variant refuted |
| C108 | DeriveFields, DeriveStruct, DeriveEnum | simulation of the generated functions of the two types, as for C106; converse through the characterisation of accepted inputs; fields of flattened variants and of type `Option` refuted |
| C109 | DeriveFields, DeriveStruct, DeriveEnum, Attrs, LibPrim, LibColl, With | simulation as for C106, for two types whose fields' types differ; the loops of the two types agree as long as the first one reports no error |
| C110 | Schema | from C84: the error lists of SpecDiag contain the duplicate for every repeated key; refuted for `skip` on a field by a source |
| C75 | Schema | both directions of the nested option loop, generic in the options |
| C69 | Header | case analysis over container types; fresh-name search; four refutations |
| C70 | Driver | case analysis on front-end results |
| C71, C72 | NamesCode | cell invariant over call sequences; pieces = names of the lowered schema; generic items and nested prefixes refuted |

## 4. Mutation testing
`seeded/LOG.jsonl`: realistic bugs put into a scratch copy of the model, the theorems
that failed, and the theorems tightened because one was missed. A proof that fails is
replaced by an admitted one in the scratch copy only, so that all theorems depending on
the edit are found through their assumptions.
