(** Property theorems: what the derive macros say about their own attributes.  Every proof is
    one [exact]; vocabulary in SpecDiag.v.

    [has_entries G attrs xs]: the `#[deluxe(..)]` attributes consist of the entries [xs], each
    a key with its parser's result, a key that the grammar [G] bars here, or an unknown key.
    [judged G xs]: the errors of the entries one by one: a repeated key, a failing value, a
    key barred by another one, an unknown key with its suggestion.
    [problems_f], [problems_s], [problems_v]: these, together with the errors about the whole
    field, struct or variant.
    [diagnosed r l]: [r] is a success when [l] is empty and otherwise fails with exactly the
    errors [l], in this order. *)
From Verif Require Import ExDiag.

(** ** C84 The derive macros report every mistake in the attributes, in order *)
Theorem C84_field : forall (env : Env) sy, good_syn_lib sy -> forall f xs,
  has_entries (grammar_f sy f) (sf_attrs f) xs -> diagnosed (read_field sy f) (problems_f sy f xs).
Proof. exact @l_field_diag. Qed.
Print Assumptions C84_field.

Example C84_field_ex : let env := lexer_env in good_syn_lib xsy /\ exists xs,
  has_entries (grammar_f xsy x_bad) (sf_attrs x_bad) xs /\
  map e_msg (problems_f xsy x_bad xs) =
  ["duplicate attribute for `container`"; "expected ident"; "unknown field `colour`"; "cannot alias field to its own name";
   "duplicate alias for `b`"; "only one of `flatten`, `append`, `rest` is allowed"; "only one of `flatten`, `append`, `rest` is allowed"].
Proof. exact (conj xsy_good x_bad_entries). Qed.

(** a struct: the errors of its fields, of its own attributes, and of both together.
    [fields_read fs gs es]: the fields [gs] of [fs] are understood, the others have the errors [es] *)
Theorem C84_struct : forall (env : Env) sy, good_syn_lib sy -> forall i gs fes xs,
  fields_read sy (ss_fields i) gs fes -> has_entries (grammar_s sy (ss_shape i) gs) (ss_attrs i) xs ->
  diagnosed (read_struct sy i) (problems_s sy (ss_shape i) gs fes xs).
Proof. exact @l_struct_diag. Qed.
Print Assumptions C84_struct.

Example C84_struct_ex : let env := lexer_env in exists gs fes xs, fields_read xsy (ss_fields x_bads) gs fes /\
  has_entries (grammar_s xsy (ss_shape x_bads) gs) (ss_attrs x_bads) xs /\
  map e_msg (problems_s xsy (ss_shape x_bads) gs fes xs) =
  ["only one of `flatten`, `append`, `rest` is allowed"; "only one of `flatten`, `append`, `rest` is allowed";
   "duplicate attribute for `crate`"; "`transparent` struct must have only one parseable field";
   "duplicate field name for `c`"; "Duplicate `container` field"].
Proof. exact x_bads_entries. Qed.

Theorem C84_variant : forall (env : Env) sy, good_syn_lib sy -> forall v gs fes xs, snake_ok v ->
  fields_read sy (sv_fields v) gs fes -> has_entries (grammar_v v gs) (sv_attrs v) xs ->
  diagnosed (read_variant sy v) (problems_v v gs fes xs).
Proof. exact @l_variant_diag. Qed.
Print Assumptions C84_variant.

Example C84_variant_ex : let env := lexer_env in snake_ok x_badv /\ exists gs fes xs, fields_read xsy (sv_fields x_badv) gs fes /\
  has_entries (grammar_v x_badv gs) (sv_attrs x_badv) xs /\
  map e_msg (problems_v x_badv gs fes xs) =
  ["unknown field `colour`"; "only one of `flatten`, `rename` is allowed"; "only one of `flatten`, `rename` is allowed";
   "`default` fields can only be at the end of a tuple variant"].
Proof. exact x_badv_entries. Qed.

(** an enum: its own attributes, its variants, variants with the same tag, flattened variants
    that cannot be told apart, and a default that would never be used *)
Theorem C84_enum : forall (env : Env) sy, good_syn_lib sy -> forall i hs ves xs fes des, written_enum i ->
  variants_read sy (se_variants i) hs ves -> has_entries (grammar_e sy) (se_attrs i) xs ->
  flatten_faults hs [] hs fes -> default_fault hs xs des ->
  diagnosed (read_enum sy i) (judged (grammar_e sy) xs ++ ves ++ with_before tag_faults [] hs ++ fes ++ des).
Proof. exact @l_enum_diag. Qed.
Print Assumptions C84_enum.

Example C84_enum_ex : let env := lexer_env in written_enum x_bade /\ exists hs ves xs fes des,
  variants_read xsy (se_variants x_bade) hs ves /\ has_entries (grammar_e xsy) (se_attrs x_bade) xs /\
  flatten_faults hs [] hs fes /\ default_fault hs xs des /\
  map e_msg (judged (grammar_e xsy) xs ++ ves ++ with_before tag_faults [] hs ++ fes ++ des) =
  ["duplicate attribute for `skip`"; "duplicate variant name for `b`"; "only enum variants with named fields can have `flatten`";
   "`default` cannot be used when a flattened variant has no unique field"].
Proof. exact x_bade_entries. Qed.

(** the options in the parentheses of `flatten(..)`, `container(..)` and `transparent(..)` *)
Theorem C84_flatten : forall (env : Env) m l xs l', entries_in_all grammar_flatten l xs l' ->
  diagnosed (fst (flatten_inline m l)) (judged grammar_flatten xs) /\ snd (flatten_inline m l) = l'.
Proof. exact @l_flatten_diag. Qed.
Print Assumptions C84_flatten.
Theorem C84_container : forall (env : Env) sy, good_syn_lib sy -> forall m l xs l', entries_in_all (grammar_container sy) l xs l' ->
  diagnosed (fst (container_inline sy m l)) (judged (grammar_container sy) xs) /\ snd (container_inline sy m l) = l'.
Proof. exact @l_container_diag. Qed.
Print Assumptions C84_container.
Theorem C84_transparent : forall (env : Env) m l xs l', entries_in_all grammar_transparent l xs l' ->
  diagnosed (fst (transparent_inline m l)) (judged grammar_transparent xs) /\ snd (transparent_inline m l) = l'.
Proof. exact @l_transparent_diag. Qed.
Print Assumptions C84_transparent.

Example C84_inline_ex : let env := lexer_env in
  (exists xs l', entries_in_all grammar_flatten [mkStream (tk "prefix = a, prefix = b, x") SCall None] xs l' /\
     map e_msg (judged grammar_flatten xs) = ["duplicate attribute for `prefix`"; "unknown field `x`"]) /\
  (exists xs l', entries_in_all (grammar_container xsy) [mkStream (tk "ty = a, lifetime = b, ty") SCall None] xs l' /\
     map e_msg (judged (grammar_container xsy) xs) =
     ["expected lifetime"; "duplicate attribute for `ty`"; "unexpected flag, expected `=` or parentheses"]) /\
  (exists xs l', entries_in_all grammar_transparent [mkStream (tk "rest = 1, append, append = false") SCall None] xs l' /\
     map e_msg (judged grammar_transparent xs) = ["expected boolean literal"; "duplicate attribute for `append`"]).
Proof. exact (conj x_inline (conj x_inline_c x_inline_t)). Qed.

(** ** C29 Attribute parsing reports every error: exactly when they are lost *)
(** [first_left l cs]: the first token that was not read, in the first attribute that has one.
    If there is one, all errors are replaced by "unexpected token" at that place. *)
Theorem C29_struct_lost : forall (env : Env) V (s : sdef V) conv o cs e, accepted_struct s ->
  let l := ref_tokens (derived_matches (s_attributes s)) o in
  let body := struct_attr_body s (conv o) (attr_names l) in
  Forall2 attr_content l cs -> fst (body cs) = Err e ->
  struct_parse_attributes s conv o =
  match first_left l (snd (body cs)) with Some sp => Err (err1 sp unexpected_token) | None => Err e end.
Proof. exact @l_struct_lost. Qed.
Print Assumptions C29_struct_lost.
Theorem C29_enum_lost : forall (env : Env) V (en : edef V) conv o cs e,
  (forall pn, accepted_enum (TAttrs pn (conv o)) en) -> no_transparent_and_then en ->
  let l := ref_tokens (derived_matches (e_attributes en)) o in
  let body := enum_attr_body en (conv o) (attr_names l) in
  Forall2 attr_content l cs -> fst (body cs) = Err e ->
  enum_parse_attributes en conv o =
  match first_left l (snd (body cs)) with Some sp => Err (err1 sp unexpected_token) | None => Err e end.
Proof. exact @l_enum_lost. Qed.
Print Assumptions C29_enum_lost.

(** `#[x(a = true, b = 1)]`: nothing is left; `#[x(a = true, u(1))]`: the `1` is *)
Example C29_lost_ex : let env := lexer_env in accepted_struct xal /\
  (forall txt, Forall2 attr_content (xitems txt) (xcs txt)) /\
  (let body := struct_attr_body xal (VI 0) (attr_names (xitems "a = true, b = 1")) in
   first_left (xitems "a = true, b = 1") (snd (body (xcs "a = true, b = 1"))) = None) /\
  (let body := struct_attr_body xal (VI 0) (attr_names (xitems "a = true, u(1)")) in
   (exists e, fst (body (xcs "a = true, u(1)")) = Err e) /\
   exists sp, first_left (xitems "a = true, u(1)") (snd (body (xcs "a = true, u(1)"))) = Some sp).
Proof. exact x_lost. Qed.

(** ** C30 No stray token is silently accepted: without attributes *)
(** `deluxe::parse2`: the parser of the type, on all tokens.  If it succeeds and a token was
    not read, also in a group ([left_at]), there is an error at this token; an error of the
    parser is always returned as it is. *)
Theorem C30_parse2 : forall (env : Env) A (d : dict A) ts r s, d_inline d (Named SCall) [root_stream ts] = (r, [s]) ->
  deluxe_parse2 d ts =
  match r, left_at s with Ok _, Some sp => Err (err1 sp unexpected_token) | _, _ => r end.
Proof. exact @l_parse2. Qed.
Print Assumptions C30_parse2.

Example C30_parse2_ex : let env := lexer_env in exists v s,
  d_inline (struct_dict (named [it "a" i32; it "f" un])) (Named SCall) [root_stream (tk "a = 1, f = (2)")] = (Ok v, [s]) /\
  left_at s <> None.
Proof. exact x_parse2_left. Qed.
