(** C29 and C30: errors and leftover tokens in attributes.

    [attr_content]: an attribute `#[name]` or `#[name(..)]` and the stream of its content.
    [parsed_up]: a stream of which everything, also in the groups inside, has been parsed;
    [all_parsed]: ... up to a trailing comma. *)
From Verif Require Import ExAttr.

(** ** C29 Attribute parsing reports every error *)
(** If all tokens were parsed, the error returned is the one of the generated code, with all
    of its messages (which ones these are: C06-C10, C16, ..).  Otherwise it may be replaced
    by the single message "unexpected token". *)
Theorem C29_struct_partial : forall (env : Env) V (s : sdef V) conv o cs e, accepted_struct s ->
  let l := ref_tokens (derived_matches (s_attributes s)) o in
  let body := struct_attr_body s (conv o) (attr_names l) in
  Forall2 attr_content l cs -> fst (body cs) = Err e ->
  (Forall parsed_up (snd (body cs)) -> struct_parse_attributes s conv o = Err e) /\
  (struct_parse_attributes s conv o = Err e \/ exists sp, struct_parse_attributes s conv o = Err (err1 sp unexpected_token)).
Proof. exact @l_struct_attributes_err. Qed.
Print Assumptions C29_struct_partial.
Theorem C29_enum_partial : forall (env : Env) V (en : edef V) conv o cs e,
  (forall pn, accepted_enum (TAttrs pn (conv o)) en) -> no_transparent_and_then en ->
  let l := ref_tokens (derived_matches (e_attributes en)) o in
  let body := enum_attr_body en (conv o) (attr_names l) in
  Forall2 attr_content l cs -> fst (body cs) = Err e ->
  (Forall parsed_up (snd (body cs)) -> enum_parse_attributes en conv o = Err e) /\
  (enum_parse_attributes en conv o = Err e \/ exists sp, enum_parse_attributes en conv o = Err (err1 sp unexpected_token)).
Proof. exact @l_enum_attributes_err. Qed.
Print Assumptions C29_enum_partial.
(** `#[x(a = true, u(1))]` for struct { a: i32, u: () }: the bad value of `a` is not reported *)
Theorem C29_lost_refuted : exists (env : Env) (s : sdef val) conv o cs e e',
  named_struct s /\
  let l := ref_tokens (derived_matches (s_attributes s)) o in
  let body := struct_attr_body s (conv o) (attr_names l) in
  Forall2 attr_content l cs /\ fst (body cs) = Err e /\ struct_parse_attributes s conv o = Err e' /\
  map e_msg (errs_of e) = ["expected integer literal"; "unexpected token `1`"] /\
  map e_msg (errs_of e') = ["unexpected token"].
Proof. exact ex_lost_errors. Qed.
Print Assumptions C29_lost_refuted.
(** `#[x {..}]`, `#[x [..]]`: nothing of the content is reported, nor the wrong delimiter *)
Theorem C29_braces_refuted : forall (env : Env) V (s : sdef V) conv p ts sp d,
  derived_matches (s_attributes s) p = true -> d <> Paren ->
  struct_parse_attributes s conv (ONode [mkAttr p (MList d ts) sp]) = Err (err1 SCall unexpected_token).
Proof. exact @ex_lost_braces. Qed.
Print Assumptions C29_braces_refuted.

Example C29_ex : accepted_struct xal /\ Forall2 attr_content (xitems "a = true, b = 1") (xcs "a = true, b = 1") /\
  exists e, let body := struct_attr_body xal (VI 0) (attr_names (xitems "a = true, b = 1")) in
  fst (body (xcs "a = true, b = 1")) = Err e /\ Forall parsed_up (snd (body (xcs "a = true, b = 1"))) /\
  map e_msg (errs_of e) = ["expected integer literal"; "unknown field `b`"; "missing required field #[x(u)]"].
Proof. exact (conj xal_ok (conj (xcontents _) xa_reported)). Qed.

(** ** C30 No stray token is silently accepted *)
(** A successful parse of attributes has parsed all tokens of all of them, and the attributes
    that match are, by their tokens after the name, of the forms `#[name]` and `#[name(..)]`. *)
Theorem C30_struct : forall (env : Env) V (s : sdef V) conv o ws, accepted_struct s ->
  let l := ref_tokens (derived_matches (s_attributes s)) o in
  let body := struct_attr_body s (conv o) (attr_names l) in
  struct_parse_attributes s conv o = Ok ws <->
  exists cs, Forall2 attr_content l cs /\ fst (body cs) = Ok ws /\ Forall2 all_parsed l (snd (body cs)).
Proof. exact @l_struct_attributes. Qed.
Print Assumptions C30_struct.
Theorem C30_enum : forall (env : Env) V (e : edef V) conv o x,
  (forall pn, accepted_enum (TAttrs pn (conv o)) e) -> no_transparent_and_then e ->
  let l := ref_tokens (derived_matches (e_attributes e)) o in
  let body := enum_attr_body e (conv o) (attr_names l) in
  enum_parse_attributes e conv o = Ok x <->
  exists cs, Forall2 attr_content l cs /\ fst (body cs) = Ok x /\ Forall2 all_parsed l (snd (body cs)).
Proof. exact @l_enum_attributes. Qed.
Print Assumptions C30_enum.
(** not only these forms, though: `#[name = (..)]` is accepted too *)
Theorem C30_equals_refuted : exists (env : Env) (s : sdef val) conv p ts gsp sp ws, named_struct s /\ derived_matches (s_attributes s) p = true /\
  struct_parse_attributes s conv (ONode [mkAttr p (MNameValue [TGroup Paren ts gsp]) sp]) = Ok ws /\ ws <> [].
Proof. exact ex_equals. Qed.
Print Assumptions C30_equals_refuted.
(** In a named struct, every item has a key, and a field's type has read the item with the
    field's key to its end. *)
Theorem C30_items : forall (env : Env) V (s : sdef V) tm prefix v sp inputs ws i f k ksp body seg,
  parse_run s tm prefix v sp inputs (Ok ws) -> named_struct s -> distinct_names s ->
  Forall local_field (s_raw s) ->
  In seg (items_of inputs) ->
  (exists k ksp body, item_key seg = Some (k, ksp, body)) /\
  (item_key seg = Some (k, ksp, body) -> nth_error (s_raw s) i = Some f -> pitem f = true -> named_by prefix f k ->
   exists w, accepts (item_named f (first_name f) ksp) body w).
Proof. exact @l_items. Qed.
Print Assumptions C30_items.
(** But not inside of groups: for struct { u: (), #[deluxe(flatten)] f: F } with
    struct F { a: i32 }, anything may be written between the parentheses in
    `u = (..), a = 1`. *)
Theorem C30_junk_refuted : exists (env : Env) (s : sdef val) pre gsp post v, named_struct s /\
  forall junk, deluxe_parse2 (struct_dict s) (pre ++ TGroup Paren junk gsp :: post) = Ok v.
Proof. exact ex_junk. Qed.
Print Assumptions C30_junk_refuted.

Example C30_ex : accepted_struct xal /\
  struct_parse_attributes xal (fun _ => VI 0) (xo "a = 1, u") = Ok [VI 1; VX "()"] /\
  is_ok (struct_parse_attributes xal (fun _ => VI 0) (xo "a = 1, u = (1)")) = false /\
  is_ok (struct_parse_attributes xal (fun _ => VI 0) (xo "a = 1 1, u")) = false.
Proof. refine (conj xal_ok (conj _ (conj _ _))); vm_compute; reflexivity. Qed.
Example C30_items_ex : named_struct ex_s /\ distinct_names ex_s /\ Forall local_field (s_raw ex_s) /\
  parse_run ex_s TMeta "" true (to_full_span Unnamed ex_in) ex_in (fst (d_inline (struct_dict ex_s) Unnamed ex_in)) /\
  fst (d_inline (struct_dict ex_s) Unnamed ex_in) = Ok [VI 1; VL [VT "x"]; VO None; VI 9].
Proof.
  refine (conj ex_named (conj ex_distinct (conj ex_fields_local (conj _ _)))); [exact (run_list ex_s Unnamed ex_in eq_refl)|vm_compute; reflexivity].
Qed.
