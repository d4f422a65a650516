(** C06, C08, C37, C85: the attribute a message names, when unknown keys are looked for, the
    wrong delimiter, the number of items; and C86. *)
From Verif Require Import ExTight.

(** ** C06 A required field is never silently missing *)
(** An item with none of the attributes: the message names the first of the declared ones, at
    the call site.  (For those that are there, see [about] in C06_missing.) *)
Theorem C06_no_attribute : forall (env : Env) V (s : sdef V) conv o i f d p others,
  named_struct s -> Forall stays_field (s_raw s) -> s_is_transparent s = false ->
  s_attributes s = p :: others -> ref_tokens (derived_matches (s_attributes s)) o = [] ->
  nth_error (s_raw s) i = Some f -> f_kind f = KItem d -> is_parsable f = true ->
  f_default f = None -> s_default s = None -> no_missing_value d ->
  exists e, struct_parse_attributes s conv o = Err e /\
    In (mkErr SCall ("missing required field #[" ++ join_strs "::" p ++ "(" ++ f_ident f ++ ")]")) (errs_of e).
Proof. exact @l_no_attribute. Qed.
Print Assumptions C06_no_attribute.

Example C06_no_attribute_ex : named_struct ex_at /\ Forall stays_field (s_raw ex_at) /\ s_is_transparent ex_at = false /\
  ref_tokens (derived_matches (s_attributes ex_at)) ex_no_attrs = [] /\
  exists e, struct_parse_attributes ex_at cv ex_no_attrs = Err e /\
    map e_msg (errs_of e) = ["missing required field #[ns::x(a)]"].
Proof. exact ex_at_ok. Qed.

(** ** C08 An unknown key is always reported *)
(** The constant ACCEPTS_ALL, which says whether a struct that flattens this one looks for
    unknown keys (see [lenient] in the definition of [parse_run]) *)
Theorem C08_strict : forall (env : Env) V (s : sdef V), fn_accepts_all (struct_fn s) = true <-> lenient s.
Proof. exact @lenient_spec_fn. Qed.
Print Assumptions C08_strict.
Example C08_strict_ex : lenient ex_len /\ ~ lenient ex_s.
Proof. exact ex_lenient. Qed.

(** ** C37 The wrong delimiter *)
Theorem C37_delimiter : forall (env : Env) dl A (d : dict A) m s, written_in dl A d ->
  (forall ts gsp rest, toks s <> TGroup dl ts gsp :: rest) ->
  d_item d m s = (Err (mkSyn (not_a_group dl s) []), s).
Proof. exact @l_delimiter. Qed.
Print Assumptions C37_delimiter.

Example C37_delimiter_ex :
  written_in Brace _ (struct_dict ex_s) /\
  fst (d_item (struct_dict ex_s) Unnamed (root_stream (tk "[1]"))) = Err (mkSyn (mkErr (SOpen (SAt 0)) "expected curly braces") []) /\
  fst (d_item (vec_dict i32) Unnamed (root_stream (tk "1"))) = Err (mkSyn (mkErr (SAt 0) "expected square brackets") []) /\
  fst (d_item (tuple_dict [i32; i32]) Unnamed (root_stream [])) =
    Err (mkSyn (mkErr SCall "unexpected end of input, expected parentheses") []).
Proof. exact ex_delims. Qed.

(** ** C85 The declared number of items is the number of items taken *)
Theorem C85_count_partial : forall (env : Env),
  (forall A N (d : dict A), fine d -> counted (array_fu N d)) /\
  (forall A (ds : list (dict A)), Forall fine ds -> counted (tuple_fu ds)) /\
  (forall A (d : dict A), fine d -> counted (vec_fu d)) /\
  (forall A B (g : A -> B) u, by_items u -> counted u -> counted (fu_map g u)) /\
  (forall V (s : sdef V), any_tuple_struct s -> fine_items s -> flat_items_ok s -> Forall uniform_missing (s_raw s) ->
     counted_fields s -> counted (struct_fu s)).
Proof. exact @l_counts. Qed.
Print Assumptions C85_count_partial.
(** with a skipped field it is not: `struct K(i32, #[deluxe(skip)] i32)` *)
Theorem C85_count_refuted : exists (env : Env) (s : sdef val) blk n ws,
  any_tuple_struct s /\ fine_items s /\ flat_items_ok s /\ Forall uniform_missing (s_raw s) /\
  blk <> [] /\ Forall (fun seg => seg <> [] /\ no_comma seg) blk /\
  takes (struct_fu s) blk true ws /\ fu_count (struct_fu s) = Some n /\ n <> length blk.
Proof. exact ex_skip_count. Qed.
Print Assumptions C85_count_refuted.

Example C85_count_ex : any_tuple_struct ex_cnt /\ fine_items ex_cnt /\ flat_items_ok ex_cnt /\ Forall uniform_missing (s_raw ex_cnt) /\
  counted_fields ex_cnt /\ fu_count (struct_fu ex_cnt) = Some 3.
Proof. exact ex_cnt_ok. Qed.

(** ** C86 `allow_unknown_fields` is obeyed *)
(** items that are addressed to none of the fields do not matter *)
Theorem C86_struct : forall (env : Env) V (s : sdef V) tm prefix v sp inputs inputs' r r' ws,
  parse_run s tm prefix v sp inputs r -> parse_run s tm prefix v sp inputs' r' ->
  named_struct s -> Forall local_field (s_raw s) -> Forall (routes prefix) (s_raw s) -> separate s ->
  is_prefix prefix -> (v = true -> prefix = "") -> s_unknown_ok s = true ->
  keyed inputs -> keyed inputs' ->
  part prefix (s_names s) (items_of inputs) = part prefix (s_names s) (items_of inputs') ->
  r = Ok ws <-> r' = Ok ws.
Proof. exact @l_obeyed. Qed.
Print Assumptions C86_struct.
Theorem C86_enum_partial : forall (env : Env) V (e : edef V) tm prefix v sp inputs inputs' r r' x,
  enum_run e tm prefix v sp inputs r -> enum_run e tm prefix v sp inputs' r' ->
  proper_enum tm e -> no_flattened e -> e_unknown_ok e = true -> keyed inputs -> keyed inputs' ->
  part prefix (variant_names e) (items_of inputs) = part prefix (variant_names e) (items_of inputs') ->
  r = Ok x <-> r' = Ok x.
Proof. exact @l_enum_obeyed. Qed.
Print Assumptions C86_enum_partial.
(** Not for a flattened variant: `b = 2, zz` for the enum { #[deluxe(flatten)] B { b: i32 } }
    with allow_unknown_fields on the enum *)
Theorem C86_flattened_variant_refuted : exists (env : Env) (e : edef val) inputs inputs' x y,
  proper_enum TMeta e /\ e_unknown_ok e = true /\
  keyed inputs /\ keyed inputs' /\
  part "" (fn_names (enum_fn e)) (items_of inputs) = part "" (fn_names (enum_fn e)) (items_of inputs') /\
  fst (d_inline (enum_dict e) (Named SCall) inputs) = Ok y /\
  fst (d_inline (enum_dict e) (Named SCall) inputs') = Err x /\ map e_msg (errs_of x) = ["unknown field `zz`"].
Proof. exact ex_flat_variant_strict. Qed.
Print Assumptions C86_flattened_variant_refuted.
(** nor for an enum flattened into a struct, although it is for a struct *)
Theorem C86_flattened_enum_refuted : exists (env : Env) (e : edef val) (s : sdef val) f inputs x y v,
  proper_enum TMeta e /\ no_flattened e /\ named_struct s /\ e_unknown_ok e = true /\
  s_raw s = [f] /\ f_kind f = KFlatN None (fn_map v (enum_fn e)) /\
  fst (d_inline (enum_dict e) Unnamed inputs) = Ok y /\
  fst (d_inline (struct_dict s) Unnamed inputs) = Err x /\ map e_msg (errs_of x) = ["unknown field `zz`"].
Proof. exact ex_enum_strict. Qed.
Print Assumptions C86_flattened_enum_refuted.

Example C86_ex :
  named_struct ex_len /\ Forall local_field (s_raw ex_len) /\ Forall (routes "") (s_raw ex_len) /\ separate ex_len /\
  s_unknown_ok ex_len = true /\ keyed (xin "a = 1") /\ keyed (xin "a = 1, zz(1), y") /\
  part "" (s_names ex_len) (items_of (xin "a = 1")) = part "" (s_names ex_len) (items_of (xin "a = 1, zz(1), y")).
Proof. exact ex_struct_obeyed. Qed.
Example C86_enum_ex : proper_enum TMeta xv /\ no_flattened xv /\ e_unknown_ok xv = true /\
  keyed (xin "a") /\ keyed (xin "a, zz(1), y") /\
  part "" (variant_names xv) (items_of (xin "a")) = part "" (variant_names xv) (items_of (xin "a, zz(1), y")).
Proof. exact ex_enum_obeyed. Qed.
