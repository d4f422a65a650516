(** Property theorems: no panic, termination, optional parsing.  Every proof is one
    [exact]; vocabulary in SpecWf.v, lemmas in LemWf*.v. *)
From Verif Require Import LemWfE WfMore TestKit.

(** ** C01 Parsing a named struct never panics.
    [returns]: the result is Ok or Err.  A [synerr] has at least one message by type. *)
Theorem C01_struct_never_panics : forall (env : Env) V (s : sdef V), accepted_struct s ->
  (forall m st, returns (fst (d_item (struct_dict s) m st))) /\
  (forall m l, returns (fst (d_inline (struct_dict s) m l))) /\
  (forall sp, returns (d_flag (struct_dict s) sp)) /\
  (forall n sp st, returns (fst (d_named (struct_dict s) n sp st))) /\
  (forall n sp, returns (d_missing (struct_dict s) n sp)) /\
  (forall m p v l, returns (fst (fn_parse (struct_fn s) m p v l))) /\
  (forall m i l, returns (fst (fu_parse (struct_fu s) m i l))) /\
  (forall ts, returns (deluxe_parse2 (struct_dict s) ts)) /\
  (forall conv o, returns (struct_parse_attributes s conv o)) /\
  (forall conv o, returns (fst (struct_extract_attributes s conv o))).
Proof. exact l_struct_never_panics. Qed.
Print Assumptions C01_struct_never_panics.

(** a struct with plain, defaulted, skipped, flattened, appended, rest and container
    fields, transforms and a struct-level and_then *)
Example C01_ex : accepted_struct rich_struct.
Proof. exact rich_accepted. Qed.

(** ** C02 Parsing a derived enum never panics: false for transparent variants whose field
    has an `and_then` that fails *)
Theorem C02_enum_never_panics_refuted : exists (env : Env) (e : edef val) ts,
  accepted_enum TMeta e /\ deluxe_parse2 (enum_dict e) ts = Bad Panic.
Proof. exact l_enum_panics. Qed.
Print Assumptions C02_enum_never_panics_refuted.

(** missing: enums with an `and_then` on the field of a transparent variant *)
Theorem C02_enum_never_panics_partial : forall (env : Env) V (e : edef V),
  accepted_enum TMeta e -> no_transparent_and_then e ->
  (forall m st, returns (fst (d_item (enum_dict e) m st))) /\
  (forall m l, returns (fst (d_inline (enum_dict e) m l))) /\
  (forall sp, returns (d_flag (enum_dict e) sp)) /\
  (forall n sp st, returns (fst (d_named (enum_dict e) n sp st))) /\
  (forall n sp, returns (d_missing (enum_dict e) n sp)) /\
  (forall m p v l, returns (fst (fn_parse (enum_fn e) m p v l))) /\
  (forall m i l, returns (fst (fu_parse (enum_fu e) m i l))) /\
  (forall ts, returns (deluxe_parse2 (enum_dict e) ts)).
Proof. exact l_enum_never_panics. Qed.
Print Assumptions C02_enum_never_panics_partial.
Theorem C02_enum_attributes_partial : forall (env : Env) V (e : edef V),
  (forall pn obj, accepted_enum (TAttrs pn obj) e) -> no_transparent_and_then e ->
  forall conv o, returns (enum_parse_attributes e conv o) /\
                 returns (fst (enum_extract_attributes e conv o)).
Proof. exact l_enum_attrs_never_panic. Qed.
Print Assumptions C02_enum_attributes_partial.

Example C02_ex : accepted_enum TMeta rich_enum /\ no_transparent_and_then rich_enum.
Proof. exact rich_enum_accepted. Qed.

(** ** C03 Parsing terminates (and does not panic): every library implementation is well
    behaved if its parts are *)
Theorem C03_collections : forall (env : Env) A B (d : dict A) (dv : dict B) (ds : list (dict A))
    (eqb : A -> A -> bool) (kstr : A -> string) n,
  good_dict d -> good_dict dv -> Forall good_dict ds ->
  (good_dict (vec_dict d) /\ good_fu (vec_fu d) /\ good_multi (vec_append d)) /\
  (good_dict (set_dict eqb d) /\ good_fu (set_fu eqb d) /\ good_multi (set_append eqb d)) /\
  (good_dict (map_dict eqb kstr d dv) /\ good_fu (map_fu eqb kstr d dv) /\
   good_multi (map_rest eqb kstr d dv)) /\
  (good_dict (array_dict n d) /\ good_fu (array_fu n d)) /\
  (good_dict (tuple_dict ds) /\ good_fu (tuple_fu ds)) /\
  good_fu tokenstream_flat.
Proof. exact l_collections_terminate. Qed.
Print Assumptions C03_collections.

Theorem C03_wrappers : forall (env : Env) A (d : dict A) (p : parser A) (fs : string -> A + string) v,
  good_dict d -> well_behaved p ->
  good_dict (option_dict d) /\ good_dict (spanned_dict d) /\ good_dict (wrapper_dict d) /\
  good_dict (paren_syn_dict p) /\ good_dict (syn_dict p) /\
  good_dict (quoted_dict d) /\ good_dict (maybe_quoted_dict d) /\
  good_dict (with_syn_dict p) /\ good_dict (syn_quoted_dict p) /\
  good_dict (from_str_dict fs) /\ good_dict (from_str_default_dict fs v) /\
  good_dict (with_optional_dict d) /\ good_dict (with_vec_dict d) /\ good_dict (identity_dict d).
Proof. exact l_wrappers_terminate. Qed.
Print Assumptions C03_wrappers.

Theorem C03_primitives : forall (env : Env) k,
  good_dict (int_dict k) /\ good_dict u8_dict /\ good_dict float_dict /\ good_dict bool_dict /\
  good_dict char_dict /\ good_dict string_dict /\ good_dict smallstring_dict /\
  good_dict tokentree_dict /\ good_dict tokenstream_dict /\ good_dict literal_dict /\
  good_dict punct_dict /\ good_dict group_dict /\ good_dict ident_dict /\
  good_dict any_path_dict /\ good_dict unit_dict /\ good_dict flag_dict.
Proof. exact l_primitives_terminate. Qed.
Print Assumptions C03_primitives.

Theorem C03_derived : forall (env : Env) V (s : sdef V) (e : edef V),
  (accepted_struct s ->
     good_dict (struct_dict s) /\ good_fn (struct_fn s) /\ good_fu (struct_fu s)) /\
  (accepted_enum TMeta e -> no_transparent_and_then e ->
     good_dict (enum_dict e) /\ good_fn (enum_fn e) /\ good_fu (enum_fu e)).
Proof. exact l_derived_terminate. Qed.
Print Assumptions C03_derived.

(** Punctuated loops forever when an element succeeds on nothing and the separator does
    not follow: no number of rounds is enough *)
Theorem C03_punctuated_refuted : exists (env : Env) A (d : dict A) pc s,
  good_dict d /\
  forall fuel st, fst (punct_loop pc d fuel st s) = Bad Diverge.
Proof. exact l_punctuated_diverges. Qed.
Print Assumptions C03_punctuated_refuted.
(** missing: elements that succeed without consuming a token *)
Theorem C03_punctuated_partial : forall (env : Env) A (d : dict A) pc, good_dict d ->
  (forall s v s1, d_item d Unnamed s = (Ok v, s1) -> length (toks s1) < length (toks s)) ->
  good_dict (punctuated_dict pc d) /\ good_fu (punctuated_fu pc d).
Proof. exact l_punctuated_terminates. Qed.
Print Assumptions C03_punctuated_partial.

Example C03_ex : forall s v s1,
  d_item i32 Unnamed s = (Ok v, s1) -> length (toks s1) < length (toks s).
Proof. exact i32_consumes. Qed.

(** ** C32 Optional parsing never fails and never loses errors *)
Theorem C32_optional : forall (env : Env) V (s : sdef V) (e : edef V) A (d : dict A),
  accepted_struct s -> (forall pn obj, accepted_enum (TAttrs pn obj) e) ->
  no_transparent_and_then e -> good_dict d ->
  forall conv o ts (dflt : list V) (edflt : evalue V) (adflt : A) (es : errors),
  optional_spec (struct_parse_attributes s conv o) dflt es /\
  optional_spec (fst (struct_extract_attributes s conv o)) dflt es /\
  optional_spec (enum_parse_attributes e conv o) edflt es /\
  optional_spec (fst (enum_extract_attributes e conv o)) edflt es /\
  optional_spec (deluxe_parse2 d ts) adflt es.
Proof. exact l_optional. Qed.
Print Assumptions C32_optional.
Example C32_ex : optional (struct_parse_attributes (withattrs (named [it "a" i32]) [["x"]]) cv
                             (ONode [al ["x"] "a = true"])) [VI 7] [mkErr (SAt 1) "old"]
  = Ok ([VI 7], [mkErr (SAt 1) "old"; mkErr (SAt 4) "expected integer literal"]).
Proof. vm_compute. reflexivity. Qed.
