(** C71, C72: how the generated `field_names()` keep the names. *)
From Verif Require Import LemNames ExNames.

(** *** C71: `field_names()` returns the item's names at every call *)

(** every call returns what the first one did *)
Theorem C71_stable : forall code n insts,
  exists l, names_calls code (n :: insts) no_cells = map (fun _ => l) (n :: insts) /\
            names_calls code [n] no_cells = [l].
Proof. exact @l_names_first. Qed.
Print Assumptions C71_stable.

(** the names are the ones the rest of the model works with, computed from the field types
    of the instantiation that calls; full statement: without [all_agree], but the cells are
    shared by the instantiations of a generic item *)
Theorem C71_struct_partial : forall (env : Env) sy V i d auto expr post, written_struct i -> ss_shape i = ShNamed ->
  derive_meta_struct sy i = Ok d \/ derive_attr_struct sy i = Ok d ->
  forall rus : list (rust V), all_agree (asked (i_fields d)) rus ->
  names_calls (fields_code (i_fields d)) (map names_of rus) no_cells =
  map (fun ru => s_names (lower_struct ru auto expr post d)) rus.
Proof. exact @l_names_struct. Qed.
Print Assumptions C71_struct_partial.
Theorem C71_enum_partial : forall (env : Env) sy V i d auto expr post, written_enum i ->
  derive_meta_enum sy i = Ok d \/ derive_attr_enum sy i = Ok d ->
  forall rus : list (rust V), all_agree (asked (flat_map h_fields (j_variants d))) rus ->
  names_calls (variants_code (j_variants d)) (map names_of rus) no_cells =
  map (fun ru => e_names (lower_enum ru auto expr post d)) rus.
Proof. exact @l_names_enum. Qed.
Print Assumptions C71_enum_partial.
Theorem C71_variant_partial : forall (env : Env) sy V i d, written_enum i ->
  derive_meta_enum sy i = Ok d \/ derive_attr_enum sy i = Ok d ->
  forall v, In v (j_variants d) -> h_flatten v = Some true ->
  forall rus : list (rust V), all_agree (asked (h_fields v)) rus ->
  names_calls (fields_code (h_fields v)) (map names_of rus) no_cells =
  map (fun ru => v_allowed (lower_variant ru v)) rus.
Proof. exact @l_names_variant. Qed.
Print Assumptions C71_variant_partial.
Theorem C71_struct_refuted : exists sy i d (ru ru' : rust val) auto expr post,
  written_struct i /\ ss_shape i = ShNamed /\ derive_meta_struct (env := lexer_env) sy i = Ok d /\
  names_calls (fields_code (i_fields d)) (map names_of [ru; ru']) no_cells <>
  map (fun ru => s_names (lower_struct ru auto expr post d)) [ru; ru'].
Proof. exact @l_generic_struct_refuted. Qed.
Print Assumptions C71_struct_refuted.
Theorem C71_enum_refuted : exists sy i d (ru ru' : rust val) auto expr post,
  written_enum i /\ derive_meta_enum (env := lexer_env) sy i = Ok d /\
  names_calls (variants_code (j_variants d)) (map names_of [ru; ru']) no_cells <>
  map (fun ru => e_names (lower_enum ru auto expr post d)) [ru; ru'].
Proof. exact @l_generic_enum_refuted. Qed.
Print Assumptions C71_enum_refuted.
Example C71_ex_struct : exists d, derive_meta_struct xsy x_gen = Ok d /\
  names_calls (fields_code (i_fields d)) (map names_of [naming ["a"; "b"]; naming ["a"; "b"]]) no_cells =
  [["a"; "b"; "p::a"; "p::b"; "own"]; ["a"; "b"; "p::a"; "p::b"; "own"]].
Proof. exact x_gen_calls. Qed.
Example C71_ex_enum : exists d, derive_meta_enum xsy x_gene = Ok d /\
  names_calls (variants_code (j_variants d)) (map names_of [naming ["q"]; naming ["q"]]) no_cells =
  [["a"; "q"; "x"]; ["a"; "q"; "x"]].
Proof. exact x_gene_calls. Qed.
Example C71_ex_variant : exists d v, derive_meta_enum xsy x_gene = Ok d /\ In v (j_variants d) /\ h_flatten v = Some true /\
  names_calls (fields_code (h_fields v)) (map names_of [naming ["q"]; naming ["q"]]) no_cells = [["q"; "x"]; ["q"; "x"]].
Proof. exact x_gene_variant. Qed.

(** *** C72: the cells of the emitted `field_names()` have the type of their contents *)
Theorem C72_fields : forall fs, code_typed (fields_code fs).
Proof. exact @l_typed_fields. Qed.
Print Assumptions C72_fields.
(** full statement: without [no_nested_prefix] *)
Theorem C72_enum_partial : forall d, no_nested_prefix d -> code_typed (variants_code (j_variants d)).
Proof. exact @l_typed_enum. Qed.
Print Assumptions C72_enum_partial.
Theorem C72_enum_refuted : exists sy i d, written_enum i /\ derive_meta_enum (env := lexer_env) sy i = Ok d /\
  ~ code_typed (variants_code (j_variants d)).
Proof. exact @l_typed_refuted. Qed.
Print Assumptions C72_enum_refuted.
Example C72_ex : exists d, derive_meta_enum xsy x_gene = Ok d /\ no_nested_prefix d.
Proof. exact x_gene_plain. Qed.
