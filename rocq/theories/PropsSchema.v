(** C51, C57, C58, C62, C63: which sources the derive macro accepts, and what it generates
    for them.

    [read_struct], [read_enum]: the macro's reading of the `#[deluxe(..)]` attributes;
    [derive_meta_struct] etc.: the whole derive, with the checks made later and the panics of
    the code generator; [lower_struct], [lower_enum]: the parser it generates.
    [written_struct], [written_enum]: the source is a Rust item (fields in braces have names). *)
From Verif Require Import ExSchema LemSchema6.

(** ** C51 The derive macro rejects ambiguous schemas *)
(** No name of an accepted struct belongs to two fields, nor twice to one. *)
Theorem C51_struct : forall (env : Env) sy i d,
  read_struct sy i = Ok d -> NoDup (field_names_of d).
Proof. exact @l_c51_struct. Qed.
Print Assumptions C51_struct.
(** .. so that the structs of C04-C12 arise from the derive. *)
Theorem C51_struct_generated : forall (env : Env) sy V (ru : rust V) auto expr post i d,
  derive_meta_struct sy i = Ok d \/ derive_attr_struct sy i = Ok d ->
  distinct_names (lower_struct ru auto expr post d).
Proof. exact @l_c51_lowered. Qed.
Print Assumptions C51_struct_generated.
(** No name belongs to two ordinary variants, and no two flattened variants have the same
    required names. *)
Theorem C51_enum_partial : forall (env : Env) sy i d, read_enum sy i = Ok d -> written_enum i ->
  NoDup (variant_names_of d) /\
  (forall a b v w, nth_error (j_variants d) a = Some v -> nth_error (j_variants d) b = Some w ->
     flattened v = true -> flattened w = true -> covered v w -> covered w v -> a = b).
Proof. exact @l_c51_enum. Qed.
Print Assumptions C51_enum_partial.
(** Names of the fields of a variant are not compared: `V { #[deluxe(rename = b)] a, b }` *)
Theorem C51_variant_fields_refuted : exists (env : Env) (sy : synlib) (i : src_enum) (d : senum) v f g n,
  good_syn_lib sy /\ written_enum i /\ read_enum sy i = Ok d /\
  In v (j_variants d) /\ nth_error (h_fields v) 0 = Some f /\ nth_error (h_fields v) 1 = Some g /\
  In n (map fst (g_idents f)) /\ In n (map fst (g_idents g)).
Proof. exact @l_c51_refuted. Qed.
Print Assumptions C51_variant_fields_refuted.
(** .. nor names of ordinary variants with the fields of flattened ones:
    `enum { A, #[deluxe(flatten)] B { a, b } }` *)
Theorem C51_variant_or_field_refuted : exists (env : Env) (sy : synlib) (i : src_enum) (d : senum) v f n,
  good_syn_lib sy /\ written_enum i /\ read_enum sy i = Ok d /\
  In n (variant_names_of d) /\ In v (j_variants d) /\ flattened v = true /\
  In f (h_fields v) /\ required f /\ In n (map fst (g_idents f)).
Proof. exact @l_c51_both. Qed.
Print Assumptions C51_variant_or_field_refuted.
Example C51_ex_struct : exists d, read_struct xsy x_struct = Ok d /\ field_names_of d = ["b"; "c"; "type"; "s"; "v"; "r"].
Proof. exact x_struct_names. Qed.
Example C51_ex_clash : exists e, read_struct xsy x_clash = Err e.
Proof. destruct x_clash_err as [e [H _]]. exists e. exact H. Qed.
Example C51_ex_enum : written_enum x_enum /\ exists d, read_enum xsy x_enum = Ok d /\
  variant_names_of d = ["a"; "first"; "http_server2"] /\ length (filter flattened (j_variants d)) = 2.
Proof.
  destruct x_enum_ok as [d [H [_ [_ [N [L _]]]]]]. exact (conj (proj1 x_enum_written) (ex_intro _ d (conj H (conj N L)))).
Qed.

(** ** C57 The derive macro never panics and terminates *)
Theorem C57_struct : forall (env : Env) sy i, good_syn_lib sy -> written_struct i ->
  returns (derive_meta_struct sy i) /\ returns (derive_attr_struct sy i).
Proof. exact @l_struct_front. Qed.
Print Assumptions C57_struct.
Theorem C57_enum_partial : forall (env : Env) sy i, good_syn_lib sy -> written_enum i ->
  Forall snake_ok (se_variants i) ->
  (forall d, read_enum sy i = Ok d -> ~ transparent_with_rest d) ->
  returns (derive_meta_enum sy i) /\ returns (derive_attr_enum sy i).
Proof. exact @l_enum_front. Qed.
Print Assumptions C57_enum_partial.
(** otherwise, this is exactly when it panics *)
Theorem C57_enum_panics : forall (env : Env) sy i, good_syn_lib sy -> written_enum i ->
  Forall snake_ok (se_variants i) ->
  ((exists b, derive_meta_enum sy i = Bad b) <-> exists d, read_enum sy i = Ok d /\ transparent_with_rest d) /\
  ((exists b, derive_attr_enum sy i = Bad b) <-> exists d, read_enum sy i = Ok d /\ transparent_with_rest d).
Proof. exact @l_enum_panics. Qed.
Print Assumptions C57_enum_panics.
(** `enum { __ }`: the snake case form of the name is not an identifier *)
Theorem C57_ident_refuted : exists (env : Env) (sy : synlib) (i : src_enum),
  good_syn_lib sy /\ written_enum i /\ derive_meta_enum sy i = Bad Panic.
Proof. exact @l_c57_ident. Qed.
Print Assumptions C57_ident_refuted.
(** `enum { #[deluxe(transparent)] V { #[deluxe(rest)] r } }` *)
Theorem C57_transparent_rest_refuted : exists (env : Env) (sy : synlib) (i : src_enum),
  good_syn_lib sy /\ written_enum i /\ Forall snake_ok (se_variants i) /\ derive_meta_enum sy i = Bad Panic.
Proof. exact @l_c57_rest. Qed.
Print Assumptions C57_transparent_rest_refuted.
Example C57_ex : good_syn_lib xsy /\ written_struct x_struct /\
  written_enum x_enum /\ Forall snake_ok (se_variants x_enum) /\
  (forall d, read_enum xsy x_enum = Ok d -> ~ transparent_with_rest d).
Proof.
  refine (conj xsy_good (conj x_struct_written (conj (proj1 x_enum_written) (conj (proj2 x_enum_written) _)))).
  destruct x_enum_ok as [d [H [_ [_ [_ [_ [_ [T _]]]]]]]]. intros d' E. rewrite H in E. injection E as <-.
  intros [v [f [I [_ [K [J [_ R]]]]]]]. rewrite (T v f I K J) in R. discriminate R.
Qed.

(** ** C58 Parsers generated for accepted sources never panic *)
(** [good_rust]: the field types' own implementations of the parsing traits do not panic. *)
(** false for a transparent variant with and_then on its field: if that fails, the parser panics *)
Theorem C58_refuted : exists (env : Env) sy (ru : rust val) auto expr post i d ts,
  good_rust ru /\ written_enum i /\ Forall snake_ok (se_variants i) /\ derive_meta_enum sy i = Ok d /\
  deluxe_parse2 (enum_dict (lower_enum ru auto expr post d)) ts = Bad Panic.
Proof. exact x_parser_panics. Qed.
Print Assumptions C58_refuted.
Theorem C58_struct_partial : forall (env : Env) sy V (ru : rust V) auto expr post i d,
  good_rust ru -> written_struct i ->
  derive_meta_struct sy i = Ok d \/ derive_attr_struct sy i = Ok d ->
  (st_true (i_transparent d) = true -> no_field_and_then (i_fields d)) ->
  let s := lower_struct ru auto expr post d in
  (forall m st, returns (fst (d_item (struct_dict s) m st))) /\
  (forall m l, returns (fst (d_inline (struct_dict s) m l))) /\
  (forall sp, returns (d_flag (struct_dict s) sp)) /\
  (forall n sp st, returns (fst (d_named (struct_dict s) n sp st))) /\
  (forall ts, returns (deluxe_parse2 (struct_dict s) ts)) /\
  (forall conv o, returns (struct_parse_attributes s conv o)) /\
  (forall conv o, returns (fst (struct_extract_attributes s conv o))).
Proof. exact @l_c58_struct. Qed.
Print Assumptions C58_struct_partial.
Theorem C58_enum_partial : forall (env : Env) sy V (ru : rust V) auto expr post i d,
  good_rust ru -> written_enum i ->
  derive_meta_enum sy i = Ok d ->
  (forall v, In v (j_variants d) -> sv_true (h_skip v) = false -> b_true (h_transparent v) = true ->
             no_field_and_then (h_fields v)) ->
  let e := lower_enum ru auto expr post d in
  (forall m st, returns (fst (d_item (enum_dict e) m st))) /\
  (forall m l, returns (fst (d_inline (enum_dict e) m l))) /\
  (forall sp, returns (d_flag (enum_dict e) sp)) /\
  (forall n sp st, returns (fst (d_named (enum_dict e) n sp st))) /\
  (forall ts, returns (deluxe_parse2 (enum_dict e) ts)).
Proof. exact @l_c58_enum. Qed.
Print Assumptions C58_enum_partial.
Theorem C58_enum_attributes_partial : forall (env : Env) sy V (ru : rust V) auto expr post i d,
  good_rust ru -> written_enum i ->
  derive_attr_enum sy i = Ok d ->
  (forall v, In v (j_variants d) -> sv_true (h_skip v) = false -> b_true (h_transparent v) = true ->
             no_field_and_then (h_fields v)) ->
  let e := lower_enum ru auto expr post d in
  forall conv o, returns (enum_parse_attributes e conv o) /\ returns (fst (enum_extract_attributes e conv o)).
Proof. exact @l_c58_enum_attr. Qed.
Print Assumptions C58_enum_attributes_partial.
Example C58_ex_struct : good_rust xru /\ written_struct x_struct /\
  exists d, (derive_meta_struct xsy x_struct = Ok d \/ derive_attr_struct xsy x_struct = Ok d) /\
  (st_true (i_transparent d) = true -> no_field_and_then (i_fields d)).
Proof. exact (conj xru_good (conj x_struct_written x_struct_58)). Qed.
Example C58_ex_enum : good_rust xru /\ written_enum x_enum /\
  exists d, derive_meta_enum xsy x_enum = Ok d /\ derive_attr_enum xsy x_enum = Ok d /\
  (forall v, In v (j_variants d) -> sv_true (h_skip v) = false -> b_true (h_transparent v) = true ->
             no_field_and_then (h_fields v)).
Proof.
  destruct x_enum_ok as [d [_ [H [K [_ [_ [_ [T N]]]]]]]].
  exact (conj xru_good (conj (proj1 x_enum_written) (ex_intro _ d (conj H (conj K (fun v I _ => N v I)))))).
Qed.

(** ** C62 In accepted tuple structs and variants defaults come last *)
Theorem C62_struct : forall (env : Env) sy i d,
  read_struct sy i = Ok d -> i_shape d = ShUnnamed ->
  forall a b f g, nth_error (i_fields d) a = Some f -> nth_error (i_fields d) b = Some g ->
  optional_field f -> required g -> b < a.
Proof. exact @l_c62_struct. Qed.
Print Assumptions C62_struct.
Theorem C62_variant : forall (env : Env) sy v h,
  read_variant sy v = Ok h -> sv_shape v = ShUnnamed ->
  forall a b f g, nth_error (h_fields h) a = Some f -> nth_error (h_fields h) b = Some g ->
  optional_field f -> required g -> b < a.
Proof. exact @l_c62_variant. Qed.
Print Assumptions C62_variant.
Example C62_ex_struct : exists d f g, read_struct xsy x_tuple = Ok d /\ i_shape d = ShUnnamed /\
  nth_error (i_fields d) 1 = Some f /\ nth_error (i_fields d) 0 = Some g /\ optional_field f /\ required g.
Proof. exact x_tuple_ok. Qed.
Example C62_ex_variant : exists h f g, read_variant xsy x_tvar = Ok h /\ sv_shape x_tvar = ShUnnamed /\
  nth_error (h_fields h) 1 = Some f /\ nth_error (h_fields h) 0 = Some g /\ optional_field f /\ required g.
Proof. exact x_tvar_ok. Qed.

(** ** C63 An enum with a default has no flattened variant that needs no field *)
Theorem C63_enum : forall (env : Env) sy i d,
  read_enum sy i = Ok d -> written_enum i -> j_default d <> None ->
  forall v, In v (j_variants d) -> flattened v = true ->
  exists f, In f (h_fields v) /\ required f.
Proof. exact @l_c63. Qed.
Print Assumptions C63_enum.
Example C63_ex : written_enum x_enum /\ exists d, read_enum xsy x_enum = Ok d /\ j_default d <> None /\
  length (filter flattened (j_variants d)) = 2.
Proof.
  destruct x_enum_ok as [d [H [_ [_ [_ [L [D _]]]]]]].
  exact (conj (proj1 x_enum_written) (ex_intro _ d (conj H (conj D L)))).
Qed.
