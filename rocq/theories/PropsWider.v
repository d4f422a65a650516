(** Property theorems: replacing the type of a field by one that accepts more.  Every proof is
    one [exact]; vocabulary in SpecWider.v, types of the examples in ExWider.v.

    [reads_more d d']: whatever the type [d] accepts, the type [d'] accepts with the same value,
    through every method of ParseMetaItem; [flat_reads_more], [tuple_reads_more]: likewise for
    the traits for flattened fields, for types with the same field names or field count;
    [struct_more s s'], [enum_more e e']: the two types differ only in the types of fields, and
    each of these types in the second one reads more than the one in the first. *)
From Verif Require Import ExAllow ExWider.
Local Open Scope string_scope.
Local Open Scope list_scope.

(** ** C109 The type of a field *)
(** Every input that the containing type accepted it accepts with the same value, and it can
    take the place of a field's type itself. *)
Theorem C109_struct : forall (env : Env) V (s s' : sdef V), struct_more s s' -> reads_more (struct_dict s) (struct_dict s').
Proof. exact @l_more_struct. Qed.
Print Assumptions C109_struct.
Theorem C109_flattened : forall (env : Env) V (s s' : sdef V), struct_more s s' -> flat_reads_more (struct_fn s) (struct_fn s').
Proof. exact @l_more_fn. Qed.
Print Assumptions C109_flattened.
Theorem C109_flattened_tuple : forall (env : Env) V (s s' : sdef V), struct_more s s' -> tuple_reads_more (struct_fu s) (struct_fu s').
Proof. exact @l_more_fu. Qed.
Print Assumptions C109_flattened_tuple.
Theorem C109_enum : forall (env : Env) V (e e' : edef V), enum_more e e' -> reads_more (enum_dict e) (enum_dict e').
Proof. exact @l_more_enum. Qed.
Print Assumptions C109_enum.
Theorem C109_flattened_enum : forall (env : Env) V (e e' : edef V), enum_more e e' -> flat_reads_more (enum_fn e) (enum_fn e').
Proof. exact @l_more_enum_fn. Qed.
Print Assumptions C109_flattened_enum.
(** The attributes of an item: parsing and extracting *)
Theorem C109_attributes : forall (env : Env) V (s s' : sdef V) conv o ws, struct_more s s' ->
  struct_parse_attributes s conv o = Ok ws -> struct_parse_attributes s' conv o = Ok ws.
Proof. exact @l_more_attributes. Qed.
Print Assumptions C109_attributes.
Theorem C109_extract : forall (env : Env) V (s s' : sdef V) conv o ws o', struct_more s s' ->
  struct_extract_attributes s conv o = (Ok ws, o') -> struct_extract_attributes s' conv o = (Ok ws, o').
Proof. exact @l_more_extract. Qed.
Print Assumptions C109_extract.
Theorem C109_enum_attributes : forall (env : Env) V (e e' : edef V) conv o x, enum_more e e' ->
  enum_parse_attributes e conv o = Ok x -> enum_parse_attributes e' conv o = Ok x.
Proof. exact @l_more_enum_attributes. Qed.
Print Assumptions C109_enum_attributes.
Theorem C109_enum_extract : forall (env : Env) V (e e' : edef V) conv o x o', enum_more e e' ->
  enum_extract_attributes e conv o = (Ok x, o') -> enum_extract_attributes e' conv o = (Ok x, o').
Proof. exact @l_more_enum_extract. Qed.
Print Assumptions C109_enum_extract.
(** The library's generic types *)
Theorem C109_option : forall (env : Env) A (d d' : dict A), reads_more d d' -> reads_more (option_dict d) (option_dict d').
Proof. exact @l_more_option. Qed.
Print Assumptions C109_option.
Theorem C109_wrapper : forall (env : Env) A (d d' : dict A), reads_more d d' -> reads_more (wrapper_dict d) (wrapper_dict d').
Proof. exact @l_more_wrapper. Qed.
Print Assumptions C109_wrapper.
Theorem C109_vec : forall (env : Env) A (d d' : dict A), reads_more d d' -> reads_more (vec_dict d) (vec_dict d').
Proof. exact @l_more_vec. Qed.
Print Assumptions C109_vec.
Theorem C109_append : forall (env : Env) A (d d' : dict A) ps, reads_more d d' -> at_least (vec_append d ps) (vec_append d' ps).
Proof. exact @l_more_append. Qed.
Print Assumptions C109_append.
Theorem C109_set : forall (env : Env) A eqb (d d' : dict A), reads_more d d' -> reads_more (set_dict eqb d) (set_dict eqb d').
Proof. exact @l_more_set. Qed.
Print Assumptions C109_set.
Theorem C109_set_append : forall (env : Env) A eqb (d d' : dict A) ps, reads_more d d' -> at_least (set_append eqb d ps) (set_append eqb d' ps).
Proof. exact @l_more_set_append. Qed.
Print Assumptions C109_set_append.
Theorem C109_map : forall (env : Env) K V eqb kstr (dk dk' : dict K) (dv dv' : dict V), reads_more dk dk' -> reads_more dv dv' ->
  reads_more (map_dict eqb kstr dk dv) (map_dict eqb kstr dk' dv').
Proof. exact @l_more_map. Qed.
Print Assumptions C109_map.
Theorem C109_rest : forall (env : Env) K V eqb kstr (dk dk' : dict K) (dv dv' : dict V) exclude, reads_more dk dk' -> reads_more dv dv' ->
  at_least (map_rest eqb kstr dk dv exclude) (map_rest eqb kstr dk' dv' exclude).
Proof. exact @l_more_rest. Qed.
Print Assumptions C109_rest.
Theorem C109_array : forall (env : Env) A n (d d' : dict A), reads_more d d' -> reads_more (array_dict n d) (array_dict n d').
Proof. exact @l_more_array. Qed.
Print Assumptions C109_array.
Theorem C109_tuple : forall (env : Env) A (ds ds' : list (dict A)), Forall2 reads_more ds ds' -> reads_more (tuple_dict ds) (tuple_dict ds').
Proof. exact @l_more_tuple. Qed.
Print Assumptions C109_tuple.
Theorem C109_flattened_library : forall (env : Env) A eqb n (d d' : dict A), reads_more d d' ->
  tuple_reads_more (vec_fu d) (vec_fu d') /\ tuple_reads_more (set_fu eqb d) (set_fu eqb d') /\ tuple_reads_more (array_fu n d) (array_fu n d').
Proof. exact @l_more_fus. Qed.
Print Assumptions C109_flattened_library.
Theorem C109_punctuated : forall (env : Env) A pc (d d' : dict A), reads_more d d' -> reads_more (punctuated_dict pc d) (punctuated_dict pc d').
Proof. exact @l_more_punctuated. Qed.
Print Assumptions C109_punctuated.
(** The functions for `with` *)
Theorem C109_quoted : forall (env : Env) A (d d' : dict A), reads_more d d' ->
  reads_more (quoted_dict d) (quoted_dict d') /\ reads_more (maybe_quoted_dict d) (maybe_quoted_dict d').
Proof. exact @l_more_quoted. Qed.
Print Assumptions C109_quoted.
Theorem C109_identity : forall (env : Env) A (d d' : dict A), reads_more d d' -> reads_more (identity_dict d) (identity_dict d').
Proof. exact @l_more_identity. Qed.
Print Assumptions C109_identity.
Theorem C109_with : forall (env : Env) A K V eqb kstr (d d' : dict A) (dk dk' : dict K) (dv dv' : dict V),
  reads_more d d' -> reads_more dk dk' -> reads_more dv dv' ->
  reads_more (with_optional_dict d) (with_optional_dict d') /\ reads_more (with_vec_dict d) (with_vec_dict d') /\
  (forall ps, at_least (with_vec_append d ps) (with_vec_append d' ps)) /\
  reads_more (with_map_dict eqb kstr dk dv) (with_map_dict eqb kstr dk' dv') /\
  (forall exclude, at_least (with_map_rest eqb kstr dk dv exclude) (with_map_rest eqb kstr dk' dv' exclude)).
Proof. exact @l_more_with. Qed.
Print Assumptions C109_with.
(** A type that reads more: a struct after `allow_unknown_fields` is added. *)
Theorem C109_allowing : forall (env : Env) V (s : sdef V), s_shape s = ShNamed -> s_is_transparent s = false ->
  reads_more (struct_dict s) (struct_dict (allowing s)).
Proof. exact @l_more_allowing. Qed.
Print Assumptions C109_allowing.
(** or `default` is added to a required field (C108), or one of these to a variant that is not
    flattened *)
Theorem C109_defaulting : forall (env : Env) V (s s' : sdef V) f d, relaxed s f d s' -> s_is_transparent s = false -> s_is_transparent s' = false ->
  reads_more (struct_dict s) (struct_dict s') /\ flat_reads_more (struct_fn s) (struct_fn s').
Proof. exact @l_more_relaxed. Qed.
Print Assumptions C109_defaulting.
Theorem C109_enum_defaulting : forall (env : Env) V (e e' : edef V) f d, relaxed_in e f d e' ->
  reads_more (enum_dict e) (enum_dict e') /\ flat_reads_more (enum_fn e) (enum_fn e').
Proof. exact @l_more_relaxed_enum. Qed.
Print Assumptions C109_enum_defaulting.
Theorem C109_enum_allowing : forall (env : Env) V (e e' : edef V), allowing_in e e' ->
  reads_more (enum_dict e) (enum_dict e') /\ flat_reads_more (enum_fn e) (enum_fn e').
Proof. exact @l_more_allowing_variant. Qed.
Print Assumptions C109_enum_allowing.

Example C109_struct_ex : reads_more (sd xw_i) (sd (allowing xw_i)) /\ struct_more (xw_o xw_i) (xw_o (allowing xw_i)) /\
  xw_run (xw_o xw_i) "v(x = 3), a(x = 1), c(x = 5), b = { x = 2 }, v(x = 4)" = Ok xw_vs /\
  xw_run (xw_o (allowing xw_i)) "v(x = 3), a(x = 1), c(x = 5), b = { x = 2 }, v(x = 4)" = Ok xw_vs /\
  (exists e, xw_run (xw_o xw_i) "v(x = 3), a(x = 1), c(x = 5), b = { x = 2 }, v(x = 4, y)" = Err e) /\
  xw_run (xw_o (allowing xw_i)) "v(x = 3), a(x = 1), c(x = 5), b = { x = 2 }, v(x = 4, y)" = Ok xw_vs.
Proof. exact (conj xw_sd (conj xw_struct xw_runs)). Qed.
Example C109_tuple_ex : struct_more (xw_t xw_i) (xw_t (allowing xw_i)) /\
  xw_run (xw_t xw_i) "{ x = 1 }, None" = Ok [VS [VI 1]; VO None] /\
  xw_run (xw_t (allowing xw_i)) "{ x = 1 }, None" = Ok [VS [VI 1]; VO None] /\
  (exists e, xw_run (xw_t xw_i) "{ x = 1, y }, None" = Err e) /\
  xw_run (xw_t (allowing xw_i)) "{ x = 1, y }, None" = Ok [VS [VI 1]; VO None].
Proof. exact (conj xw_tuple xw_truns). Qed.
Example C109_enum_ex : enum_more (xw_e xw_i) (xw_e (allowing xw_i)) /\
  xrun (xw_e xw_i) "a({ x = 1 })" = Ok (0, [VS [VI 1]]) /\ xrun (xw_e xw_i) "b(x = 1)" = Ok (1, [VS [VI 1]]) /\
  xrun (xw_e xw_i) "z(x = 1), y = 2" = Ok (2, [VI 2; VS [VI 1]]) /\
  xrun (xw_e (allowing xw_i)) "z(x = 1), y = 2" = Ok (2, [VI 2; VS [VI 1]]) /\
  (exists e, xrun (xw_e xw_i) "z(x = 1, q), y = 2" = Err e) /\
  xrun (xw_e (allowing xw_i)) "z(x = 1, q), y = 2" = Ok (2, [VI 2; VS [VI 1]]).
Proof. exact (conj xw_enum xw_eruns). Qed.
Example C109_attributes_ex :
  struct_parse_attributes (xw_o xw_i) cv xw_node = Ok xw_vs /\
  fst (struct_extract_attributes (xw_o xw_i) cv xw_node) = Ok xw_vs /\
  enum_parse_attributes (xw_e xw_i) cv (ONode [al ["m"] "z(x = 1)"; al ["m"] "y = 2"]) = Ok (2, [VI 2; VS [VI 1]]) /\
  fst (enum_extract_attributes (xw_e xw_i) cv (ONode [al ["m"] "z(x = 1)"; al ["m"] "y = 2"])) = Ok (2, [VI 2; VS [VI 1]]).
Proof. exact xw_attrs. Qed.
Example C109_library_ex : reads_more (sd xw_i) (sd (allowing xw_i)) /\
  xw_lib (array_dict 2 (sd xw_i)) "{ x = 1 }, { x = 2 }" = Ok [VS [VI 1]; VS [VI 2]] /\
  xw_lib (tuple_dict [i32; sd xw_i]) "1, { x = 2 }" = Ok [VI 1; VS [VI 2]] /\
  xw_lib (map_dict veq vstr ident_ (sd xw_i)) "q = { x = 1 }, p(x = 2)" = Ok [(VT "q", VS [VI 1]); (VT "p", VS [VI 2])] /\
  xw_lib (set_dict (fun _ _ => false) (sd xw_i)) "{ x = 1 }, { x = 2 }" = Ok [VS [VI 1]; VS [VI 2]] /\
  xw_lib (vec_dict (sd (allowing xw_i))) "{ x = 1, y }, { x = 2 }" = Ok [VS [VI 1]; VS [VI 2]].
Proof. exact (conj xw_sd xw_libs). Qed.
Example C109_defaulting_ex : relaxed fx_p (it "a" i32) (VI 7) xo /\ s_is_transparent fx_p = false /\ s_is_transparent xo = false /\
  relaxed_in xp (it "s" i32) (VI 7) xp_o /\ allowing_in xp xp_n.
Proof. exact (conj xo_relaxed (conj eq_refl (conj eq_refl (conj (proj1 xo_variant) (proj1 ExAllow.xw_variant))))). Qed.
Example C109_with_ex : reads_more (sd xw_i) (sd (allowing xw_i)) /\
  xw_lib (quoted_dict (sd xw_i)) """{ x = 1 }""" = Ok (VS [VI 1]) /\
  (exists e, xw_lib (quoted_dict (sd xw_i)) """{ x = 1, y }""" = Err e) /\
  xw_lib (quoted_dict (sd (allowing xw_i))) """{ x = 1, y }""" = Ok (VS [VI 1]) /\
  xw_lib (maybe_quoted_dict (sd xw_i)) "{ x = 1 }" = Ok (VS [VI 1]) /\
  xw_lib (with_vec_dict (sd xw_i)) "{ x = 1 }, { x = 2 }" = Ok [VS [VI 1]; VS [VI 2]] /\
  xw_lib (with_map_dict veq vstr ident_ (sd xw_i)) "q = { x = 1 }, p = { x = 2 }" = Ok [(VT "q", VS [VI 1]); (VT "p", VS [VI 2])] /\
  xw_lib (punctuated_dict ";" (sd xw_i)) "{ x = 1 };" = Ok [VS [VI 1]].
Proof. exact (conj xw_sd xw_withs). Qed.
