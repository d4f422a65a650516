(** All implementations: the types of the library, its `with` modules and derived types,
    nested in each other to any depth. *)
From Verif Require Export SpecStruct With Attrs.

Section I.
Context {env : Env}.
(** a syn type: [p] terminates without panicking, reads no further than its item, and does
    not look at what syn remembers about unexpected tokens *)
Definition syn_type {A} (p : parser A) : Prop :=
  well_behaved p /\ unaware p /\ local p /\ keeps p.

(** the macro accepts the variants; transparent variants with a field-level `and_then` are
    excluded, see C02 *)
Definition variants_ok {V} (e : edef V) : Prop :=
  (forall v f, In v (e_variants e) -> In f (v_raw v) -> container_ok TMeta f) /\
  (forall v, In v (e_variants e) ->
     (v_flatten v = true -> v_shape v = ShNamed) /\
     (v_transparent v = true ->
      length (filter is_parsable (v_raw v)) = 1 /\ length (filter pitem (v_raw v)) = 1)) /\
  no_transparent_and_then e.

(** [regular d]: an implementation built from the library and the derive macros; [usable d]
    additionally allows Flag, SpannedValue, TokenTree and Punct at the top.  [flat_keys],
    [flat_items], [collects]: the same for flattened, appended and rest fields.
    [field_type]: the type of a field of a struct or variant of the given shape.
    (Punctuated is missing, see C03 and C48.  The kind of a skipped or container field plays
    no role.) *)
Inductive regular : forall A, dict A -> Prop :=
| Im_int k : regular _ (int_dict k)
| Im_u8 : regular _ u8_dict
| Im_float : regular _ float_dict
| Im_bool : regular _ bool_dict
| Im_char : regular _ char_dict
| Im_string : regular _ string_dict
| Im_smallstring : regular _ smallstring_dict
| Im_unit : regular _ unit_dict
| Im_tokenstream : regular _ tokenstream_dict
| Im_literal : regular _ literal_dict
| Im_group : regular _ group_dict
| Im_ident : regular _ ident_dict
| Im_path : regular _ any_path_dict
| Im_syn A (p : parser A) : syn_type p -> regular _ (syn_dict p)
| Im_paren_syn A (p : parser A) : syn_type p -> regular _ (paren_syn_dict p)
| Im_option A (d : dict A) : regular _ d -> regular _ (option_dict d)
| Im_wrapper A (d : dict A) : regular _ d -> regular _ (wrapper_dict d)
| Im_vec A (d : dict A) : usable _ d -> regular _ (vec_dict d)
| Im_set A eqb (d : dict A) : usable _ d -> regular _ (set_dict eqb d)
| Im_map K A eqb kstr (dk : dict K) (dv : dict A) : usable _ dk -> usable _ dv ->
    regular _ (map_dict eqb kstr dk dv)
| Im_array A n (d : dict A) : usable _ d -> regular _ (array_dict n d)
| Im_tuple A (ds : list (dict A)) : (forall d, In d ds -> usable _ d) -> regular _ (tuple_dict ds)
| Im_from_str A (fs : string -> A + string) : regular _ (from_str_dict fs)
| Im_from_str_default A (fs : string -> A + string) v : regular _ (from_str_default_dict fs v)
| Im_quoted A (d : dict A) : usable _ d -> regular _ (quoted_dict d)
| Im_maybe_quoted A (d : dict A) : regular _ d -> regular _ (maybe_quoted_dict d)
| Im_with_syn A (p : parser A) : syn_type p -> regular _ (with_syn_dict p)
| Im_syn_quoted A (p : parser A) : syn_type p -> regular _ (syn_quoted_dict p)
| Im_with_optional A (d : dict A) : regular _ d -> regular _ (with_optional_dict d)
| Im_with_vec A (d : dict A) : usable _ d -> regular _ (with_vec_dict d)
| Im_with_map K A eqb kstr (dk : dict K) (dv : dict A) : usable _ dk -> usable _ dv ->
    regular _ (with_map_dict eqb kstr dk dv)
| Im_identity A (d : dict A) : regular _ d -> regular _ (identity_dict d)
| Im_convert A B (g : A -> B) (d : dict A) : regular _ d -> regular _ (dict_map g d)
| Im_struct V (s : sdef V) :
    (forall f, In f (s_raw s) -> field_type V (s_shape s) (f_kind f)) ->
    (s_is_transparent s = true -> good_transparent (s_raw s)) ->
    (forall f d, s_is_transparent s = true -> In f (s_raw s) -> f_kind f = KItem d -> regular _ d) ->
    regular _ (struct_dict s)
| Im_enum V (e : edef V) :
    (forall v f, In v (e_variants e) -> In f (v_raw v) -> field_type V (v_shape v) (f_kind f)) ->
    variants_ok e -> regular _ (enum_dict e)
with usable : forall A, dict A -> Prop :=
| Us_regular A (d : dict A) : regular _ d -> usable _ d
| Us_flag : usable _ flag_dict
| Us_spanned A (d : dict A) : usable _ d -> usable _ (spanned_dict d)
| Us_tokentree : usable _ tokentree_dict
| Us_punct : usable _ punct_dict
| Us_convert A B (g : A -> B) (d : dict A) : usable _ d -> usable _ (dict_map g d)
with field_type : forall V, shape -> fkind V -> Prop :=
| Ft_item V sh (d : dict V) : usable _ d -> field_type V sh (KItem d)
| Ft_named V pf (u : flat_named V) : flat_keys _ u -> field_type V ShNamed (KFlatN pf u)
| Ft_unnamed V (u : flat_unnamed V) : flat_items _ u -> field_type V ShUnnamed (KFlatU u)
| Ft_append V (a : append_fn V) : collects _ a -> field_type V ShNamed (KAppend a)
| Ft_rest V (a : rest_fn V) : collects _ a -> field_type V ShNamed (KRest a)
with flat_keys : forall A, flat_named A -> Prop :=
| Fn_struct V (s : sdef V) :
    (forall f, In f (s_raw s) -> field_type V (s_shape s) (f_kind f)) ->
    (s_is_transparent s = true -> good_transparent (s_raw s)) -> flat_keys _ (struct_fn s)
| Fn_enum V (e : edef V) :
    (forall v f, In v (e_variants e) -> In f (v_raw v) -> field_type V (v_shape v) (f_kind f)) ->
    variants_ok e -> flat_keys _ (enum_fn e)
| Fn_spanned A (u : flat_named A) : flat_keys _ u -> flat_keys _ (spanned_fn u)
| Fn_convert A B (g : A -> B) (u : flat_named A) : flat_keys _ u -> flat_keys _ (fn_map g u)
with flat_items : forall A, flat_unnamed A -> Prop :=
| Fu_vec A (d : dict A) : usable _ d -> flat_items _ (vec_fu d)
| Fu_set A eqb (d : dict A) : usable _ d -> flat_items _ (set_fu eqb d)
| Fu_map K A eqb kstr (dk : dict K) (dv : dict A) : usable _ dk -> usable _ dv ->
    flat_items _ (map_fu eqb kstr dk dv)
| Fu_array A n (d : dict A) : usable _ d -> flat_items _ (array_fu n d)
| Fu_tuple A (ds : list (dict A)) : (forall d, In d ds -> usable _ d) -> flat_items _ (tuple_fu ds)
| Fu_tokenstream : flat_items _ tokenstream_flat
| Fu_struct V (s : sdef V) :
    (forall f, In f (s_raw s) -> field_type V (s_shape s) (f_kind f)) ->
    (s_is_transparent s = true -> good_transparent (s_raw s)) -> flat_items _ (struct_fu s)
| Fu_enum V (e : edef V) :
    (forall v f, In v (e_variants e) -> In f (v_raw v) -> field_type V (v_shape v) (f_kind f)) ->
    variants_ok e -> flat_items _ (enum_fu e)
| Fu_spanned A (u : flat_unnamed A) : flat_items _ u -> flat_items _ (spanned_fu u)
| Fu_convert A B (g : A -> B) (u : flat_unnamed A) : flat_items _ u -> flat_items _ (fu_map g u)
with collects : forall A, (list string -> mparser A) -> Prop :=
| Co_vec A (d : dict A) : usable _ d -> collects _ (vec_append d)
| Co_set A eqb (d : dict A) : usable _ d -> collects _ (set_append eqb d)
| Co_map K A eqb kstr (dk : dict K) (dv : dict A) : usable _ dk -> usable _ dv ->
    collects _ (map_rest eqb kstr dk dv)
| Co_spanned A (a : list string -> mparser A) : collects _ a -> collects _ (spanned_append a)
| Co_convert A B (g : A -> B) (a : list string -> mparser A) : collects _ a ->
    collects _ (fun l => pmap g (a l)).
End I.
