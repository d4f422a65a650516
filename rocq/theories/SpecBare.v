(** Vocabulary for what a bare name means (PropsBare.v): the result of an item that is only a
    name, for every type of the library, every `with` module and every derived type. *)
From Verif Require Export SpecImpl SpecMore SpecStop DeriveEnum.
Local Open Scope string_scope.
Local Open Scope list_scope.

Section S.
Context {env : Env}.

(** the error of a type that needs a value *)
Definition no_value (sp : span) : synerr :=
  mkSyn (mkErr sp "unexpected flag, expected `=` or parentheses") [].

(** the result of [p] where there is nothing to read, the first error being moved to [sp] *)
Inductive of_nothing {A} (p : parser A) (sp : span) : res A -> Prop :=
| ON_value x : parse2 p [] = Ok x -> of_nothing p sp (Ok x)
| ON_error elsewhere text more : parse2 p [] = Err (mkSyn (mkErr elsewhere text) more) ->
    of_nothing p sp (Err (mkSyn (mkErr sp text) more))
| ON_bad b : parse2 p [] = Bad b -> of_nothing p sp (Bad b).

(** every field that is parsed may be left out *)
Definition all_optional {V} (fs : list (field V)) : Prop :=
  forall f, In f fs -> is_parsable f = true -> is_flat f = true \/ f_default f <> None.
Definition tuple_optional {V} (s : sdef V) : Prop :=
  s_default s <> None \/ all_optional (s_fields_meta s).

(** the types that always need a value *)
Inductive needs_value : forall A, dict A -> Prop :=
| Nv_int k : needs_value _ (int_dict k)
| Nv_u8 : needs_value _ u8_dict
| Nv_float : needs_value _ float_dict
| Nv_char : needs_value _ char_dict
| Nv_string : needs_value _ string_dict
| Nv_smallstring : needs_value _ smallstring_dict
| Nv_tokentree : needs_value _ tokentree_dict
| Nv_literal : needs_value _ literal_dict
| Nv_punct : needs_value _ punct_dict
| Nv_group : needs_value _ group_dict
| Nv_ident : needs_value _ ident_dict
| Nv_path : needs_value _ any_path_dict
| Nv_syn A (p : parser A) : needs_value _ (syn_dict p)
| Nv_paren_syn A (p : parser A) : needs_value _ (paren_syn_dict p)
| Nv_vec A (d : dict A) : needs_value _ (vec_dict d)
| Nv_set A eqb (d : dict A) : needs_value _ (set_dict eqb d)
| Nv_map K A eqb kstr (dk : dict K) (dv : dict A) : needs_value _ (map_dict eqb kstr dk dv)
| Nv_array A n (d : dict A) : needs_value _ (array_dict n d)
| Nv_tuple A (ds : list (dict A)) : needs_value _ (tuple_dict ds)
| Nv_punctuated A c (d : dict A) : needs_value _ (punctuated_dict c d)
| Nv_from_str A (fs : string -> A + string) : needs_value _ (from_str_dict fs)
| Nv_struct V (s : sdef V) : s_is_transparent s = false -> s_shape s = ShUnnamed ->
    ~ tuple_optional s -> needs_value _ (struct_dict s).

(** [bare A d sp own r]: a bare name at [sp] gives [r] for type [d]; [own = false] if functions
    given with `and_then` have been run on the value *)
Inductive bare : forall A, dict A -> span -> bool -> res A -> Prop :=
| Ba_refused A (d : dict A) sp : needs_value _ d -> bare _ d sp true (Err (no_value sp))
| Ba_bool sp : bare _ bool_dict sp true (Ok true)
| Ba_unit sp : bare _ unit_dict sp true (Ok tt)
| Ba_tokens sp : bare _ tokenstream_dict sp true (Ok [])
| Ba_flag sp : bare _ flag_dict sp true (Ok (Some sp))
| Ba_from_str A (fs : string -> A + string) v sp : bare _ (from_str_default_dict fs v) sp true (Ok v)
| Ba_with_optional A (d : dict A) sp : bare _ (with_optional_dict d) sp true (Ok None)
| Ba_with_vec A (d : dict A) sp : bare _ (with_vec_dict d) sp true (Ok [])
| Ba_with_map K A eqb kstr (dk : dict K) (dv : dict A) sp :
    bare _ (with_map_dict eqb kstr dk dv) sp true (Ok [])
(** the same as for the type inside *)
| Ba_option A (d : dict A) sp own r : bare _ d sp own r -> bare _ (option_dict d) sp own (rmap Some r)
| Ba_wrapper A (d : dict A) sp own r : bare _ d sp own r -> bare _ (wrapper_dict d) sp own r
| Ba_spanned A (d : dict A) sp own r : bare _ d sp own r ->
    bare _ (spanned_dict d) sp own (rmap (fun v => (v, sp)) r)
| Ba_quoted A (d : dict A) sp own r : bare _ d sp own r -> bare _ (quoted_dict d) sp own r
| Ba_maybe_quoted A (d : dict A) sp own r : bare _ d sp own r -> bare _ (maybe_quoted_dict d) sp own r
| Ba_identity A (d : dict A) sp own r : bare _ d sp own r -> bare _ (identity_dict d) sp own r
| Ba_convert A B (g : A -> B) (d : dict A) sp own r : bare _ d sp own r ->
    bare _ (dict_map g d) sp own (rmap g r)
(** what the type reads from nothing *)
| Ba_syn A (p : parser A) sp r : of_nothing p sp r -> bare _ (with_syn_dict p) sp true r
| Ba_syn_quoted A (p : parser A) sp r : of_nothing p sp r -> bare _ (syn_quoted_dict p) sp true r
| Ba_struct V (s : sdef V) sp r : s_is_transparent s = false -> s_shape s = ShNamed ->
    of_nothing (on_single (d_inline (struct_dict s) (Named sp))) sp r -> bare _ (struct_dict s) sp true r
| Ba_tuple V (s : sdef V) sp r : s_is_transparent s = false -> s_shape s = ShUnnamed ->
    tuple_optional s ->
    of_nothing (on_single (d_inline (struct_dict s) Unnamed)) sp r -> bare _ (struct_dict s) sp true r
| Ba_enum V (e : edef V) sp r :
    of_nothing (on_single (d_inline (enum_dict e) (Named sp))) sp r -> bare _ (enum_dict e) sp true r
(** a struct without fields, and one that is as its only field *)
| Ba_no_fields V (s : sdef V) sp vs : s_is_transparent s = false -> s_shape s = ShUnit ->
    chained (s_and_thens s) [] vs -> bare _ (struct_dict s) sp false (Ok vs)
| Ba_no_fields_fails V (s : sdef V) sp e : s_is_transparent s = false -> s_shape s = ShUnit ->
    chain_fails (s_and_thens s) [] e -> bare _ (struct_dict s) sp false (Err e)
| Ba_inner_error V (s : sdef V) j d sp own e : transparent_struct s -> inner_field s j d ->
    bare _ d sp own (Err e) -> bare _ (struct_dict s) sp own (Err e)
| Ba_inner_bad V (s : sdef V) j d sp own b : transparent_struct s -> inner_field s j d ->
    bare _ d sp own (Bad b) -> bare _ (struct_dict s) sp own (Bad b)
(** its value is put together and the functions are run, see C40 *)
| Ba_inner V (s : sdef V) j d sp own x ws vs : transparent_struct s -> inner_field s j d ->
    bare _ d sp own (Ok x) -> built s TMeta j x ws -> chained (s_and_thens s) ws vs ->
    bare _ (struct_dict s) sp false (Ok vs)
| Ba_inner_fails V (s : sdef V) j d sp own x ws e : transparent_struct s -> inner_field s j d ->
    bare _ d sp own (Ok x) -> built s TMeta j x ws -> chain_fails (s_and_thens s) ws e ->
    bare _ (struct_dict s) sp false (Err e).

(** the types this covers: everything in the library, its `with` modules, and derived types *)
Inductive has_answer : forall A, dict A -> Prop :=
| Ha_needs A (d : dict A) : needs_value _ d -> has_answer _ d
| Ha_bool : has_answer _ bool_dict
| Ha_unit : has_answer _ unit_dict
| Ha_tokens : has_answer _ tokenstream_dict
| Ha_flag : has_answer _ flag_dict
| Ha_from_str A (fs : string -> A + string) v : has_answer _ (from_str_default_dict fs v)
| Ha_with_optional A (d : dict A) : has_answer _ (with_optional_dict d)
| Ha_with_vec A (d : dict A) : has_answer _ (with_vec_dict d)
| Ha_with_map K A eqb kstr (dk : dict K) (dv : dict A) : has_answer _ (with_map_dict eqb kstr dk dv)
| Ha_option A (d : dict A) : has_answer _ d -> has_answer _ (option_dict d)
| Ha_wrapper A (d : dict A) : has_answer _ d -> has_answer _ (wrapper_dict d)
| Ha_spanned A (d : dict A) : has_answer _ d -> has_answer _ (spanned_dict d)
| Ha_quoted A (d : dict A) : has_answer _ d -> has_answer _ (quoted_dict d)
| Ha_maybe_quoted A (d : dict A) : has_answer _ d -> has_answer _ (maybe_quoted_dict d)
| Ha_identity A (d : dict A) : has_answer _ d -> has_answer _ (identity_dict d)
| Ha_convert A B (g : A -> B) (d : dict A) : has_answer _ d -> has_answer _ (dict_map g d)
| Ha_syn A (p : parser A) : has_answer _ (with_syn_dict p)
| Ha_syn_quoted A (p : parser A) : has_answer _ (syn_quoted_dict p)
| Ha_struct V (s : sdef V) : s_is_transparent s = false -> has_answer _ (struct_dict s)
| Ha_transparent V (s : sdef V) j d : transparent_struct s -> inner_field s j d ->
    has_answer _ d -> has_answer _ (struct_dict s)
| Ha_enum V (e : edef V) : has_answer _ (enum_dict e).

(** the same for the variant [v] of an enum, that is not transparent, read in attributes or not
    according to [tm] and with the keys starting with [prefix] *)
Inductive bare_variant {V} (v : vdef V) (tm : tmode V) (prefix : string) (sp : span) : res (list V) -> Prop :=
| Bv_unit : v_shape v = ShUnit -> bare_variant v tm prefix sp (Ok [])
| Bv_named r : v_shape v = ShNamed ->
    of_nothing (on_single (v_inline v tm prefix sp (Named sp))) sp r -> bare_variant v tm prefix sp r
| Bv_tuple r : v_shape v = ShUnnamed -> all_optional (v_fields v) ->
    of_nothing (on_single (v_inline v tm prefix sp Unnamed)) sp r -> bare_variant v tm prefix sp r
| Bv_refused : v_shape v = ShUnnamed -> ~ all_optional (v_fields v) ->
    bare_variant v tm prefix sp (Err (no_value sp)).

(** neither `=` nor parentheses follow *)
Definition name_only (ts : list token) : Prop :=
  match ts with
  | TPunct c _ _ :: _ => c <> "="%char
  | TGroup Paren _ _ :: _ => False
  | _ => True
  end.
End S.
