(** Vocabulary for C37 (wrong delimiters), C06 (structs without any attribute) and C85 (the
    number of items). *)
From Verif Require Export SpecBlock SpecEnum SpecMore.

Section D.
Context {env : Env}.
(** the types written as a group, and the delimiter of the group *)
Inductive written_in : delim -> forall A, dict A -> Prop :=
| WI_unit : written_in Paren unit unit_dict
| WI_tuple A (ds : list (dict A)) : written_in Paren _ (tuple_dict ds)
| WI_array A N (d : dict A) : written_in Bracket _ (array_dict N d)
| WI_vec A (d : dict A) : written_in Bracket _ (vec_dict d)
| WI_punctuated A pc (d : dict A) : written_in Bracket _ (punctuated_dict pc d)
| WI_set A eqb (d : dict A) : written_in Bracket _ (set_dict eqb d)
| WI_map K W eqb kstr (dk : dict K) (dv : dict W) : written_in Brace _ (map_dict eqb kstr dk dv)
| WI_named V (s : sdef V) : s_is_transparent s = false -> s_shape s = ShNamed -> written_in Brace _ (struct_dict s)
| WI_unnamed V (s : sdef V) : s_is_transparent s = false -> s_shape s <> ShNamed -> written_in Paren _ (struct_dict s)
| WI_enum V (e : edef V) : written_in Brace _ (enum_dict e).
Definition spelled (dl : delim) : string :=
  match dl with Paren => "parentheses" | Brace => "curly braces" | Bracket => "square brackets" end.
(** the message about the next token, or the end of the input, that should have been a group *)
Definition not_a_group (dl : delim) (s : stream) : err :=
  match toks s with
  | [] => mkErr (scope s) ("unexpected end of input, expected " ++ spelled dl)
  | TGroup _ _ gsp :: _ => mkErr (SOpen gsp) ("expected " ++ spelled dl)
  | t :: _ => mkErr (tok_span t) ("expected " ++ spelled dl)
  end.
End D.

(** ** The number of items of a flattened type *)
Section N.
Context {env : Env}.
(** `field_count()` is the number of items that the type takes when more items follow; a type
    that gives no number never leaves any items *)
Definition counted {A} (u : flat_unnamed A) : Prop :=
  forall blk v, blk <> [] -> Forall (fun seg => seg <> [] /\ no_comma seg) blk -> takes u blk true v ->
    match fu_count u with Some n => length blk = n | None => False end.
Definition counted_fields {V} (s : sdef V) : Prop :=
  Forall (fun f => is_parsable f = true /\ forall u, f_kind f = KFlatU u -> counted u) (s_raw s).
End N.
