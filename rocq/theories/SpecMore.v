(** Vocabulary for the theorems of PropsMore.v. *)
From Verif Require Export SpecImpl.

Section M.
Context {env : Env}.
(** the types that have no value for a missing field *)
Inductive demanding : forall A, dict A -> Prop :=
| Dm_int k : demanding _ (int_dict k)
| Dm_u8 : demanding _ u8_dict
| Dm_float : demanding _ float_dict
| Dm_bool : demanding _ bool_dict
| Dm_char : demanding _ char_dict
| Dm_string : demanding _ string_dict
| Dm_smallstring : demanding _ smallstring_dict
| Dm_tokentree : demanding _ tokentree_dict
| Dm_literal : demanding _ literal_dict
| Dm_group : demanding _ group_dict
| Dm_ident : demanding _ ident_dict
| Dm_path : demanding _ any_path_dict
| Dm_unit : demanding _ unit_dict
| Dm_syn A (p : parser A) : demanding _ (syn_dict p)
| Dm_paren_syn A (p : parser A) : demanding _ (paren_syn_dict p)
| Dm_wrapper A (d : dict A) : demanding _ (wrapper_dict d)
| Dm_spanned A (d : dict A) : demanding _ (spanned_dict d)
| Dm_vec A (d : dict A) : demanding _ (vec_dict d)
| Dm_set A eqb (d : dict A) : demanding _ (set_dict eqb d)
| Dm_map K A eqb kstr (dk : dict K) (dv : dict A) : demanding _ (map_dict eqb kstr dk dv)
| Dm_array A n (d : dict A) : demanding _ (array_dict n d)
| Dm_tuple A (ds : list (dict A)) : demanding _ (tuple_dict ds)
| Dm_from_str A (fs : string -> A + string) : demanding _ (from_str_dict fs)
| Dm_quoted A (d : dict A) : demanding _ d -> demanding _ (quoted_dict d)
| Dm_maybe_quoted A (d : dict A) : demanding _ d -> demanding _ (maybe_quoted_dict d)
| Dm_identity A (d : dict A) : demanding _ d -> demanding _ (identity_dict d)
| Dm_convert A B (g : A -> B) (d : dict A) : demanding _ d -> demanding _ (dict_map g d)
| Dm_struct V (s : sdef V) : s_default s = None -> demanding _ (struct_dict s)
| Dm_enum V (e : edef V) : e_default e = None -> demanding _ (enum_dict e).

(** *** transparent structs *)
(** a `transparent` struct that the macro accepts; its default has the struct's fields *)
Definition transparent_struct {V} (s : sdef V) : Prop :=
  s_is_transparent s = true /\ accepted_struct s /\
  forall t, s_default s = Some t -> length t = length (s_raw s).
(** field number [j], of type [d], is the one that is parsed *)
Definition inner_field {V} (s : sdef V) (j : nat) (d : dict V) : Prop :=
  exists f, nth_error (s_raw s) j = Some f /\ is_parsable f = true /\ f_kind f = KItem d.
(** the value of another field: the attributes' owner, its default, or that of the struct *)
Inductive filled_in {V} (s : sdef V) (tm : tmode V) (i : nat) (f : field V) (v : V) : Prop :=
| FI_container pn obj : tm = TAttrs pn obj -> f_container f = true ->
    transformed (f_transforms f) obj v -> filled_in s tm i f v
| FI_default w : (tm <> TMeta -> f_container f = false) -> field_default s tm f = Some w ->
    transformed (f_transforms f) w v -> filled_in s tm i f v
| FI_struct t : (tm <> TMeta -> f_container f = false) -> field_default s tm f = None ->
    s_default s = Some t -> nth_error t i = Some v -> filled_in s tm i f v.
(** [ws] are the values of the fields around the value [x] of field [j] *)
Definition built {V} (s : sdef V) (tm : tmode V) (j : nat) (x : V) (ws : list V) : Prop :=
  length ws = length (s_raw s) /\
  forall i f v, nth_error (s_raw s) i = Some f -> nth_error ws i = Some v ->
    if Nat.eqb i j then transformed (f_transforms f) x v else filled_in s tm i f v.
(** Two results of parsing the same tokens in the same way: that of the inner type [d] of
    the transparent struct [s], and that of [s].  The flattening traits are those asked for
    by `transparent(flatten_named, ..)`, with the inner type's implementations. *)
Inductive forwarded {V} (s : sdef V) (d : dict V) : tmode V -> res V -> res (list V) -> Prop :=
| Fw_item m st : forwarded s d TMeta (fst (d_item d m st)) (fst (d_item (struct_dict s) m st))
| Fw_inline m l : forwarded s d TMeta (fst (d_inline d m l)) (fst (d_inline (struct_dict s) m l))
| Fw_flag sp : forwarded s d TMeta (d_flag d sp) (d_flag (struct_dict s) sp)
| Fw_attributes obj spans pn sp l : about (s_attributes s) spans pn sp ->
    forwarded s d (TAttrs pn obj) (fst (d_inline d (Named sp) l))
              (fst (struct_attr_body s obj spans l))
| Fw_flat_named u m prefix validate l :
    forwarded s d TMeta (fst (fn_parse u m prefix validate l))
              (fst (fn_parse (transparent_fn s u) m prefix validate l))
| Fw_flat_unnamed u m index l : s_shape s <> ShUnnamed ->
    forwarded s d TMeta (fst (fu_parse u m index l))
              (fst (fu_parse (transparent_fu s u) m index l))
| Fw_flat_tuple u m index l : s_shape s = ShUnnamed ->
    (* whatever the position, the inner type counts from 0 *)
    forwarded s d TMeta (fst (fu_parse u m 0 l))
              (fst (fu_parse (transparent_fu s u) m index l))
| Fw_append a paths l :
    forwarded s d TMeta (fst (a paths l)) (fst (transparent_append s a paths l))
| Fw_rest a exclude l :
    forwarded s d TMeta (fst (a exclude l)) (fst (transparent_rest s a exclude l)).

(** *** tuple structs *)
(** One run of the parser generated for a tuple struct [s] whose first item is number
    [index]: 0 unless the struct is flattened into another one. *)
Inductive run_from {V} (s : sdef V) : tmode V -> nat -> mparser (list V) -> Prop :=
| RF_list m : s_is_transparent s = false -> run_from s TMeta 0 (d_inline (struct_dict s) m)
| RF_flatten m index : run_from s TMeta index (fu_parse (struct_fu s) m index)
| RF_attributes obj spans pn sp : s_is_transparent s = false -> about (s_attributes s) spans pn sp ->
    run_from s (TAttrs pn obj) 0 (struct_attr_body s obj spans).
(** how many items belong to the fields before field [i] *)
Definition items_before {V} (s : sdef V) (i : nat) : nat :=
  length (filter is_parsable (firstn i (s_raw s))).
(** the message about item number [n] *)
Definition missing_item_msg {V} (tm : tmode V) (n : nat) : string :=
  match tm with
  | TAttrs (Some p) _ => ("missing required field " ++ show_nat n ++ " on #[" ++ p ++ "]")%string
  | _ => ("missing required field " ++ show_nat n)%string
  end.
End M.

(** [s] is the number [n] in decimal, without leading zeros *)
Inductive numeral : nat -> string -> Prop :=
| N_digit d c : String.get d "0123456789" = Some c -> numeral d (String c "")
| N_more n d c s : n <> 0 -> numeral n s -> String.get d "0123456789" = Some c ->
    numeral (10 * n + d) (s ++ String c "").
