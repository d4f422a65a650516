(** Vocabulary for flattened fields: which items belong to a field. *)
From Verif Require Export SpecStruct SpecColl.

Section F.
Context {env : Env}.
(** every item starts with a key *)
Definition keyed (l : list stream) : Prop :=
  Forall (fun seg => exists k ksp body, item_key seg = Some (k, ksp, body)) (items_of l).
(** the key of [seg] is one of [names], written after [prefix] *)
Definition addressed (prefix : string) (names : list string) (seg : list token) : bool :=
  match item_key seg with
  | Some (k, _, _) => existsb (fun n => String.eqb k (prefix ++ n)) names
  | None => false
  end.
(** the key of [seg] starts with [prefix] *)
Definition begins (prefix : string) (seg : list token) : bool :=
  match item_key seg with
  | Some (k, _, _) => match strip_prefix prefix k with Some _ => true | None => false end
  | None => false
  end.
(** the items of [its] whose key is one of these *)
Definition part (prefix : string) (names : list string) (its : list (list token))
  : list (list token) := filter (addressed prefix names) its.

(** [u], flattened at [prefix], takes its value from the items that have its names as keys;
    the other items do not matter *)
Definition by_keys {A} (prefix : string) (u : flat_named A) : Prop :=
  forall sp l l' v, keyed l -> keyed l' ->
    part prefix (fn_names u) (items_of l) = part prefix (fn_names u) (items_of l') ->
    fst (fn_parse u (Named sp) prefix false l) = Ok v <->
    fst (fn_parse u (Named sp) prefix false l') = Ok v.
(** the same for an append field *)
Definition append_by_keys {A} (a : append_fn A) : Prop :=
  forall names l l' v, keyed l -> keyed l' ->
    part "" names (items_of l) = part "" names (items_of l') ->
    fst (a names l) = Ok v <-> fst (a names l') = Ok v.
(** [u], flattened at [prefix], looks at the key [n]: it rejects any input that has it twice *)
Definition looks_at {A} (prefix : string) (u : flat_named A) (n : string) : Prop :=
  forall sp l v, 2 <= length (part prefix [n] (items_of l)) ->
    fst (fn_parse u (Named sp) prefix false l) <> Ok v.

(** the same item, its key being `prefix k` and `prefix' k` *)
Definition moved (prefix prefix' : string) (seg seg' : list token) : Prop :=
  exists k k' ksp body, item_key seg = Some (k, ksp, body) /\ item_key seg' = Some (k', ksp, body) /\
    forall n, k = (prefix ++ n)%string <-> k' = (prefix' ++ n)%string.
(** [u] can be moved to another prefix *)
Definition movable {A} (u : flat_named A) : Prop :=
  forall sp prefix prefix' l l' v, is_prefix prefix -> is_prefix prefix' ->
    Forall2 (moved prefix prefix') (items_of l) (items_of l') ->
    fst (fn_parse u (Named sp) prefix false l) = Ok v ->
    fst (fn_parse u (Named sp) prefix' false l') = Ok v.
Definition movable_append {A} (a : append_fn A) : Prop :=
  forall names prefix prefix' l l' v,
    Forall2 (moved prefix prefix') (items_of l) (items_of l') ->
    fst (a (map (String.append prefix) names) l) = Ok v ->
    fst (a (map (String.append prefix') names) l') = Ok v.
(** a value that stands for a missing field does not depend on the name of the field *)
Definition nameless {A} (d : dict A) : Prop :=
  forall n n' sp v, d_missing d n sp = Ok v -> d_missing d n' sp = Ok v.
(** the text of a path: not empty, does not end in `::` *)
Definition path_like (p : string) : Prop := p <> "" /\ ends_with "::" p = false.
Definition movable_field {V} (f : field V) : Prop :=
  match f_kind f with
  | KItem d => nameless d
  | KFlatN (Some p) u => path_like p /\ movable u
  | KAppend a => movable_append a
  | _ => False
  end.
(** where the keys of a field of a struct read at [prefix] go.  Excluded: flattening without
    a prefix inside of a prefix, see C24; rest fields, see C26. *)
Definition routes {V} (prefix : string) (f : field V) : Prop :=
  pflat f = true ->
  match f_kind f with
  | KFlatN (Some p) u => path_like p /\ by_keys (prefix ++ p ++ "::") u
  | KFlatN None u => prefix = "" /\ by_keys "" u
  | KAppend a => append_by_keys a
  | _ => False
  end.
(** the names by which the items of a field are addressed *)
Definition names_of {V} (f : field V) : list string :=
  if is_parsable f then field_key_names f else [].
(** no two fields of the struct have a name in common *)
Definition separate {V} (s : sdef V) : Prop :=
  forall i j f g n, nth_error (s_raw s) i = Some f -> nth_error (s_raw s) j = Some g ->
    In n (names_of f) -> In n (names_of g) -> i = j.

(** field number [i] has the value [x], taken from its own part of the items: a plain field
    from the one item it has, or it was left out; a flattened or append field from a parse
    of its part alone *)
Inductive field_part {V} (s : sdef V) (tm : tmode V) (prefix : string) (sp : span)
  (its : list (list token)) (i : nat) (f : field V) (x : V) : Prop :=
| FP_item seg w : pitem f = true -> part prefix (names_of f) its = [seg] ->
    written prefix f seg w -> transformed (f_transforms f) w x ->
    field_part s tm prefix sp its i f x
| FP_none : pflat f = false -> part prefix (names_of f) its = [] ->
    left_out s tm prefix sp i f x -> field_part s tm prefix sp its i f x
| FP_flat l w : pflat f = true -> items_of l = part prefix (names_of f) its ->
    fst (flat_call f prefix sp (s_names s) l) = Ok w ->
    transformed (f_transforms f) w x -> field_part s tm prefix sp its i f x.
End F.
