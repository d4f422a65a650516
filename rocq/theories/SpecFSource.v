(** What the source of a struct with flattened, append and rest fields says its parser does.
    The words of SpecSource.v, and the parts of the items of SpecFlat.v. *)
From Verif Require Export SpecSource SpecFlat.

(** *** What a field is, by its options *)
Inductive role : Type :=
| Single                            (* takes one item *)
| Flattened (prefix : option string)
| Appended                          (* collects the items with its names *)
| Rest.                             (* collects the items that nothing else is for *)
Definition role_of (os : list fopt) : role :=
  if existsb fst (appends os) then Appended
  else if existsb fst (rests os) then Rest
  else match filter ff_value (flattens os) with
       | x :: _ => Flattened (option_map path_key (ff_prefix x))
       | [] => Single
       end.
(** `p::`, or nothing *)
Definition prefix_text (p : option string) : string :=
  match p with Some x => (x ++ "::")%string | None => "" end.

Section F.
Context {env : Env}.
(** the items whose key is none of [names] *)
Definition unclaimed (names : list string) (its : list (list token)) : list (list token) :=
  filter (fun seg => negb (addressed "" names seg)) its.
(** [r] takes its value from the items whose key is not excluded *)
Definition rest_by_keys {A} (r : rest_fn A) : Prop :=
  forall names l l' v, keyed l -> keyed l' ->
    unclaimed names (items_of l) = unclaimed names (items_of l') ->
    fst (r names l) = Ok v <-> fst (r names l') = Ok v.

(** the key type of a map reads the key of an item as the struct does *)
Definition keys_as_written {K} (kstr : K -> string) (dk : dict K) : Prop :=
  forall seg k ksp body, item_key seg = Some (k, ksp, body) ->
    exists x body', key_of dk seg x body' /\ kstr x = k.

Context {V : Type}.
Variable ru : rust V.
(** the implementations of a field: those of the `with` module or of its type; the names of
    a flattened field are those of its type *)
Definition flat_of (f : src_field) (os : list fopt) : flat_named V :=
  let ty := rt_fn (ru_type ru f) in
  match withs os with
  | m :: _ => mkFN (fn_names ty) (fn_accepts_all ty) (fn_parse (rt_fn (ru_with ru m)))
  | [] => ty
  end.
Definition append_of (f : src_field) (os : list fopt) : append_fn V :=
  match withs os with m :: _ => rt_append (ru_with ru m) | [] => rt_append (ru_type ru f) end.
Definition rest_of (f : src_field) (os : list fopt) : rest_fn V :=
  match withs os with m :: _ => rt_rest (ru_with ru m) | [] => rt_rest (ru_type ru f) end.
(** the keys of the items for a field *)
Definition keys_of (f : src_field) (os : list fopt) : list string :=
  if takes os then
    match role_of os with
    | Flattened p => map (String.append (prefix_text p)) (fn_names (flat_of f os))
    | _ => map fst (names_f f os)
    end
  else [].
Definition all_keys (fs : list src_field) (oss : list (list fopt)) : list string :=
  flat_map (fun p => keys_of (fst p) (snd p)) (combine fs oss).

(** field number [n] gets the value [v] from the items [its]: from the one item for it, or,
    if there is none, from elsewhere; a flattened, append or rest field from a parse of its
    part of the items alone *)
Inductive draws (names : list string) (whole : option (list V)) (tm : tmode V) (sp : span)
  (its : list (list token)) (n : nat) (f : src_field) (os : list fopt) (v : V) : Prop :=
| Dr_item seg w : role_of os = Single -> part "" (keys_of f os) its = [seg] ->
    holds_value ru f os seg w -> converted ru os w v -> draws names whole tm sp its n f os v
| Dr_without : (takes os = true -> role_of os = Single) -> part "" (keys_of f os) its = [] ->
    obtains ru whole tm sp [] n f os v -> draws names whole tm sp its n f os v
| Dr_flatten p l w : takes os = true -> role_of os = Flattened p ->
    items_of l = part "" (keys_of f os) its ->
    fst (fn_parse (flat_of f os) (Named sp) (prefix_text p) false l) = Ok w ->
    converted ru os w v -> draws names whole tm sp its n f os v
| Dr_append l w : takes os = true -> role_of os = Appended ->
    items_of l = part "" (keys_of f os) its -> fst (append_of f os (keys_of f os) l) = Ok w ->
    converted ru os w v -> draws names whole tm sp its n f os v
| Dr_rest l w : takes os = true -> role_of os = Rest ->
    items_of l = unclaimed names its -> fst (rest_of f os names l) = Ok w ->
    converted ru os w v -> draws names whole tm sp its n f os v.

(** The items [its] are a value [vs] of the struct: each has a key, which, unless unknown
    ones are allowed, is one of those of the fields, and each field gets its value. *)
Definition source_parts (fs : list src_field) (oss : list (list fopt)) (whole : option (list V))
  (lenient : bool) (tm : tmode V) (sp : span) (its : list (list token)) (vs : list V) : Prop :=
  (forall seg, In seg its -> item_key seg <> None) /\
  (lenient = false -> forall seg, In seg its -> addressed "" (all_keys fs oss) seg = true) /\
  length vs = length fs /\
  (forall n f os v, nth_error fs n = Some f -> nth_error oss n = Some os -> nth_error vs n = Some v ->
     draws (all_keys fs oss) whole tm sp its n f os v).

(** the implementation of a field looks at its part of the items only *)
Definition keeps_to_part (f : src_field) (os : list fopt) : Prop :=
  takes os = true ->
  match role_of os with
  | Single => local_dict (impl_of ru f os)
  | Flattened p => (forall x, p = Some x -> path_like x) /\ by_keys (prefix_text p) (flat_of f os)
  | Appended => append_by_keys (append_of f os)
  | Rest => rest_by_keys (rest_of f os)
  end.
(** the keys of a flattened field are not keys of another field (the derive does not see
    them; it checks all others) *)
Definition flat_apart (fs : list src_field) (oss : list (list fopt)) : Prop :=
  forall i j f g os os' p k, nth_error fs i = Some f -> nth_error oss i = Some os ->
    nth_error fs j = Some g -> nth_error oss j = Some os' -> i <> j -> role_of os = Flattened p ->
    In k (keys_of f os) -> ~ In k (keys_of g os').
End F.
