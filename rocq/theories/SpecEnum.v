(** Vocabulary for the properties of enums. *)
From Verif Require Export SpecFlat SpecImpl.

Section E.
Context {env : Env} {V : Type}.
Notation vdef := (vdef V).
Notation edef := (edef V).

(** *** Which enums *)
(** the type of the field does not look at what syn remembers about unexpected tokens; true
    of all implementations of the library (C53) *)
Definition unaware_type (k : fkind V) : Prop :=
  match k with
  | KItem d => unaware_dict d
  | KFlatN _ u => forall m p v, unaware_m (fn_parse u m p v)
  | KFlatU u => forall m i, unaware_m (fu_parse u m i)
  | KAppend a => forall l, unaware_m (a l)
  | KRest a => forall l, unaware_m (a l)
  end.
Definition fine_type (k : fkind V) : Prop := match k with KItem d => fine d | _ => True end.
(** a variant that is chosen by its name *)
Definition ordinary (v : vdef) : Prop := v_flatten v = false /\ v_skip v = false.
(** enum.rs 235-262: no two variants share a name *)
Definition distinct_variants (e : edef) : Prop :=
  forall i j v w n, nth_error (e_variants e) i = Some v -> nth_error (e_variants e) j = Some w ->
    ordinary v -> ordinary w -> In n (v_names v) -> In n (v_names w) -> i = j.
(** an enum that the macro accepts, without the field-level `and_then` in transparent
    variants that C02 is about *)
Definition proper_enum (tm : tmode V) (e : edef) : Prop :=
  accepted_enum tm e /\ no_transparent_and_then e /\ distinct_variants e /\
  (forall v f, In v (e_variants e) -> In f (v_raw v) -> unaware_type (f_kind f)) /\
  (forall v f, In v (e_variants e) -> v_transparent v = true -> In f (v_raw v) -> fine_type (f_kind f)).
Definition no_flattened (e : edef) : Prop :=
  forall v, In v (e_variants e) -> v_flatten v = false.

(** *** Which run *)
(** the attribute parser of [e] does not look for unknown keys: the enum says
    `allow_unknown_fields`, or one of its flattened variants does, or has a rest field or a
    flattened field that takes everything *)
Definition takes_unknown (e : edef) : Prop :=
  e_unknown_ok e = true \/
  (exists v, In v (e_variants e) /\ v_flatten v = true /\ v_skip v = false /\
     v_unknown_ok v = true) \/
  (exists v f, In v (e_variants e) /\ v_flatten v = true /\ In f (v_raw v) /\
     match f_kind f with
     | KRest _ => True
     | KFlatN _ u => fn_accepts_all u = true
     | _ => False
     end).
(** One run of the parser generated for [e] on the items of [inputs], with result [r]: the
    items in `name(..)`, `{..}` or deluxe::parse2, the items of a struct that flattens [e],
    the remaining items of a tuple struct that flattens [e], or the content of the
    attributes.  Parameters as in [parse_run]. *)
Inductive enum_run (e : edef)
  : tmode V -> string -> bool -> span -> list stream -> res (evalue V) -> Prop :=
| E_list m inputs :
    enum_run e TMeta "" true (to_full_span m inputs) inputs
             (fst (d_inline (enum_dict e) m inputs))
| E_flatten m prefix validate inputs :
    enum_run e TMeta prefix validate (to_full_span m inputs) inputs
             (fst (fn_parse (enum_fn e) m prefix validate inputs))
| E_flatten_tuple m i inputs :
    enum_run e TMeta "" true (to_full_span m inputs) inputs
             (fst (fu_parse (enum_fu e) m i inputs))
| E_attributes obj spans pn sp validate inputs : (validate = false <-> takes_unknown e) ->
    about (e_attributes e) spans pn sp ->
    enum_run e (TAttrs pn obj) "" validate sp inputs
             (fst (enum_attr_body e obj spans inputs)).

(** *** Variants by name *)
(** [k] is a key for the variant [v], number [i] *)
Definition variant_at (e : edef) (prefix k : string) (i : nat) (v : vdef) : Prop :=
  nth_error (e_variants e) i = Some v /\ ordinary v /\
  exists n, In n (v_names v) /\ k = (prefix ++ n)%string.
Definition variant_names (e : edef) : list string :=
  flat_map (fun v => if v_flatten v || v_skip v then [] else v_names v) (e_variants e).
(** the items whose key is a variant's name *)
Definition variant_items (e : edef) (prefix : string) (its : list (list token))
  : list (list token) := part prefix (variant_names e) its.

(** What `transparent` does: field number [j] has the value [x] before its transforms, the
    other fields are filled in without looking at the input *)
Definition around (fs : list (field V)) (tm : tmode V) (target : option (list V))
  (j : nat) (x : V) (vs : list V) : Prop :=
  length vs = length fs /\
  forall i f v, nth_error fs i = Some f -> nth_error vs i = Some v ->
    (i = j /\ transformed (f_transforms f) x v) \/
    (i <> j /\ exists pn obj, tm = TAttrs pn obj /\ f_container f = true /\
       transformed (f_transforms f) obj v) \/
    (i <> j /\ (tm <> TMeta -> f_container f = false) /\ exists w, f_default f = Some w /\
       transformed (f_transforms f) w v) \/
    (i <> j /\ (tm <> TMeta -> f_container f = false) /\ f_default f = None /\
       exists t, target = Some t /\ nth_error t i = Some v).

(** the tokens [body] after the name [k] of variant [v] give the field values [vs] *)
Inductive variant_value (v : vdef) (tm : tmode V) (prefix k : string) (ksp : span)
  (body : list token) (vs : list V) : Prop :=
| VV_fields : v_transparent v = false -> accepts (v_named v tm prefix ksp) body vs ->
    variant_value v tm prefix k ksp body vs
| VV_transparent j f d x : v_transparent v = true -> nth_error (v_fields v) j = Some f ->
    is_parsable f = true -> f_kind f = KItem d -> accepts (d_named d k ksp) body x ->
    around (v_fields v) tm None j x vs -> variant_value v tm prefix k ksp body vs.
(** item [seg] holds variant number [i] with the field values [vs] *)
Definition variant_written (e : edef) (tm : tmode V) (prefix : string) (seg : list token)
  (i : nat) (vs : list V) : Prop :=
  exists k ksp body v, item_key seg = Some (k, ksp, body) /\ variant_at e prefix k i v /\
    variant_value v tm prefix k ksp body vs.
(** the tokens after the variant's name are not a value of it *)
Definition variant_rejects (v : vdef) (tm : tmode V) (prefix k : string) (ksp : span)
  (body : list token) : Prop :=
  if v_transparent v
  then exists j f d, nth_error (v_fields v) j = Some f /\ is_parsable f = true /\
         f_kind f = KItem d /\ rejects (d_named d k ksp) body
  else rejects (v_named v tm prefix ksp) body.
(** every item has a key, and no tokens are left over after a variant *)
Definition sound_enum (e : edef) (tm : tmode V) (prefix : string) (inputs : list stream) : Prop :=
  Forall (fun seg => exists k ksp body, item_key seg = Some (k, ksp, body) /\
    forall i v, variant_at e prefix k i v ->
      (exists vs, variant_value v tm prefix k ksp body vs) \/
      variant_rejects v tm prefix k ksp body) (items_of inputs).

(** the error for a second variant key at [sp2] *)
Definition two_variants (prefix n1 n2 : string) (sp2 : span) : err :=
  mkErr sp2 ("expected only one enum variant, got `" ++ prefix ++ n1 ++ "` and `" ++ prefix ++ n2 ++ "`").
(** the error for no variant key lists the first name of each variant that is not skipped *)
Fixpoint in_a_list (sep : string) (l : list string) : string :=
  match l with
  | [] => ""
  | [x] => x
  | x :: l' => (x ++ sep ++ in_a_list sep l')%string
  end.
Definition no_variant (e : edef) (prefix : string) (sp : span) : err :=
  mkErr sp ("expected one of " ++
    in_a_list ", " (map (fun v => match v_names v with
                               | n :: _ => (prefix ++ "`" ++ n ++ "`")%string
                               | [] => "" end)
                     (filter (fun v => negb (v_skip v)) (e_variants e)))).

(** *** Flattened variants *)
(** a field that a flattened variant cannot do without *)
Definition required (f : field V) : Prop :=
  pitem f = true /\ f_default f = None.
(** all required fields of the variant have a key in the input *)
Definition all_present (v : vdef) (prefix : string) (inputs : list stream) : Prop :=
  forall f, In f (v_raw v) -> required f -> has_key prefix f inputs.
(** [v], number [i], is a flattened variant *)
Definition flattened (e : edef) (i : nat) (v : vdef) : Prop :=
  nth_error (e_variants e) i = Some v /\ v_flatten v = true /\ v_skip v = false.
Definition needs (v : vdef) : Prop := exists f, In f (v_raw v) /\ required f.
(** The flattened variant to be used if no variant is named: one with all its required
    fields present; one without required fields is only used if there is no other. *)
Definition chosen (e : edef) (prefix : string) (inputs : list stream) (i : nat) (v : vdef) : Prop :=
  flattened e i v /\ all_present v prefix inputs /\
  (needs v \/ forall j w, flattened e j w -> needs w -> ~ all_present w prefix inputs).
(** the names the flattened variant [v] looks at ... *)
Definition flat_names_of (v : vdef) : list string := flat_map names_of (v_raw v).
(** ... and all names of its fields, including those of skipped fields *)
Definition all_names (v : vdef) : list string := flat_map field_key_names (v_raw v).
(** how a flattened variant reads its fields *)
Definition variant_reader (v : vdef) (prefix : string) (check : bool) : reader V :=
  mkReader (v_fields v) prefix check (flat_names_of v).
(** [k] is a key for a field of some other flattened variant than number [i], and not for a
    field of [v] *)
Definition foreign (e : edef) (prefix : string) (i : nat) (v : vdef) (k : string) : Prop :=
  exists j w m, nth_error (e_variants e) j = Some w /\ v_flatten w = true /\ j <> i /\
    In m (all_names w) /\ k = (prefix ++ m)%string /\ ~ In m (all_names v).
(** unknown keys are no errors: `allow_unknown_fields`, or a field that takes all keys *)
Definition takes_all (v : vdef) : Prop :=
  v_unknown_ok v = true \/
  exists f, In f (v_raw v) /\
    match f_kind f with KRest _ => True | KFlatN _ u => fn_accepts_all u = true | _ => False end.
(** The items give the flattened variant [v], number [i], the field values [vs]: its fields
    are read as those of a struct, and the other keys are checked *)
Definition flat_written (e : edef) (tm : tmode V) (prefix : string) (sp : span)
  (inputs : list stream) (i : nat) (v : vdef) (vs : list V) : Prop :=
  exists check, (check = true <-> needs v /\ ~ takes_all v) /\
    parses_to (variant_reader v prefix check) tm None sp inputs (items_of inputs) vs /\
    (~ needs v -> ~ takes_all v ->
       forall k ksp, In (k, ksp) (keys_in inputs) -> In k (flat_names_of v)) /\
    (takes_all v -> e_unknown_ok e = false -> v_unknown_ok v = false ->
       forall k ksp, In (k, ksp) (keys_in inputs) -> ~ foreign e prefix i v k).
(** what the variant makes of its tokens does not depend on the prefix: it has no named
    fields; for a transparent variant, its type takes any name *)
Definition prefix_free (v : vdef) : Prop :=
  if v_transparent v
  then forall f d k k' ksp body x, In f (v_raw v) -> f_kind f = KItem d ->
         accepts (d_named d k ksp) body x -> accepts (d_named d k' ksp) body x
  else v_shape v <> ShNamed.
(** field.rs 1172-1205: a field has a name *)
Definition fields_named (v : vdef) : Prop :=
  forall f, In f (v_raw v) -> pitem f = true -> f_names f <> [].
(** the flattened variants have fields of types that are local to their item *)
Definition flat_local (e : edef) : Prop :=
  forall v, In v (e_variants e) -> v_flatten v = true ->
    Forall local_field (v_raw v) /\ fields_named v.
End E.
