(** What a struct's source says its parser does: the options of the fields and of the struct
    (SpecOpts.v) on one side, the items of an input on the other. *)
From Verif Require Export SpecOpts SpecStruct Lower.

Section S.
Context {env : Env} {V : Type}.
(** the field types, `with` modules and expressions of the source *)
Variable ru : rust V.

(** *** One field [f] with the options [os] *)
(** the parser of the field: the one of the `with` module or of the field's type *)
Definition impl_of (f : src_field) (os : list fopt) : dict V :=
  match withs os with m :: _ => rt_item (ru_with ru m) | [] => rt_item (ru_type ru f) end.
Definition is_skipped (os : list fopt) : bool :=
  existsb (fun o => match o with OSkip (b, _) => b | _ => false end) os.
Definition is_object (os : list fopt) : bool :=
  existsb (fun o => match o with OContainer c => fc_value c | _ => false end) os.
(** not `flatten`, `append` or `rest` *)
Definition plain (os : list fopt) : Prop :=
  (forall x, In (OFlatten x) os -> ff_value x = false) /\
  (forall sp, ~ In (OAppend (true, sp)) os) /\ (forall sp, ~ In (ORest (true, sp)) os).
(** [k] is a name of the field: the new name, or its own, or an alias.  A skipped field and
    the container have none. *)
Definition names_it (f : src_field) (os : list fopt) (k : string) : Prop :=
  is_skipped os = false /\ is_object os = false /\ In k (map fst (names_f f os)).
(** the `map` and `and_then` options, in order, turn [v] into [w] *)
Inductive converted : list fopt -> V -> V -> Prop :=
| Cv_none v : converted [] v v
| Cv_map e os v w : converted os (ru_map ru e v) w -> converted (OMap e :: os) v w
| Cv_and_then e os v u w : ru_and_then ru e v = inl u -> converted os u w ->
    converted (OAndThen e :: os) v w
| Cv_other o os v w : (forall e, o <> OMap e) -> (forall e, o <> OAndThen e) ->
    converted os v w -> converted (o :: os) v w.

(** `default` or `default = expr` *)
Definition default_by {A} (auto : A) (expr : list token -> A) (ds : list fdefault) : option A :=
  match ds with
  | [] => None
  | DDefault _ :: _ => Some auto
  | DExpr e :: _ => Some (expr e)
  end.
(** the default of a field: the one written; else Default::default() if the field is skipped
    and the struct has no default, and for the container if there is none to take *)
Definition default_for (whole : option (list V)) (tm : tmode V) (f : src_field) (os : list fopt)
  : option V :=
  match default_by (rt_auto (ru_type ru f)) (ru_expr ru) (defaults os) with
  | Some v => Some v
  | None =>
    if (is_skipped os && match whole with None => true | _ => false end) ||
       (is_object os && match tm with TMeta => true | TAttrs _ _ => false end)
    then Some (rt_auto (ru_type ru f)) else None
  end.
(** how a missing field is called *)
Definition label_of (tm : tmode V) (f : src_field) : string :=
  let n := match sf_ident f with Some (x, _) => x | None => "" end in
  match tm with
  | TAttrs (Some p) _ => ("#[" ++ p ++ "(" ++ n ++ ")]")%string
  | _ => ("`" ++ n ++ "`")%string
  end.
(** item [seg] is for the field and has a value for it *)
Definition holds_value (f : src_field) (os : list fopt) (seg : list token) (w : V) : Prop :=
  exists k ksp body, item_key seg = Some (k, ksp, body) /\ names_it f os k /\
    accepts (d_named (impl_of f os) (hd "" (map fst (names_f f os))) ksp) body w.
Definition is_for (f : src_field) (os : list fopt) (seg : list token) : Prop :=
  exists k ksp body, item_key seg = Some (k, ksp, body) /\ names_it f os k.

(** field number [n] gets the value [v] from the items [its]; [whole] is the default of the
    struct, [tm] says if attributes of an object are parsed *)
Inductive obtains (whole : option (list V)) (tm : tmode V) (sp : span) (its : list (list token))
  (n : nat) (f : src_field) (os : list fopt) (v : V) : Prop :=
| Ob_item seg w : In seg its -> holds_value f os seg w -> converted os w v ->
    obtains whole tm sp its n f os v
| Ob_object pn obj : tm = TAttrs pn obj -> is_object os = true -> converted os obj v ->
    obtains whole tm sp its n f os v
| Ob_default w : (forall seg, In seg its -> ~ is_for f os seg) ->
    (tm <> TMeta -> is_object os = false) -> default_for whole tm f os = Some w ->
    converted os w v -> obtains whole tm sp its n f os v
| Ob_whole t : (forall seg, In seg its -> ~ is_for f os seg) ->
    (tm <> TMeta -> is_object os = false) -> default_for whole tm f os = None ->
    whole = Some t -> nth_error t n = Some v -> obtains whole tm sp its n f os v
| Ob_missing w : (forall seg, In seg its -> ~ is_for f os seg) ->
    is_object os = false -> default_for whole tm f os = None -> whole = None ->
    d_missing (impl_of f os) (label_of tm f) sp = Ok w -> converted os w v ->
    obtains whole tm sp its n f os v.

(** *** The struct *)
(** The items [its] are a value [vs] of the struct with the fields [fs], their options
    [oss], and the default [whole]: each item is for a field and has a value for it (or,
    with `allow_unknown_fields`, it is for none), no two items are for the same field, and
    each field obtains its value. *)
Definition source_value (fs : list src_field) (oss : list (list fopt)) (whole : option (list V))
  (lenient : bool) (tm : tmode V) (sp : span) (its : list (list token)) (vs : list V) : Prop :=
  (forall seg, In seg its ->
     (exists n f os w, nth_error fs n = Some f /\ nth_error oss n = Some os /\ holds_value f os seg w) \/
     (lenient = true /\ item_key seg <> None /\
      forall n f os, nth_error fs n = Some f -> nth_error oss n = Some os -> ~ is_for f os seg)) /\
  (forall n f os a b s1 s2, nth_error fs n = Some f -> nth_error oss n = Some os ->
     nth_error its a = Some s1 -> nth_error its b = Some s2 -> is_for f os s1 -> is_for f os s2 -> a = b) /\
  length vs = length fs /\
  (forall n f os v, nth_error fs n = Some f -> nth_error oss n = Some os -> nth_error vs n = Some v ->
     obtains whole tm sp its n f os v).

(** *** Tuples *)
(** the field takes an item *)
Definition takes (os : list fopt) : bool := negb (is_skipped os) && negb (is_object os).
(** the items are, in order, values of the fields that take one; those at the end may be
    left out *)
Inductive in_order : list src_field -> list (list fopt) -> list (list token) -> list (option V) -> Prop :=
| IO_none : in_order [] [] [] []
| IO_value f os fs oss seg segs w vs : takes os = true ->
    accepts (d_item (impl_of f os) Unnamed) seg w -> in_order fs oss segs vs ->
    in_order (f :: fs) (os :: oss) (seg :: segs) (Some w :: vs)
| IO_short f os fs oss vs : takes os = true -> in_order fs oss [] vs ->
    in_order (f :: fs) (os :: oss) [] (None :: vs)
| IO_other f os fs oss segs vs : takes os = false -> in_order fs oss segs vs ->
    in_order (f :: fs) (os :: oss) segs (None :: vs).
(** the value [v] of a field that has no item (the span and the name only occur in errors) *)
Definition without_item (whole : option (list V)) (tm : tmode V) (n : nat) (f : src_field)
  (os : list fopt) (v : V) : Prop := obtains whole tm SCall [] n f os v.
Definition source_tuple (fs : list src_field) (oss : list (list fopt)) (whole : option (list V))
  (tm : tmode V) (its : list (list token)) (vs : list V) : Prop :=
  exists given, in_order fs oss its given /\ length vs = length fs /\
    forall n f os o v, nth_error fs n = Some f -> nth_error oss n = Some os ->
      nth_error given n = Some o -> nth_error vs n = Some v ->
      match o with Some w => converted os w v | None => without_item whole tm n f os v end.
(** whether the field can be missing does not depend on what it is called in the error *)
Definition uniform (f : src_field) (os : list fopt) : Prop :=
  forall n sp w n' sp', d_missing (impl_of f os) n sp = Ok w -> d_missing (impl_of f os) n' sp' = Ok w.
End S.

(** the derive for items and lists, and the one for attributes *)
Definition derived {env : Env} {V} (sy : synlib) (tm : tmode V) (i : src_struct) (d : sstruct) : Prop :=
  match tm with TMeta => derive_meta_struct sy i = Ok d | TAttrs _ _ => derive_attr_struct sy i = Ok d end.
