(** Vocabulary for PropsHold.v: fields marked `container`. *)
From Verif Require Export SpecEnum SpecStruct SpecSchema Schema Lower.
Local Open Scope list_scope.

Section H.
Context {env : Env} {V : Type}.
(** what a `container` field gets: the object the attributes are on; where there is no object
    (ParseMetaItem), the field's default *)
Definition object (tm : tmode V) (f : field V) : V :=
  match tm with
  | TAttrs _ obj => obj
  | TMeta => match f_default f with Some d => d | None => f_auto f end
  end.
(** in the values [vs] of the fields [fs] every container field holds it, after the field's own
    `map` and `and_then` *)
Definition held (tm : tmode V) (fs : list (field V)) (vs : list V) : Prop :=
  forall i f, nth_error fs i = Some f -> f_container f = true ->
    exists v, nth_error vs i = Some v /\ transformed (f_transforms f) (object tm f) v.
Definition no_checks (f : field V) : Prop := forall g, ~ In (TAndThen g) (f_transforms f).
(** the fields fit the struct; a default of the whole struct is one of its values *)
Definition fits (s : sdef V) : Prop :=
  (s_shape s = ShUnit -> s_raw s = []) /\
  (forall t, s_default s = Some t -> length t = length (s_raw s)) /\
  (s_is_transparent s = true -> s_default s <> None -> Forall (fun f => f_container f = true -> no_checks f) (s_raw s)).
(** the value [x] of an enum: one of its variants with the container set, or the enum's default *)
Definition held_in (tm : tmode V) (e : edef V) (x : evalue V) : Prop :=
  e_default e = Some x \/
  exists v, nth_error (e_variants e) (fst x) = Some v /\ held tm (v_raw v) (snd x).
Definition fits_enum (tm : tmode V) (e : edef V) : Prop :=
  forall v, In v (e_variants e) ->
    (v_shape v = ShUnit -> v_raw v = []) /\
    (tm = TMeta -> Forall (fun f => f_container f = true -> f_default f <> None) (v_raw v)).
(** *** Without an object *)
(** whatever the parser [p] returns has the property [Q] *)
Definition yields {S A} (p : pm S A) (Q : A -> Prop) : Prop := forall s v s1, p s = (Ok v, s1) -> Q v.
(** the four ways to read a value of a type *)
Definition dict_yields {A} (d : dict A) (Q : A -> Prop) : Prop :=
  (forall m, yields (d_item d m) Q) /\ (forall m, yields (d_inline d m) Q) /\
  (forall sp v, d_flag d sp = Ok v -> Q v) /\ (forall n sp, yields (d_named d n sp) Q).
Definition meta_held (s : sdef V) (vs : list V) : Prop := exists ws, chained (s_and_thens s) ws vs /\ held TMeta (s_raw s) ws.
Definition meta_in (e : edef V) (x : evalue V) : Prop := exists y, chained (e_and_thens e) y x /\ held_in TMeta e y.
(** the struct's own default has a value for every field; a container field with checks only
    where the generated code has an accumulator for their errors *)
Definition sound_defaults (ru : rust V) (d : sstruct) (auto : list V) (expr : list token -> list V) : Prop :=
  length auto = length (i_fields d) /\ (forall ts, length (expr ts) = length (i_fields d)) /\
  (i_transparent d <> None -> i_default d <> None -> Forall (fun f => g_is_container f = true -> no_checks (lower_field ru false f)) (i_fields d)).
End H.
