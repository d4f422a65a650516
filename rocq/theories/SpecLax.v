(** Vocabulary for making a required field optional (PropsLax.v) *)
From Verif Require Export SpecGrow.
Local Open Scope string_scope.
Local Open Scope list_scope.

Section S.
Context {env : Env} {V : Type}.
(** the field with `default` *)
Definition defaulting (f : field V) (d : V) : field V :=
  mkField (f_ident f) (f_names f) (f_kind f) (Some d) (f_auto f) (f_transforms f) (f_skip f) (f_container f).
(** a field, not flattened, without a default, that must be given: its type has no value for a
    missing field *)
Definition must_give (f : field V) : Prop :=
  pitem f = true /\ f_default f = None /\
  forall t name sp, f_kind f = KItem t -> exists e, d_missing t name sp = Err e.
(** [s'] is the struct [s], which has no default itself, with the default [d] on the required
    field [f] *)
Record relaxed (s : sdef V) (f : field V) (d : V) (s' : sdef V) : Prop := {
  rl_raw : exists a b, s_raw s = a ++ f :: b /\ s_raw s' = a ++ defaulting f d :: b;
  rl_required : must_give f;
  rl_shape : s_shape s = ShNamed;
  rl_shape' : s_shape s' = ShNamed;
  rl_default : s_default s = None;
  rl_default' : s_default s' = None;
  rl_unknown : s_unknown_ok s' = s_unknown_ok s;
  rl_and_thens : s_and_thens s' = s_and_thens s }.
(** [e'] is the enum [e] with the default [d] on the required field [f] of a variant with named
    fields that is not flattened *)
Definition v_with_raw (v : vdef V) (raw : list (field V)) : vdef V :=
  mkVariant (v_ident v) (v_names v) (v_shape v) raw (v_flatten v) (v_transparent v) (v_skip v) (v_unknown_ok v).
Record relaxed_in (e : edef V) (f : field V) (d : V) (e' : edef V) : Prop := {
  ri_variants : exists a v b fa fb, e_variants e = a ++ v :: b /\ e_variants e' = a ++ v_with_raw v (fa ++ defaulting f d :: fb) :: b /\
    v_raw v = fa ++ f :: fb /\ v_shape v = ShNamed /\ v_flatten v = false /\ v_transparent v = false;
  ri_required : must_give f;
  ri_default : e_default e' = e_default e;
  ri_and_thens : e_and_thens e' = e_and_thens e;
  ri_unknown : e_unknown_ok e' = e_unknown_ok e }.
(** the input has an item for the field [f] of [s], whose names no other field has *)
Definition gives_field (s : sdef V) (prefix : string) (f : field V) (inputs : list stream) : Prop :=
  exists k ksp n, In (k, ksp) (keys_in inputs) /\ k = (prefix ++ n)%string /\ In n (f_names f) /\
  forall i j g, nth_error (s_raw s) i = Some g -> In n (f_names g) -> nth_error (s_raw s) j = Some f -> i = j.
End S.
