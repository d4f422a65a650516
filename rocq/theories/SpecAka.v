(** Vocabulary for adding a name to a field or a variant (PropsAka.v) *)
From Verif Require Export SpecGrow.
Local Open Scope string_scope.
Local Open Scope list_scope.

Section S.
Context {V : Type}.
(** the field or variant with more `alias`es *)
Definition with_names (f : field V) (more : list string) : field V :=
  mkField (f_ident f) (f_names f ++ more) (f_kind f) (f_default f) (f_auto f) (f_transforms f) (f_skip f) (f_container f).
Definition v_with_names (v : vdef V) (more : list string) : vdef V :=
  mkVariant (v_ident v) (v_names v ++ more) (v_shape v) (v_raw v) (v_flatten v) (v_transparent v) (v_skip v) (v_unknown_ok v).
(** [s'] is the struct [s] with the names [more] added to one of its own fields *)
Record more_names (s : sdef V) (more : list string) (s' : sdef V) : Prop := {
  mn_raw : exists a f b, s_raw s = a ++ f :: b /\ s_raw s' = a ++ with_names f more :: b /\ pitem f = true /\ f_names f <> [];
  mn_default : s_default s' = s_default s;
  mn_unknown : s_unknown_ok s' = s_unknown_ok s;
  mn_and_thens : s_and_thens s' = s_and_thens s }.
(** [e'] is the enum [e] with the names [more] added to one of its variants that are not flattened *)
Record more_variant_names (e : edef V) (more : list string) (e' : edef V) : Prop := {
  mv_variants : exists a v b, e_variants e = a ++ v :: b /\ e_variants e' = a ++ v_with_names v more :: b /\ ordinary v;
  mv_default : e_default e' = e_default e;
  mv_and_thens : e_and_thens e' = e_and_thens e;
  mv_unknown : e_unknown_ok e' = e_unknown_ok e }.
End S.
