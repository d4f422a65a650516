(** Vocabulary for adding a field or a variant to a type (PropsGrow.v) *)
From Verif Require Export SpecEFlat.
Local Open Scope string_scope.
Local Open Scope list_scope.

Section S.
Context {env : Env} {V : Type}.
Notation sdef := (sdef V).
Notation edef := (edef V).
Notation vdef := (vdef V).

(** [s'] is the struct [s] with one more field [f], which is number [n] *)
Record with_field (s : sdef) (n : nat) (f : field V) (s' : sdef) : Prop := {
  wf_raw : exists a b, s_raw s = a ++ b /\ s_raw s' = a ++ f :: b /\ length a = n;
  wf_default : s_default s = None /\ s_default s' = None;
  wf_unknown : s_unknown_ok s' = s_unknown_ok s;
  wf_and_thens : s_and_thens s = [] /\ s_and_thens s' = [] }.
(** a field with the default [d], which its transforms turn into [x] *)
Definition optional_field (f : field V) (d x : V) : Prop :=
  pitem f = true /\ f_container f = false /\ f_default f = Some d /\ transformed (f_transforms f) d x.
(** [vs] with [x] as number [n] *)
Definition inserted (n : nat) (x : V) (vs : list V) : list V := firstn n vs ++ x :: skipn n vs.
(** none of the keys is one of the names, with or without the prefix *)
Definition not_among (prefix : string) (names : list string) (inputs : list stream) : Prop :=
  forall k ksp, In (k, ksp) (keys_in inputs) -> ~ In k names /\ forall n, k = (prefix ++ n)%string -> ~ In n names.

(** [e'] is the enum [e] with one more variant [v], at the end *)
Record with_variant (e : edef) (v : vdef) (e' : edef) : Prop := {
  wv_variants : e_variants e' = e_variants e ++ [v];
  wv_plain : v_flatten v = false;
  wv_default : e_default e' = e_default e;
  wv_and_thens : e_and_thens e' = e_and_thens e;
  wv_unknown : e_unknown_ok e' = e_unknown_ok e }.
End S.
