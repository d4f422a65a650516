(** Vocabulary for adding `allow_unknown_fields` (PropsAllow.v) *)
From Verif Require Export SpecEFlat.
Local Open Scope list_scope.

Section A.
Context {V : Type}.
(** the same struct or enum with `allow_unknown_fields` *)
Definition allowing (s : sdef V) : sdef V :=
  mkStruct (s_shape s) (s_raw s) (s_default s) (s_transparent s) true (s_and_thens s) (s_attributes s).
Definition e_allowing (e : edef V) : edef V :=
  mkEnum (e_variants e) (e_default e) (e_and_thens e) true (e_attributes e).
(** the same variant with `allow_unknown_fields` *)
Definition v_allowing (v : vdef V) : vdef V :=
  mkVariant (v_ident v) (v_names v) (v_shape v) (v_raw v) (v_flatten v) (v_transparent v) (v_skip v) true.
(** [e'] is [e] with `allow_unknown_fields` on one of the variants that are not flattened *)
Record allowing_in (e e' : edef V) : Prop := {
  ai_variants : exists a v b, e_variants e = a ++ v :: b /\ v_flatten v = false /\ e_variants e' = a ++ v_allowing v :: b;
  ai_default : e_default e' = e_default e;
  ai_and_thens : e_and_thens e' = e_and_thens e;
  ai_unknown : e_unknown_ok e' = e_unknown_ok e;
  ai_attributes : e_attributes e' = e_attributes e }.
End A.
