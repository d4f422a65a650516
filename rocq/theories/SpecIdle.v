(** Specification of C91: options without effect. *)
From Verif Require Export DeriveEnum Lower.

(** a field with another default *)
Definition with_default {V} (o : option V) (f : field V) : field V :=
  mkField (f_ident f) (f_names f) (f_kind f) o (f_auto f) (f_transforms f) (f_skip f) (f_container f).

(** the same field, or an `append` or `rest` field with another default, or with one where
    the other has none *)
Inductive alike {V} : field V -> field V -> Prop :=
| AlikeSame : forall f, alike f f
| AlikeAppend : forall f a o, f_kind f = KAppend a -> f_skip f = false -> f_container f = false ->
    alike f (with_default o f)
| AlikeRest : forall f r o, f_kind f = KRest r -> f_skip f = false -> f_container f = false ->
    alike f (with_default o f).

Record alike_structs {V} (s t : sdef V) : Prop := {
  ak_shape : s_shape s = ShNamed /\ s_shape t = ShNamed;
  ak_raw : Forall2 alike (s_raw s) (s_raw t);
  ak_plain : s_transparent s = false /\ s_transparent t = false;
  ak_default : s_default s = s_default t;
  ak_unknown : s_unknown_ok s = s_unknown_ok t;
  ak_thens : s_and_thens s = s_and_thens t;
  ak_attributes : s_attributes s = s_attributes t }.

(** a field without its `with` option *)
Definition without_module (f : sfield) : sfield :=
  mkSField (g_src f) (g_idents f) (g_default f) None (g_flatten f) (g_append f) (g_rest f)
           (g_container f) (g_skip f) (g_transforms f).
Definition without_modules (v : svariant) : svariant :=
  mkSVariant (h_src v) (map without_module (h_fields v)) (h_idents v) (h_flatten v)
             (h_transparent v) (h_skip v) (h_unknown_ok v).

(** *** What is skipped (C92) *)
(** the same field, or two skipped fields with the same default and transforms: their names,
    their types and how they would be read may differ, but neither is a `rest` field or
    flattens a type that accepts all keys *)
Definition takes_everything {V} (f : field V) : bool :=
  match f_kind f with KRest _ => true | KFlatN _ u => fn_accepts_all u | _ => false end.
Inductive skipped_alike {V} : field V -> field V -> Prop :=
| SkippedSame : forall f, skipped_alike f f
| SkippedBoth : forall f g, f_skip f = true -> f_skip g = true ->
    f_default f = f_default g -> f_auto f = f_auto g -> f_transforms f = f_transforms g ->
    f_container f = f_container g -> takes_everything f = false -> takes_everything g = false ->
    skipped_alike f g.

Record skip_structs {V} (s t : sdef V) : Prop := {
  sk_shape : s_shape s = ShNamed /\ s_shape t = ShNamed;
  sk_raw : Forall2 skipped_alike (s_raw s) (s_raw t);
  sk_plain : s_transparent s = false /\ s_transparent t = false;
  sk_default : s_default s = s_default t;
  sk_unknown : s_unknown_ok s = s_unknown_ok t;
  sk_thens : s_and_thens s = s_and_thens t;
  sk_attributes : s_attributes s = s_attributes t }.

(** the same variant, or two skipped ones, not flattened *)
Inductive skipped_variants {V} : vdef V -> vdef V -> Prop :=
| SkippedV : forall v, skipped_variants v v
| SkippedVs : forall v w, v_skip v = true -> v_skip w = true ->
    v_flatten v = false -> v_flatten w = false -> skipped_variants v w.

Record skip_enums {V} (e h : edef V) : Prop := {
  se_variants_ : Forall2 skipped_variants (e_variants e) (e_variants h);
  se_default_ : e_default e = e_default h;
  se_thens : e_and_thens e = e_and_thens h;
  se_unknown : e_unknown_ok e = e_unknown_ok h;
  se_attributes : e_attributes e = e_attributes h }.

(** two transparent structs that differ in the default of the field they stand for *)
Record alike_transparent {V} (s t : sdef V) : Prop := {
  at_transparent : s_is_transparent s = true /\ s_transparent t = true;
  at_raw : exists before f o after, pitem f = true /\
    s_raw s = before ++ f :: after /\ s_raw t = before ++ with_default o f :: after;
  at_default : s_default s = s_default t;
  at_thens : s_and_thens s = s_and_thens t;
  at_attributes : s_attributes s = s_attributes t }.
