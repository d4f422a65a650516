(** Vocabulary for replacing the type of a field by one that accepts more (PropsWider.v) *)
From Verif Require Export SpecAllow SpecLax Attrs LibColl.
Local Open Scope list_scope.

(** whatever [p] accepts, [q] accepts with the same value, and leaves the same input *)
Definition at_least {S A} (p q : S -> res A * S) : Prop := forall s a s', p s = (Ok a, s') -> q s = (Ok a, s').
(** [d'] accepts at least what [d] accepts, through every method of ParseMetaItem *)
Record reads_more {A} (d d' : dict A) : Prop := {
  rm_item : forall m, at_least (d_item d m) (d_item d' m);
  rm_inline : forall m, at_least (d_inline d m) (d_inline d' m);
  rm_flag : forall sp a, d_flag d sp = Ok a -> d_flag d' sp = Ok a;
  rm_named : forall n sp, at_least (d_named d n sp) (d_named d' n sp);
  rm_missing : forall n sp a, d_missing d n sp = Ok a -> d_missing d' n sp = Ok a }.
(** likewise for ParseMetaFlatNamed and ParseMetaFlatUnnamed, with the same field names *)
Record flat_reads_more {A} (u u' : flat_named A) : Prop := {
  fm_names : fn_names u' = fn_names u;
  fm_accepts_all : fn_accepts_all u' = fn_accepts_all u;
  fm_parse : forall m p v, at_least (fn_parse u m p v) (fn_parse u' m p v) }.
Record tuple_reads_more {A} (u u' : flat_unnamed A) : Prop := {
  um_count : fu_count u' = fu_count u;
  um_parse : forall m i, at_least (fu_parse u m i) (fu_parse u' m i) }.

Section S.
Context {env : Env} {V : Type}.
(** two fields that differ in their types only, and the second type accepts at least what the
    first one does *)
Definition kind_more (k k' : fkind V) : Prop :=
  match k, k' with
  | KItem d, KItem d' => reads_more d d'
  | KFlatN p u, KFlatN p' u' => p' = p /\ flat_reads_more u u'
  | KFlatU u, KFlatU u' => tuple_reads_more u u'
  | KAppend a, KAppend a' => forall ps, at_least (a ps) (a' ps)
  | KRest r, KRest r' => forall ks, at_least (r ks) (r' ks)
  | _, _ => False
  end.
Record field_more (f f' : field V) : Prop := {
  fl_ident : f_ident f' = f_ident f;
  fl_names : f_names f' = f_names f;
  fl_kind : kind_more (f_kind f) (f_kind f');
  fl_default : f_default f' = f_default f;
  fl_auto : f_auto f' = f_auto f;
  fl_transforms : f_transforms f' = f_transforms f;
  fl_skip : f_skip f' = f_skip f;
  fl_container : f_container f' = f_container f }.
Record struct_more (s s' : sdef V) : Prop := {
  sm_shape : s_shape s' = s_shape s;
  sm_raw : Forall2 field_more (s_raw s) (s_raw s');
  sm_default : s_default s' = s_default s;
  sm_transparent : s_transparent s' = s_transparent s;
  sm_unknown : s_unknown_ok s' = s_unknown_ok s;
  sm_and_thens : s_and_thens s' = s_and_thens s;
  sm_attributes : s_attributes s' = s_attributes s }.
Record variant_more (v v' : vdef V) : Prop := {
  vm_ident : v_ident v' = v_ident v;
  vm_names : v_names v' = v_names v;
  vm_shape : v_shape v' = v_shape v;
  vm_raw : Forall2 field_more (v_raw v) (v_raw v');
  vm_flatten : v_flatten v' = v_flatten v;
  vm_transparent : v_transparent v' = v_transparent v;
  vm_skip : v_skip v' = v_skip v;
  vm_unknown : v_unknown_ok v' = v_unknown_ok v }.
Record enum_more (e e' : edef V) : Prop := {
  em_variants : Forall2 variant_more (e_variants e) (e_variants e');
  em_default : e_default e' = e_default e;
  em_and_thens : e_and_thens e' = e_and_thens e;
  em_unknown : e_unknown_ok e' = e_unknown_ok e;
  em_attributes : e_attributes e' = e_attributes e }.
End S.
