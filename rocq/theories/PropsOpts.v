(** Theorems on the attributes of the derive: what the options of fields, structs, variants
    and enums mean (C59), that none is lost (C60), and that conflicting ones are rejected
    (C61).  The vocabulary is in SpecOpts.v. *)
From Verif Require Import ExOpts.

(** ** C59 What is accepted, and what it means *)
Theorem C59_field : forall (env : Env) sy, good_syn_lib sy -> forall f g,
  read_field sy f = Ok g <->
  exists os, has_options (spells_f sy) (sf_attrs f) os /\ consistent_f f os /\ g = meaning_f f os.
Proof. exact @l_field_ok. Qed.
Print Assumptions C59_field.
Theorem C59_struct : forall (env : Env) sy, good_syn_lib sy -> forall i d,
  read_struct sy i = Ok d <->
  exists gs os, Forall2 (field_means sy) (ss_fields i) gs /\ has_options (spells_s sy) (ss_attrs i) os /\
    consistent_s (ss_shape i) gs os /\ d = meaning_s (ss_shape i) gs os.
Proof. exact @l_struct_ok. Qed.
Print Assumptions C59_struct.
Theorem C59_variant : forall (env : Env) sy, good_syn_lib sy -> forall v h,
  read_variant sy v = Ok h <->
  exists gs os, Forall2 (field_means sy) (sv_fields v) gs /\ has_options spells_v (sv_attrs v) os /\
    consistent_v v gs os /\ named_v v os /\ h = meaning_v v gs os.
Proof. exact @l_variant_ok. Qed.
Print Assumptions C59_variant.
Theorem C59_enum : forall (env : Env) sy, good_syn_lib sy -> forall i d, written_enum i ->
  read_enum sy i = Ok d <->
  exists vs os, Forall2 (variant_means sy) (se_variants i) vs /\ has_options (spells_e sy) (se_attrs i) os /\
    consistent_e vs os /\ d = meaning_e vs os.
Proof. exact @l_enum_ok. Qed.
Print Assumptions C59_enum.
Example C59_ex_field : good_syn_lib xsy /\
  exists g, read_field xsy x_field = Ok g /\ map fst (g_idents g) = ["b"; "c"] /\ opt_some (g_skip g) = true /\
  length (g_transforms g) = 1.
Proof. exact (conj xsy_good x_field_ok). Qed.
Example C59_ex_struct : exists d, read_struct xsy x_struct = Ok d.
Proof. exact x_struct_read. Qed.
Example C59_ex_enum : written_enum x_enum /\ exists d, read_enum xsy x_enum = Ok d.
Proof.
  destruct x_enum_ok as [d [H _]]. exact (conj (proj1 x_enum_written) (ex_intro _ d H)).
Qed.

(** ** C60 Every item is an option of its own and none is lost *)
Theorem C60_field_partial : forall (env : Env) sy, good_syn_lib sy -> forall f g,
  read_field sy f = Ok g ->
  exists os, has_options (spells_f sy) (sf_attrs f) os /\ forall o, In o os -> shown_f os g o.
Proof. exact @l_field_all. Qed.
Print Assumptions C60_field_partial.
Theorem C60_struct_partial : forall (env : Env) sy, good_syn_lib sy -> forall i d,
  read_struct sy i = Ok d ->
  exists os, has_options (spells_s sy) (ss_attrs i) os /\ forall o, In o os -> shown_s d o.
Proof. exact @l_struct_all. Qed.
Print Assumptions C60_struct_partial.
Theorem C60_variant_partial : forall (env : Env) sy, good_syn_lib sy -> forall v h,
  read_variant sy v = Ok h ->
  exists os, has_options spells_v (sv_attrs v) os /\ forall o, In o os -> shown_v os h o.
Proof. exact @l_variant_all. Qed.
Print Assumptions C60_variant_partial.
Theorem C60_enum_partial : forall (env : Env) sy, good_syn_lib sy -> forall i d,
  written_enum i -> read_enum sy i = Ok d ->
  exists os, has_options (spells_e sy) (se_attrs i) os /\ forall o, In o os -> shown_e d o.
Proof. exact @l_enum_all. Qed.
Print Assumptions C60_enum_partial.
(** `#[deluxe(default = 1, skip)]` is accepted; the default is `1, skip` and the field is
    not skipped *)
Theorem C60_default_refuted : exists (sy : synlib) f g,
  f = nf "a" "default = 1, skip" /\ read_field sy f = Ok g /\ g_skip g = None /\
  option_map (fun d => match d with DExpr ts => length ts | DDefault _ => 0 end) (g_default g) = Some 3.
Proof. exact (let (g, H) := x_swallow_ok in ex_intro _ xsy (ex_intro _ x_swallow (ex_intro _ g (conj eq_refl H)))). Qed.
Print Assumptions C60_default_refuted.
Example C60_ex : good_syn_lib xsy /\ exists g, read_field xsy x_field = Ok g /\ map fst (g_idents g) = ["b"; "c"].
Proof. destruct x_field_ok as [g [H [N _]]]. exact (conj xsy_good (ex_intro _ g (conj H N))). Qed.

(** ** C61 Options that cannot be used together are an error *)
Theorem C61_field : forall (env : Env) sy, good_syn_lib sy -> forall f os,
  has_options (spells_f sy) (sf_attrs f) os -> ~ consistent_f f os -> exists e, read_field sy f = Err e.
Proof. exact @l_field_err. Qed.
Print Assumptions C61_field.
Theorem C61_unreadable : forall (env : Env) sy, good_syn_lib sy -> forall f,
  (forall os, ~ has_options (spells_f sy) (sf_attrs f) os) -> exists e, read_field sy f = Err e.
Proof. exact @l_field_unreadable. Qed.
Print Assumptions C61_unreadable.
Theorem C61_struct : forall (env : Env) sy, good_syn_lib sy -> forall i gs os,
  Forall2 (field_means sy) (ss_fields i) gs -> has_options (spells_s sy) (ss_attrs i) os ->
  ~ consistent_s (ss_shape i) gs os -> exists e, read_struct sy i = Err e.
Proof. exact @l_struct_err. Qed.
Print Assumptions C61_struct.
Theorem C61_struct_unreadable : forall (env : Env) sy, good_syn_lib sy -> forall i,
  (exists f, In f (ss_fields i) /\ forall g, ~ field_means sy f g) \/
  (forall os, ~ has_options (spells_s sy) (ss_attrs i) os) ->
  exists e, read_struct sy i = Err e.
Proof. exact @l_struct_unreadable. Qed.
Print Assumptions C61_struct_unreadable.
Theorem C61_variant : forall (env : Env) sy, good_syn_lib sy -> forall v gs os, snake_ok v ->
  Forall2 (field_means sy) (sv_fields v) gs -> has_options spells_v (sv_attrs v) os ->
  ~ consistent_v v gs os -> exists e, read_variant sy v = Err e.
Proof. exact @l_variant_err. Qed.
Print Assumptions C61_variant.
Theorem C61_enum : forall (env : Env) sy, good_syn_lib sy -> forall i vs os,
  written_enum i -> Forall snake_ok (se_variants i) ->
  Forall2 (variant_means sy) (se_variants i) vs -> has_options (spells_e sy) (se_attrs i) os ->
  ~ consistent_e vs os -> exists e, read_enum sy i = Err e.
Proof. exact @l_enum_err. Qed.
Print Assumptions C61_enum.
(** `flatten` with `rename`; the same name twice; `allow_unknown_fields` on a tuple *)
Example C61_ex_field : exists os, has_options (spells_f xsy) (sf_attrs x_conf) os /\ ~ consistent_f x_conf os.
Proof. exact x_conf_options. Qed.
Example C61_ex_struct : exists gs os, Forall2 (field_means xsy) (ss_fields x_clash) gs /\
  has_options (spells_s xsy) (ss_attrs x_clash) os /\ ~ consistent_s (ss_shape x_clash) gs os.
Proof. exact x_clash_conf. Qed.
Example C61_ex_variant : snake_ok x_vconf /\ exists gs os, Forall2 (field_means xsy) (sv_fields x_vconf) gs /\
  has_options spells_v (sv_attrs x_vconf) os /\ ~ consistent_v x_vconf gs os.
Proof. exact x_vconf_conf. Qed.
Example C61_ex_enum : written_enum x_two /\ Forall snake_ok (se_variants x_two) /\
  exists vs os, Forall2 (variant_means xsy) (se_variants x_two) vs /\
  has_options (spells_e xsy) (se_attrs x_two) os /\ ~ consistent_e vs os.
Proof. exact (conj (proj1 x_two_written) (conj (proj2 x_two_written) x_two_conf)). Qed.
