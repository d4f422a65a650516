(** Property theorems: the suggestions of the derive macros.  Every proof is one [exact];
    vocabulary in SpecAdvice.v (the options of each kind of item, [advised]) and SpecDiag.v
    (the entries of attributes, [Strange]: a key that is no option). *)
From Verif Require Import SourceKit ExIdle ExAdvice.

(** ** C93 A misspelled option is reported with the most similar option *)
Theorem C93_field : forall (env : Env) sy, good_syn_lib sy -> forall f xs k sp,
  has_entries (grammar_f sy f) (sf_attrs f) xs -> In (Strange k sp) xs ->
  exists e, read_field sy f = Err e /\ advised options_of_field k sp (errs_of e).
Proof. exact @l_advice_field. Qed.
Print Assumptions C93_field.
Theorem C93_struct : forall (env : Env) sy, good_syn_lib sy -> forall i gs fes xs k sp,
  fields_read sy (ss_fields i) gs fes -> has_entries (grammar_s sy (ss_shape i) gs) (ss_attrs i) xs ->
  In (Strange k sp) xs ->
  exists e, read_struct sy i = Err e /\ advised options_of_struct k sp (errs_of e).
Proof. exact @l_advice_struct. Qed.
Print Assumptions C93_struct.
Theorem C93_variant : forall (env : Env) sy, good_syn_lib sy -> forall v gs fes xs k sp, snake_ok v ->
  fields_read sy (sv_fields v) gs fes -> has_entries (grammar_v v gs) (sv_attrs v) xs ->
  In (Strange k sp) xs ->
  exists e, read_variant sy v = Err e /\ advised options_of_variant k sp (errs_of e).
Proof. exact @l_advice_variant. Qed.
Print Assumptions C93_variant.

Example C93_ex : let env := lexer_env in good_syn_lib xsy /\
  exists xs, has_entries (grammar_f xsy adv_field) (sf_attrs adv_field) xs /\
    map entry_key xs = ["skip"; "renam"; "colour"] /\
    map e_msg (problems_f xsy adv_field xs) = ["unknown field `renam`, did you mean `rename`?"; "unknown field `colour`"].
Proof. exact (conj xsy_good ex_advice_field). Qed.

(** not so for enums: their option `allow_unknown_fields` is never suggested *)
Theorem C93_enum_refuted : exists (env : Env) sy k x i j d,
  In x options_of_enum /\ (800 < env_sim k x)%N /\
  k = "allow_unknown_field" /\ x = "allow_unknown_fields" /\
  i = enum_src "#[deluxe(allow_unknown_field)] enum E { A }" /\
  j = enum_src "#[deluxe(allow_unknown_fields)] enum E { A }" /\
  (exists e, read_enum sy i = Err e /\ map e_msg (errs_of e) = ["unknown field `allow_unknown_field`"]) /\
  read_enum sy j = Ok d /\ j_unknown_ok d = Some true.
Proof. exact ex_advice_enum. Qed.
Print Assumptions C93_enum_refuted.
Theorem C93_enum_partial : forall (env : Env) sy, good_syn_lib sy -> forall i hs ves xs fes des k sp, written_enum i ->
  variants_read sy (se_variants i) hs ves -> has_entries (grammar_e sy) (se_attrs i) xs ->
  flatten_faults hs [] hs fes -> default_fault hs xs des -> In (Strange k sp) xs ->
  exists e, read_enum sy i = Err e /\
    advised ["default"; "crate"; "and_then"; "attributes"] k sp (errs_of e).
Proof. exact @l_advice_enum. Qed.
Print Assumptions C93_enum_partial.

(** and the suggested option can be one that this item cannot have *)
Theorem C93_barred_refuted : exists (env : Env) sy i j,
  i = struct_src "struct S(#[deluxe(appen)] i32);" /\ j = struct_src "struct S(#[deluxe(append)] i32);" /\
  (exists e, read_struct sy i = Err e /\ map e_msg (errs_of e) = ["unknown field `appen`, did you mean `append`?"]) /\
  (exists e, read_struct sy j = Err e /\ map e_msg (errs_of e) = ["`append` not allowed on tuple struct field"]).
Proof. exact ex_advice_barred. Qed.
Print Assumptions C93_barred_refuted.
