(** Concrete sources for C93. *)
From Verif Require Import SourceKit ExIdle.
From Verif Require Export LemAdvice ExDiag.
Local Existing Instance lexer_env.

Lemma ex_advice_barred : exists (env : Env) sy i j,
  i = struct_src "struct S(#[deluxe(appen)] i32);" /\ j = struct_src "struct S(#[deluxe(append)] i32);" /\
  (exists e, read_struct sy i = Err e /\ map e_msg (errs_of e) = ["unknown field `appen`, did you mean `append`?"]) /\
  (exists e, read_struct sy j = Err e /\ map e_msg (errs_of e) = ["`append` not allowed on tuple struct field"]).
Proof.
  eexists lexer_env, toy_syn, _, _. split; [reflexivity|]. split; [reflexivity|].
  split; eexists; (split; [vm_compute; reflexivity|vm_compute; reflexivity]).
Qed.
Lemma ex_advice_enum : exists (env : Env) sy k x i j d,
  In x options_of_enum /\ (800 < env_sim k x)%N /\
  k = "allow_unknown_field" /\ x = "allow_unknown_fields" /\
  i = enum_src "#[deluxe(allow_unknown_field)] enum E { A }" /\
  j = enum_src "#[deluxe(allow_unknown_fields)] enum E { A }" /\
  (exists e, read_enum sy i = Err e /\ map e_msg (errs_of e) = ["unknown field `allow_unknown_field`"]) /\
  read_enum sy j = Ok d /\ j_unknown_ok d = Some true.
Proof.
  eexists lexer_env, toy_syn, _, _, _, _, _.
  split; [|split; [|split; [reflexivity|split; [reflexivity|split; [reflexivity|split; [reflexivity|]]]]]].
  - cbn. tauto.
  - vm_compute. reflexivity.
  - split; [eexists; split; vm_compute; reflexivity|]. split; vm_compute; reflexivity.
Qed.

Definition adv_field : src_field := mkSrcField (Some ("a", SCall)) [da "skip, renam = b, colour"] [].
Lemma ex_advice_field : exists xs, has_entries (grammar_f xsy adv_field) (sf_attrs adv_field) xs /\
  map entry_key xs = ["skip"; "renam"; "colour"] /\
  map e_msg (problems_f xsy adv_field xs) = ["unknown field `renam`, did you mean `rename`?"; "unknown field `colour`"].
Proof.
  destruct (use_entries (grammar_f xsy adv_field) (sf_attrs adv_field)
    (fun xs => (map entry_key xs, map e_msg (problems_f xsy adv_field xs)))
    (["skip"; "renam"; "colour"], ["unknown field `renam`, did you mean `rename`?"; "unknown field `colour`"])) as (xs & H & E).
  - vm_compute. reflexivity.
  - injection E as E1 E2. exists xs. auto.
Qed.
