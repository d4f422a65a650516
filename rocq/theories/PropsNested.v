(** C75: options whose values hold options, and `default`. *)
From Verif Require Import LemNested ExNested.

(** ** C75 What the values of `flatten`, `container`, `transparent` and `default` mean *)

(** each is read exactly from the four spellings; inside, every option of the value at most
    once and no other *)
Theorem C75_flatten : forall (env : Env) nm sp s x s', d_named flatten_dict nm sp s = (Ok x, s') <->
  value_written spells_prefix SpecOpts.once made_flatten sp s x s'.
Proof. exact @l_flatten. Qed.
Print Assumptions C75_flatten.
Theorem C75_container : forall (env : Env) sy, good_syn_lib sy -> forall nm sp s x s',
  d_named (container_dict sy) nm sp s = (Ok x, s') <->
  value_written (spells_c sy) fine_c made_container sp s x s'.
Proof. exact @l_container. Qed.
Print Assumptions C75_container.
Theorem C75_transparent : forall (env : Env) nm sp s x s', d_named transparent_dict nm sp s = (Ok x, s') <->
  value_written spells_t fine_t made_transparent sp s x s'.
Proof. exact @l_transparent. Qed.
Print Assumptions C75_transparent.
Theorem C75_default : forall (env : Env) nm sp s x s', d_named default_dict nm sp s = (Ok x, s') <->
  default_written sp s x s'.
Proof. exact @l_default. Qed.
Print Assumptions C75_default.

Example C75_ex : let at_ t := root_stream (tk t) in
  value_written (env := lexer_env) (@spells_t lexer_env) fine_t made_transparent SCall (at_ "(rest, append = false), x")
    (mkTransparent SCall true None None (Some false) (Some true)) (set_toks (at_ "") (skipn 1 (tk "(rest, append = false), x"))) /\
  value_written (env := lexer_env) (@spells_prefix lexer_env) SpecOpts.once made_flatten SCall (at_ "= {}")
    (mkFlatten SCall true None) (at_ "") /\
  (forall x s', ~ value_written (env := lexer_env) (@spells_t lexer_env) fine_t made_transparent SCall (at_ "(rest, rest)") x s') /\
  (forall x s', ~ value_written (env := lexer_env) (@spells_prefix lexer_env) SpecOpts.once made_flatten SCall (at_ "(prefix = a, b)") x s').
Proof. exact x_nested. Qed.
