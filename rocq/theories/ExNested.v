(** Examples for PropsNested.v. *)
From Verif Require Import LemNested.
From Verif Require Export Lexer.

Lemma x_nested : let at_ t := root_stream (tk t) in
  value_written (env := lexer_env) (@spells_t lexer_env) fine_t made_transparent SCall (at_ "(rest, append = false), x")
    (mkTransparent SCall true None None (Some false) (Some true)) (set_toks (at_ "") (skipn 1 (tk "(rest, append = false), x"))) /\
  value_written (env := lexer_env) (@spells_prefix lexer_env) SpecOpts.once made_flatten SCall (at_ "= {}")
    (mkFlatten SCall true None) (at_ "") /\
  (forall x s', ~ value_written (env := lexer_env) (@spells_t lexer_env) fine_t made_transparent SCall (at_ "(rest, rest)") x s') /\
  (forall x s', ~ value_written (env := lexer_env) (@spells_prefix lexer_env) SpecOpts.once made_flatten SCall (at_ "(prefix = a, b)") x s').
Proof.
  cbv zeta. split; [|split; [|split]].
  - apply (l_transparent (env := lexer_env) "transparent"). vm_compute. reflexivity.
  - apply (l_flatten (env := lexer_env) "flatten"). vm_compute. reflexivity.
  - intros x s' H. apply (l_transparent (env := lexer_env) "transparent") in H. vm_compute in H. discriminate H.
  - intros x s' H. apply (l_flatten (env := lexer_env) "flatten") in H. vm_compute in H. discriminate H.
Qed.
