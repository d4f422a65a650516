(** Inputs for the properties of the `with` modules, wrappers and token streams. *)
From Verif Require Export ExColl LemMod.

(** Box<Vec<i32>> *)
Lemma ex_wrapper_paren : exists (env : Env) A (d : dict A) n sp s v e,
  fine d /\ fst (d_named d n sp s) = Ok v /\ fst (d_named (wrapper_dict d) n sp s) = Err e.
Proof.
  exists lexer_env, (list val), (vec_dict i32), "n", SCall, (root_stream (tk "(1, 2)")).
  eexists _, _. refine (conj (fine_vec i32 (fi_good i32 fine_i32) (fi_unaware i32 fine_i32)) (conj _ _)); vm_compute; reflexivity.
Qed.
(** Box<Option<i32>> *)
Lemma ex_wrapper_missing : exists (env : Env) A (d : dict A) n sp v e,
  fine d /\ d_missing d n sp = Ok v /\ d_missing (wrapper_dict d) n sp = Err e.
Proof.
  exists lexer_env, (option val), (option_dict i32), "n", SCall. eexists _, _.
  refine (conj (fine_option i32 fine_i32) (conj _ _)); reflexivity.
Qed.
Lemma ex_tokens_flat : exists (env : Env) m i inputs e,
  hold inputs (items (tk "a, b")) /\ (forall seg, In seg (items (tk "a, b")) -> accepts (d_item tokenstream_dict Unnamed) seg seg) /\
  fst (fu_parse tokenstream_flat m i inputs) = Err e.
Proof.
  exists lexer_env, Unnamed, 0, [root_stream (tk "a, b")]. eexists. split; [exact (hold_tk _)|split; [|vm_compute; reflexivity]].
  intros seg I tl sc c E. assert (X : d_item tokenstream_dict Unnamed (mkStream (seg ++ tl) sc c) = (Ok seg, mkStream tl sc c)).
  { apply l_tokens_item. cbn [toks scope cell]. split; [vm_compute in I; destruct I as [<-|[<-|[]]]; discriminate|].
    split; [|auto]. vm_compute in I; destruct I as [<-|[<-|[]]]; repeat constructor; intros [j [sp H]]; discriminate H. }
  rewrite X. auto.
Qed.
Lemma ex_small_quotes : exists (env : Env) m s v x sp,
  toks s = [TLit (LStr x) sp] /\ fst (d_item smallstring_dict m s) = Ok v /\ fst (d_item string_dict m s) = Ok x /\ v <> x.
Proof. exists lexer_env, Unnamed, (root_stream [TLit (LStr "a") SCall]), """a""", "a", SCall. repeat split; discriminate. Qed.
Lemma ex_small_longer : forall x sp, String.length x < String.length (@env_show lexer_env (TLit (LStr x) sp)).
Proof. intros x sp. cbn. induction x as [|a x IH]; cbn in *; lia. Qed.
(** without a value, Option<i32> is an error, the optional module gives None *)
Lemma ex_optional_bare : exists (env : Env) A (d : dict A) n sp s e,
  fine d /\ toks s = [] /\ fst (d_named (with_optional_dict d) n sp s) = Ok None /\ fst (d_named (option_dict d) n sp s) = Err e.
Proof.
  exists lexer_env, val, i32, "n", SCall, (root_stream []). eexists. refine (conj fine_i32 (conj eq_refl (conj _ _))); vm_compute; reflexivity.
Qed.
(** a type read in parentheses: `n(x)` is an error *)
Lemma ex_single_parens : exists (env : Env) A (p : parser A) n sp ts gsp v e,
  well_behaved p /\ parse2 p ts = Ok v /\ fst (d_named (syn_dict p) n sp (root_stream [TGroup Paren ts gsp])) = Ok v /\
  fst (d_named (paren_syn_dict p) n sp (root_stream [TGroup Paren ts gsp])) = Err e.
Proof.
  exists lexer_env, _, parse_any_ident, "n", SCall, [TIdent "x" SCall], SCall. eexists _, _.
  split; [|split; [reflexivity|split; reflexivity]]. apply LemWf.wb_ident.
Qed.
