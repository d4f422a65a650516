(** Property theorems: the token types of proc_macro (C96).  Every proof is one [exact];
    vocabulary in SpecPm.v.

    [relex]: what the compiler makes of the text of a literal.  [pm_type relex d q]: [d] reads one
    of the types TokenTree, Literal, Punct, Group and Ident of proc_macro, [q] says which tokens
    it is for. *)
From Verif Require Import SourceKit ExEnum ExPm.

(** ** C96 The token types of proc_macro read the tokens that those of proc_macro2 read *)
(** One token of the kind is taken, and converted: identifiers and literals stay what and where
    they are, groups and punctuation are placed at the call site. *)
Theorem C96_reads_partial : forall (env : Env) relex, (forall l l', relex l = inl l' -> l' = l) ->
  forall d q, pm_type relex d q -> forall m s u s',
  d_item d m s = (Ok u, s') <->
  exists t, q t /\ toks s = t :: toks s' /\ scope s' = scope s /\ cell s' = cell s /\ becomes relex t u.
Proof. exact @l_pm_reads. Qed.
Print Assumptions C96_reads_partial.
(** raw identifiers, and nothing else, make them panic *)
Theorem C96_panics_partial : forall (env : Env) relex, (forall l l', relex l = inl l' -> l' = l) ->
  forall d q, pm_type relex d q -> forall m s b,
  fst (d_item d m s) = Bad b <->
  b = Panic /\ exists t i sp r, q t /\ toks s = t :: r /\ t = TIdent i sp /\ raw i.
Proof. exact @l_pm_panics. Qed.
Print Assumptions C96_panics_partial.

(** refuted: the span of a punctuation character is lost *)
Theorem C96_span_refuted : forall env : Env, forall relex, exists s t u,
  fst (d_item punct_dict Unnamed s) = Ok t /\ fst (d_item (pm_punct_dict relex) Unnamed s) = Ok u /\ tok_span u <> tok_span t.
Proof. exact ex_pm_span. Qed.
Print Assumptions C96_span_refuted.
(** refuted: a raw identifier, and one that is a keyword *)
Theorem C96_raw_refuted : forall env : Env, forall relex, exists s, fst (d_item ident_dict Unnamed s) = Ok ("r#type", SAt 3) /\
  fst (d_item (pm_ident_dict relex) Unnamed s) = Bad Panic.
Proof. exact ex_pm_raw. Qed.
Print Assumptions C96_raw_refuted.
Theorem C96_keyword_refuted : forall env : Env, forall relex, exists s, fst (d_item ident_dict Unnamed s) = Ok ("type", SAt 3) /\
  xmsgs (fst (d_item (pm_ident_dict relex) Unnamed s)) = ["expected identifier, found keyword `type`"].
Proof. exact ex_pm_keyword. Qed.
Print Assumptions C96_keyword_refuted.
(** refuted: a proc_macro::TokenStream takes the items after it too *)
Theorem C96_stream_refuted : exists env : Env,
  deluxe_parse2 (struct_dict (src_sdef pm_world sx0 "struct S { t: TokenStream, n: i32 }")) (tk "t = x, n = 1") = Ok [VX "x"; VI 1] /\
  xmsgs (deluxe_parse2 (struct_dict (src_sdef pm_world sx0 "struct S { t: proc_macro::TokenStream, n: i32 }")) (tk "t = x, n = 1")) =
  ["missing required field `n`"].
Proof. exact ex_pm_stream. Qed.
Print Assumptions C96_stream_refuted.
(** refuted: nor can it be given by its name alone *)
Theorem C96_flag_refuted : exists env : Env,
  deluxe_parse2 (struct_dict (src_sdef pm_world sx0 "struct S { t: TokenStream, n: i32 }")) (tk "t, n = 1") = Ok [VX ""; VI 1] /\
  xmsgs (deluxe_parse2 (struct_dict (src_sdef pm_world sx0 "struct S { t: proc_macro::TokenStream, n: i32 }")) (tk "t, n = 1")) =
  ["unexpected flag, expected `=` or parentheses"].
Proof. exact ex_pm_flag. Qed.
Print Assumptions C96_flag_refuted.

Example C96_ex : let env := lexer_env in
  (forall l l', reread l = inl l' -> l' = l) /\
  fst (d_item (pm_tokentree_dict reread) Unnamed (root_stream (tk "a + 1"))) = Ok (TIdent "a" (SAt 0)) /\
  fst (d_item (pm_literal_dict reread) Unnamed (root_stream (tk "1 + a"))) = Ok (TLit (LInt 1) (SAt 0)) /\
  xmsgs (fst (d_item (pm_group_dict reread) Unnamed (root_stream (tk "1 + a")))) = ["expected group token"].
Proof.
  refine (conj _ (conj _ (conj _ _))); [intros l l' H; now injection H|vm_compute; reflexivity..].
Qed.
