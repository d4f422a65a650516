(** Vocabulary for C96: what the token types of proc_macro read. *)
From Verif Require Export ProcMacro.

(** the text of a raw identifier *)
Definition raw (s : string) : Prop := exists x, s = ("r#" ++ x)%string.
(** the compiler reads the text of a literal as this literal *)
Definition reads_back (relex : lit -> lit + string) (l : lit) : Prop := relex l = inl l.

(** what becomes of a token: identifiers and literals stay what and where they are; the others
    are placed at the call site *)
Inductive becomes (relex : lit -> lit + string) : token -> token -> Prop :=
| B_ident s sp : ~ raw s -> becomes relex (TIdent s sp) (TIdent s sp)
| B_lit l sp : reads_back relex l -> becomes relex (TLit l sp) (TLit l sp)
| B_punct c j sp : becomes relex (TPunct c j sp) (TPunct c j SCall)
| B_group d ts sp : becomes relex (TGroup d ts sp) (TGroup d ts SCall).

(** the token types of proc_macro, with the tokens they are for *)
Inductive pm_type {env : Env} (relex : lit -> lit + string) : dict token -> (token -> Prop) -> Prop :=
| Pm_tree : pm_type relex (pm_tokentree_dict relex) (fun _ => True)
| Pm_literal : pm_type relex (pm_literal_dict relex) (fun t => exists l sp, t = TLit l sp)
| Pm_punct : pm_type relex (pm_punct_dict relex) (fun t => exists c j sp, t = TPunct c j sp /\ c <> "'"%char)
| Pm_group : pm_type relex (pm_group_dict relex) (fun t => exists d ts sp, t = TGroup d ts sp)
| Pm_ident : pm_type relex (pm_ident_dict relex) (fun t => exists s sp, t = TIdent s sp /\ ~ In s keywords).
