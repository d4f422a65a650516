(** Concrete cases for C96. *)
From Verif Require Import SourceKit ExEnum.
From Verif Require Export LemPm.

(** every literal can be read again *)
Definition reread (l : lit) : lit + string := inl l.
Definition pm_world : world :=
  mkWorld [("TokenStream", rt (dict_map (fun ts => VX (env_shows ts)) (tokenstream_dict (env := lexer_env))) VU);
           ("proc_macro::TokenStream", rt (dict_map (fun ts => VX (env_shows ts)) (pm_tokenstream_dict (env := lexer_env))) VU);
           ("i32", rt i32 (VI 0))] [] [] [] [].

(** `t = x, n = 1` and `t, n = 1` *)
Lemma ex_pm_stream : exists env : Env,
  deluxe_parse2 (struct_dict (src_sdef pm_world sx0 "struct S { t: TokenStream, n: i32 }")) (tk "t = x, n = 1") = Ok [VX "x"; VI 1] /\
  xmsgs (deluxe_parse2 (struct_dict (src_sdef pm_world sx0 "struct S { t: proc_macro::TokenStream, n: i32 }")) (tk "t = x, n = 1")) =
  ["missing required field `n`"].
Proof. exists lexer_env. split; vm_compute; reflexivity. Qed.
Lemma ex_pm_flag : exists env : Env,
  deluxe_parse2 (struct_dict (src_sdef pm_world sx0 "struct S { t: TokenStream, n: i32 }")) (tk "t, n = 1") = Ok [VX ""; VI 1] /\
  xmsgs (deluxe_parse2 (struct_dict (src_sdef pm_world sx0 "struct S { t: proc_macro::TokenStream, n: i32 }")) (tk "t, n = 1")) =
  ["unexpected flag, expected `=` or parentheses"].
Proof. exists lexer_env. split; vm_compute; reflexivity. Qed.
Lemma ex_pm_span : forall env : Env, forall relex, exists s t u,
  fst (d_item punct_dict Unnamed s) = Ok t /\ fst (d_item (pm_punct_dict relex) Unnamed s) = Ok u /\ tok_span u <> tok_span t.
Proof.
  intros env relex. exists (root_stream [TPunct "+" false (SAt 3)]), (TPunct "+" false (SAt 3)), (TPunct "+" false SCall).
  split; [reflexivity|]. split; [reflexivity|discriminate].
Qed.
Lemma ex_pm_raw : forall env : Env, forall relex, exists s, fst (d_item ident_dict Unnamed s) = Ok ("r#type", SAt 3) /\
  fst (d_item (pm_ident_dict relex) Unnamed s) = Bad Panic.
Proof. intros env relex. exists (root_stream [TIdent "r#type" (SAt 3)]). split; reflexivity. Qed.
Lemma ex_pm_keyword : forall env : Env, forall relex, exists s, fst (d_item ident_dict Unnamed s) = Ok ("type", SAt 3) /\
  xmsgs (fst (d_item (pm_ident_dict relex) Unnamed s)) = ["expected identifier, found keyword `type`"].
Proof. intros env relex. exists (root_stream [TIdent "type" (SAt 3)]). split; reflexivity. Qed.
