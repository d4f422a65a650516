(** What is reported for a value that is not accepted: more about C77, C80, C19 and C37.
    Vocabulary in SpecRefuse.v. *)
From Verif Require Import LemRefuse ExColl.
Local Open Scope string_scope.
Local Open Scope list_scope.

(** ** C77: the error of a type of one or two tokens *)
(** [refused A d s sp msg]: the table of all refusals.  What is not accepted is reported once, as
    in the table, and nothing else is reported. *)
Theorem C77_refused : forall (env : Env) A d w bare gone, simple_type A d w bare gone -> forall m s e,
  (exists s', d_item d m s = (Err e, s')) <->
  exists sp msg, e = mkSyn (mkErr sp msg) [] /\ refused A d s sp msg.
Proof. exact @l_refused_iff. Qed.
Print Assumptions C77_refused.

(** The table also has SmallString, `()` and TokenStream. *)
Theorem C77_reported : forall (env : Env) A (d : dict A) s sp msg, refused A d s sp msg -> forall m,
  exists s', d_item d m s = (Err (mkSyn (mkErr sp msg) []), s').
Proof. exact @l_refused_sound. Qed.
Print Assumptions C77_reported.

Example C77_refused_ex :
  let run A (d : dict A) s := fst (d_item d Unnamed (root_stream (tk s))) in
  run _ (int_dict (nonzero (ubits 8))) "0" = Err (mkSyn (mkErr (SAt 0) "number would be zero for non-zero type") []) /\
  run _ (int_dict (ubits 8)) "-1" = Err (mkSyn (mkErr (SAt 0) "invalid digit found in string") []) /\
  run _ (int_dict (sbits 8)) "-129" = Err (mkSyn (mkErr (SAt 0) "number too small to fit in target type") []) /\
  run _ u8_dict "256, x" = Err (mkSyn (mkErr (SAt 0) "number too large to fit in target type") []) /\
  run _ u8_dict "[1]" = Err (mkSyn (mkErr (SOpen (SAt 0)) "expected byte literal or integer literal") []) /\
  run _ literal_dict "[1]" = Err (mkSyn (mkErr (SAt 0) "expected literal") []) /\
  run _ bool_dict "" = Err (mkSyn (mkErr SCall "unexpected end of input, expected boolean literal") []).
Proof. repeat split; vm_compute; reflexivity. Qed.

(** ** C80: the errors of a TokenStream: a comma, or nothing at all *)
Theorem C80_refused : forall (env : Env) m s e, (exists s', d_item tokenstream_dict m s = (Err e, s')) <->
  (exists j sp r, toks s = TPunct "," j sp :: r /\ e = mkSyn (mkErr sp "unexpected comma") []) \/
  (toks s = [] /\ e = mkSyn (mkErr (match m with Named sp => sp | Unnamed => scope s end) "expected token") []).
Proof. exact @l_tokens_refused. Qed.
Print Assumptions C80_refused.

Example C80_refused_ex : fst (d_item tokenstream_dict (Named (SAt 7)) (root_stream [])) = Err (mkSyn (mkErr (SAt 7) "expected token") []).
Proof. reflexivity. Qed.

(** ** C19: an Option that is an element: the exact result *)
Theorem C19_unnamed_result : forall (env : Env) A (d : dict A) s,
  option_result d s (fst (d_item (option_dict d) Unnamed s)).
Proof. exact @l_option_result. Qed.
Print Assumptions C19_unnamed_result.

Example C19_unnamed_result_ex :
  let run s := fst (d_item (option_dict (int_dict k_i32)) Unnamed (root_stream (tk s))) in
  run "1" = Err (mkSyn (mkErr (SAt 0) "expected `Some` or `None`") []) /\
  run "Some 1" = Err (mkSyn (mkErr (SAt 5) "expected parentheses") []) /\
  run "Some(x)" = Err (mkSyn (mkErr (SAt 5) "expected integer literal") []).
Proof. repeat split; vm_compute; reflexivity. Qed.

(** ** C37: the exact result of what is in delimiters *)
(** a value in delimiters: what its content gives, unless tokens are left *)
Theorem C37_content : forall (env : Env) dl A (d : dict A) m s ts gsp rest,
  has_content dl A d -> toks s = TGroup dl ts gsp :: rest ->
  content_result (on_single (d_inline d m)) (mkStream ts (SClose gsp) (cell s)) (fst (d_item d m s)) /\
  toks (snd (d_item d m s)) = rest.
Proof. exact @l_content. Qed.
Print Assumptions C37_content.

(** an enum: the variant that is missing is reported at the name, or at the brace *)
Theorem C37_content_enum : forall (env : Env) V (e : edef V) m s ts gsp rest, toks s = TGroup Brace ts gsp :: rest ->
  content_result (on_single (d_inline (enum_dict e) (Named (match m with Named sp => sp | Unnamed => SOpen gsp end))))
                 (mkStream ts (SClose gsp) (cell s)) (fst (d_item (enum_dict e) m s)) /\
  toks (snd (d_item (enum_dict e) m s)) = rest.
Proof. exact @l_content_enum. Qed.
Print Assumptions C37_content_enum.

(** parentheses after a name *)
Theorem C37_parens : forall (env : Env) A item inline (flag : span -> res A) sp s ts gsp rest,
  toks s = TGroup Paren ts gsp :: rest ->
  content_result (on_single (inline (Named sp))) (mkStream ts (SClose gsp) (cell s))
                 (fst (parse_named_with item inline flag sp s)) /\
  toks (snd (parse_named_with item inline flag sp s)) = rest.
Proof. exact @l_parens. Qed.
Print Assumptions C37_parens.

Example C37_content_ex :
  has_content Bracket _ (array_dict 1 (int_dict k_i32)) /\
  fst (d_item (array_dict 1 (int_dict k_i32)) Unnamed (root_stream (tk "[1, 2]"))) =
    Err (mkSyn (mkErr (SAt 4) "unexpected token `2`") []) /\
  fst (d_named (int_dict k_i32) "n" SCall (root_stream (tk "(1 2)"))) =
    Err (mkSyn (mkErr (SAt 3) "unexpected token `2`") []).
Proof. split; [constructor|]. split; vm_compute; reflexivity. Qed.
