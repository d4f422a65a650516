(** Vocabulary: bool items, quoted values, SpannedValue. *)
From Verif Require Export SpecImpl SpecColl.

Definition bool_word (b : bool) : string := if b then "true" else "false".
(** `= true`, `(true)`, nothing, after the name; in parentheses a trailing comma may follow *)
Inductive bool_body : list token -> bool -> Prop :=
| BB_flag : bool_body [] true
| BB_equals b j esp sp : bool_body [TPunct eq_c j esp; TIdent (bool_word b) sp] b
| BB_paren b sp tl gsp : (tl = [] \/ exists t, comma_tok t /\ tl = [t]) ->
    bool_body [TGroup Paren (TIdent (bool_word b) sp :: tl) gsp] b.

Section Q.
Context {env : Env}.
(** parsing [text] as a whole: the tokens of the text are what [p] is run on *)
Inductive text_parse {A} (p : parser A) (text : string) : res A -> Prop :=
| TP_tokens ts : env_lex text = inl ts -> text_parse p text (parse2 p ts)
| TP_no_tokens msg : env_lex text = inr msg -> text_parse p text (Err (mkSyn (mkErr SCall msg) [])).
(** the same result, errors with the same messages but all at [sp] *)
Definition placed_at {A} (sp : span) (r r' : res A) : Prop :=
  match r, r' with
  | Ok v, Ok v' => v' = v
  | Err e, Err e' => map e_msg (errs_of e') = map e_msg (errs_of e) /\
                     Forall (fun x => e_span x = sp) (errs_of e')
  | Bad b, Bad b' => b' = b
  | _, _ => False
  end.
Definition starts_str (ts : list token) : Prop := exists x sp r, ts = TLit (LStr x) sp :: r.

(** the value without its span *)
Definition unspan {A} (r : res (A * span)) : res A := rmap fst r.
(** [q] is [p] with a span *)
Definition spans {S A} (q : pm S (A * span)) (p : pm S A) : Prop :=
  forall s, unspan (fst (q s)) = fst (p s) /\ snd (q s) = snd (p s).
End Q.
