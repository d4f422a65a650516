(** Types whose values are one or two tokens: how they are written. *)
From Verif Require Export SpecStruct SpecSmall With.

Section P.
Context {env : Env}.
(** [p] reads one of the spellings in [w] from the front of the input, and leaves the rest *)
Definition reads {A} (p : parser A) (w : list token -> A -> Prop) : Prop :=
  forall s v s', p s = (Ok v, s') <->
    exists b, w b v /\ toks s = b ++ toks s' /\ scope s' = scope s /\ cell s' = cell s.
(** where an error about what comes next in [s] is placed: at the next token (the opening
    delimiter of a group), or at the end *)
Inductive placed_next (s : stream) : span -> Prop :=
| PN_end : toks s = [] -> placed_next s (scope s)
| PN_token t r : toks s = t :: r -> placed_next s (tok_span t)
| PN_open d ts sp r : toks s = TGroup d ts sp :: r -> placed_next s (SOpen sp).

(** the spellings: the tokens and the value *)
Inductive w_string : list token -> string -> Prop := W_string x sp : w_string [TLit (LStr x) sp] x.
Inductive w_char : list token -> N -> Prop := W_char c sp : w_char [TLit (LChar c) sp] c.
Inductive w_float : list token -> bool * string -> Prop :=
| W_float d sp : w_float [TLit (LFloat d) sp] (false, d)
| W_minus_float d j psp sp : w_float [TPunct "-" j psp; TLit (LFloat d) sp] (true, d).
Inductive w_bool : list token -> bool -> Prop :=
| W_true sp : w_bool [TIdent "true" sp] true
| W_false sp : w_bool [TIdent "false" sp] false.
Inductive w_int (k : intkind) : list token -> Z -> Prop :=
| W_int n sp : in_range k (Z.of_N n) -> w_int k [TLit (LInt n) sp] (Z.of_N n)
| W_minus_int n j psp sp : ik_signed k = true -> in_range k (- Z.of_N n) ->
    w_int k [TPunct "-" j psp; TLit (LInt n) sp] (- Z.of_N n).
Inductive w_byte : list token -> Z -> Prop :=
| W_byte b sp : w_byte [TLit (LByte b) sp] (Z.of_N b)
| W_small_int n sp : (Z.of_N n < 256)%Z -> w_byte [TLit (LInt n) sp] (Z.of_N n).
Inductive w_ident : list token -> string * span -> Prop := W_ident i sp : w_ident [TIdent i sp] (i, sp).
Inductive w_token : list token -> token -> Prop := W_token t : w_token [t] t.
Inductive w_literal : list token -> token -> Prop := W_literal l sp : w_literal [TLit l sp] (TLit l sp).
Inductive w_punct : list token -> token -> Prop :=
| W_punct c j sp : c <> "'"%char -> w_punct [TPunct c j sp] (TPunct c j sp).
Inductive w_group : list token -> token -> Prop :=
| W_group d ts sp : w_group [TGroup d ts sp] (TGroup d ts SCall).
Inductive w_from_str {A} (fs : string -> A + string) : list token -> A -> Prop :=
| W_from_str x sp v : fs x = inl v -> w_from_str fs [TLit (LStr x) sp] v.

(** The types, the spellings of a value, what the name alone means (nothing but for bool and
    from_str_default), and what a missing item means. *)
Definition no_value {A} (_ : A) : Prop := False.
Inductive simple_type : forall A, dict A -> (list token -> A -> Prop) -> (A -> Prop) -> (A -> Prop) -> Prop :=
| ST_string : simple_type _ string_dict w_string no_value no_value
| ST_char : simple_type _ char_dict w_char no_value no_value
| ST_float : simple_type _ float_dict w_float no_value no_value
| ST_bool : simple_type _ bool_dict w_bool (eq true) no_value
| ST_int k : (ik_signed k = false -> ik_lo k = 0%Z) -> simple_type _ (int_dict k) (w_int k) no_value no_value
| ST_u8 : simple_type _ u8_dict w_byte no_value no_value
| ST_ident : simple_type _ ident_dict w_ident no_value no_value
| ST_tokentree : simple_type _ tokentree_dict w_token no_value no_value
| ST_literal : simple_type _ literal_dict w_literal no_value no_value
| ST_punct : simple_type _ punct_dict w_punct no_value no_value
| ST_group : simple_type _ group_dict w_group no_value no_value
| ST_from_str A (fs : string -> A + string) : simple_type A (from_str_dict fs) (w_from_str fs) no_value no_value
| ST_from_str_default A (fs : string -> A + string) x :
    simple_type A (from_str_default_dict fs x) (w_from_str fs) (eq x) (eq x).

(** what can follow the name of an item *)
Inductive after_name {A} (w : list token -> A -> Prop) (bare : A -> Prop) (s : stream) (v : A) : list token -> Prop :=
| AN_equals b j esp r : w b v -> toks s = TPunct "=" j esp :: b ++ r -> after_name w bare s v r
| AN_parens b tl gsp r : w b v -> (tl = [] \/ exists t, comma_tok t /\ tl = [t]) ->
    toks s = TGroup Paren (b ++ tl) gsp :: r -> after_name w bare s v r
| AN_bare : bare v -> (forall j esp r, toks s <> TPunct "=" j esp :: r) ->
    (forall ts gsp r, toks s <> TGroup Paren ts gsp :: r) -> after_name w bare s v (toks s).
End P.
