(** Vocabulary for what is reported for a value that a type of one or two tokens does not accept
    (PropsRefuse.v). *)
From Verif Require Export SpecPrim SpecTight SpecBare.
Local Open Scope string_scope.
Local Open Scope list_scope.

Section R.
Context {env : Env}.

(** the next token, the opening delimiter of a group, or the end *)
Definition next_place (s : stream) : span :=
  match toks s with
  | [] => scope s
  | TGroup _ _ sp :: _ => SOpen sp
  | TIdent _ sp :: _ | TPunct _ _ sp :: _ | TLit _ sp :: _ => sp
  end.
(** the next token, groups as a whole, or the end *)
Definition whole_place (s : stream) : span :=
  match toks s with
  | [] => scope s
  | TIdent _ sp :: _ | TPunct _ _ sp :: _ | TLit _ sp :: _ | TGroup _ _ sp :: _ => sp
  end.
(** that something was expected *)
Definition asks_for (s : stream) (what : string) : string :=
  match toks s with
  | [] => ("unexpected end of input, expected " ++ what)%string
  | _ => ("expected " ++ what)%string
  end.
(** the input starts with one of these *)
Definition starts (kind : list token -> Prop) (s : stream) : Prop :=
  exists b r, kind b /\ toks s = b ++ r.

Definition is_string (b : list token) : Prop := exists x sp, b = [TLit (LStr x) sp].
Definition is_char (b : list token) : Prop := exists x sp, b = [TLit (LChar x) sp].
Definition is_float (b : list token) : Prop :=
  exists d sp, b = [TLit (LFloat d) sp] \/ exists j psp, b = [TPunct "-" j psp; TLit (LFloat d) sp].
Definition is_bool (b : list token) : Prop := exists sp, b = [TIdent "true" sp] \/ b = [TIdent "false" sp].
Definition is_int (b : list token) : Prop :=
  exists n sp, b = [TLit (LInt n) sp] \/ exists j psp, b = [TPunct "-" j psp; TLit (LInt n) sp].
Definition is_byte_or_int (b : list token) : Prop := (exists x sp, b = [TLit (LByte x) sp]) \/ is_int b.
Definition is_ident (b : list token) : Prop := exists i sp, b = [TIdent i sp].
Definition is_literal (b : list token) : Prop := exists l sp, b = [TLit l sp].
Definition is_punct (b : list token) : Prop := exists c j sp, b = [TPunct c j sp] /\ c <> "'"%char.
Definition is_group (b : list token) : Prop := exists d ts sp, b = [TGroup d ts sp].

(** the types that are read with syn's parsers, what they ask for, and its form *)
Inductive by_syn : forall A, dict A -> string -> (list token -> Prop) -> Prop :=
| By_string : by_syn _ string_dict "string literal" is_string
| By_char : by_syn _ char_dict "character literal" is_char
| By_float : by_syn _ float_dict "floating point literal" is_float
| By_bool : by_syn _ bool_dict "boolean literal" is_bool
| By_int k : by_syn _ (int_dict k) "integer literal" is_int
| By_u8 : by_syn _ u8_dict "byte literal or integer literal" is_byte_or_int
| By_smallstring : by_syn _ smallstring_dict "string literal" is_string
| By_unit : by_syn _ unit_dict "parentheses" (fun b => exists ts sp, b = [TGroup Paren ts sp])
| By_ident : by_syn _ ident_dict "ident" is_ident
| By_from_str A (fs : string -> A + string) : by_syn _ (from_str_dict fs) "string literal" is_string
| By_from_str_default A (fs : string -> A + string) x :
    by_syn _ (from_str_default_dict fs x) "string literal" is_string.
(** the types that look at the token themselves *)
Inductive by_token : dict token -> string -> (list token -> Prop) -> Prop :=
| Bt_tree : by_token tokentree_dict "unexpected end of tokens" (fun b => exists t, b = [t])
| Bt_literal : by_token literal_dict "expected literal" is_literal
| Bt_punct : by_token punct_dict "expected punctuation" is_punct
| Bt_group : by_token group_dict "expected parenthesis or brace or bracket" is_group.
(** the integer types, u8 included *)
Inductive int_type : dict Z -> intkind -> Prop :=
| It_int k : int_type (int_dict k) k
| It_u8 : int_type u8_dict (ubits 8).
(** what is wrong with the integer written with or without a sign *)
Inductive bad_int (k : intkind) : bool -> N -> string -> Prop :=
| Bi_sign n : ik_signed k = false -> bad_int k true n "invalid digit found in string"
| Bi_small (neg : bool) n : (neg = true -> ik_signed k = true) ->
    ((if neg then - Z.of_N n else Z.of_N n) < ik_lo k)%Z ->
    bad_int k neg n "number too small to fit in target type"
| Bi_large (neg : bool) n : (neg = true -> ik_signed k = true) ->
    (ik_lo k <= (if neg then - Z.of_N n else Z.of_N n))%Z ->
    (ik_hi k < (if neg then - Z.of_N n else Z.of_N n))%Z ->
    bad_int k neg n "number too large to fit in target type"
| Bi_zero (neg : bool) : (neg = true -> ik_signed k = true) -> (ik_lo k <= 0 <= ik_hi k)%Z ->
    ik_nonzero k = true -> bad_int k neg 0 "number would be zero for non-zero type".
(** from_str and from_str_default *)
Inductive from_str_type {A} (fs : string -> A + string) : dict A -> Prop :=
| Ft_plain : from_str_type fs (from_str_dict fs)
| Ft_default x : from_str_type fs (from_str_default_dict fs x).

(** [refused A d s sp msg]: for type [d], what [s] starts with is reported at [sp] as [msg] *)
Inductive refused : forall A, dict A -> stream -> span -> string -> Prop :=
| Rf_syn A (d : dict A) what kind s : by_syn _ d what kind -> ~ starts kind s ->
    refused _ d s (next_place s) (asks_for s what)
| Rf_token (d : dict token) text kind s : by_token d text kind -> ~ starts kind s ->
    refused _ d s (whole_place s) text
| Rf_int d k s n sp r msg : int_type d k -> toks s = TLit (LInt n) sp :: r -> bad_int k false n msg ->
    refused _ d s sp msg
| Rf_minus d k s n j sp lsp r msg : int_type d k -> toks s = TPunct "-" j sp :: TLit (LInt n) lsp :: r ->
    bad_int k true n msg -> refused _ d s sp msg
| Rf_from_str A (fs : string -> A + string) d s x sp r msg : from_str_type fs d ->
    toks s = TLit (LStr x) sp :: r -> fs x = inr msg -> refused _ d s sp msg
| Rf_comma s j sp r : toks s = TPunct "," j sp :: r ->
    refused _ tokenstream_dict s sp "unexpected comma".

(** *** What is in delimiters *)
(** a token is left, a comma before it being skipped *)
Definition left_over (ts : list token) (t : token) : Prop :=
  exists r, (ts = t :: r /\ ~ comma_tok t) \/ exists k, comma_tok k /\ ts = k :: t :: r.
(** reading with [p] all that is between two delimiters *)
Inductive content_result {A} (p : parser A) (s : stream) : res A -> Prop :=
| CR_value v c : p s = (Ok v, c) -> (toks c = [] \/ exists k, comma_tok k /\ toks c = [k]) ->
    content_result p s (Ok v)
| CR_left v c t : p s = (Ok v, c) -> left_over (toks c) t ->
    content_result p s (Err (mkSyn (mkErr (tok_span t) ("unexpected token `" ++ env_show t ++ "`")%string) []))
| CR_error e c : p s = (Err e, c) -> content_result p s (Err e)
| CR_bad b c : p s = (Bad b, c) -> content_result p s (Bad b).
(** the types written as a group whose content is looked at (that of `()` is not, see C81) *)
Inductive has_content : delim -> forall A, dict A -> Prop :=
| HC_tuple A (ds : list (dict A)) : has_content Paren _ (tuple_dict ds)
| HC_array A N (d : dict A) : has_content Bracket _ (array_dict N d)
| HC_vec A (d : dict A) : has_content Bracket _ (vec_dict d)
| HC_punctuated A pc (d : dict A) : has_content Bracket _ (punctuated_dict pc d)
| HC_set A eqb (d : dict A) : has_content Bracket _ (set_dict eqb d)
| HC_map K W eqb kstr (dk : dict K) (dv : dict W) : has_content Brace _ (map_dict eqb kstr dk dv)
| HC_named V (s : sdef V) : s_is_transparent s = false -> s_shape s = ShNamed -> has_content Brace _ (struct_dict s)
| HC_unnamed V (s : sdef V) : s_is_transparent s = false -> s_shape s <> ShNamed -> has_content Paren _ (struct_dict s).
(** an element that is an Option *)
Inductive option_result {A} (d : dict A) (s : stream) : res (option A) -> Prop :=
| OR_none sp r : toks s = TIdent "None" sp :: r -> option_result d s (Ok None)
| OR_some sp ts gsp r x : toks s = TIdent "Some" sp :: TGroup Paren ts gsp :: r ->
    content_result (on_single (d_inline d Unnamed)) (mkStream ts (SClose gsp) (cell s)) x ->
    option_result d s (rmap Some x)
| OR_alone sp r : toks s = TIdent "Some" sp :: r ->
    (forall ts gsp r', r <> TGroup Paren ts gsp :: r') ->
    option_result d s (Err (mkSyn (not_a_group Paren (mkStream r (scope s) (cell s))) []))
| OR_neither : (forall sp r, toks s <> TIdent "None" sp :: r) -> (forall sp r, toks s <> TIdent "Some" sp :: r) ->
    option_result d s (Err (mkSyn (mkErr (next_place s) (asks_for s "`Some` or `None`")) [])).
End R.
