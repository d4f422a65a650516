(** Vocabulary for the result of the item of a tuple struct or of an enum variant on any input
    (PropsVItem.v). *)
From Verif Require Export SpecRow SpecEFlat SpecVariant SpecTight SpecBare.
Local Open Scope string_scope.
Local Open Scope list_scope.

Section S.
Context {env : Env} {V : Type}.
Definition unexpected (t : token) : synerr :=
  mkSyn (mkErr (tok_span t) ("unexpected token `" ++ env_show t ++ "`")) [].
(** *** Tuple structs *)
(** the errors of a tuple struct, see C13 *)
Definition row_errors (s : sdef V) (tm : tmode V) (m : mode) (index : nat) (ys : list (parser V * elem))
  (stop : list err) (sp : span) : list err :=
  let os := row_given (s_raw s) ys in
  let q := reported_at m sp in
  failures_of ys ++ stop ++ row_lacking s tm index q os ++ row_refused s tm index q os.
(** there is an item for every field, and tokens are left behind the last one *)
Inductive after_last (s : sdef V) (ys : list (parser V * elem)) : token -> Prop :=
| AL ys' p x v t : ys = ys' ++ [(p, x)] -> length ys = length (row_types (s_raw s)) ->
    fst (p (at_elem x)) = Ok v -> left_over (toks (snd (p (at_elem x)))) t -> after_last s ys t.
(** the result of all that is between the parentheses: what C13 says, except that nothing may be
    left behind the items *)
Inductive row_content (s : sdef V) (tm : tmode V) (m : mode) (index : nat) (st : stream) : res (list V) -> Prop :=
| RC_errors ys stop sp x xs : struct_read s [st] ys stop sp -> row_errors s tm m index ys stop sp = x :: xs ->
    row_content s tm m index st (Err (mkSyn x xs))
| RC_refused ys stop sp vs e : struct_read s [st] ys stop sp -> row_errors s tm m index ys stop sp = [] ->
    row_values s tm index (reported_at m sp) (row_given (s_raw s) ys) vs -> chain_fails (s_and_thens s) vs e ->
    row_content s tm m index st (Err e)
| RC_left ys stop sp vs ws t : struct_read s [st] ys stop sp -> row_errors s tm m index ys stop sp = [] ->
    row_values s tm index (reported_at m sp) (row_given (s_raw s) ys) vs -> chained (s_and_thens s) vs ws ->
    after_last s ys t -> row_content s tm m index st (Err (unexpected t))
| RC_values ys stop sp vs ws : struct_read s [st] ys stop sp -> row_errors s tm m index ys stop sp = [] ->
    row_values s tm index (reported_at m sp) (row_given (s_raw s) ys) vs -> chained (s_and_thens s) vs ws ->
    (forall t, ~ after_last s ys t) -> row_content s tm m index st (Ok ws)
| RC_surplus t : too_much s [st] t -> row_content s tm m index st (Err (unexpected t)).

(** *** Variants *)
(** the result of all that is between the delimiters *)
Inductive variant_content (v : vdef V) (tm : tmode V) (prefix : string) (sp : span) (m : mode) (st : stream) : res (list V) -> Prop :=
| VC_unit : v_shape v = ShUnit -> blank (toks st) -> variant_content v tm prefix sp m st (Ok [])
| VC_unit_left t : v_shape v = ShUnit -> left_over (toks st) t -> variant_content v tm prefix sp m st (Err (unexpected t))
| VC_named r : v_shape v = ShNamed -> fields_result v tm prefix true sp [st] r -> variant_content v tm prefix sp m st r
| VC_tuple r : v_shape v = ShUnnamed -> row_content (as_struct v) tm m 0 st r -> variant_content v tm prefix sp m st r.
(** the first error is moved to the name *)
Definition at_name (sp : span) (r : res (list V)) : res (list V) :=
  match r with Err e => Err (mkSyn (mkErr sp (e_msg (se_hd e))) (se_tl e)) | _ => r end.
(** what follows the name at [ksp]: `= {..}` or `= (..)`; `(..)`; anything else, then the variant is
    read from nothing *)
Definition variant_delim (v : vdef V) : delim := match v_shape v with ShNamed => Brace | _ => Paren end.
Inductive variant_item (v : vdef V) (tm : tmode V) (prefix : string) (ksp : span) (s : stream) : res (list V) -> Prop :=
| VI_equals j esp ts gsp rest r : toks s = TPunct "=" j esp :: TGroup (variant_delim v) ts gsp :: rest ->
    variant_content v tm prefix ksp (Named ksp) (mkStream ts (SClose gsp) (cell s)) r -> variant_item v tm prefix ksp s r
| VI_no_group j esp rest : toks s = TPunct "=" j esp :: rest ->
    (forall ts gsp rest', rest <> TGroup (variant_delim v) ts gsp :: rest') ->
    variant_item v tm prefix ksp s (Err (mkSyn (not_a_group (variant_delim v) (mkStream rest (scope s) (cell s))) []))
| VI_parens ts gsp rest r : toks s = TGroup Paren ts gsp :: rest ->
    variant_content v tm prefix ksp (Named ksp) (mkStream ts (SClose gsp) (cell s)) r -> variant_item v tm prefix ksp s r
| VI_name r : name_only (toks s) -> v_shape v = ShNamed ->
    variant_content v tm prefix ksp (Named ksp) (mkStream [] SCall None) r -> variant_item v tm prefix ksp s (at_name ksp r)
| VI_name_unit : name_only (toks s) -> v_shape v = ShUnit -> variant_item v tm prefix ksp s (Ok [])
| VI_name_tuple r : name_only (toks s) -> v_shape v = ShUnnamed -> all_default v ->
    variant_content v tm prefix ksp Unnamed (mkStream [] SCall None) r -> variant_item v tm prefix ksp s (at_name ksp r)
| VI_name_refused : name_only (toks s) -> v_shape v = ShUnnamed -> ~ all_default v ->
    variant_item v tm prefix ksp s (Err (no_value ksp)).
(** what the reading of the fields of a variant is known for *)
Definition known_variant (tm : tmode V) (v : vdef V) : Prop :=
  plain_variant tm v /\
  match v_shape v with
  | ShNamed => Forall local_field (v_raw v) /\ Forall keeps_field (v_raw v)
  | ShUnnamed => fine_items (as_struct v)
  | ShUnit => True
  end.
End S.
