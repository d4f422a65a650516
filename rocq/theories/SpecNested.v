(** Options whose values hold options themselves: `flatten(prefix = a::b)`,
    `container(lifetime = 'x, ty = T)`, `transparent(rest, append = false)`; and `default`. *)
From Verif Require Export SpecOpts.

Section N.
Context {env : Env} {O A : Type}.
Variable spells : string -> span -> stream -> O -> stream -> Prop.
Variable fine : list O -> Prop.
(** the value given on or off, where, and with which options *)
Variable made : bool -> span -> list O -> A.
Definition bool_word (b : bool) : string := if b then "true" else "false".
(** after the name of an option at [sp]: nothing, `= true`, `= {..}` or `(..)` *)
Inductive value_written (sp : span) (s : stream) : A -> stream -> Prop :=
| VW_alone : (forall j esp r, toks s <> TPunct "=" j esp :: r) -> (forall ts gsp r, toks s <> TGroup Paren ts gsp :: r) ->
    value_written sp s (made true sp []) s
| VW_bool j esp b bsp r : toks s = TPunct "=" j esp :: TIdent (bool_word b) bsp :: r ->
    value_written sp s (made b bsp []) (mkStream r (scope s) (cell s))
| VW_braces j esp ts gsp r os c : toks s = TPunct "=" j esp :: TGroup Brace ts gsp :: r ->
    opts_in spells (mkStream ts (SClose gsp) (cell s)) os c -> fine os ->
    value_written sp s (made true sp os) (mkStream r (scope s) (cell c))
| VW_parens ts gsp r os c : toks s = TGroup Paren ts gsp :: r ->
    opts_in spells (mkStream ts (SClose gsp) (cell s)) os c -> fine os ->
    value_written sp s (made true sp os) (mkStream r (scope s) (cell c)).
End N.

Section V.
Context {env : Env}.
Variable sy : synlib.
(** `flatten`: a prefix, at most once *)
Inductive spells_prefix (k : string) (sp : span) (s : stream) : path -> stream -> Prop :=
| SP_prefix x s' : k = "prefix" -> d_named any_path_dict k sp s = (Ok x, s') -> spells_prefix k sp s x s'.
Definition made_flatten (b : bool) (sp : span) (l : list path) : fflatten := mkFlatten sp b (first_of l).

(** `container`: a lifetime and a type, each at most once *)
Inductive copt : Type := CLifetime (l : string) | CTy (t : list token).
Inductive spells_c (k : string) (sp : span) (s : stream) : copt -> stream -> Prop :=
| SC_lifetime x s' : k = "lifetime" -> d_named (syn_dict (sy_lifetime sy)) k sp s = (Ok x, s') -> spells_c k sp s (CLifetime x) s'
| SC_ty x s' : k = "ty" -> d_named (syn_dict (sy_type sy)) k sp s = (Ok x, s') -> spells_c k sp s (CTy x) s'.
Definition lifetimes (l : list copt) := flat_map (fun o => match o with CLifetime x => [x] | _ => [] end) l.
Definition ctypes (l : list copt) := flat_map (fun o => match o with CTy x => [x] | _ => [] end) l.
Definition fine_c (l : list copt) : Prop := once (lifetimes l) /\ once (ctypes l).
Definition made_container (b : bool) (sp : span) (l : list copt) : fcontainer :=
  mkContainer sp b (first_of (lifetimes l)) (first_of (ctypes l)).

(** `transparent`: which of the traits to implement, each at most once *)
Inductive twhich : Type := WFlattenNamed | WFlattenUnnamed | WAppend | WRest.
Definition which_name (w : twhich) : string :=
  match w with WFlattenNamed => "flatten_named" | WFlattenUnnamed => "flatten_unnamed" | WAppend => "append" | WRest => "rest" end.
Inductive spells_t (k : string) (sp : span) (s : stream) : twhich * bool -> stream -> Prop :=
| ST_trait w b s' : k = which_name w -> d_named bool_dict k sp s = (Ok b, s') -> spells_t k sp s (w, b) s'.
Definition same_which (a b : twhich) : bool :=
  match a, b with
  | WFlattenNamed, WFlattenNamed | WFlattenUnnamed, WFlattenUnnamed | WAppend, WAppend | WRest, WRest => true
  | _, _ => false
  end.
Definition for_trait (w : twhich) (l : list (twhich * bool)) : list bool :=
  map snd (filter (fun x => same_which w (fst x)) l).
Definition fine_t (l : list (twhich * bool)) : Prop := forall w, once (for_trait w l).
Definition made_transparent (b : bool) (sp : span) (l : list (twhich * bool)) : stransparent :=
  mkTransparent sp b (first_of (for_trait WFlattenNamed l)) (first_of (for_trait WFlattenUnnamed l))
                (first_of (for_trait WAppend l)) (first_of (for_trait WRest l)).

(** `default`: alone, `default = ..` taking all that follows in the attribute, or `default(..)` *)
Inductive default_written (sp : span) (s : stream) : fdefault -> stream -> Prop :=
| DW_alone : (forall j esp r, toks s <> TPunct "=" j esp :: r) -> (forall ts gsp r, toks s <> TGroup Paren ts gsp :: r) ->
    default_written sp s (DDefault sp) s
| DW_eq j esp r : toks s = TPunct "=" j esp :: r -> default_written sp s (DExpr r) (mkStream [] (scope s) (cell s))
| DW_parens ts gsp r : toks s = TGroup Paren ts gsp :: r -> default_written sp s (DExpr ts) (mkStream r (scope s) (cell s)).
End V.
