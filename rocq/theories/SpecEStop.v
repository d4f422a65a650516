(** Vocabulary for the result of an enum on any input (PropsEStop.v): where reading stops, what
    the items with a variant's name give, and what is then reported. *)
From Verif Require Export SpecEnum SpecStop.
Local Open Scope string_scope.
Local Open Scope list_scope.

Section S.
Context {env : Env} {V : Type}.
Notation vdef := (vdef V).
Notation edef := (edef V).

(** *** How far an input is read *)
(** tokens are left when variant [v] has taken its value from the tokens [body] of its item *)
Definition variant_leaves (v : vdef) (tm : tmode V) (prefix k : string) (ksp : span)
  (body rest : list token) : Prop :=
  if v_transparent v
  then exists j f d, nth_error (v_fields v) j = Some f /\ is_parsable f = true /\
         f_kind f = KItem d /\ leaves (d_named d k ksp) body rest
  else leaves (v_named v tm prefix ksp) body rest.
(** the item has a key; if it is the name of a variant, its value is taken or rejected as a
    whole *)
Definition sound_variant (e : edef) (tm : tmode V) (prefix : string) (seg : list token) : Prop :=
  exists k ksp body, item_key seg = Some (k, ksp, body) /\
    forall i v, variant_at e prefix k i v ->
      (exists vs, variant_value v tm prefix k ksp body vs) \/
      variant_rejects v tm prefix k ksp body.
(** the items whose keys are looked at, and the error reading ends with, if any; as for structs,
    see [reading] *)
Inductive enum_reading (e : edef) (tm : tmode V) (prefix : string) (inputs : list stream)
  : list (list token * list token) -> errors -> Prop :=
| ER_all : Forall (sound_variant e tm prefix) (items_of inputs) ->
    enum_reading e tm prefix inputs (all_pieces inputs) []
| ER_no_key ins1 s ins2 ps1 seg tl ps2 x :
    inputs = ins1 ++ s :: ins2 -> pieces (toks s) = ps1 ++ (seg, tl) :: ps2 ->
    Forall (sound_variant e tm prefix) (map fst (all_pieces ins1 ++ ps1)) ->
    no_key (scope s) (seg ++ tl) x ->
    enum_reading e tm prefix inputs (all_pieces ins1 ++ ps1) [x]
| ER_left_over ins1 s ins2 ps1 seg tl ps2 k ksp body i v t rest :
    inputs = ins1 ++ s :: ins2 -> pieces (toks s) = ps1 ++ (seg, tl) :: ps2 ->
    Forall (sound_variant e tm prefix) (map fst (all_pieces ins1 ++ ps1)) ->
    item_key seg = Some (k, ksp, body) -> variant_at e prefix k i v ->
    variant_leaves v tm prefix k ksp body (t :: rest) ->
    enum_reading e tm prefix inputs (all_pieces ins1 ++ ps1 ++ [(seg, tl)])
                 [mkErr (tok_open_span t) "expected `,`"].

(** *** What the items give *)
(** the result of variant [v] on the item that [en] points at: its field values or its errors *)
Inductive variant_result (v : vdef) (tm : tmode V) (prefix : string) (en : entry)
  : list V + synerr -> Prop :=
| VR_fields vs : v_transparent v = false ->
    fst (v_named v tm prefix (en_span en) (en_at en)) = Ok vs ->
    variant_result v tm prefix en (inl vs)
| VR_fields_err x : v_transparent v = false ->
    fst (v_named v tm prefix (en_span en) (en_at en)) = Err x ->
    variant_result v tm prefix en (inr x)
| VR_inner j f d y vs : v_transparent v = true -> nth_error (v_fields v) j = Some f ->
    is_parsable f = true -> f_kind f = KItem d ->
    fst (d_named d (en_key en) (en_span en) (en_at en)) = Ok y ->
    around (v_fields v) tm None j y vs -> variant_result v tm prefix en (inl vs)
| VR_inner_err j f d x : v_transparent v = true -> nth_error (v_fields v) j = Some f ->
    is_parsable f = true -> f_kind f = KItem d ->
    fst (d_named d (en_key en) (en_span en) (en_at en)) = Err x ->
    variant_result v tm prefix en (inr x).
(** an item with a variant's name: the name without prefix, where it is, which variant, and the
    result *)
Record found : Type := mkFound {
  fd_name : string;
  fd_span : span;
  fd_index : nat;
  fd_transparent : bool;
  fd_result : list V + synerr
}.
(** the items with a variant's name among those read *)
Inductive finds (e : edef) (tm : tmode V) (prefix : string) : list entry -> list found -> Prop :=
| Fi_nil : finds e tm prefix [] []
| Fi_other en l ns : (forall i v, ~ variant_at e prefix (en_key en) i v) ->
    finds e tm prefix l ns -> finds e tm prefix (en :: l) ns
| Fi_variant en l ns n i v r : en_key en = (prefix ++ n)%string ->
    variant_at e prefix (en_key en) i v -> variant_result v tm prefix en r ->
    finds e tm prefix l ns ->
    finds e tm prefix (en :: l) (mkFound n (en_span en) i (v_transparent v) r :: ns).
Definition own_errors (x : found) : errors :=
  match fd_result x with inr y => errs_of y | inl _ => [] end.
(** every one after the first is an error, in addition to its own errors *)
Definition found_errors (prefix : string) (ns : list found) : errors :=
  match ns with
  | [] => []
  | x :: ns' => own_errors x ++
      flat_map (fun y => two_variants prefix (fd_name x) (fd_name y) (fd_span y) :: own_errors y) ns'
  end.
(** the values, in order *)
Definition found_values (ns : list found) : list (evalue V) :=
  flat_map (fun x => match fd_result x with inl vs => [(fd_index x, vs)] | inr _ => [] end) ns.
(** the value that is used: the last one of a variant that is not transparent, otherwise the
    first one *)
Definition used_value (ns : list found) : option (evalue V) :=
  match rev (found_values (filter (fun x => negb (fd_transparent x)) ns)) with
  | y :: _ => Some y
  | [] => hd_error (found_values ns)
  end.
(** the keys up to the first item that has none *)
Fixpoint keys_until (its : list (list token)) : list (string * span) :=
  match its with
  | [] => []
  | seg :: its' =>
    match item_key seg with Some (k, ksp, _) => (k, ksp) :: keys_until its' | None => [] end
  end.
(** those that are no variant, where this is checked *)
Definition not_variants (e : edef) (validate : bool) (inputs : list stream) : errors :=
  if negb (e_unknown_ok e) && validate
  then flat_map (fun x => if in_dec string_dec (fst x) (variant_names e) then []
                          else errs_of (unknown_error (fst x) (snd x) (variant_names e)))
                (keys_until (items_of inputs))
  else [].

(** *** The result *)
(** what the enum's and_then functions are run on, and the errors before them *)
Definition enum_value (e : edef) (ns : list found) : option (evalue V) :=
  match ns with [] => e_default e | _ => used_value ns end.
Definition enum_errors (e : edef) (prefix : string) (validate : bool) (sp : span)
  (inputs : list stream) (ns : list found) (stop : errors) : errors :=
  found_errors prefix ns ++ stop ++
  match ns, enum_value e ns with
  | [], Some _ => []
  | [], None => not_variants e validate inputs ++ [no_variant e prefix sp]
  | _, Some _ => not_variants e validate inputs
  | _, None => []
  end.
(** the result of running the and_then functions [gs] after the errors [es]: they are run if
    there is a value, and the first one that fails ends this *)
Inductive concluded {A} (gs : list (A -> A + synerr)) : option A -> errors -> res A -> Prop :=
| Co_value y x : chained gs y x -> concluded gs (Some y) [] (Ok x)
| Co_errors y x e es : chained gs y x -> concluded gs (Some y) (e :: es) (Err (mkSyn e es))
| Co_fails y x es r : chain_fails gs y x -> errs_of r = es ++ errs_of x ->
    concluded gs (Some y) es (Err r)
| Co_none e es : concluded gs None (e :: es) (Err (mkSyn e es)).
End S.
