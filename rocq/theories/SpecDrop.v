(** Vocabulary for the results of collections on any input (PropsDrop.v). *)
From Verif Require Export SpecColl SpecStop.
Local Open Scope string_scope.
Local Open Scope list_scope.

Section S.
Context {env : Env}.
(** the element is accepted, but tokens of it are left, the first of them is [t] *)
Definition overrun {A} (p : parser A) (x : elem) (t : token) : Prop :=
  exists v rest, fst (p (at_elem x)) = Ok v /\ toks (snd (p (at_elem x))) = t :: rest ++ el_after x.
Definition comma_expected (t : token) : synerr := mkSyn (mkErr (tok_open_span t) "expected `,`") [].

(** a Vec: all errors together, unless tokens are left after an element; then only that *)
Inductive vec_result {A} (d : dict A) (xs : list elem) : res (list A) -> Prop :=
| VR_all : Forall (clean (d_item d Unnamed)) xs ->
    vec_result d xs (outcome (failures (d_item d Unnamed) xs) (values (d_item d Unnamed) xs))
| VR_left a x b t : xs = a ++ x :: b -> Forall (clean (d_item d Unnamed)) a ->
    overrun (d_item d Unnamed) x t -> vec_result d xs (Err (comma_expected t)).
(** a set: the same, with one more kind of error *)
Inductive set_result {A} (eqb : A -> A -> bool) (d : dict A) (xs : list elem) : res (list A) -> Prop :=
| SR_all : Forall (clean (d_item d Unnamed)) xs ->
    set_result eqb d xs (outcome (set_errors eqb (d_item d Unnamed) [] xs)
                                 (once eqb [] (values (d_item d Unnamed) xs)))
| SR_left a x b t : xs = a ++ x :: b -> Forall (clean (d_item d Unnamed)) a ->
    overrun (d_item d Unnamed) x t -> set_result eqb d xs (Err (comma_expected t)).
(** a map: a key that is not accepted is reported alone, too *)
Inductive map_result {K V} (eqb : K -> K -> bool) (kstr : K -> string) (dk : dict K) (dv : dict V)
  (xs : list elem) : res (list (K * V)) -> Prop :=
| MR_all : Forall (clean (map_entry kstr dk dv)) xs ->
    Forall (fun x => exists k, fst (d_item dk Unnamed (at_elem x)) = Ok k) xs ->
    map_result eqb kstr dk dv xs
      (outcome (map_errors eqb kstr dk dv [] xs) (values (map_entry kstr dk dv) xs))
| MR_left a x b t : xs = a ++ x :: b -> Forall (clean (map_entry kstr dk dv)) a ->
    Forall (fun x => exists k, fst (d_item dk Unnamed (at_elem x)) = Ok k) a ->
    overrun (map_entry kstr dk dv) x t -> map_result eqb kstr dk dv xs (Err (comma_expected t))
| MR_key a x b e : xs = a ++ x :: b -> Forall (clean (map_entry kstr dk dv)) a ->
    Forall (fun x => exists k, fst (d_item dk Unnamed (at_elem x)) = Ok k) a ->
    fst (d_item dk Unnamed (at_elem x)) = Err e -> map_result eqb kstr dk dv xs (Err e).

(** the elements whose key is not excluded; every key is accepted *)
Inductive picked {K} (kstr : K -> string) (dk : dict K) (exclude : list string) : list elem -> list elem -> Prop :=
| Pk_none : picked kstr dk exclude [] []
| Pk_skip x k xs ys : fst (d_item dk Unnamed (at_elem x)) = Ok k -> In (kstr k) exclude ->
    picked kstr dk exclude xs ys -> picked kstr dk exclude (x :: xs) ys
| Pk_take x k xs ys : fst (d_item dk Unnamed (at_elem x)) = Ok k -> ~ In (kstr k) exclude ->
    picked kstr dk exclude xs ys -> picked kstr dk exclude (x :: xs) (x :: ys).
(** [p] takes all tokens of the element, whether it accepts it or not *)
Definition uses_up {A} (p : parser A) (x : elem) : Prop := toks (snd (p (at_elem x))) = el_after x.
(** a rest map: what is left of an entry is not skipped when its value is not accepted, so
    that also then nothing but the missing comma is reported *)
Inductive rest_result {K V} (eqb : K -> K -> bool) (kstr : K -> string) (dk : dict K) (dv : dict V)
  (exclude : list string) (xs : list elem) : res (list (K * V)) -> Prop :=
| RR_all ys : picked kstr dk exclude xs ys -> Forall (uses_up (map_entry kstr dk dv)) ys ->
    rest_result eqb kstr dk dv exclude xs
      (outcome (map_errors eqb kstr dk dv [] ys) (values (map_entry kstr dk dv) ys))
| RR_left a x b ys t rest : xs = a ++ x :: b -> picked kstr dk exclude a ys ->
    Forall (uses_up (map_entry kstr dk dv)) ys -> picked kstr dk exclude [x] [x] ->
    toks (snd (map_entry kstr dk dv (at_elem x))) = t :: rest ++ el_after x ->
    rest_result eqb kstr dk dv exclude xs (Err (comma_expected t))
| RR_key a x b ys e : xs = a ++ x :: b -> picked kstr dk exclude a ys ->
    Forall (uses_up (map_entry kstr dk dv)) ys ->
    fst (d_item dk Unnamed (at_elem x)) = Err e ->
    rest_result eqb kstr dk dv exclude xs (Err e).

(** the items of an append field: the parser of each value and what follows the key.  All
    items have a key *)
Inductive occurrences {A} (d : dict A) (names : list string) : list elem -> list (parser A * elem) -> Prop :=
| Oc_none : occurrences d names [] []
| Oc_mine x k ksp body xs ys : item_key (el_toks x) = Some (k, ksp, body) -> In k names ->
    occurrences d names xs ys ->
    occurrences d names (x :: xs) ((d_named d k ksp, mkElem body (el_after x) (el_scope x)) :: ys)
| Oc_other x k ksp body xs ys : item_key (el_toks x) = Some (k, ksp, body) -> ~ In k names ->
    occurrences d names xs ys -> occurrences d names (x :: xs) ys.
Definition clean_value {A} (y : parser A * elem) : Prop := clean (fst y) (snd y).
Definition values_of {A} (ys : list (parser A * elem)) : list A :=
  flat_map (fun y => match fst (fst y (at_elem (snd y))) with Ok v => [v] | _ => [] end) ys.
Definition failures_of {A} (ys : list (parser A * elem)) : list err :=
  flat_map (fun y => match fst (fst y (at_elem (snd y))) with Err e => errs_of e | _ => [] end) ys.
Fixpoint set_errors_of {A} (eqb : A -> A -> bool) (seen : list A) (ys : list (parser A * elem)) : list err :=
  match ys with
  | [] => []
  | (p, x) :: ys' =>
    match p (at_elem x) with
    | (Ok v, s1) =>
      if existsb (eqb v) seen
      then mkErr (span_upto x s1) "Duplicate key" :: set_errors_of eqb seen ys'
      else set_errors_of eqb (seen ++ [v]) ys'
    | (Err e, _) => errs_of e ++ set_errors_of eqb seen ys'
    | (Bad _, _) => set_errors_of eqb seen ys'
    end
  end.
(** where an append field stops: the items before, and the error *)
Inductive append_reading {A} (d : dict A) (names : list string) (xs : list elem)
  : list (parser A * elem) -> list err -> Prop :=
| AR_all ys : occurrences d names xs ys -> Forall clean_value ys -> append_reading d names xs ys []
| AR_left a x b ys p y t : xs = a ++ x :: b -> occurrences d names a ys -> Forall clean_value ys ->
    occurrences d names [x] [(p, y)] -> overrun p y t ->
    append_reading d names xs (ys ++ [(p, y)]) [mkErr (tok_open_span t) "expected `,`"]
| AR_key a x b ys e : xs = a ++ x :: b -> occurrences d names a ys -> Forall clean_value ys ->
    no_key (el_scope x) (el_toks x ++ el_after x) e -> append_reading d names xs ys [e].

(** the elements with the parsers of their positions; further elements are not looked at *)
Definition positions {A} (ds : list (dict A)) (xs : list elem) : list (parser A * elem) :=
  combine (map (fun d => d_item d Unnamed) ds) xs.
(** spans joined as far as they can be *)
Definition joined (l : list span) : span :=
  match l with
  | [] => SCall
  | a :: l' => fold_left (fun a b => match env_join a b with Some c => c | None => a end) l' a
  end.
(** where a stream is: at its next token, or at its end *)
Definition next_at (s : stream) : span :=
  match toks s with [] => scope s | t :: _ => tok_open_span t end.
(** How far values of the types [ds] are read from the streams: the elements read, the error
    that ends the reading, and where the streams then are.
    - there are enough elements; what follows the last one is left to the caller
    - there are too few; then all streams are at their ends
    - tokens are left after an element that is not the last one: a comma is expected *)
Inductive row_read {A} (ds : list (dict A)) (inputs : list stream)
  : list (parser A * elem) -> list err -> span -> Prop :=
| RW_full sp : length ds <= length (elems inputs) ->
    Forall clean_value (removelast (positions ds (elems inputs))) ->
    row_read ds inputs (positions ds (elems inputs)) [] sp
| RW_short : length (elems inputs) < length ds -> Forall clean_value (positions ds (elems inputs)) ->
    row_read ds inputs (positions ds (elems inputs)) [] (joined (map scope inputs))
| RW_left ins1 s ins2 a x b d t : inputs = ins1 ++ s :: ins2 -> elems [s] = a ++ x :: b ->
    S (length (elems ins1 ++ a)) < length ds -> Forall clean_value (positions ds (elems ins1 ++ a)) ->
    nth_error ds (length (elems ins1 ++ a)) = Some d -> overrun (d_item d Unnamed) x t ->
    row_read ds inputs (positions ds (elems ins1 ++ a ++ [x])) [mkErr (tok_open_span t) "expected `,`"]
      (joined (map scope ins1 ++ tok_open_span t :: map next_at ins2)).
(** the result of a tuple or array of [n] elements; [msg] is the message about their number *)
Definition row_result {A} (n : nat) (msg : nat -> string) (ys : list (parser A * elem)) (stop : list err) (sp : span)
  : res (list A) :=
  if Nat.eqb (length ys) n then outcome (failures_of ys) (values_of ys)
  else outcome (failures_of ys ++ stop ++ [mkErr sp (msg (length ys))]) [].
Inductive array_parser_at {A} (N : nat) (d : dict A) : nat -> mparser (list A) -> Prop :=
| APA_inline m : array_parser_at N d 0 (d_inline (array_dict N d) m)
| APA_flat m i : array_parser_at N d i (fu_parse (array_fu N d) m i).
End S.
