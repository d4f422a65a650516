(** Vocabulary for the properties of collections, sets, maps, arrays and tuples. *)
From Verif Require Export SpecStruct.

(** an element of a comma separated input: its tokens, what follows them in its stream, and
    the span that errors at the end of that stream get *)
Record elem : Type := mkElem { el_toks : list token; el_after : list token; el_scope : span }.
Definition elems (l : list stream) : list elem :=
  flat_map (fun s => map (fun pc => mkElem (fst pc) (snd pc) (scope s)) (pieces (toks s))) l.
(** the stream a parser sees when it is at element [x] *)
Definition at_elem (x : elem) : stream := mkStream (el_toks x ++ el_after x) (el_scope x) None.

Section C.
Context {env : Env}.
(** the element is read up to its end, or not accepted at all (in which case the rest of it
    is skipped) *)
Definition clean {A} (p : parser A) (x : elem) : Prop :=
  forall v, fst (p (at_elem x)) = Ok v -> toks (snd (p (at_elem x))) = el_after x.
Definition values {A} (p : parser A) (xs : list elem) : list A :=
  flat_map (fun x => match fst (p (at_elem x)) with Ok v => [v] | _ => [] end) xs.
Definition failures {A} (p : parser A) (xs : list elem) : list err :=
  flat_map (fun x => match fst (p (at_elem x)) with Err e => errs_of e | _ => [] end) xs.
(** the result of a parser that collects errors *)
Definition outcome {A} (es : list err) (v : A) : res A :=
  match es with [] => Ok v | e :: es' => Err (mkSyn e es') end.
End C.

Section S.
Context {env : Env} {A : Type} (eqb : A -> A -> bool).
(** no element equals an earlier one *)
Definition all_different (vs : list A) : Prop :=
  ForallOrdPairs (fun earlier later => eqb later earlier = false) vs.
(** the span of an element that was read from [x] up to [s1] *)
Definition span_upto (x : elem) (s1 : stream) : span :=
  join_or (in_span s1) (in_span (at_elem x)) (in_span (at_elem x)).
(** the errors of a set, [seen] being the elements before: those of the failing elements,
    and one for each element equal to an earlier one *)
Fixpoint set_errors (p : parser A) (seen : list A) (xs : list elem) : list err :=
  match xs with
  | [] => []
  | x :: xs' =>
    match p (at_elem x) with
    | (Ok v, s1) =>
      if existsb (eqb v) seen
      then mkErr (span_upto x s1) "Duplicate key" :: set_errors p seen xs'
      else set_errors p (seen ++ [v]) xs'
    | (Err e, _) => errs_of e ++ set_errors p seen xs'
    | (Bad _, _) => set_errors p seen xs'
    end
  end.
(** the elements of [vs], each once *)
Fixpoint once (seen vs : list A) : list A :=
  match vs with
  | [] => seen
  | v :: vs' => once (if existsb (eqb v) seen then seen else seen ++ [v]) vs'
  end.
End S.

Section M.
Context {env : Env} {K V : Type}.
(** an entry of a map: the key, then the value as after a named item with that key *)
Definition map_entry (kstr : K -> string) (dk : dict K) (dv : dict V) : parser (K * V) :=
  fun s => (k <- d_item dk Unnamed ;; v <- d_named dv (kstr k) (in_span s) ;; pret (k, v)) s.
(** the key of item [seg]: [body] is what follows it *)
Definition key_of (dk : dict K) (seg : list token) (k : K) (body : list token) : Prop :=
  forall tl sc c, ends tl ->
    fst (d_item dk Unnamed (mkStream (seg ++ tl) sc c)) = Ok k /\
    toks (snd (d_item dk Unnamed (mkStream (seg ++ tl) sc c))) = body ++ tl.
(** the key parser does not accept an item without tokens *)
Definition nonempty_keys (dk : dict K) : Prop :=
  forall tl sc c, ends tl -> exists e, fst (d_item dk Unnamed (mkStream tl sc c)) = Err e.
(** the items whose key is not excluded, in order *)
Inductive selected (kstr : K -> string) (dk : dict K) (exclude : list string)
  : list (list token) -> list (list token) -> Prop :=
| Sel_nil : selected kstr dk exclude [] []
| Sel_skip seg k body l l' : key_of dk seg k body -> In (kstr k) exclude ->
    selected kstr dk exclude l l' -> selected kstr dk exclude (seg :: l) l'
| Sel_take seg k body l l' : key_of dk seg k body -> ~ In (kstr k) exclude ->
    selected kstr dk exclude l l' -> selected kstr dk exclude (seg :: l) (seg :: l').
End M.

Section N.
Context {env : Env} {K V : Type} (eqb : K -> K -> bool).
(** the errors of a map, [seen] being the keys before: those of the failing values, and one
    at the key for each key equal to an earlier one *)
Fixpoint map_errors (kstr : K -> string) (dk : dict K) (dv : dict V) (seen : list K)
         (xs : list elem) : list err :=
  match xs with
  | [] => []
  | x :: xs' =>
    match fst (map_entry kstr dk dv (at_elem x)) with
    | Ok (k, v) =>
      if existsb (eqb k) seen
      then mkErr (span_upto x (snd (d_item dk Unnamed (at_elem x)))) "Duplicate key"
           :: map_errors kstr dk dv seen xs'
      else map_errors kstr dk dv (seen ++ [k]) xs'
    | Err e => errs_of e ++ map_errors kstr dk dv seen xs'
    | Bad _ => map_errors kstr dk dv seen xs'
    end
  end.
End N.

(** nothing is left in the stream, up to a trailing comma *)
Definition used_up (s : stream) : Prop := toks s = [] \/ exists t, toks s = [t] /\ is_comma t = true.
(** the streams [l] supply the items of [l1], at most [len] of them; what follows is blank,
    except that streams with a lone comma may follow when the [len] items are there *)
Definition supplies (len c : nat) (l l1 : list stream) : Prop :=
  exists l2, l = l1 ++ l2 /\ c + length (elems l1) <= len /\ Forall used_up l2 /\
    (c + length (elems l1) = len \/ Forall (fun s => toks s = []) l2).

(** the items [segs] are values of the types [ds], one by one *)
Inductive each_accepts {env : Env} {A} : list (dict A) -> list (list token) -> list A -> Prop :=
| EA_none : each_accepts [] [] []
| EA_more d ds seg segs v vs : accepts (d_item d Unnamed) seg v -> each_accepts ds segs vs ->
    each_accepts (d :: ds) (seg :: segs) (v :: vs).

(** *** Tuple structs *)
Section Tu.
Context {env : Env} {V : Type}.
(** what is written for each field: the items are values of the parsed fields, in order;
    the last ones may be left out *)
Inductive positional : list (field V) -> list (list token) -> list (option V) -> Prop :=
| Po_none : positional [] [] []
| Po_item f d fs seg segs v os : is_parsable f = true -> f_kind f = KItem d ->
    accepts (d_item d Unnamed) seg v -> positional fs segs os ->
    positional (f :: fs) (seg :: segs) (Some v :: os)
| Po_short f fs os : is_parsable f = true -> positional fs [] os ->
    positional (f :: fs) [] (None :: os)
| Po_other f fs segs os : is_parsable f = false -> positional fs segs os ->
    positional (f :: fs) segs (None :: os).
(** a tuple struct without flattened fields that the macro accepts *)
Definition tuple_struct (s : sdef V) : Prop :=
  accepted_struct s /\ s_shape s = ShUnnamed /\ no_flat s /\
  (forall t, s_default s = Some t -> length t = length (s_raw s)).
(** whether a type has a value when missing does not depend on the message *)
Definition uniform_missing (f : field V) : Prop :=
  forall d n sp w n' sp', f_kind f = KItem d -> d_missing d n sp = Ok w -> d_missing d n' sp' = Ok w.
(** the value of each field: from what is written, or as for a field that is left out *)
Definition tuple_values (s : sdef V) (tm : tmode V) (os : list (option V)) (vs : list V) : Prop :=
  length vs = length (s_raw s) /\
  forall i f o v, nth_error (s_raw s) i = Some f -> nth_error os i = Some o -> nth_error vs i = Some v ->
    match o with
    | Some w => transformed (f_transforms f) w v
    | None => left_out s tm "" SCall i f v
    end.
End Tu.

(** *** Whole inputs *)
Section Wh.
Context {env : Env}.
(** [p] reads all of the streams, up to a trailing comma in each, and gives [v] *)
Definition whole {A} (p : mparser A) (l : list stream) (v : A) : Prop :=
  fst (p l) = Ok v /\ Forall used_up (snd (p l)).
Context {V : Type}.
(** one run of the parser generated for a tuple struct *)
Inductive tuple_run (s : sdef V) : tmode V -> mparser (list V) -> Prop :=
| TR_list m : s_is_transparent s = false -> tuple_run s TMeta (d_inline (struct_dict s) m)
| TR_flatten m index : tuple_run s TMeta (fu_parse (struct_fu s) m index)
| TR_attributes obj spans pn sp : s_is_transparent s = false -> about (s_attributes s) spans pn sp ->
    tuple_run s (TAttrs pn obj) (struct_attr_body s obj spans).
Definition fine_items (s : sdef V) : Prop :=
  Forall (fun f => forall d, is_parsable f = true -> f_kind f = KItem d -> fine d) (s_raw s).
(** no two commas in a row, no leading comma *)
Definition no_blank (l : list stream) : Prop := ~ In [] (items_of l).
End Wh.

(** *** Append *)
(** every item has a key; those with one of the names hold values of the type, in order *)
Inductive appended {env : Env} {A} (d : dict A) (names : list string)
  : list (list token) -> list A -> Prop :=
| Ap_none : appended d names [] []
| Ap_mine seg k ksp body v segs vs : item_key seg = Some (k, ksp, body) -> In k names ->
    accepts (d_named d k ksp) body v -> appended d names segs vs ->
    appended d names (seg :: segs) (v :: vs)
| Ap_other seg k ksp body segs vs : item_key seg = Some (k, ksp, body) -> ~ In k names ->
    appended d names segs vs -> appended d names (seg :: segs) vs.

(** *** Entry points of the collections *)
Section En.
Context {env : Env} {A : Type}.
(** `name(..)`, the content of an attribute, and flattened into a tuple *)
Inductive vec_parser (d : dict A) : mparser (list A) -> Prop :=
| VP_inline m : vec_parser d (d_inline (vec_dict d) m)
| VP_flat m i : vec_parser d (fu_parse (vec_fu d) m i).
Inductive set_parser (eqb : A -> A -> bool) (d : dict A) : mparser (list A) -> Prop :=
| SP_inline m : set_parser eqb d (d_inline (set_dict eqb d) m)
| SP_flat m i : set_parser eqb d (fu_parse (set_fu eqb d) m i).
Inductive map_parser {K} (eqb : K -> K -> bool) (kstr : K -> string) (dk : dict K) (dv : dict A)
  : mparser (list (K * A)) -> Prop :=
| MP_inline m : map_parser eqb kstr dk dv (d_inline (map_dict eqb kstr dk dv) m)
| MP_flat m i : map_parser eqb kstr dk dv (fu_parse (map_fu eqb kstr dk dv) m i).
Inductive array_parser (N : nat) (d : dict A) : mparser (list A) -> Prop :=
| AP_inline m : array_parser N d (d_inline (array_dict N d) m)
| AP_flat m i : array_parser N d (fu_parse (array_fu N d) m i).
Inductive tuple_parser (ds : list (dict A)) : mparser (list A) -> Prop :=
| TP_inline m : tuple_parser ds (d_inline (tuple_dict ds) m)
| TP_flat m i : tuple_parser ds (fu_parse (tuple_fu ds) m i).
(** the stream starts with the group `[..]`, `{..}` or `(..)` holding the items [segs] *)
Definition group_of (dl : delim) (s : stream) (segs : list (list token)) : Prop :=
  exists ts gsp rest, toks s = TGroup dl ts gsp :: rest /\ listed segs ts.
(** ... holding nothing, or only a comma *)
Definition empty_group (dl : delim) (s : stream) : Prop :=
  exists ts gsp rest, toks s = TGroup dl ts gsp :: rest /\
    (ts = [] \/ exists t, comma_tok t /\ ts = [t]).
End En.
