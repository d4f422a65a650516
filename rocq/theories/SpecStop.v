(** Vocabulary for the errors of a named struct on any input (PropsStop.v): where reading stops,
    and what is then reported. *)
From Verif Require Export SpecStruct.
Local Open Scope string_scope.
Local Open Scope list_scope.

(** an error at the next of the tokens, or, if there is none, at the end [sc] of the input *)
Inductive at_next (sc : span) (msg : string) : list token -> err -> Prop :=
| AN_token t ts : at_next sc msg (t :: ts) (mkErr (tok_open_span t) msg)
| AN_end : at_next sc msg [] (mkErr sc ("unexpected end of input, " ++ msg)).
(** nothing, or `::` *)
Inductive leading : list token -> Prop :=
| Le_none : leading []
| Le_colons a j b : leading [TPunct colon_c true a; TPunct colon_c j b].
Definition no_ident (ts : list token) : Prop := forall i sp r, ts <> TIdent i sp :: r.
(** tokens that do not start with a key: no identifier at the start, or none after a `::` *)
Inductive no_key (sc : span) : list token -> err -> Prop :=
| NK_start lead ts e : leading lead -> (lead = [] -> ~ starts_sep ts) -> no_ident ts ->
    at_next sc "expected path" ts e -> no_key sc (lead ++ ts) e
| NK_dangling lead l pt a j b ts e : leading lead -> path_toks l pt -> no_ident ts ->
    at_next sc "expected path segment" ts e ->
    no_key sc (lead ++ pt ++ TPunct colon_c true a :: TPunct colon_c j b :: ts) e.

Section S.
Context {env : Env} {V : Type}.
(** [p] takes a part of the tokens of an item and leaves [rest] of them *)
Definition leaves {A} (p : parser A) (body rest : list token) : Prop :=
  exists v, forall tl sc c, ends tl ->
    fst (p (mkStream (body ++ tl) sc c)) = Ok v /\
    toks (snd (p (mkStream (body ++ tl) sc c))) = rest ++ tl.
(** How far an input is read: the items whose keys are looked at, and the error reading ends
    with, if any.
    - every item has a key and its value is taken or rejected as a whole: all are read
    - otherwise reading ends at the first item that has no key, or of whose value tokens are
      left; in the second case the item itself still counts *)
Inductive reading (R : reader V) (inputs : list stream)
  : list (list token * list token) -> errors -> Prop :=
| Rd_all : Forall (sound_item R) (items_of inputs) -> reading R inputs (all_pieces inputs) []
| Rd_no_key ins1 s ins2 ps1 seg tl ps2 e :
    inputs = ins1 ++ s :: ins2 -> pieces (toks s) = ps1 ++ (seg, tl) :: ps2 ->
    Forall (sound_item R) (map fst (all_pieces ins1 ++ ps1)) ->
    no_key (scope s) (seg ++ tl) e ->
    reading R inputs (all_pieces ins1 ++ ps1) [e]
| Rd_left_over ins1 s ins2 ps1 seg tl ps2 k ksp body i f t rest :
    inputs = ins1 ++ s :: ins2 -> pieces (toks s) = ps1 ++ (seg, tl) :: ps2 ->
    Forall (sound_item R) (map fst (all_pieces ins1 ++ ps1)) ->
    item_key seg = Some (k, ksp, body) -> owner_in R k = Some (i, f) ->
    leaves (item_named f (first_name f) ksp) body (t :: rest) ->
    reading R inputs (all_pieces ins1 ++ ps1 ++ [(seg, tl)])
            [mkErr (tok_open_span t) "expected `,`"].

(** every item ends where its stream does *)
Definition in_place (inputs : list stream) (l : list entry) : Prop :=
  map (fun en => scope (en_at en)) l =
  firstn (length l) (flat_map (fun s => map (fun _ => scope s) (pieces (toks s))) inputs).

(** the parser of the field does not change the end of the input *)
Definition keeps_field (f : field V) : Prop :=
  pitem f = true -> forall n nsp, keeps (item_named f n nsp).
(** what a flattened, appended or rest field gets; all but the last of them from a copy of the
    inputs (C13, C14, C15 say what these parsers do) *)
Definition child (R : reader V) (sp : span) (inputs : list stream) (i : nat) (f : field V) : res V :=
  fst (flat_call f (r_prefix R) sp (r_allowed R)
         (if existsb pflat (skipn (S i) (r_fields R)) then fork_inputs inputs else inputs)).
(** the errors of these fields, in order of declaration *)
Definition child_errors (s : sdef V) (R : reader V) (sp : span) (inputs : list stream) : errors :=
  flat_mapi (fun i f => if pflat f then match child R sp inputs i f with Err e => errs_of e | _ => [] end
                        else []) 0 (s_raw s).
(** the errors of the fields' and_then functions, the values of those fields included *)
Definition and_then_errors (s : sdef V) (tm : tmode V) (prefix : string) (sp : span)
  (R : reader V) (l : list entry) (inputs : list stream) : errors :=
  flat_mapi (fun i f =>
    match (if pflat f then match child R sp inputs i f with Ok v => Some v | _ => None end
           else untransformed s tm prefix sp R l i f) with
    | Some v => failing (f_transforms f) v
    | None => []
    end) 0 (s_raw s).
(** the first of the struct's and_then functions that fails on the value fails with [e] *)
Inductive chain_fails {A} : list (A -> A + synerr) -> A -> synerr -> Prop :=
| CF_here g gs v e : g v = inr e -> chain_fails (g :: gs) v e
| CF_later g gs v u e : g v = inl u -> chain_fails gs u e -> chain_fails (g :: gs) v e.
End S.
