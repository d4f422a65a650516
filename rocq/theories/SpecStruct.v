(** Vocabulary for the properties of named structs.

    An input is read as a list of comma separated items `key value`.  [walk] is this
    reading: it lists the keys with their spans and the stream right after each key, and
    says whether reading stopped early (a key that is not a path, or tokens left between
    a value and the comma).  How far a value reaches is decided by the field that owns
    the key, hence the parameter [eat].  [items] is the purely textual view: the tokens
    between top-level commas. *)
From Verif Require Export SpecWf SpecSmall.

(** *** Items *)
Definition no_comma (ts : list token) : Prop := Forall (fun t => ~ comma_tok t) ts.
(** what can follow an item: nothing, or a comma *)
Definition ends (tl : list token) : Prop := tl = [] \/ starts_comma tl.

(** the tokens between top-level commas, each with what follows it *)
Fixpoint pieces (ts : list token) : list (list token * list token) :=
  match ts with
  | [] => []
  | t :: r =>
    if is_comma t then ([], ts) :: pieces r
    else match pieces r with
         | (s, tl) :: l => (t :: s, tl) :: l
         | [] => [([t], [])]
         end
  end.
Definition items (ts : list token) : list (list token) := map fst (pieces ts).

(** one key that was read: its text, its span, the stream after it *)
Record entry : Type := mkEntry { en_key : string; en_span : span; en_at : stream }.

Section S.
Context {env : Env}.

(** the keys of one stream, the error that ended the reading early, the final stream *)
Fixpoint walk (fuel : nat) (eat : entry -> stream) (s : stream)
  : list entry * option synerr * stream :=
  match fuel with
  | 0 => ([], None, s)
  | S n =>
    if is_empty s then ([], None, s)
    else match parse_any_path s with
         | (Ok p, s1) =>
           let en := mkEntry (path_key p) (p_span p) s1 in
           let s2 := eat en in
           if is_empty s2 then ([en], None, s2)
           else match parse_comma s2 with
                | (Ok _, s3) =>
                  match walk n eat s3 with (l, stop, s4) => (en :: l, stop, s4) end
                | (Err e, s3) => ([en], Some e, s3)
                | (Bad _, s3) => ([en], None, s3)
                end
         | (Err e, s1) => ([], Some e, s1)
         | (Bad _, s1) => ([], None, s1)
         end
  end.
Definition walk1 (eat : entry -> stream) (s : stream) := walk (S (length (toks s))) eat s.
(** the keys of several streams, in order; nothing is read after an early stop *)
Fixpoint walks (eat : entry -> stream) (l : list stream)
  : list entry * option synerr * list stream :=
  match l with
  | [] => ([], None, [])
  | s :: rest =>
    match walk1 eat s with
    | (es, Some e, s1) => (es, Some e, s1 :: rest)
    | (es, None, s1) =>
      match walks eat rest with
      | (es2, stop, rest1) => (es ++ es2, stop, s1 :: rest1)
      end
    end
  end.

(** *** Textual view *)
(** the key of an item: its text, its span, the tokens after it *)
Definition item_key (seg : list token) : option (string * span * list token) :=
  match parse_any_path (root_stream seg) with
  | (Ok p, s) => Some (path_key p, p_span p, toks s)
  | _ => None
  end.
(** [en] is how item [seg], followed by [tl], is read *)
Definition reads (pc : list token * list token) (en : entry) : Prop :=
  exists body, item_key (fst pc) = Some (en_key en, en_span en, body) /\
               toks (en_at en) = body ++ snd pc.
Definition all_pieces (l : list stream) : list (list token * list token) :=
  flat_map (fun s => pieces (toks s)) l.
(** the keys written in the input *)
Definition keys_in (l : list stream) : list (string * span) :=
  flat_map (fun pc => match item_key (fst pc) with Some (k, sp, _) => [(k, sp)] | None => [] end)
           (all_pieces l).

(** a parser that never reads past the end of an item *)
Definition stays {A} (p : parser A) : Prop :=
  forall s, exists pre, toks s = pre ++ toks (snd (p s)) /\ no_comma pre.

(** *** What the generated code makes of the keys *)
Context {V : Type}.
Fixpoint mapi {A B} (g : nat -> A -> B) (i : nat) (l : list A) : list B :=
  match l with [] => [] | a :: l' => g i a :: mapi g (S i) l' end.
Definition flat_mapi {A B} (g : nat -> A -> list B) (i : nat) (l : list A) : list B :=
  concat (mapi g i l).

(** The fields of one struct, and how it is parsed: prefix of the keys, whether unknown
    keys are reported and which are known. *)
Record reader : Type := mkReader {
  r_fields : list (field V);
  r_prefix : string;
  r_check : bool;
  r_allowed : list string
}.
Variable R : reader.

(** the field that a key belongs to: the first (plain, parsed) field one of whose names
    follows the prefix *)
Definition owner_in (R : reader) (key : string) : option (nat * field V) :=
  match strip_prefix (r_prefix R) key with
  | Some k => find_field k (r_fields R) 0
  | None => None
  end.
Definition mine (i : nat) (en : entry) : bool :=
  match owner_in R (en_key en) with Some (j, _) => Nat.eqb i j | None => false end.

(** the value written after the key, as the field parses it *)
Definition value_at (f : field V) (en : entry) : res V :=
  fst (item_named f (first_name f) (en_span en) (en_at en)).
Definition eat_named (en : entry) : stream :=
  match owner_in R (en_key en) with
  | Some (_, f) =>
    match item_named f (first_name f) (en_span en) (en_at en) with
    | (Ok _, s1) => s1
    | (_, s1) => skip_item s1
    end
  | None => skip_item (en_at en)
  end.

(** the status of field number [i] after the keys [l]: the first one counts *)
Definition slot_of (l : list entry) (i : nat) (f : field V) : fstatus V :=
  match find (mine i) l with
  | None => FNone
  | Some en => match value_at f en with Ok v => FSome v | _ => FParseError end
  end.
(** the errors key [en] leads to when the keys [before] were read before *)
Definition entry_errors (before : list entry) (en : entry) : errors :=
  match owner_in R (en_key en) with
  | None =>
    if r_check R && negb (mem_str (en_key en) (r_allowed R))
    then errs_of (unknown_error (en_key en) (en_span en) (r_allowed R)) else []
  | Some (i, f) =>
    (if existsb (mine i) before
     then [mkErr (en_span en) ("duplicate attribute for " ++ tick (first_name f))] else []) ++
    match value_at f en with Err e => errs_of e | _ => [] end
  end.
Fixpoint entries_errors (before l : list entry) : errors :=
  match l with
  | [] => []
  | en :: l' => entry_errors before en ++ entries_errors (before ++ [en]) l'
  end.

(** *** The steps after the keys were read, for one field *)
Variables (tm : tmode V) (target : option (list V)) (sp : span) (inputs : list stream).
(** flattened, appended and rest fields see the whole input; all but the last one a
    copy *)
Definition flat_in (i : nat) : list stream :=
  if existsb pflat (skipn (S i) (r_fields R)) then fork_inputs inputs else inputs.
Definition flat_out (i : nat) (f : field V) : option (res V) :=
  if pflat f
  then Some (fst (flat_call f (r_prefix R) sp (r_allowed R) (flat_in i)))
  else None.
Definition opt_errors {A} (o : option (res A)) : errors :=
  match o with Some (Err e) => errs_of e | _ => [] end.

Definition after_flat (i : nat) (f : field V) (st : fstatus V) : fstatus V :=
  match flat_out i f with
  | None => st
  | Some (Ok v) => FSome v
  | Some _ => FParseError
  end.
Definition after_container (f : field V) (st : fstatus V) : fstatus V :=
  match tm with
  | TAttrs _ obj => if f_container f then FSome obj else st
  | TMeta => st
  end.
(** a field that must be there and is not: its type may still have a value *)
Definition missing_out (f : field V) (st : fstatus V) : option (res V) :=
  match f_kind f with
  | KItem d => if wants_error (has_target target) f && fs_is_none st
               then Some (d_missing d (missing_name_named tm (r_prefix R) f) sp) else None
  | _ => None
  end.
Definition after_missing (f : field V) (st : fstatus V) : fstatus V :=
  match missing_out f st with Some (Ok v) => FSome v | _ => st end.
Definition before_sets (l : list entry) (i : nat) (f : field V) : fstatus V :=
  after_container f (after_flat i f (slot_of l i f)).
Definition final (l : list entry) (i : nat) (f : field V) : fstatus V * errors :=
  set_field f (after_missing f (before_sets l i f)) [].

(** all errors, in order *)
Definition all_errors (l : list entry) (stop : option synerr) : errors :=
  entries_errors [] l ++ match stop with Some e => errs_of e | None => [] end ++
  flat_mapi (fun i f => opt_errors (flat_out i f)) 0 (r_fields R) ++
  flat_mapi (fun i f => opt_errors (missing_out f (before_sets l i f))) 0 (r_fields R) ++
  flat_mapi (fun i f => snd (final l i f)) 0 (r_fields R).

(** *** Which value a field gets *)
(** the items of all streams *)
Definition items_of (l : list stream) : list (list token) := map fst (all_pieces l).
(** item [seg] is an item for field number [i] *)
Definition owns (i : nat) (seg : list token) : bool :=
  match item_key seg with
  | Some (k, _, _) => match owner_in R k with Some (j, _) => Nat.eqb i j | None => false end
  | None => false
  end.
(** the tokens [body] of an item, whatever follows the item, are read by [p] up to their
    end and give [v] *)
Definition accepts {A} (p : parser A) (body : list token) (v : A) : Prop :=
  forall tl sc c, ends tl ->
    fst (p (mkStream (body ++ tl) sc c)) = Ok v /\
    toks (snd (p (mkStream (body ++ tl) sc c))) = tl.
(** an item that names field [i] and holds a value this field accepts as [v] *)
Definition gives (seg : list token) (i : nat) (v : V) : Prop :=
  exists k ksp body f, item_key seg = Some (k, ksp, body) /\ owner_in R k = Some (i, f) /\
    accepts (item_named f (first_name f) ksp) body v.
(** an item that can be part of a valid input: a good value for a field, or some other key
    that is allowed *)
Definition item_ok (seg : list token) : Prop :=
  (exists i v, gives seg i v) \/
  (exists k ksp body, item_key seg = Some (k, ksp, body) /\ owner_in R k = None /\
     (r_check R = true -> In k (r_allowed R))).

(** `map` and `and_then` of a field turn [v] into [w] *)
Inductive transformed : list (transform V) -> V -> V -> Prop :=
| T_done v : transformed [] v v
| T_map g ts v w : transformed ts (g v) w -> transformed (TMap g :: ts) v w
| T_and_then g ts v u w : g v = inl u -> transformed ts u w ->
    transformed (TAndThen g :: ts) v w.

(** field number [i] has the value [v], the items being [its] *)
Inductive field_gets (its : list (list token)) (i : nat) (f : field V) (v : V) : Prop :=
| G_item seg w : In seg its -> gives seg i w -> transformed (f_transforms f) w v ->
    field_gets its i f v
| G_flat w : pflat f = true ->
    fst (flat_call f (r_prefix R) sp (r_allowed R) (flat_in i)) = Ok w ->
    transformed (f_transforms f) w v -> field_gets its i f v
| G_container pn obj : tm = TAttrs pn obj -> f_container f = true ->
    transformed (f_transforms f) obj v -> field_gets its i f v
| G_default w : existsb (owns i) its = false -> pflat f = false ->
    (tm <> TMeta -> f_container f = false) -> f_default f = Some w ->
    transformed (f_transforms f) w v -> field_gets its i f v
| G_target t : existsb (owns i) its = false -> pflat f = false ->
    (tm <> TMeta -> f_container f = false) -> f_default f = None ->
    target = Some t -> nth_error t i = Some v -> field_gets its i f v
| G_missing d w : existsb (owns i) its = false -> f_container f = false ->
    f_default f = None -> target = None -> f_kind f = KItem d ->
    d_missing d (missing_name_named tm (r_prefix R) f) sp = Ok w ->
    transformed (f_transforms f) w v -> field_gets its i f v.

(** the items give the struct value [vs] *)
Definition parses_to (its : list (list token)) (vs : list V) : Prop :=
  Forall item_ok its /\
  (forall i, length (filter (owns i) its) <= 1) /\
  length vs = length (r_fields R) /\
  forall i f v, nth_error (r_fields R) i = Some f -> nth_error vs i = Some v ->
    field_gets its i f v.

(** A parser whose result on an item does not depend on what comes after the item: it
    either accepts all of it, or leaves the same part of it, or fails. *)
Definition local {A} (p : parser A) : Prop :=
  stays p /\
  forall body, no_comma body ->
    (exists v rest, forall tl sc c, ends tl ->
       fst (p (mkStream (body ++ tl) sc c)) = Ok v /\
       toks (snd (p (mkStream (body ++ tl) sc c))) = rest ++ tl) \/
    (forall tl sc c, ends tl -> exists e, fst (p (mkStream (body ++ tl) sc c)) = Err e).
Definition local_field (f : field V) : Prop :=
  pitem f = true -> forall n nsp, local (item_named f n nsp).
Definition stays_field (f : field V) : Prop :=
  pitem f = true -> forall n nsp, stays (item_named f n nsp).
End S.
Arguments reader V : clear implicits.
Arguments mkReader {V}.

Section T.
Context {env : Env} {V : Type}.
(** *** Structs *)
(** a struct with named fields that the macro accepts; its default value, if any, has a
    value for each field (by typing) *)
Definition named_struct (s : sdef V) : Prop :=
  accepted_struct s /\ s_shape s = ShNamed /\
  (forall t, s_default s = Some t -> length t = length (s_raw s)).
(** struct.rs 521-541: no two fields share a name *)
Definition distinct_names (s : sdef V) : Prop :=
  forall i j f g n, nth_error (s_raw s) i = Some f -> nth_error (s_raw s) j = Some g ->
    pitem f = true -> pitem g = true -> In n (f_names f) -> In n (f_names g) -> i = j.
Definition no_flat (s : sdef V) : Prop := existsb pflat (s_raw s) = false.
(** unknown keys are reported if the caller asks for it, unless `allow_unknown_fields` *)
Definition struct_reader (s : sdef V) (tm : tmode V) (prefix : string) (validate : bool)
  : reader V :=
  mkReader (s_fields tm s) prefix (negb (s_unknown_ok s) && validate) (s_names s).
(** the struct-level and_then functions turn [vs] into [ws] *)
Inductive chained {A} : list (A -> A + synerr) -> A -> A -> Prop :=
| C_done v : chained [] v v
| C_step g gs v u w : g v = inl u -> chained gs u w -> chained (g :: gs) v w.

(** [k] is a key for field [f] *)
Definition named_by (prefix : string) (f : field V) (k : string) : Prop :=
  exists n, In n (f_names f) /\ k = (prefix ++ n)%string.
(** the keys the parser gets to see: with a malformed item (one without a key, or with
    tokens left before the comma) it stops reading *)
Definition source (R : reader V) (inputs : list stream) : list stream :=
  if existsb pflat (r_fields R) then fork_inputs inputs else inputs.
Definition entries (R : reader V) (inputs : list stream) : list entry :=
  fst (fst (walks (eat_named R) (source R inputs))).
Definition stopped (R : reader V) (inputs : list stream) : option synerr :=
  snd (fst (walks (eat_named R) (source R inputs))).
Definition keys_read (R : reader V) (inputs : list stream) : list (string * span) :=
  map (fun en => (en_key en, en_span en)) (entries R inputs).
End T.

(** *** Text of an input *)
(** `X0 , X1 , ... , Xn` with an optional trailing comma *)
Inductive listed : list (list token) -> list token -> Prop :=
| Li_none : listed [] []
| Li_last seg : seg <> [] -> no_comma seg -> listed [seg] seg
| Li_trailing seg t : no_comma seg -> comma_tok t -> listed [seg] (seg ++ [t])
| Li_more seg segs t ts : no_comma seg -> comma_tok t -> segs <> [] -> listed segs ts ->
    listed (seg :: segs) (seg ++ t :: ts).

Section U.
Context {env : Env} {V : Type}.
(** an implementation whose parse_meta_item_named is the trait's default *)
Definition standard {A} (d : dict A) : Prop :=
  forall n sp s, d_named d n sp s = def_named (d_item d) (d_inline d) (d_flag d) n sp s.
(** the three ways to write a value after a key at [sp]: `= payload`, `(payload)`, nothing *)
Inductive spelled {A} (d : dict A) (sp : span) : list token -> A -> Prop :=
| S_equals j esp payload v :
    accepts (d_item d (Named sp)) payload v ->
    spelled d sp (TPunct eq_c j esp :: payload) v
| S_paren payload gsp v :
    (forall c, exists rest, d_inline d (Named sp) [mkStream payload (SClose gsp) c] = (Ok v, [rest]) /\
       (toks rest = [] \/ exists t, comma_tok t /\ toks rest = [t])) ->
    spelled d sp [TGroup Paren payload gsp] v
| S_flag v : d_flag d sp = Ok v -> spelled d sp [] v.

(** item [seg] is written for field [f]: one of its names, then a value it accepts as [w] *)
Definition written (prefix : string) (f : field V) (seg : list token) (w : V) : Prop :=
  exists k ksp body, item_key seg = Some (k, ksp, body) /\ named_by prefix f k /\
    accepts (item_named f (first_name f) ksp) body w.

(** the default of a field: the written one, or Default::default() for skipped fields (if
    the struct has no default) and, outside of attributes, container fields *)
Definition field_default (s : sdef V) (tm : tmode V) (f : field V) : option V :=
  match f_default f with
  | Some v => Some v
  | None =>
    if f_skip f && negb (has_target (s_default s)) then Some (f_auto f)
    else match tm with
         | TMeta => if f_container f then Some (f_auto f) else None
         | TAttrs _ _ => None
         end
  end.
(** the value of a field none of whose names is written *)
Inductive left_out (s : sdef V) (tm : tmode V) (prefix : string) (sp : span) (i : nat)
  (f : field V) (v : V) : Prop :=
| LO_container pn obj : tm = TAttrs pn obj -> f_container f = true ->
    transformed (f_transforms f) obj v -> left_out s tm prefix sp i f v
| LO_default w : (tm <> TMeta -> f_container f = false) -> field_default s tm f = Some w ->
    transformed (f_transforms f) w v -> left_out s tm prefix sp i f v
| LO_struct t : (tm <> TMeta -> f_container f = false) -> field_default s tm f = None ->
    s_default s = Some t -> nth_error t i = Some v -> left_out s tm prefix sp i f v
| LO_missing d w : f_container f = false -> field_default s tm f = None -> s_default s = None ->
    f_kind f = KItem d -> d_missing d (missing_name_named tm prefix f) sp = Ok w ->
    transformed (f_transforms f) w v -> left_out s tm prefix sp i f v.

(** a parser of several streams whose value depends on the items only, not on how they are
    spread over the streams *)
Definition textual {A} (p : mparser A) : Prop :=
  forall l l', items_of l = items_of l' -> forall v, fst (p l) = Ok v <-> fst (p l') = Ok v.
Definition textual_field (f : field V) : Prop :=
  pflat f = true -> forall prefix sp allowed, textual (flat_call f prefix sp allowed).
End U.

(** *** Implementations *)
Section Impl.
Context {env : Env}.
(** A parser that does not look at syn's record of unexpected tokens (a ParseBuffer
    carries it, [fork] resets it): its result depends on the tokens and the scope only. *)
Definition unaware {A} (p : parser A) : Prop :=
  forall s s', fork s = fork s' ->
    fst (p s) = fst (p s') /\ fork (snd (p s)) = fork (snd (p s')).
Definition unaware_m {A} (p : mparser A) : Prop :=
  forall l l', fork_inputs l = fork_inputs l' ->
    fst (p l) = fst (p l') /\ fork_inputs (snd (p l)) = fork_inputs (snd (p l')).
Record unaware_dict {A} (d : dict A) : Prop := mkUnaware {
  ud_item : forall m, unaware (d_item d m);
  ud_inline : forall m, unaware_m (d_inline d m);
  ud_named : forall n sp, unaware (d_named d n sp)
}.
(** an implementation that reads no further than the item it is given and whose value does
    not depend on what follows the item *)
Record local_dict {A} (d : dict A) : Prop := mkLocal {
  ld_item : forall m, local (d_item d m);
  ld_named : forall n sp, local (d_named d n sp)
}.
(** a parser that does not change the span used for errors at the end of the input *)
Definition keeps {A} (p : parser A) : Prop := forall s, scope (snd (p s)) = scope s.
(** what all implementations in the library (except Flag, SpannedValue, TokenTree, Punct) and
    all derived ones have in common, see C53 *)
Record fine {A} (d : dict A) : Prop := mkFine {
  fi_good : good_dict d; fi_unaware : unaware_dict d;
  fi_item : forall m, local (d_item d m); fi_standard : standard d;
  fi_keeps : forall m, keeps (d_item d m)
}.
End Impl.

(** *** Entry points *)
Section Run.
Context {env : Env} {V : Type}.
(** the attribute that the messages speak of, and where they are: the first of those found, or,
    when there is none, the first that is declared *)
Inductive about (declared : list (list string)) : list (string * span) -> option string -> span -> Prop :=
| Ab_found p sp others : about declared ((p, sp) :: others) (Some p) sp
| Ab_declared path others : declared = path :: others -> about declared [] (Some (join_strs "::" path)) SCall
| Ab_neither : declared = [] -> about declared [] None SCall.
(** a struct that takes keys it does not know: it says `allow_unknown_fields`, or it has a rest
    field or a flattened field whose type takes them *)
Definition lenient (s : sdef V) : Prop :=
  s_unknown_ok s = true \/
  exists f, In f (s_raw s) /\
    match f_kind f with
    | KRest _ => True
    | KFlatN _ u => fn_accepts_all u = true
    | _ => False
    end.
(** One run of the parser generated for [s] on the items of [inputs], with result [r]:
    the list of items in `name(..)`, `{..}` or deluxe::parse2, the items of a struct that
    flattens [s], the remaining items of a tuple struct that flattens [s], or the content of
    the attributes.  Missing fields are reported at [sp].  Unknown keys are looked for if
    [validate]. *)
Inductive parse_run (s : sdef V)
  : tmode V -> string -> bool -> span -> list stream -> res (list V) -> Prop :=
| R_list m validate inputs : s_is_transparent s = false -> (validate = false <-> lenient s) ->
    parse_run s TMeta "" validate (to_full_span m inputs) inputs
              (fst (d_inline (struct_dict s) m inputs))
| R_flatten m prefix validate inputs :
    parse_run s TMeta prefix validate (to_full_span m inputs) inputs
              (fst (fn_parse (struct_fn s) m prefix validate inputs))
| R_flatten_tuple m i inputs : s_shape s = ShNamed ->
    parse_run s TMeta "" true (to_full_span m inputs) inputs
              (fst (fu_parse (struct_fu s) m i inputs))
| R_attributes obj spans pn sp validate inputs : s_is_transparent s = false ->
    (validate = false <-> lenient s) -> about (s_attributes s) spans pn sp ->
    parse_run s (TAttrs pn obj) "" validate sp inputs
              (fst (struct_attr_body s obj spans inputs)).

(** `a::b::c` *)
Inductive path_toks : list (string * span) -> list token -> Prop :=
| PT_one i sp : path_toks [(i, sp)] [TIdent i sp]
| PT_more i sp s1 s2 j2 l ts : path_toks l ts ->
    path_toks ((i, sp) :: l) (TIdent i sp :: TPunct colon_c true s1 :: TPunct colon_c j2 s2 :: ts).
Definition path_text (l : list (string * span)) : string := join_strs "::" (map fst l).
Definition path_span (l : list (string * span)) : span :=
  match l with
  | [] => SCall
  | (_, a) :: [] => a
  | (_, a) :: l' => match env_join a (snd (last l' ("", a))) with Some j => j | None => a end
  end.
Definition starts_sep (ts : list token) : Prop :=
  exists a b c r, ts = TPunct colon_c true a :: TPunct colon_c b c :: r.
(** item [seg] is one of the names of [f] followed by a value that [f]'s type accepts as [w] *)
Definition item_for (prefix : string) (f : field V) (seg : list token) (w : V) : Prop :=
  exists l pt body, seg = pt ++ body /\ path_toks l pt /\ ~ starts_sep body /\
    named_by prefix f (path_text l) /\
    exists d, f_kind f = KItem d /\ accepts (d_named d (first_name f) (path_span l)) body w.
(** the streams hold the items [segs], in this order *)
Definition hold (inputs : list stream) (segs : list (list token)) : Prop :=
  exists segss, Forall2 (fun s l => listed l (toks s)) inputs segss /\ concat segss = segs.

(** an item that has a key, and no tokens are left over after the value: the type of the
    field it belongs to accepts all of it or fails *)
Definition rejects {A} (p : parser A) (body : list token) : Prop :=
  forall tl sc c, ends tl -> exists e, fst (p (mkStream (body ++ tl) sc c)) = Err e.
Definition sound_item (R : reader V) (seg : list token) : Prop :=
  exists k ksp body, item_key seg = Some (k, ksp, body) /\
    forall i f, owner_in R k = Some (i, f) ->
      (exists v, accepts (item_named f (first_name f) ksp) body v) \/
      rejects (item_named f (first_name f) ksp) body.
Definition sound_input (s : sdef V) (tm : tmode V) (prefix : string) (validate : bool)
  (inputs : list stream) : Prop :=
  Forall (sound_item (struct_reader s tm prefix validate)) (items_of inputs).

(** the message for key [k] *)
Definition unknown_msg (k msg : string) : Prop :=
  msg = ("unknown field " ++ tick k)%string \/
  exists c, msg = ("unknown field " ++ tick k ++ ", did you mean " ++ tick c ++ "?")%string.
(** all errors of a run before the struct's and_then functions *)
Definition struct_errors (s : sdef V) tm prefix v sp inputs : errors :=
  let R := struct_reader s tm prefix v in
  all_errors R tm (s_default s) sp inputs (entries R inputs) (stopped R inputs).
(** how a missing field is called: `#[attribute(field)]` in attributes, the quoted key
    elsewhere; a prefix is empty or ends in `::` *)
Definition is_prefix (prefix : string) : Prop :=
  prefix = ""%string \/ exists q, prefix = (q ++ "::")%string.
Definition missing_msg (tm : tmode V) (prefix : string) (f : field V) : string :=
  let key := (prefix ++ f_ident f)%string in
  match tm with
  | TAttrs (Some p) _ => ("missing required field #[" ++ p ++ "(" ++ key ++ ")]")%string
  | _ => ("missing required field `" ++ key ++ "`")%string
  end.
(** a type that gives no value when missing: what the trait does by default *)
Definition no_missing_value {A} (d : dict A) : Prop :=
  forall n sp, d_missing d n sp = Err (mkSyn (mkErr sp ("missing required field " ++ n)) []).
(** one of the names of [f] occurs *)
Definition has_key (prefix : string) (f : field V) (inputs : list stream) : Prop :=
  exists k ksp, In (k, ksp) (keys_in inputs) /\ named_by prefix f k.
(** the errors for the absent fields, in order of declaration, the keys being [l]: a field
    that has no key, no default, is not filled in otherwise and whose type gives no value *)
Definition absent_errors (s : sdef V) (tm : tmode V) (prefix : string) (sp : span)
  (R : reader V) (l : list entry) : errors :=
  flat_mapi (fun i f =>
    match f_container f, field_default s tm f, s_default s, f_kind f with
    | false, None, None, KItem d =>
      if existsb (mine R i) l then []
      else match d_missing d (missing_name_named tm prefix f) sp with
           | Err e => errs_of e
           | _ => []
           end
    | _, _, _, _ => []
    end) 0 (s_raw s).
(** the value field number [i] has before its transforms *)
Definition untransformed (s : sdef V) (tm : tmode V) (prefix : string) (sp : span)
  (R : reader V) (l : list entry) (i : nat) (f : field V) : option V :=
  let filled :=
    match field_default s tm f, s_default s, f_kind f with
    | Some v, _, _ => Some v
    | None, None, KItem d =>
      match d_missing d (missing_name_named tm prefix f) sp with Ok v => Some v | _ => None end
    | _, _, _ => None
    end in
  match tm, f_container f, find (mine R i) l with
  | TAttrs _ obj, true, _ => Some obj
  | _, _, Some en => match value_at f en with Ok v => Some v | _ => None end
  | _, _, None => filled
  end.
(** the error of the first and_then function that fails *)
Fixpoint failing (ts : list (transform V)) (v : V) : errors :=
  match ts with
  | [] => []
  | TMap g :: ts' => failing ts' (g v)
  | TAndThen g :: ts' => match g v with inl w => failing ts' w | inr e => errs_of e end
  end.
(** the errors of the fields' and_then functions *)
Definition transform_errors (s : sdef V) (tm : tmode V) (prefix : string) (sp : span)
  (R : reader V) (l : list entry) : errors :=
  flat_mapi (fun i f => match untransformed s tm prefix sp R l i f with
                        | Some v => failing (f_transforms f) v
                        | None => []
                        end) 0 (s_raw s).
End Run.
