(** Property theorems: derived named structs.  Every proof is one [exact]; vocabulary in
    SpecStruct.v, lemmas in LemStruct*.v and LemRun.v, the struct of the examples in
    ExStruct.v.

    [parse_run s tm prefix validate sp inputs r]: the parser generated for [s], run on the
    items of [inputs] as a list of items, as a flattened field or as attributes, gives [r].
    [named_struct]: a named struct the macro accepts.  [stays_field]/[local_field]: the
    field's type does not read past its item (C53 shows it for all implementations). *)
From Verif Require Import LemSplit ExStruct.

(** ** C04 Named struct round trip *)
(** [hold inputs segs]: the streams are the items [segs], separated by commas, each stream
    with an optional trailing comma.  [item_for]: one of the names (a path), then tokens
    that the field's type accepts as the value.  [asg]: which field each item is for and
    its value.  [transformed]: `map` and `and_then` of the field.  [left_out]: the default,
    or the value for missing fields. *)
Theorem C04_round_trip : forall (env : Env) V (s : sdef V) tm prefix validate sp inputs segs r
    (asg : list (nat * V)) vs ws,
  parse_run s tm prefix validate sp inputs r ->
  named_struct s -> distinct_names s -> no_flat s -> Forall stays_field (s_raw s) ->
  hold inputs segs ->
  Forall2 (fun seg iw => exists f, nth_error (s_raw s) (fst iw) = Some f /\ pitem f = true /\
             item_for prefix f seg (snd iw)) segs asg ->
  NoDup (map fst asg) ->
  length vs = length (s_raw s) ->
  (forall i f x, nth_error (s_raw s) i = Some f -> nth_error vs i = Some x ->
     (exists w, In (i, w) asg /\ transformed (f_transforms f) w x) \/
     (~ In i (map fst asg) /\ left_out s tm prefix sp i f x)) ->
  chained (s_and_thens s) vs ws ->
  r = Ok ws.
Proof. exact @l_round_trip. Qed.
Print Assumptions C04_round_trip.

(** the three spellings `name = value`, `name(value)` and `name` *)
Theorem C04_spellings : forall (env : Env) A (d : dict A) sp body v n,
  standard d -> spelled d sp body v -> accepts (d_named d n sp) body v.
Proof. exact @spelled_accepts. Qed.
Print Assumptions C04_spellings.

Example C04_ex :
  named_struct ex_s /\ distinct_names ex_s /\ no_flat ex_s /\ Forall stays_field (s_raw ex_s) /\
  hold ex_in [ex_seg1; ex_seg2] /\
  Forall2 (fun seg iw => exists f, nth_error (s_raw ex_s) (fst iw) = Some f /\ pitem f = true /\
             item_for "" f seg (snd iw)) [ex_seg1; ex_seg2] ex_asg /\
  NoDup (map fst ex_asg) /\
  fst (d_inline (struct_dict ex_s) Unnamed ex_in) = Ok [VI 1; VL [VT "x"]; VO None; VI 9].
Proof.
  refine (conj ex_named (conj ex_distinct (conj ex_no_flat (conj ex_fields_stay (conj ex_hold (conj ex_written (conj _ _))))))).
  - repeat constructor; cbn; intuition discriminate.
  - vm_compute. reflexivity.
Qed.

(** ** C05 Field order is irrelevant *)
Theorem C05_order : forall (env : Env) V (s : sdef V) tm prefix validate sp inputs inputs' r r' ws,
  parse_run s tm prefix validate sp inputs r -> parse_run s tm prefix validate sp inputs' r' ->
  named_struct s -> no_flat s -> Forall local_field (s_raw s) ->
  Permutation (items_of inputs) (items_of inputs') ->
  r = Ok ws <-> r' = Ok ws.
Proof. exact @l_order. Qed.
Print Assumptions C05_order.

Example C05_ex : Forall local_field (s_raw ex_s) /\
  Permutation (items_of ex_in) (items_of ex_in3) /\ items_of ex_in <> items_of ex_in3.
Proof. split; [exact ex_fields_local|]. split; [exact (proj2 ex_items)|]. vm_compute. discriminate. Qed.

(** ** C06 A missing required field is always reported *)
Theorem C06_missing : forall (env : Env) V (s : sdef V) tm prefix validate sp inputs r i f d,
  parse_run s tm prefix validate sp inputs r -> named_struct s -> Forall stays_field (s_raw s) ->
  is_prefix prefix ->
  nth_error (s_raw s) i = Some f -> f_kind f = KItem d -> is_parsable f = true ->
  f_default f = None -> s_default s = None -> no_missing_value d ->
  ~ has_key prefix f inputs ->
  exists e, r = Err e /\ In (mkErr sp (missing_msg tm prefix f)) (errs_of e).
Proof. exact @l_missing_msg. Qed.
Print Assumptions C06_missing.

Example C06_ex : let f := it "a" i32 in
  nth_error (s_raw ex_s) 0 = Some f /\ no_missing_value i32 /\
  ~ has_key "" f [root_stream (tk "bb = ""x"", n = 2")] /\
  missing_msg TMeta "" f = "missing required field `a`".
Proof. exact ex_missing. Qed.

(** ** C07 A repeated field is always reported *)
Theorem C07_duplicate_fails : forall (env : Env) V (s : sdef V) tm prefix validate sp inputs r i f
    k1 sp1 k2 sp2 a b c,
  parse_run s tm prefix validate sp inputs r -> named_struct s -> distinct_names s ->
  Forall stays_field (s_raw s) -> nth_error (s_raw s) i = Some f -> pitem f = true ->
  named_by prefix f k1 -> named_by prefix f k2 ->
  keys_in inputs = a ++ (k1, sp1) :: b ++ (k2, sp2) :: c ->
  exists e, r = Err e.
Proof. exact @l_dup_fails. Qed.
Print Assumptions C07_duplicate_fails.

(** missing: inputs with a malformed item before the second key, which ends the reading;
    see the next theorem *)
Theorem C07_duplicate_reported_partial : forall (env : Env) V (s : sdef V) tm prefix validate sp
    inputs r i f k1 sp1 k2 sp2 a b c,
  parse_run s tm prefix validate sp inputs r -> named_struct s -> distinct_names s ->
  Forall stays_field (s_raw s) -> nth_error (s_raw s) i = Some f -> pitem f = true ->
  named_by prefix f k1 -> named_by prefix f k2 ->
  keys_in inputs = a ++ (k1, sp1) :: b ++ (k2, sp2) :: c ->
  sound_input s tm prefix validate inputs ->
  exists e, r = Err e /\
    In (mkErr sp2 ("duplicate attribute for `" ++ first_name f ++ "`")) (errs_of e).
Proof. exact @l_dup_reported. Qed.
Print Assumptions C07_duplicate_reported_partial.

(** `a = 1 2, n = 1, n = 2`: the tokens left after the first value end the reading *)
Theorem C07_duplicate_reported_refuted : exists (env : Env) (s : sdef val) inputs r e k1 sp1 k2 sp2 a b c f,
  parse_run s TMeta "" true SCall inputs r /\ named_struct s /\ distinct_names s /\
  Forall stays_field (s_raw s) /\ nth_error (s_raw s) 3 = Some f /\ pitem f = true /\
  named_by "" f k1 /\ named_by "" f k2 /\
  keys_in inputs = a ++ (k1, sp1) :: b ++ (k2, sp2) :: c /\ r = Err e /\
  forall x, In x (errs_of e) -> e_msg x <> ("duplicate attribute for `" ++ first_name f ++ "`")%string.
Proof. exact ex_dup_refuted. Qed.
Print Assumptions C07_duplicate_reported_refuted.

(** the value of the first occurrence stays: C09 lists all errors, and a duplicate is one *)
Example C07_ex : sound_input ex_s TMeta "" true ex_dup /\
  keys_in ex_dup = [("n", SAt 0); ("b", SAt 7)] ++ ("bb", SAt 16) :: [] /\
  map e_msg (match fst (d_inline (struct_dict ex_s) Unnamed ex_dup) with Err e => errs_of e | _ => [] end)
  = ["duplicate attribute for `b`"; "missing required field `a`"].
Proof. exact ex_dup_ok. Qed.

(** ** C08 An unknown key is always reported *)
Theorem C08_unknown_fails : forall (env : Env) V (s : sdef V) tm sp inputs r k ksp,
  parse_run s tm "" true sp inputs r -> named_struct s -> Forall stays_field (s_raw s) ->
  s_unknown_ok s = false -> In (k, ksp) (keys_in inputs) -> ~ In k (fn_names (struct_fn s)) ->
  exists e, r = Err e.
Proof. exact @l_unknown_fails. Qed.
Print Assumptions C08_unknown_fails.

Theorem C08_known : forall (env : Env) V (s : sdef V) tm sp inputs ws,
  parse_run s tm "" true sp inputs (Ok ws) -> named_struct s -> Forall stays_field (s_raw s) ->
  s_unknown_ok s = false ->
  forall k ksp, In (k, ksp) (keys_in inputs) -> In k (fn_names (struct_fn s)).
Proof. exact @l_known. Qed.
Print Assumptions C08_known.

(** missing: inputs with a malformed item before the unknown key *)
Theorem C08_unknown_reported_partial : forall (env : Env) V (s : sdef V) tm sp inputs r k ksp,
  parse_run s tm "" true sp inputs r -> named_struct s -> Forall stays_field (s_raw s) ->
  s_unknown_ok s = false -> In (k, ksp) (keys_in inputs) -> ~ In k (fn_names (struct_fn s)) ->
  sound_input s tm "" true inputs ->
  exists e x, r = Err e /\ In x (errs_of e) /\ e_span x = ksp /\ unknown_msg k (e_msg x).
Proof. exact @l_unknown_reported. Qed.
Print Assumptions C08_unknown_reported_partial.

(** `a = 1 2, zz = 1` *)
Theorem C08_unknown_reported_refuted : exists (env : Env) (s : sdef val) inputs r e k ksp,
  parse_run s TMeta "" true SCall inputs r /\ named_struct s /\ Forall stays_field (s_raw s) /\
  s_unknown_ok s = false /\ In (k, ksp) (keys_in inputs) /\ ~ In k (fn_names (struct_fn s)) /\
  r = Err e /\ forall x, In x (errs_of e) -> ~ unknown_msg k (e_msg x).
Proof. exact ex_unknown_refuted. Qed.
Print Assumptions C08_unknown_reported_refuted.

Example C08_ex : sound_input ex_s TMeta "" true ex_unk /\
  keys_in ex_unk = [("a", SAt 0); ("zz", SAt 9)] /\ fn_names (struct_fn ex_s) = ["a"; "b"; "bb"; "o"; "n"].
Proof. exact ex_unknown_ok. Qed.

(** ** C09 All item errors are reported, in order *)
(** [sound_input]: every item has a key, and the type of its field accepts or rejects the
    tokens after it (it does not accept them in part).  [entries_errors]: for each item in
    order, duplicate, bad value or unknown key.  Then the missing fields in order of
    declaration, then the errors of the fields' and_then functions. *)
Theorem C09_errors : forall (env : Env) V (s : sdef V) tm prefix validate sp inputs r,
  parse_run s tm prefix validate sp inputs r -> named_struct s -> no_flat s ->
  Forall stays_field (s_raw s) -> sound_input s tm prefix validate inputs ->
  let R := struct_reader s tm prefix validate in
  exists l, Forall2 reads (all_pieces inputs) l /\
    match entries_errors R [] l ++ absent_errors s tm prefix sp R l ++
          transform_errors s tm prefix sp R l with
    | [] => s_and_thens s = [] -> exists ws, r = Ok ws
    | x :: xs => r = Err (mkSyn x xs)
    end.
Proof. exact @l_errors. Qed.
Print Assumptions C09_errors.

Example C09_ex : sound_input ex_s TMeta "" true ex_unk /\
  map e_msg (match fst (d_inline (struct_dict ex_s) Unnamed ex_unk) with Err e => errs_of e | _ => [] end)
  = ["expected integer literal"; "unknown field `zz`"].
Proof. split; [exact (proj1 ex_unknown_ok)|]. vm_compute. reflexivity. Qed.
(** outside of [sound_input]: tokens left after a value end the reading, and `n` is then
    reported as missing although it is written *)
Example C09_limit :
  map e_msg (match fst (d_inline (struct_dict (named [it "a" i32; it "n" i32])) Unnamed
                          [root_stream (tk "a = 1 2, n = ""q""")]) with Err e => errs_of e | _ => [] end)
  = ["expected `,`"; "missing required field `n`"].
Proof. vm_compute. reflexivity. Qed.

(** ** C10 A default is used exactly when the field is absent *)
Theorem C10_default : forall (env : Env) V (s : sdef V) tm prefix validate sp inputs ws i f dflt,
  parse_run s tm prefix validate sp inputs (Ok ws) -> named_struct s -> distinct_names s ->
  Forall local_field (s_raw s) ->
  nth_error (s_raw s) i = Some f -> pitem f = true -> f_default f = Some dflt ->
  exists vs x, chained (s_and_thens s) vs ws /\ nth_error vs i = Some x /\
    (has_key prefix f inputs ->
     exists seg w, In seg (items_of inputs) /\ written prefix f seg w /\
       transformed (f_transforms f) w x) /\
    (~ has_key prefix f inputs -> transformed (f_transforms f) dflt x).
Proof. exact @l_default. Qed.
Print Assumptions C10_default.

(** a bad value for a field that has a default is an error: if parsing succeeds, every item
    with a key of the field holds a value its type accepts *)
Theorem C10_bad_value : forall (env : Env) V (s : sdef V) tm prefix validate sp inputs ws i f,
  parse_run s tm prefix validate sp inputs (Ok ws) -> named_struct s -> distinct_names s ->
  Forall local_field (s_raw s) -> nth_error (s_raw s) i = Some f -> pitem f = true ->
  forall seg k ksp body, In seg (items_of inputs) -> item_key seg = Some (k, ksp, body) ->
    named_by prefix f k ->
    exists u, accepts (item_named f (first_name f) ksp) body u.
Proof. exact @l_values_accepted. Qed.
Print Assumptions C10_bad_value.

Example C10_ex :
  fst (d_inline (struct_dict ex_s) Unnamed ex_in) = Ok [VI 1; VL [VT "x"]; VO None; VI 9] /\
  fst (d_inline (struct_dict ex_s) Unnamed [root_stream ex_seg2]) = Ok [VI 1; VL [VT "d"]; VO None; VI 9] /\
  ~ has_key "" (itd "n" i32 (VI 9)) ex_in.
Proof. exact ex_default. Qed.

(** ** C11 Struct-level default fills absent fields only *)
Theorem C11_struct_default : forall (env : Env) V (s : sdef V) tm prefix validate sp inputs ws i f t,
  parse_run s tm prefix validate sp inputs (Ok ws) -> named_struct s -> distinct_names s ->
  Forall local_field (s_raw s) ->
  nth_error (s_raw s) i = Some f -> pitem f = true -> f_default f = None -> s_default s = Some t ->
  exists vs x, chained (s_and_thens s) vs ws /\ nth_error vs i = Some x /\
    (has_key prefix f inputs ->
     exists seg w, In seg (items_of inputs) /\ written prefix f seg w /\
       transformed (f_transforms f) w x) /\
    (~ has_key prefix f inputs -> nth_error t i = Some x).
Proof. exact @l_struct_default. Qed.
Print Assumptions C11_struct_default.

(** the field-level default wins: C10_default has no condition on [s_default] *)
Theorem C11_no_missing_errors : forall (env : Env) V (s : sdef V) tm prefix validate sp inputs r t,
  parse_run s tm prefix validate sp inputs r -> named_struct s -> no_flat s ->
  Forall stays_field (s_raw s) -> sound_input s tm prefix validate inputs ->
  s_default s = Some t ->
  let R := struct_reader s tm prefix validate in
  exists l, Forall2 reads (all_pieces inputs) l /\
    match entries_errors R [] l ++ transform_errors s tm prefix sp R l with
    | [] => s_and_thens s = [] -> exists ws, r = Ok ws
    | x :: xs => r = Err (mkSyn x xs)
    end.
Proof. exact @l_no_missing. Qed.
Print Assumptions C11_no_missing_errors.

Example C11_ex : named_struct ex_d /\
  fst (d_inline (struct_dict ex_d) Unnamed [root_stream (tk "o = 3")]) =
  Ok [VI 100; VL [VT "d"]; VO (Some (VI 3)); VI 9].
Proof. split; [exact ex_d_named|]. vm_compute. reflexivity. Qed.

(** ** C12 Splitting over several attributes is equivalent to one attribute *)
(** flattened, appended and rest fields are parsed from the items too ([textual_field]) *)
Theorem C12_named_struct : forall (env : Env) V (s : sdef V) tm prefix validate sp inputs inputs' r r' ws,
  parse_run s tm prefix validate sp inputs r -> parse_run s tm prefix validate sp inputs' r' ->
  named_struct s -> Forall local_field (s_raw s) -> Forall textual_field (s_raw s) ->
  items_of inputs = items_of inputs' ->
  r = Ok ws <-> r' = Ok ws.
Proof. exact @l_split. Qed.
Print Assumptions C12_named_struct.

Theorem C12_collections : forall (env : Env) A (d : dict A) K eqb keqb (kstr : K -> string) (dk : dict K) ex,
  fine d -> fine dk -> nonempty_keys dk ->
  textual (vec_flat d) /\ textual (set_flat eqb d) /\ textual (map_flat keqb kstr dk d) /\
  textual (map_rest keqb kstr dk d ex).
Proof. exact @l_coll_textual. Qed.
Print Assumptions C12_collections.

(** left out: inputs with an empty item (`1,,2`) and tuple structs with flattened fields, for which
    it does not hold (see below) *)
Theorem C12_tuples_partial : forall (env : Env) A (d : dict A) (ds : list (dict A)) N index V (s : sdef V) tm p,
  fine d -> Forall fine ds ->
  tuple_run s tm p -> tuple_struct s -> fine_items s -> Forall uniform_missing (s_raw s) ->
  forall l l', items_of l = items_of l' -> no_blank l ->
  (forall vs, whole (array_flat N d index) l vs <-> whole (array_flat N d index) l' vs) /\
  (forall vs, whole (tuple_flat ds) l vs <-> whole (tuple_flat ds) l' vs) /\
  (forall ws, whole p l ws <-> whole p l' ws).
Proof. exact @l_tuples_split. Qed.
Print Assumptions C12_tuples_partial.

(** `#[at(1, 2, 3)]` is accepted and `#[at(1)] #[at(2, 3)]` is not, for a tuple struct whose
    first field is a flattened pair *)
Theorem C12_flattened_tuple_refuted : exists (env : Env) (s : sdef val) conv one two ws e,
  accepted_struct s /\
  concat (map (fun a => match a_meta a with MList _ ts => items ts | _ => [] end) one) =
  concat (map (fun a => match a_meta a with MList _ ts => items ts | _ => [] end) two) /\
  struct_parse_attributes s conv (ONode one) = Ok ws /\
  struct_parse_attributes s conv (ONode two) = Err e.
Proof. exact ex_split_refuted. Qed.
Print Assumptions C12_flattened_tuple_refuted.

(** `#[at(1, 2)] #[at(,)]` is accepted and `#[at(1, 2,,)]` is not, for `struct T(i32, i32)`: every
    attribute can end with a comma *)
Theorem C12_blank_refuted : exists (env : Env) (s : sdef val) conv one two ws e,
  accepted_struct s /\ Forall (fun f => exists d, f_kind f = KItem d) (s_raw s) /\
  concat (map (fun a => match a_meta a with MList _ ts => items ts | _ => [] end) one) =
  concat (map (fun a => match a_meta a with MList _ ts => items ts | _ => [] end) two) /\
  struct_parse_attributes s conv (ONode one) = Err e /\
  struct_parse_attributes s conv (ONode two) = Ok ws.
Proof. exact ex_blank_refuted. Qed.
Print Assumptions C12_blank_refuted.

Example C12_ex : items_of ex_in = items_of ex_in2 /\ length ex_in = 1 /\ length ex_in2 = 2 /\
  Forall textual_field (s_raw ex_s) /\ no_blank ex_in.
Proof. exact ex_split. Qed.
