(** C07, C08, C09: the errors of a named struct on any input, malformed items and flattened
    fields included. *)
From Verif Require Import LemStop ExStop.
Local Open Scope string_scope.
Local Open Scope list_scope.

(** ** C09 All item errors are reported, in order *)
(** Every input is read up to its end, or up to the first item that has no key, or up to the
    first item after whose value tokens are left. *)
Theorem C09_reading : forall (env : Env) V (s : sdef V) tm prefix validate inputs,
  Forall local_field (s_raw s) ->
  exists pcs stop, reading (struct_reader s tm prefix validate) inputs pcs stop.
Proof. exact @l_reading. Qed.
Print Assumptions C09_reading.

(** The errors are, in this order: those of the items read (duplicate, bad value, unknown key);
    the error that ended the reading; those of the flattened, appended and rest fields; the
    missing fields, in order of declaration; those of the fields' and_then functions.  If there is
    none, the fields have the values that their items give them, and the struct's and_then functions
    decide. *)
Theorem C09_any_input : forall (env : Env) V (s : sdef V) tm prefix validate sp inputs r pcs stop,
  parse_run s tm prefix validate sp inputs r -> named_struct s ->
  Forall stays_field (s_raw s) -> Forall keeps_field (s_raw s) ->
  let R := struct_reader s tm prefix validate in
  reading R inputs pcs stop ->
  exists l, Forall2 reads pcs l /\ in_place inputs l /\
    match entries_errors R [] l ++ stop ++ child_errors s R sp inputs ++
          absent_errors s tm prefix sp R l ++ and_then_errors s tm prefix sp R l inputs with
    | [] => exists vs, (Forall local_field (s_raw s) -> parses_to R tm (s_default s) sp inputs (items_of inputs) vs) /\
                      ((exists ws, chained (s_and_thens s) vs ws /\ r = Ok ws) \/
                       (exists e, chain_fails (s_and_thens s) vs e /\ r = Err e))
    | x :: xs => r = Err (mkSyn x xs)
    end.
Proof. exact @l_all_errors. Qed.
Print Assumptions C09_any_input.

(** `n = 1, a = 1 2, n = 3`: the second `n` is not read.
    `x = 2, a::, zz = 1` for a struct with flattened and appended fields: each of them reads the
    items again and meets the same malformed one; `zz` is not reported, `a` is. *)
Example C09_any_ex :
  reading (struct_reader ex_s TMeta "" true) ex_over
    [(over_seg1, over_tl1); (over_seg2, over_tl2)] [mkErr (SAt 13) "expected `,`"] /\
  fst (d_inline (struct_dict ex_s) Unnamed ex_over) = Err (mkSyn (mkErr (SAt 13) "expected `,`") []) /\
  named_struct fx_p /\ Forall local_field (s_raw fx_p) /\ Forall keeps_field (s_raw fx_p) /\
  reading (struct_reader fx_p TMeta "" true) fx_bad [(bad_seg1, bad_tl1)] [mkErr (SAt 10) "expected path segment"] /\
  map e_msg (match fst (d_inline (struct_dict fx_p) Unnamed fx_bad) with Err e => errs_of e | _ => [] end) =
  ["expected path segment"; "expected path segment";
   "expected path segment"; "expected path segment"; "missing required field `p::q::z`"; "missing required field `p::x`";
   "expected path segment"; "missing required field `a`"].
Proof.
  refine (conj ex_over_reading (conj _ (conj fx_p_named (conj fx_p_local (conj fx_p_keeps (conj fx_bad_reading _)))))); vm_compute; reflexivity.
Qed.

(** ** C07 A second key for a field is reported, whatever the other items are, if it is read *)
Theorem C07_duplicate_read : forall (env : Env) V (s : sdef V) tm prefix validate sp inputs r pcs stop i f
    a seg1 tl1 b seg2 tl2 c k1 sp1 body1 k2 sp2 body2,
  parse_run s tm prefix validate sp inputs r -> named_struct s -> distinct_names s ->
  Forall stays_field (s_raw s) -> Forall keeps_field (s_raw s) ->
  nth_error (s_raw s) i = Some f -> pitem f = true ->
  reading (struct_reader s tm prefix validate) inputs pcs stop ->
  pcs = a ++ (seg1, tl1) :: b ++ (seg2, tl2) :: c ->
  item_key seg1 = Some (k1, sp1, body1) -> named_by prefix f k1 ->
  item_key seg2 = Some (k2, sp2, body2) -> named_by prefix f k2 ->
  exists e, r = Err e /\ In (mkErr sp2 ("duplicate attribute for `" ++ first_name f ++ "`")%string) (errs_of e).
Proof. exact @l_dup_read. Qed.
Print Assumptions C07_duplicate_read.

(** ** C08 An unknown key is reported, whatever the other items are, if it is read *)
Theorem C08_unknown_read : forall (env : Env) V (s : sdef V) tm sp inputs r pcs stop seg tl k ksp body,
  parse_run s tm "" true sp inputs r -> named_struct s ->
  Forall stays_field (s_raw s) -> Forall keeps_field (s_raw s) -> s_unknown_ok s = false ->
  reading (struct_reader s tm "" true) inputs pcs stop -> In (seg, tl) pcs ->
  item_key seg = Some (k, ksp, body) -> ~ In k (fn_names (struct_fn s)) ->
  exists e x, r = Err e /\ In x (errs_of e) /\ e_span x = ksp /\ unknown_msg k (e_msg x).
Proof. exact @l_unknown_read. Qed.
Print Assumptions C08_unknown_read.

(** `n = 1, n = 2, zz = 1, a = 1 2, ..`: both are reported before the reading ends *)
Example C07_read_ex :
  map e_msg (match fst (d_inline (struct_dict ex_s) Unnamed [root_stream (tk "n = 1, n = 2, zz = 1, a = 1 2, yy")]) with
             | Err e => errs_of e | _ => [] end) =
  ["duplicate attribute for `n`"; "unknown field `zz`"; "expected `,`"].
Proof. vm_compute. reflexivity. Qed.
