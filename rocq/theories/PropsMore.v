(** C40 and C49, and more about C06, C38 and C39. *)
From Verif Require Import ExMore.

(** ** C06 A missing required field is always reported *)
(** The implementations to which C06_missing applies: all of the library's except those for
    `Option`, `Flag` and the like, and derived ones without a default. *)
Theorem C06_types : forall (env : Env) A (d : dict A), demanding A d -> no_missing_value d.
Proof. exact @l_demanding. Qed.
Print Assumptions C06_types.

Example C06_types_ex : demanding _ i32 /\ demanding _ (vec_ i32) /\ demanding _ (sd xpos).
Proof. split; [apply Dm_convert, Dm_int|]. split; [apply Dm_convert, Dm_vec|]. now apply Dm_convert, Dm_struct. Qed.

(** ** C38 `name(value)` equals `name = value` for single-value types *)
(** `name(..)` is accepted only if the value is all there is in the parentheses *)
Theorem C38_paren_only : forall (env : Env) A (f : mode -> parser A) flag nm sp value v rest sc c0 gsp s',
  d_named (dict_item_flag f flag) nm sp (mkStream (TGroup Paren value gsp :: rest) sc c0) = (Ok v, s') ->
  toks s' = rest /\ exists s1, f (Named sp) (mkStream value (SClose gsp) c0) = (Ok v, s1) /\ at_end s1.
Proof. exact @l_paren_only. Qed.
Print Assumptions C38_paren_only.

Example C38_only_ex :
  fst (d_named string_dict "n" SCall (root_stream (tk "(""x"",) rest"))) = Ok "x" /\
  is_ok (fst (d_named string_dict "n" SCall (root_stream (tk "(""x"" 1) rest")))) = false.
Proof. split; reflexivity. Qed.

(** ** C39 Integer fields accept exactly the representable values *)
(** the ranges of the unsigned, signed and NonZero types of [n] bits *)
Theorem C39_ranges : forall n v,
  (in_range (ubits n) v <-> 0 <= v < 2 ^ n)%Z /\
  (in_range (sbits n) v <-> - 2 ^ (n - 1) <= v < 2 ^ (n - 1))%Z /\
  forall k, in_range (nonzero k) v <-> (ik_lo k <= v <= ik_hi k)%Z /\ v <> 0%Z.
Proof. exact @l_ranges. Qed.
Print Assumptions C39_ranges.
(** u8 also takes byte literals *)
Theorem C39_u8 : forall (env : Env) m s v s',
  d_item u8_dict m s = (Ok v, s') <->
  exists t, toks s = t :: toks s' /\ scope s' = scope s /\ cell s' = cell s /\
    ((exists b sp, t = TLit (LByte b) sp /\ v = Z.of_N b) \/
     (exists n sp, t = TLit (LInt n) sp /\ v = Z.of_N n /\ 0 <= v < 256)%Z).
Proof. exact @l_u8. Qed.
Print Assumptions C39_u8.

Example C39_u8_ex :
  fst (d_item u8_dict Unnamed (root_stream [TLit (LByte 65) SCall])) = Ok 65%Z /\
  fst (d_item u8_dict Unnamed (root_stream (tk "255"))) = Ok 255%Z /\
  is_ok (fst (d_item u8_dict Unnamed (root_stream (tk "256")))) = false /\
  in_range (ubits 16) 65535 /\ ~ in_range (sbits 16) 32768.
Proof.
  repeat (split; [reflexivity|]). split; [apply (C39_ranges 16 65535); lia|].
  intro H. apply (proj1 (proj1 (proj2 (C39_ranges 16 32768)))) in H. cbn in H. lia.
Qed.

(** ** C40 Transparent structs behave as their inner field *)
(** They parse exactly what the field's type parses, the other fields being filled in. *)
Theorem C40_transparent : forall (env : Env) V (s : sdef V) d tm r r' j,
  forwarded s d tm r r' -> transparent_struct s -> inner_field s j d ->
  (forall vs, r' = Ok vs <-> exists x ws, r = Ok x /\ built s tm j x ws /\ chained (s_and_thens s) ws vs) /\
  (forall e, r = Err e -> r' = Err e) /\
  (s_and_thens s = [] -> forall x, r = Ok x -> exists vs, r' = Ok vs).
Proof. exact @l_transparent. Qed.
Print Assumptions C40_transparent.
(** and consume the same tokens *)
Theorem C40_tokens : forall (env : Env) V (s : sdef V) d j, transparent_struct s -> inner_field s j d ->
  (forall m st, snd (d_item (struct_dict s) m st) = snd (d_item d m st)) /\
  (forall m l, snd (d_inline (struct_dict s) m l) = snd (d_inline d m l)).
Proof. exact @l_transparent_tokens. Qed.
Print Assumptions C40_tokens.
(** So do the forms `name = v`, `name(v)` and `name`, if the type does not override them. *)
Theorem C40_named : forall (env : Env) V (s : sdef V) d j nm sp st vs, transparent_struct s -> inner_field s j d ->
  (d_named d nm sp = def_named (d_item d) (d_inline d) (d_flag d) nm sp) ->
  fst (d_named (struct_dict s) nm sp st) = Ok vs <->
  exists x ws, fst (d_named d nm sp st) = Ok x /\ built s TMeta j x ws /\ chained (s_and_thens s) ws vs.
Proof. exact @l_transparent_named. Qed.
Print Assumptions C40_named.
(** Not so the position of a tuple struct flattened into another one: with
    #[deluxe(transparent(flatten_unnamed))] struct W(P) and struct P(i32, i32), both starting
    at item 3 of which there is only one, P misses item 4, and W item 1. *)
Theorem C40_position_refuted : exists (env : Env) (s : sdef val) d j (u : flat_unnamed val) m index l e e',
  transparent_struct s /\ inner_field s j d /\
  fst (fu_parse u m index l) = Err e /\ map e_msg (errs_of e) = ["missing required field 4"] /\
  fst (fu_parse (transparent_fu s u) m index l) = Err e' /\ map e_msg (errs_of e') = ["missing required field 1"].
Proof. exact ex_transparent_position. Qed.
Print Assumptions C40_position_refuted.

Example C40_ex : (transparent_struct xt /\ inner_field xt 1 (vec_ i32)) /\
  fst (d_item (vec_ i32) Unnamed (root_stream (tk "[1, 2]"))) = Ok (VL [VI 1; VI 2]) /\
  fst (d_item (struct_dict xt) Unnamed (root_stream (tk "[1, 2]"))) = Ok [VI 7; VL [VI 0; VI 1; VI 2]] /\
  fst (d_inline (struct_dict xt) Unnamed [root_stream (tk "1, 2")]) = Ok [VI 7; VL [VI 0; VI 1; VI 2]] /\
  built xt TMeta 1 (VL [VI 1; VI 2]) [VI 7; VL [VI 0; VI 1; VI 2]].
Proof. split; [exact xt_ok|exact xt_runs]. Qed.

(** ** C49 Missing tuple-field errors name the right position *)
(** The full statement, for structs with `skip` fields and flattened fields too, is false,
    see below.  Without these: *)
Theorem C49_position_partial : forall (env : Env) V (s : sdef V) tm index p inputs i f d,
  run_from s tm index p -> tuple_struct s -> fine_items s -> s_default s = None ->
  nth_error (s_raw s) i = Some f -> is_parsable f = true -> f_default f = None -> f_kind f = KItem d -> no_missing_value d ->
  Forall (fun g => f_skip g = false) (firstn i (s_raw s)) ->
  length (items_of inputs) <= items_before s i ->
  exists e sp, fst (p inputs) = Err e /\ In (mkErr sp (missing_item_msg tm (index + items_before s i))) (errs_of e).
Proof. exact @l_missing_position. Qed.
Print Assumptions C49_position_partial.
(** with struct S(#[deluxe(skip)] i32, i32) and no items, item 0 is missing, and 1 reported *)
Theorem C49_skip_refuted : exists (env : Env) (s : sdef val) p inputs i f d e,
  run_from s TMeta 0 p /\ tuple_struct s /\ fine_items s /\ s_default s = None /\
  nth_error (s_raw s) i = Some f /\ is_parsable f = true /\ f_default f = None /\ f_kind f = KItem d /\ no_missing_value d /\
  items_of inputs = [] /\ items_before s i = 0 /\
  fst (p inputs) = Err e /\ map e_msg (errs_of e) = ["missing required field 1"].
Proof. exact ex_skip_position. Qed.
Print Assumptions C49_skip_refuted.
(** with struct F(#[deluxe(flatten)] (i32,), i32) and `1`, item 1 is missing, and 2 reported *)
Theorem C49_flatten_refuted : exists (env : Env) (s : sdef val) u f p inputs e,
  s_raw s = [flatu u; f] /\ f_kind f = KItem i32 /\ is_parsable f = true /\ fu_count u = Some 1 /\
  run_from s TMeta 0 p /\ accepted_struct s /\ s_shape s = ShUnnamed /\ length (items_of inputs) = 1 /\
  is_ok (fst (fu_parse u Unnamed 0 inputs)) = true /\
  fst (p inputs) = Err e /\ map e_msg (errs_of e) = ["missing required field 2"].
Proof. exact ex_flat_position. Qed.
Print Assumptions C49_flatten_refuted.

(** the number in the message is decimal *)
Theorem C49_numeral : forall n s, show_nat n = s <-> numeral n s.
Proof. exact l_numeral. Qed.
Print Assumptions C49_numeral.

Example C49_numeral_ex : numeral 107 "107" /\ show_nat 107 = "107".
Proof. split; [|reflexivity]. apply (N_more 10 7 "7" "10"); [discriminate| |reflexivity]. apply (N_more 1 0 "0" "1"); [discriminate| |reflexivity]. now apply N_digit. Qed.

Example C49_ex : tuple_struct xpos /\ fine_items xpos /\
  (forall obj spans pn sp, about (s_attributes xpos) spans pn sp -> run_from xpos (TAttrs pn obj) 0 (struct_attr_body xpos obj spans)) /\
  Forall (fun g => f_skip g = false) (firstn 2 (s_raw xpos)) /\
  length (items_of [root_stream (tk "1")]) <= items_before xpos 2 /\
  missing_item_msg (@TMeta val) (0 + items_before xpos 2) = "missing required field 1" /\
  xmsgs (fst (fu_parse (struct_fu xpos) Unnamed 0 [root_stream (tk "1")])) = ["missing required field 1"] /\
  xmsgs (fst (fu_parse (struct_fu xpos) Unnamed 3 [root_stream (tk "1")])) = ["missing required field 4"].
Proof. exact xpos_ok. Qed.
