(** Property theorems: adding a name to a field or a variant.  Every proof is one [exact];
    vocabulary in SpecAka.v, types of the examples in ExAka.v.

    [more_names s more s']: [s'] is [s] with the names [more] added after the names of one of
    its own fields; [more_variant_names e more e']: likewise for a variant of [e] that is not
    flattened; [not_among prefix more inputs]: no key of the input is one of the new names. *)
From Verif Require Import SourceKit ExAka.
Local Open Scope string_scope.

(** ** C107 Adding a name *)
(** An input that does not use the new names gives the same values as before, and is accepted
    only if it was before. *)
Theorem C107_struct : forall (env : Env) V (s s' : sdef V) more tm prefix v sp inputs r r' ws,
  parse_run s tm prefix v sp inputs r -> parse_run s' tm prefix v sp inputs r' ->
  named_struct s -> named_struct s' -> Forall local_field (s_raw s) -> more_names s more s' ->
  (forall g q, In g (s_raw s) -> f_kind g <> KRest q) -> not_among prefix more inputs ->
  r' = Ok ws <-> r = Ok ws.
Proof. exact @l_aka. Qed.
Print Assumptions C107_struct.
(** If unknown keys are errors, that is every input that was accepted before, provided that the
    names are new. *)
Theorem C107_compatible : forall (env : Env) V (s s' : sdef V) more tm sp inputs ws r',
  parse_run s tm "" true sp inputs (Ok ws) -> parse_run s' tm "" true sp inputs r' ->
  named_struct s -> named_struct s' -> Forall local_field (s_raw s) -> more_names s more s' ->
  (forall g q, In g (s_raw s) -> f_kind g <> KRest q) ->
  s_unknown_ok s = false -> (forall m, In m more -> ~ In m (s_names s)) ->
  r' = Ok ws.
Proof. exact @l_aka_known. Qed.
Print Assumptions C107_compatible.
Theorem C107_enum : forall (env : Env) V (e e' : edef V) more tm prefix validate sp inputs r r' x,
  enum_run e tm prefix validate sp inputs r -> enum_run e' tm prefix validate sp inputs r' ->
  proper_enum tm e -> proper_enum tm e' -> flat_local e -> more_variant_names e more e' ->
  not_among prefix more inputs ->
  r' = Ok x <-> r = Ok x.
Proof. exact @l_aka_enum. Qed.
Print Assumptions C107_enum.
Theorem C107_enum_compatible : forall (env : Env) V (e e' : edef V) more tm sp inputs x r',
  enum_run e tm "" true sp inputs (Ok x) -> enum_run e' tm "" true sp inputs r' ->
  proper_enum tm e -> proper_enum tm e' -> flat_local e -> more_variant_names e more e' ->
  e_unknown_ok e = false -> e_default e = None ->
  (forall w, In w (e_variants e) -> v_flatten w = true -> ~ takes_all w) ->
  (forall n, In n more -> ~ In n (fn_names (enum_fn e))) ->
  r' = Ok x.
Proof. exact @l_aka_enum_known. Qed.
Print Assumptions C107_enum_compatible.
(** Not true for a field of a flattened variant: the variants are tried in the order of their
    names, so a new name can make another variant the first one that fits. *)
Theorem C107_flattened_variant_refuted : exists env : Env,
  deluxe_parse2 (enum_dict (src_edef lone_types ex0 "enum E { #[deluxe(flatten)] V { b: i32, #[deluxe(default)] c: i32 }, #[deluxe(flatten)] W { c: i32, #[deluxe(default)] b: i32 } }")) (tk "b = 1, c = 2") =
  Ok (0, [VI 1; VI 2]) /\
  deluxe_parse2 (enum_dict (src_edef lone_types ex0 "enum E { #[deluxe(flatten)] V { b: i32, #[deluxe(default)] c: i32 }, #[deluxe(flatten)] W { #[deluxe(alias = a)] c: i32, #[deluxe(default)] b: i32 } }")) (tk "b = 1, c = 2") =
  Ok (1, [VI 2; VI 1]).
Proof. exact ex_aka_flat. Qed.
Print Assumptions C107_flattened_variant_refuted.

Example C107_struct_ex :
  (exists sp, parse_run fx_p TMeta "" true sp fx_in (Ok fx_vs)) /\
  named_struct fx_p /\ named_struct xz /\ Forall local_field (s_raw fx_p) /\ more_names fx_p ["aa"] xz /\
  (forall g q, In g (s_raw fx_p) -> f_kind g <> KRest q) /\ (forall m, In m ["aa"] -> ~ In m (s_names fx_p)) /\
  fst (d_inline (struct_dict xz) Unnamed fx_in) = Ok fx_vs /\
  (exists e, fst (d_inline (struct_dict fx_p) Unnamed (xin "p::q::z = 4, v = 5, x = 2, aa(1), p::x = 3, v = 6")) = Err e) /\
  fst (d_inline (struct_dict xz) Unnamed (xin "p::q::z = 4, v = 5, x = 2, aa(1), p::x = 3, v = 6")) = Ok fx_vs.
Proof. exact (conj fx_p_run (conj fx_p_named (conj xz_named (conj fx_p_local (conj xz_more (conj xg_no_rest (conj xz_new xz_runs))))))). Qed.
Example C107_enum_ex :
  (exists sp, enum_run xc TMeta "" true sp (xin "c = 3, b = 1") (Ok (1, [VI 1; VI 3]))) /\
  proper_enum TMeta xc /\ proper_enum TMeta xy /\ flat_local xc /\ more_variant_names xc ["aa"] xy /\
  (forall w, In w (e_variants xc) -> v_flatten w = true -> ~ takes_all w) /\
  (forall n, In n ["aa"] -> ~ In n (fn_names (enum_fn xc))) /\
  xrun xy "c = 3, b = 1" = Ok (1, [VI 1; VI 3]) /\ (exists e, xrun xc "aa" = Err e) /\ xrun xy "aa" = Ok (0, []).
Proof. exact (conj xc_run (conj xc_proper (conj xy_proper (conj xc_local (conj xy_more (conj xc_closed (conj xy_new xy_runs))))))). Qed.
