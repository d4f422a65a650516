(** Property theorems: adding `allow_unknown_fields`.  Every proof is one [exact]; vocabulary in
    SpecAllow.v, examples in ExAllow.v.  [allowing s], [e_allowing e]: the same struct or enum
    with `allow_unknown_fields`. *)
From Verif Require Import SourceKit ExAllow.
Local Open Scope string_scope.

(** ** C106 Allowing unknown fields takes no input away *)
Theorem C106_struct : forall (env : Env) V (s : sdef V) tm prefix v v' sp inputs ws r',
  parse_run s tm prefix v sp inputs (Ok ws) -> parse_run (allowing s) tm prefix v' sp inputs r' ->
  s_shape s = ShNamed -> r' = Ok ws.
Proof. exact @l_allow. Qed.
Print Assumptions C106_struct.
(** and only inputs with unknown keys are added *)
Theorem C106_struct_known : forall (env : Env) V (s : sdef V) tm prefix v v' sp inputs ws r,
  parse_run (allowing s) tm prefix v' sp inputs (Ok ws) -> parse_run s tm prefix v sp inputs r ->
  named_struct s -> Forall local_field (s_raw s) ->
  (forall k ksp, In (k, ksp) (keys_in inputs) -> In k (s_names s)) -> r = Ok ws.
Proof. exact @l_allow_known. Qed.
Print Assumptions C106_struct_known.
Theorem C106_enum : forall (env : Env) V (e : edef V) tm prefix v v' sp inputs x r',
  enum_run e tm prefix v sp inputs (Ok x) -> enum_run (e_allowing e) tm prefix v' sp inputs r' ->
  proper_enum tm e -> flat_local e -> r' = Ok x.
Proof. exact @l_allow_enum. Qed.
Print Assumptions C106_enum.
Theorem C106_enum_known : forall (env : Env) V (e : edef V) tm v v' sp inputs x r,
  enum_run (e_allowing e) tm "" v' sp inputs (Ok x) -> enum_run e tm "" v sp inputs r ->
  proper_enum tm e -> no_flattened e ->
  (forall k ksp, In (k, ksp) (keys_in inputs) -> In k (variant_names e)) -> r = Ok x.
Proof. exact @l_allow_enum_known. Qed.
Print Assumptions C106_enum_known.
(** On a variant that is not flattened ([allowing_in e e']) *)
Theorem C106_variant : forall (env : Env) V (e e' : edef V) tm prefix v sp inputs x r', allowing_in e e' ->
  enum_run e tm prefix v sp inputs (Ok x) -> enum_run e' tm prefix v sp inputs r' -> r' = Ok x.
Proof. exact @l_allow_variant. Qed.
Print Assumptions C106_variant.
(** Not true for `allow_unknown_fields` on a flattened variant: an attribute that was read
    before is then an error. *)
Theorem C106_flattened_variant_refuted : exists env : Env,
  enum_parse_attributes (src_edef lone_types ex0 "#[deluxe(attributes(my))] enum E { A, #[deluxe(flatten)] B { b: i32 } }") cv
    (ONode [al ["my"] "a, b = 1"]) = Ok (0, []) /\
  exists e, enum_parse_attributes (src_edef lone_types ex0 "#[deluxe(attributes(my))] enum E { A, #[deluxe(flatten, allow_unknown_fields)] B { b: i32 } }") cv
    (ONode [al ["my"] "a, b = 1"]) = Err e.
Proof. exact ex_allow_variant. Qed.
Print Assumptions C106_flattened_variant_refuted.

Example C106_struct_ex : named_struct fx_p /\ Forall local_field (s_raw fx_p) /\
  (forall k ksp, In (k, ksp) (keys_in fx_in) -> In k (s_names fx_p)) /\
  (exists sp, parse_run fx_p TMeta "" true sp fx_in (Ok fx_vs)) /\
  fst (d_inline (struct_dict (allowing fx_p)) Unnamed fx_in) = Ok fx_vs /\
  (exists e, fst (d_inline (struct_dict fx_p) Unnamed (xin "p::q::z = 4, v = 5, x = 2, a(1), zz, p::x = 3, v = 6")) = Err e) /\
  fst (d_inline (struct_dict (allowing fx_p)) Unnamed (xin "p::q::z = 4, v = 5, x = 2, a(1), zz, p::x = 3, v = 6")) = Ok fx_vs.
Proof. exact (conj fx_p_named (conj fx_p_local (conj xw_known xw_runs))). Qed.
Example C106_variant_ex : allowing_in xp xp_n /\ (exists sp, enum_run xp TMeta "" true sp (xin "n(s = 1)") (Ok (3, [VI 1]))) /\
  xrun xp_n "n(s = 1)" = Ok (3, [VI 1]) /\ (exists e, xrun xp "n(s = 1, u = 2)" = Err e) /\ xrun xp_n "n(s = 1, u = 2)" = Ok (3, [VI 1]).
Proof. exact xw_variant. Qed.
Example C106_enum_ex : proper_enum TMeta xc /\ flat_local xc /\
  exists sp, enum_run xc TMeta "" true sp (xin "c = 3, b = 1") (Ok (1, [VI 1; VI 3])).
Proof. exact (conj xc_proper (conj xc_local xw_enum)). Qed.
Example C106_enum_known_ex : proper_enum TMeta xk /\
  (exists sp, enum_run (e_allowing xk) TMeta "" true sp (xin "k(5)") (Ok (0, [VI 5]))) /\ no_flattened xk /\
  (forall k ksp, In (k, ksp) (keys_in (xin "k(5)")) -> In k (variant_names xk)).
Proof. exact (conj xk_proper xw_keys). Qed.
