(** Property theorems: making a required field optional.  Every proof is one [exact];
    vocabulary in SpecLax.v, types of the examples in ExLax.v.

    [relaxed s f d s']: [s'] is the struct [s], without a default of its own, with `default` on
    the field [f], which had to be given before; [relaxed_in e f d e']: likewise for a field of
    a variant of [e] that is not flattened; [defaulting f d]: the field [f] with the default [d]. *)
From Verif Require Import SourceKit ExLax.
Local Open Scope string_scope.

(** ** C108 Adding a default *)
(** Every input that was accepted is accepted with the same value. *)
Theorem C108_struct : forall (env : Env) V (s s' : sdef V) f d tm prefix v sp inputs ws r',
  parse_run s tm prefix v sp inputs (Ok ws) -> parse_run s' tm prefix v sp inputs r' ->
  relaxed s f d s' -> r' = Ok ws.
Proof. exact @l_lax. Qed.
Print Assumptions C108_struct.
(** and the inputs that are accepted in addition do not give the field *)
Theorem C108_given : forall (env : Env) V (s s' : sdef V) f d tm prefix v sp inputs r r' ws,
  parse_run s tm prefix v sp inputs r -> parse_run s' tm prefix v sp inputs r' ->
  named_struct s -> named_struct s' -> Forall local_field (s_raw s) ->
  relaxed s f d s' -> gives_field s prefix f inputs -> r' = Ok ws <-> r = Ok ws.
Proof. exact @l_lax_given. Qed.
Print Assumptions C108_given.
Theorem C108_enum : forall (env : Env) V (e e' : edef V) f d tm prefix v sp inputs x r',
  enum_run e tm prefix v sp inputs (Ok x) -> enum_run e' tm prefix v sp inputs r' ->
  relaxed_in e f d e' -> r' = Ok x.
Proof. exact @l_lax_enum. Qed.
Print Assumptions C108_enum.
(** Not true for a field of a flattened variant: only required fields decide which variant is
    used. *)
Theorem C108_flattened_variant_refuted : exists env : Env,
  deluxe_parse2 (enum_dict (src_edef lone_types ex0 "enum E { #[deluxe(flatten)] V { a: i32, c: i32, #[deluxe(default)] b: i32 }, #[deluxe(flatten)] W { b: i32, #[deluxe(default)] a: i32, #[deluxe(default)] c: i32 } }")) (tk "a = 1, b = 2, c = 3") =
  Ok (0, [VI 1; VI 3; VI 2]) /\
  deluxe_parse2 (enum_dict (src_edef lone_types ex0 "enum E { #[deluxe(flatten)] V { #[deluxe(default)] a: i32, c: i32, #[deluxe(default)] b: i32 }, #[deluxe(flatten)] W { b: i32, #[deluxe(default)] a: i32, #[deluxe(default)] c: i32 } }")) (tk "a = 1, b = 2, c = 3") =
  Ok (1, [VI 2; VI 1; VI 3]).
Proof. exact ex_lax_flat. Qed.
Print Assumptions C108_flattened_variant_refuted.
(** Not true for a field that could be left out before because of its type,
    here `struct S { a: Option<i32> }`. *)
Theorem C108_option_refuted : exists (env : Env),
  deluxe_parse2 (struct_dict (named [it "a" (opt_ i32)])) (tk "") = Ok [VO None] /\
  deluxe_parse2 (struct_dict (named [defaulting (it "a" (opt_ i32)) (VO (Some (VI 7)))])) (tk "") = Ok [VO (Some (VI 7))].
Proof. exact ex_lax_option. Qed.
Print Assumptions C108_option_refuted.

Example C108_struct_ex :
  (exists sp, parse_run fx_p TMeta "" true sp fx_in (Ok fx_vs)) /\ relaxed fx_p (it "a" i32) (VI 7) xo /\
  named_struct fx_p /\ named_struct xo /\ Forall local_field (s_raw fx_p) /\ gives_field fx_p "" (it "a" i32) fx_in /\
  (exists e, fst (d_inline (struct_dict fx_p) Unnamed (xin "p::q::z = 4, v = 5, x = 2, p::x = 3, v = 6")) = Err e) /\
  exists vs, fst (d_inline (struct_dict xo) Unnamed (xin "p::q::z = 4, v = 5, x = 2, p::x = 3, v = 6")) = Ok (VI 7 :: vs) /\ fx_vs = VI 1 :: vs.
Proof. exact (conj fx_p_run (conj xo_relaxed (conj fx_p_named (conj xo_named (conj fx_p_local (conj xo_given xo_runs)))))). Qed.
Example C108_enum_ex : relaxed_in xp (it "s" i32) (VI 7) xp_o /\ (exists sp, enum_run xp TMeta "" true sp (xin "n(s = 1)") (Ok (3, [VI 1]))) /\
  xrun xp_o "n(s = 1)" = Ok (3, [VI 1]) /\ (exists e, xrun xp "n()" = Err e) /\ xrun xp_o "n()" = Ok (3, [VI 7]).
Proof. exact xo_variant. Qed.
