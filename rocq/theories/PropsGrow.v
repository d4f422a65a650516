(** Property theorems: adding a field or a variant to a type.  Every proof is one [exact];
    vocabulary in SpecGrow.v, types of the examples in ExGrow.v.

    [with_field s n f s']: [s'] is [s] with the field [f] as number [n]; [optional_field f d x]:
    [f] has a default, which gives the value [x]; [inserted n x vs]: [vs] with [x] as number
    [n]; [with_variant e v e']: [e'] is [e] with the variant [v], not flattened, at the end. *)
From Verif Require Import SourceKit ExGrow.
Local Open Scope string_scope.

(** ** C104 Adding an optional field or a variant *)
(** An input that does not mention the new field gives the same values as before, and the
    default of the new field; and it is accepted only if it was before. *)
Theorem C104_field : forall (env : Env) V (s s' : sdef V) n f d x tm prefix v sp inputs r r' ws,
  parse_run s tm prefix v sp inputs r -> parse_run s' tm prefix v sp inputs r' ->
  named_struct s -> named_struct s' -> Forall local_field (s_raw s') ->
  with_field s n f s' -> optional_field f d x -> (forall g q, In g (s_raw s) -> f_kind g <> KRest q) ->
  not_among prefix (f_names f) inputs ->
  r' = Ok ws <-> exists vs, r = Ok vs /\ ws = inserted n x vs.
Proof. exact @l_grow_struct. Qed.
Print Assumptions C104_field.
(** If unknown keys are errors, that is every input that was accepted before, provided that the
    names are new. *)
Theorem C104_compatible : forall (env : Env) V (s s' : sdef V) n f d x tm sp inputs vs r',
  parse_run s tm "" true sp inputs (Ok vs) -> parse_run s' tm "" true sp inputs r' ->
  named_struct s -> named_struct s' -> Forall local_field (s_raw s') ->
  with_field s n f s' -> optional_field f d x -> (forall g q, In g (s_raw s) -> f_kind g <> KRest q) ->
  s_unknown_ok s = false -> (forall m, In m (f_names f) -> ~ In m (s_names s)) ->
  r' = Ok (inserted n x vs).
Proof. exact @l_grow_known. Qed.
Print Assumptions C104_compatible.
(** An input that does not mention the new variant gives the same value as before. *)
Theorem C104_variant : forall (env : Env) V (e e' : edef V) v prefix inputs,
  with_variant e v e' -> not_among prefix (if v_skip v then [] else v_names v) inputs ->
  forall tm validate sp r r' x,
  enum_run e tm prefix validate sp inputs r -> enum_run e' tm prefix validate sp inputs r' ->
  proper_enum tm e -> proper_enum tm e' -> flat_local e ->
  r' = Ok x <-> r = Ok x.
Proof. exact @l_grow_enum. Qed.
Print Assumptions C104_variant.
Theorem C104_variant_compatible : forall (env : Env) V (e e' : edef V) v tm sp inputs x r',
  enum_run e tm "" true sp inputs (Ok x) -> enum_run e' tm "" true sp inputs r' ->
  proper_enum tm e -> proper_enum tm e' -> flat_local e -> with_variant e v e' ->
  e_unknown_ok e = false -> e_default e = None ->
  (forall w, In w (e_variants e) -> v_flatten w = true -> ~ takes_all w) ->
  (forall n, In n (v_names v) -> ~ In n (fn_names (enum_fn e))) ->
  r' = Ok x.
Proof. exact @l_grow_enum_known. Qed.
Print Assumptions C104_variant_compatible.
(** Not true for a flattened variant: it can be used in place of one that was there before. *)
Theorem C104_flattened_refuted : exists env : Env,
  deluxe_parse2 (enum_dict (src_edef lone_types ex0 "enum E { #[deluxe(flatten)] V { c: i32, #[deluxe(default)] b: i32 } }")) (tk "b = 1, c = 2") =
  Ok (0, [VI 2; VI 1]) /\
  deluxe_parse2 (enum_dict (src_edef lone_types ex0 "enum E { #[deluxe(flatten)] V { c: i32, #[deluxe(default)] b: i32 }, #[deluxe(flatten)] W { b: i32, #[deluxe(default)] c: i32 } }")) (tk "b = 1, c = 2") =
  Ok (1, [VI 1; VI 2]).
Proof. exact ex_grow_flat. Qed.
Print Assumptions C104_flattened_refuted.

Example C104_field_ex :
  (exists sp, parse_run fx_p TMeta "" true sp fx_in (Ok fx_vs)) /\
  named_struct fx_p /\ named_struct xg /\ Forall local_field (s_raw xg) /\
  with_field fx_p 1 xg_f xg /\ optional_field xg_f (VI 9) (VI 9) /\
  (forall g q, In g (s_raw fx_p) -> f_kind g <> KRest q) /\
  (forall m, In m (f_names xg_f) -> ~ In m (s_names fx_p)) /\
  fst (d_inline (struct_dict xg) Unnamed fx_in) = Ok (inserted 1 (VI 9) fx_vs).
Proof.
  refine (conj fx_p_run (conj fx_p_named (conj xg_named (conj xg_local (conj xg_with (conj xg_optional (conj xg_no_rest (conj xg_new _)))))))).
  vm_compute. reflexivity.
Qed.
Example C104_variant_ex :
  (exists sp, enum_run xc TMeta "" true sp (xin "c = 3, b = 1") (Ok (1, [VI 1; VI 3]))) /\
  proper_enum TMeta xc /\ proper_enum TMeta xh /\ flat_local xc /\ with_variant xc xh_v xh /\
  (forall w, In w (e_variants xc) -> v_flatten w = true -> ~ takes_all w) /\
  (forall n, In n (v_names xh_v) -> ~ In n (fn_names (enum_fn xc))) /\
  fst (d_inline (enum_dict xh) Unnamed (xin "n(5)")) = Ok (2, [VI 5]).
Proof.
  refine (conj xc_run (conj xc_proper (conj xh_proper (conj xc_local (conj xh_with (conj xc_closed (conj xh_new _))))))).
  vm_compute. reflexivity.
Qed.
