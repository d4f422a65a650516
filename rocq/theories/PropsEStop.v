(** C21: the result of an enum without flattened variants on any input. *)
From Verif Require Import LemEStop ExEStop.
Local Open Scope string_scope.
Local Open Scope list_scope.

(** ** C21 Exactly one enum variant is selected *)
(** Every input is read up to its end, or up to the first item that has no key, or up to the
    first item with a variant's name after whose value tokens are left. *)
Theorem C21_reading : forall (env : Env) V (e : edef V) tm prefix inputs,
  proper_enum tm e -> exists pcs stop, enum_reading e tm prefix inputs pcs stop.
Proof. exact @l_enum_reading. Qed.
Print Assumptions C21_reading.

(** The errors are, in this order: for each item with a variant's name, that it is not the first
    one, and the errors of its value; the error that ended the reading; if none has a variant's
    name or if one of them is accepted, the keys that are no variant, where they are checked; and
    that there is no variant, if there is none.  If there is no variant but a default, the error
    that ended the reading is the only one.  The enum's and_then functions are run on the last
    value of a variant that is not transparent, or else on the first value, even if there are
    errors. *)
Theorem C21_any_input : forall (env : Env) V (e : edef V) tm prefix validate sp inputs r pcs stop,
  enum_run e tm prefix validate sp inputs r -> proper_enum tm e -> no_flattened e -> is_prefix prefix ->
  (forall v, In v (e_variants e) -> v_skip v = false -> v_names v <> []) ->
  enum_reading e tm prefix inputs pcs stop ->
  exists l ns, Forall2 reads pcs l /\ in_place inputs l /\ finds e tm prefix l ns /\
    concluded (e_and_thens e) (enum_value e ns) (enum_errors e prefix validate sp inputs ns stop) r.
Proof. exact @l_enum_any. Qed.
Print Assumptions C21_any_input.

(** `b(1), zz, t = 3 4, n(s = 1)`: `t` is the second variant; tokens are left after its value, so
    that `n` is not seen; `zz` is reported last. *)
Example C21_any_ex :
  proper_enum TMeta xp /\ no_flattened xp /\ is_prefix "" /\
  (forall v, In v (e_variants xp) -> v_skip v = false -> v_names v <> []) /\
  enum_reading xp TMeta "" es_in
    [(es_seg1, es_tl1); (es_seg2, es_tl2); (es_seg3, es_tl3)] [mkErr (SAt 16) "expected `,`"] /\
  xrun xp "b(1), zz, t = 3 4, n(s = 1)" =
  Err (mkSyn (two_variants "" "b" "t" (SAt 10)) [mkErr (SAt 16) "expected `,`"; mkErr (SAt 6) "unknown field `zz`"]) /\
  xmsgs (xrun xp "b(x), zz, b(2), t = u, k::") =
  ["expected integer literal"; "expected only one enum variant, got `b` and `b`";
   "expected only one enum variant, got `b` and `t`"; "expected integer literal";
   "unexpected end of input, expected path segment"; "unknown field `zz`"] /\
  xmsgs (xrun xp "b(x), zz") = ["expected integer literal"] /\
  xmsgs (xrun xp "zz, k::") =
  ["unexpected end of input, expected path segment"; "unknown field `zz`"; "expected one of `a`, `b`, `t`, `n`"].
Proof.
  refine (conj (xp_proper _ _ _) (conj (xp_plain _ _) (conj (or_introl eq_refl) (conj xp_has_names (conj es_reading (conj es_result _)))))).
  vm_compute. repeat split; reflexivity.
Qed.
