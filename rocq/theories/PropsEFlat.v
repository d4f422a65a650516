(** C22: the result of an enum with flattened variants on any input. *)
From Verif Require Import LemEFlat ExEFlat.
Local Open Scope string_scope.
Local Open Scope list_scope.

(** ** C22 Flattened variants are selected by their required fields *)
(** If some flattened variant has all its required fields among the keys read, exactly one is
    chosen: the order is that of the sorted names of the required fields. *)
Theorem C22_choice : forall V (e : edef V) prefix l, flat_local e ->
  (exists i v, flattened e i v /\ present_in v prefix l) ->
  exists i v, chosen_in e prefix l i v /\ forall j w, chosen_in e prefix l j w -> j = i /\ w = v.
Proof. exact @l_choice. Qed.
Print Assumptions C22_choice.

(** On any input at all (C21_reading says how far it is read), the result is as follows.
    With the name of a variant among the keys: as for enums without flattened variants, and where
    unknown keys are not looked for, the keys of flattened variants are errors.
    Otherwise, if a flattened variant is chosen, its fields are read as those of a struct (from the
    start, so that the error that ended the reading is met again); before that, if it has no
    required fields, the error that ended the reading or any unknown key ends all; after that, if
    it takes all keys, the keys of other flattened variants are errors.
    Otherwise the default is used, or there is the error that a variant is missing. *)
Theorem C22_any_input : forall (env : Env) V (e : edef V) tm prefix validate sp inputs r pcs stop,
  enum_run e tm prefix validate sp inputs r -> proper_enum tm e -> flat_local e -> flat_keeps e ->
  is_prefix prefix ->
  (forall v, In v (e_variants e) -> v_flatten v = false -> v_skip v = false -> v_names v <> []) ->
  enum_reading e tm prefix inputs pcs stop ->
  exists l ns, Forall2 reads pcs l /\ in_place inputs l /\ finds e tm prefix l ns /\
    enum_result e tm prefix validate sp inputs l stop ns r.
Proof. exact @l_enum_flat_any. Qed.
Print Assumptions C22_any_input.

(** `x = 1, z = 2, y = 3, k::, a`: X { x, y } comes before Z { z } and is chosen; the malformed
    item is met twice, and `a` is not seen. *)
Example C22_any_ex :
  (forall tm d, proper_enum tm (mkEnum xf_vs d [] false [])) /\
  (forall d, flat_local (mkEnum xf_vs d [] false [])) /\ (forall d, flat_keeps (mkEnum xf_vs d [] false [])) /\
  (forall d v, In v (e_variants (mkEnum xf_vs d [] false [])) -> v_flatten v = false -> v_skip v = false -> v_names v <> []) /\
  enum_reading xf TMeta "" ef_in
    [(ef_seg1, ef_tl1); (ef_seg2, ef_tl2); (ef_seg3, ef_tl3)] [mkErr (SAt 24) "expected path segment"] /\
  (forall l, map en_key l = ["x"; "z"; "y"] -> chosen_in xf "" l 1 xf_X) /\
  fst (d_inline (enum_dict xf) Unnamed ef_in) =
  Err (mkSyn (mkErr (SAt 24) "expected path segment")
             [mkErr (SAt 7) "unknown field `z`"; mkErr (SAt 24) "expected path segment"]) /\
  xmsgs (xrun xf "q = 2, w") =
  ["unknown field `q`"; "unknown field `w`"; "expected one of `a`, (`x`, `y`), `z`, fields from `D`"] /\
  xmsgs (xrun xf "d = 2, k::") = ["unexpected end of input, expected path segment"] /\
  xmsgs (fst (fn_parse (enum_fn xf) Unnamed "" false (xin "a, z = 2, x = 1"))) =
  ["`x` not allowed with variant `a`"; "`z` not allowed with variant `a`"; "`x` not allowed with variant `a`"].
Proof.
  refine (conj xf_proper (conj xf_local (conj xf_keeps (conj xf_names (conj ef_reading (conj xf_choice (conj ef_result _))))))).
  vm_compute. repeat split; reflexivity.
Qed.
