(** Property theorems: enums with flattened variants under another prefix.  Every proof is one
    [exact]; vocabulary in SpecMove.v and SpecFlat.v, enums of the examples in ExMove.v.

    [moved P P' seg seg']: the items are the same except that the keys [P ++ n] and [P' ++ n]
    correspond; [prefix_free v]: the variant has no named fields. *)
From Verif Require Import SourceKit ExMove.

(** ** C50, C24 Enums with flattened variants under a prefix *)
(** Flattened with the prefix `p`, the variants are addressed as `p::v` and the fields of the
    flattened variants as `p::x`: moving the enum is the same as changing the prefix of the
    keys.  Flattened variants either take all keys, or have only plain fields, one of them
    required. *)
Theorem C50_flattened_partial : forall (env : Env) V (e : edef V) sp P P' l l' x,
  proper_enum TMeta e -> flat_local e -> is_prefix P -> is_prefix P' ->
  (forall v, In v (e_variants e) -> v_flatten v = false -> prefix_free v) ->
  (forall v, In v (e_variants e) -> v_flatten v = true -> Forall movable_field (v_raw v) /\
     (takes_all v \/ (plain_fields P v /\ plain_fields P' v))) ->
  under P l -> Forall2 (moved P P') (items_of l) (items_of l') ->
  fst (fn_parse (enum_fn e) (Named sp) P false l) = Ok x <->
  fst (fn_parse (enum_fn e) (Named sp) P' false l') = Ok x.
Proof. exact @l_enum_moved_flat. Qed.
Print Assumptions C50_flattened_partial.
(** if all flattened variants take all keys, whatever the other keys are: such an enum can be
    flattened, with a prefix, into the structs of C24_moved *)
Theorem C24_moved_enum : forall (env : Env) V (e : edef V), proper_enum TMeta e -> flat_local e ->
  (forall v, In v (e_variants e) -> v_flatten v = false -> prefix_free v) ->
  (forall v, In v (e_variants e) -> v_flatten v = true -> Forall movable_field (v_raw v) /\ takes_all v) ->
  movable (enum_fn e).
Proof. exact @l_enum_movable. Qed.
Print Assumptions C24_moved_enum.
(** Missing: variants without required fields, for which it fails (C94_prefix_refuted), and
    those with flattened fields, for which it fails as well: the keys of these are compared
    with names that lack the outer prefix. *)
Theorem C50_flattened_refuted : exists env : Env,
  deluxe_parse2 (struct_dict (src_sdef move_types sx0 "struct S { #[deluxe(flatten)] f: E }")) (tk "a = 1, q::x = 2") =
  Ok [VE 0 [VI 1; VS [VI 2]]] /\
  xmsgs (deluxe_parse2 (struct_dict (src_sdef move_types sx0 "struct S { #[deluxe(flatten(prefix = p))] f: E }")) (tk "p::a = 1, p::q::x = 2")) =
  ["unknown field `p::q::x`"].
Proof. exact ex_move_nested. Qed.
Print Assumptions C50_flattened_refuted.

Example C50_flattened_ex :
  proper_enum TMeta xc /\ flat_local xc /\
  (forall v, In v (e_variants xc) -> v_flatten v = false -> prefix_free v) /\
  (forall v, In v (e_variants xc) -> v_flatten v = true -> Forall movable_field (v_raw v) /\
     (takes_all v \/ (plain_fields "" v /\ plain_fields "p::" v))) /\
  under "" (xin "b = 1") /\ Forall2 (moved "" "p::") (items_of (xin "b = 1")) (items_of xc_in') /\
  fst (fn_parse (enum_fn xc) (Named SCall) "" false (xin "b = 1")) = Ok (1, [VI 1; VI 7]).
Proof.
  refine (conj xc_proper (conj xc_local (conj xc_free (conj xc_fields (conj xc_under (conj xc_moved _)))))).
  vm_compute. reflexivity.
Qed.
Example C24_moved_enum_ex :
  proper_enum TMeta xo /\ flat_local xo /\
  (forall v, In v (e_variants xo) -> v_flatten v = false -> prefix_free v) /\
  (forall v, In v (e_variants xo) -> v_flatten v = true -> Forall movable_field (v_raw v) /\ takes_all v) /\
  fst (fn_parse (enum_fn xo) (Named SCall) "p::" false xc_in') = Ok (1, [VI 1]).
Proof.
  refine (conj xo_proper (conj xo_local (conj xo_free (conj xo_fields _)))). vm_compute. reflexivity.
Qed.
