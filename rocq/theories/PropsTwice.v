(** Property theorems: derive attributes that are given twice.  Every proof is one [exact];
    vocabulary in SpecTwice.v and SpecDiag.v, sources of the examples in ExTwice.v.

    [has_entries G attrs xs]: the `#[deluxe(..)]` attributes consist of the entries [xs];
    [given_again k sp xs]: one of these entries, at [sp], has the key [k] of an earlier one;
    [complains r sp msg]: [r] is an error with the message [msg] at [sp], maybe among others. *)
From Verif Require Import ExTwice.
Local Open Scope string_scope.

(** ** C110 A repeated attribute is reported under its name *)
(** `alias`, `map`, `and_then` and `attributes` can be repeated. *)
Theorem C110_field : forall (env : Env) sy, good_syn_lib sy -> forall f xs k sp,
  has_entries (grammar_f sy f) (sf_attrs f) xs -> given_again k sp xs ->
  ~ In k ["alias"; "map"; "and_then"; "skip"] -> complains (read_field sy f) sp ("duplicate attribute for `" ++ k ++ "`").
Proof. exact @l_twice_field. Qed.
Print Assumptions C110_field.
Theorem C110_struct : forall (env : Env) sy, good_syn_lib sy -> forall i gs fes xs k sp,
  fields_read sy (ss_fields i) gs fes -> has_entries (grammar_s sy (ss_shape i) gs) (ss_attrs i) xs -> given_again k sp xs ->
  ~ In k ["and_then"; "attributes"] -> complains (read_struct sy i) sp ("duplicate attribute for `" ++ k ++ "`").
Proof. exact @l_twice_struct. Qed.
Print Assumptions C110_struct.
Theorem C110_variant : forall (env : Env) sy, good_syn_lib sy -> forall v gs fes xs k sp,
  snake_ok v -> fields_read sy (sv_fields v) gs fes -> has_entries (grammar_v v gs) (sv_attrs v) xs -> given_again k sp xs ->
  k <> "alias" -> complains (read_variant sy v) sp ("duplicate attribute for `" ++ k ++ "`").
Proof. exact @l_twice_variant. Qed.
Print Assumptions C110_variant.
Theorem C110_enum : forall (env : Env) sy, good_syn_lib sy -> forall i hs ves xs fes des k sp,
  written_enum i -> variants_read sy (se_variants i) hs ves -> has_entries (grammar_e sy) (se_attrs i) xs ->
  flatten_faults hs [] hs fes -> default_fault hs xs des -> given_again k sp xs ->
  ~ In k ["and_then"; "attributes"] -> complains (read_enum sy i) sp ("duplicate attribute for `" ++ k ++ "`").
Proof. exact @l_twice_enum. Qed.
Print Assumptions C110_enum.
(** Not true for `skip` on a field: the only error names another attribute. *)
Theorem C110_skip_refuted : exists (env : Env) sy f xs sp, good_syn_lib sy /\
  has_entries (grammar_f sy f) (sf_attrs f) xs /\ given_again "skip" sp xs /\
  exists e, read_field sy f = Err e /\ errs_of e = [mkErr sp "duplicate attribute for `container`"].
Proof. exact xt_skip. Qed.
Print Assumptions C110_skip_refuted.

Example C110_field_ex : let env := lexer_env in good_syn_lib xsy /\
  exists sp xs, has_entries (grammar_f xsy xt_f) (sf_attrs xt_f) xs /\ given_again "default" sp xs.
Proof. exact (conj xsy_good xt_f_again). Qed.
Example C110_struct_ex : let env := lexer_env in exists gs fes sp xs, fields_read xsy (ss_fields x_bads) gs fes /\
  has_entries (grammar_s xsy (ss_shape x_bads) gs) (ss_attrs x_bads) xs /\ given_again "crate" sp xs.
Proof. exact xt_s_again. Qed.
Example C110_variant_ex : let env := lexer_env in snake_ok xt_v /\
  exists sp xs, fields_read xsy (sv_fields xt_v) [] [] /\ has_entries (grammar_v xt_v []) (sv_attrs xt_v) xs /\ given_again "skip" sp xs.
Proof. exact xt_v_again. Qed.
Example C110_enum_ex : let env := lexer_env in exists sp xs,
  written_enum xt_e /\ variants_read xsy (se_variants xt_e) [] [] /\ has_entries (grammar_e xsy) (se_attrs xt_e) xs /\
  flatten_faults [] [] [] [] /\ default_fault [] xs [] /\ given_again "crate" sp xs.
Proof. exact xt_e_again. Qed.
