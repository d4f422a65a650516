(** C13, C65: the result of the item of a tuple struct, and of what follows the name of a variant, on
    any input. *)
From Verif Require Import LemVItem ExEnum ExColl ExStop ExRow.
Local Open Scope string_scope.
Local Open Scope list_scope.

(** ** C13 Between the parentheses of a tuple struct *)
(** The item is all that is between the parentheses: the result is that of C13, except that nothing,
    or a comma, must be left behind the item of the last field; the result is the only one that
    [row_content] allows, and reading goes on behind the parentheses. *)
Theorem C13_struct_item : forall (env : Env) V (s : sdef V) m st ts gsp rest,
  tuple_struct s -> fine_items s -> s_is_transparent s = false -> toks st = TGroup Paren ts gsp :: rest ->
  (forall r, row_content s TMeta m 0 (mkStream ts (SClose gsp) (cell st)) r <-> r = fst (d_item (struct_dict s) m st)) /\
  toks (snd (d_item (struct_dict s) m st)) = rest.
Proof. exact @l_row_item. Qed.
Print Assumptions C13_struct_item.

(** ** C65 What follows the name of a variant *)
(** What follows the name decides: after `=` there must be braces (named fields) or parentheses (the
    others); parentheses may follow directly; otherwise the variant is read from nothing, if all its
    fields may be left out, and its first error is moved to the name. *)
Theorem C65_any_input : forall (env : Env) V tm (v : vdef V) prefix ksp s, known_variant tm v ->
  variant_item v tm prefix ksp s (fst (v_named v tm prefix ksp s)).
Proof. exact @l_variant_any. Qed.
Print Assumptions C65_any_input.

(** the struct of C13_struct_any_ex, written `(1, 2, "x", 4 5)` *)
Example C13_item_ex :
  tuple_struct xr /\ fine_items xr /\ s_is_transparent xr = false /\
  fst (d_item (struct_dict xr) Unnamed (mkStream (tk "(1, 2, ""x"", 4 5)") SCall None)) =
    Err (mkSyn (mkErr (SAt 14) "unexpected token `5`") []).
Proof. split; [apply xr_ok|]. split; [apply xr_ok|]. split; [reflexivity|]. vm_compute. reflexivity. Qed.

(** variants B(i32, #[deluxe(default = 7)] i32), N { s: i32, o: Option<i32> } and U *)
Example C65_any_ex :
  let b := mkVariant "B" ["b"] ShUnnamed [pos i32; posd i32 (VI 7)] false false false false in
  let n := mkVariant "N" ["n"] ShNamed [it "s" i32; it "o" (opt_ i32)] false false false false in
  let u := mkVariant "U" ["u"] ShUnit ([] : list (field val)) false false false false in
  let run v str := fst (v_named v TMeta "" (SAt 99) (mkStream (tk str) (SAt 98) None)) in
  known_variant TMeta b /\ known_variant TMeta n /\ known_variant TMeta u /\
  run b "(1, 2 3)" = Err (mkSyn (mkErr (SAt 6) "unexpected token `3`") []) /\
  run b "(1 2)" = Err (mkSyn (mkErr (SAt 3) "expected `,`") []) /\
  run b "= [1]" = Err (mkSyn (mkErr (SOpen (SAt 2)) "expected parentheses") []) /\
  run b "()" = Err (mkSyn (mkErr (SAt 99) "missing required field 0") []) /\
  run b "(3)" = Ok [VI 3; VI 7] /\
  run n "" = Err (mkSyn (mkErr (SAt 99) "missing required field `s`") []) /\
  run n "= {s = 1, x = 2}" = Err (mkSyn (mkErr (SAt 10) "unknown field `x`") []) /\
  run u "(x)" = Err (mkSyn (mkErr (SAt 1) "unexpected token `x`") []).
Proof.
  cbv zeta. split; [|split; [|split]].
  - split; [split; [split; [ga|split; [ga|split; ga0]]|split; reflexivity]|].
    repeat (apply Forall_cons; [intros d _ E; injection E as <-; apply fine_i32|]). apply Forall_nil.
  - split; [split; [split; [ga; apply good_opt|split; [ga|split; ga0]]|split; reflexivity]|].
    split; [fxl|]. repeat (apply Forall_cons; [apply keeps_fine; cbn; auto using fine_i32, fine_opt_|]). apply Forall_nil.
  - split; [split; [split; [ga|split; [ga|split; ga0]]|split; reflexivity]|]. exact I.
  - vm_compute. repeat split.
Qed.
