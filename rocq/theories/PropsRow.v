(** C13: the result of a tuple struct on any input, malformed items included. *)
From Verif Require Import LemRow ExRow.
Local Open Scope string_scope.
Local Open Scope list_scope.

(** Every input is read as the items of the fields are, or has tokens although no field is parsed. *)
Theorem C13_struct_reading : forall (env : Env) V (s : sdef V) inputs, tuple_struct s -> fine_items s ->
  (exists ys stop sp, struct_read s inputs ys stop sp) \/ exists t, too_much s inputs t.
Proof. exact @l_struct_reads. Qed.
Print Assumptions C13_struct_reading.

(** The errors are, in this order: those of the items; the error that ended the reading; those of
    the fields that no item is left for and that have no default, in order of declaration; those of
    the fields' and_then functions.  If there is none, every field has the value of its item, the
    object, its default or that of its type, passed through its functions, or the struct's default's,
    and the struct's and_then functions decide. *)
Theorem C13_struct_any_input : forall (env : Env) V (s : sdef V) tm m index p inputs ys stop sp,
  run_at s tm m index p -> tuple_struct s -> fine_items s -> struct_read s inputs ys stop sp ->
  let os := row_given (s_raw s) ys in
  let q := reported_at m sp in
  match failures_of ys ++ stop ++ row_lacking s tm index q os ++ row_refused s tm index q os with
  | [] => exists vs, row_values s tm index q os vs /\
      ((exists ws, chained (s_and_thens s) vs ws /\ fst (p inputs) = Ok ws) \/
       (exists e, chain_fails (s_and_thens s) vs e /\ fst (p inputs) = Err e))
  | x :: xs => fst (p inputs) = Err (mkSyn x xs)
  end.
Proof. exact @l_struct_row. Qed.
Print Assumptions C13_struct_any_input.

Theorem C13_struct_surplus : forall (env : Env) V (s : sdef V) tm m index p inputs t,
  run_at s tm m index p -> tuple_struct s -> fine_items s -> too_much s inputs t ->
  fst (p inputs) = Err (mkSyn (mkErr (tok_span t) ("unexpected token `" ++ env_show t ++ "`")%string) []).
Proof. exact @l_struct_surplus. Qed.
Print Assumptions C13_struct_surplus.

(** struct R(i32, #[deluxe(skip)] i32, i32, #[deluxe(default = "d")] String, i32) from the streams
    `true` and `1 2`; the number of the last field counts the skipped one.
    struct N(#[deluxe(skip)] i32) from `, x`. *)
Example C13_struct_any_ex :
  tuple_struct xr /\ fine_items xr /\
  struct_read xr xr_inputs
    [(d_item i32 Unnamed, mkElem xr_in1 [] SCall); (d_item i32 Unnamed, mkElem xr_in2 [] SCall)]
    [mkErr (SAt 2) "expected `,`"] (joined [SCall; SAt 2]) /\
  run_at xr TMeta (Named (SAt 9)) 3 (fu_parse (struct_fu xr) (Named (SAt 9)) 3) /\
  fst (d_inline (struct_dict xr) Unnamed xr_inputs) =
    Err (mkSyn (mkErr (SAt 0) "expected integer literal")
           [mkErr (SAt 2) "expected `,`"; mkErr SCall "missing required field 4"]) /\
  fst (fu_parse (struct_fu xr) (Named (SAt 9)) 3 xr_inputs) =
    Err (mkSyn (mkErr (SAt 0) "expected integer literal")
           [mkErr (SAt 2) "expected `,`"; mkErr (SAt 9) "missing required field 7"]).
Proof.
  split; [apply xr_ok|]. split; [apply xr_ok|]. split; [exact xr_read|]. split; [constructor|]. vm_compute. auto.
Qed.
Example C13_struct_surplus_ex :
  tuple_struct xn /\ fine_items xn /\ too_much xn [root_stream xn_in] (TIdent "x" (SAt 2)) /\
  run_at xn TMeta Unnamed 0 (d_inline (struct_dict xn) Unnamed) /\
  fst (d_inline (struct_dict xn) Unnamed [root_stream xn_in]) = Err (mkSyn (mkErr (SAt 2) "unexpected token `x`") []).
Proof.
  split; [apply xn_ok|]. split; [apply xn_ok|]. split.
  { apply (TM xn _ [] (root_stream xn_in) [] (TIdent "x" (SAt 2))); [reflexivity..|apply Forall_nil|].
    exists []. right. exists (TPunct "," false (SAt 0)). split; [|reflexivity]. exists false, (SAt 0). reflexivity. }
  split; [constructor; reflexivity|]. vm_compute. reflexivity.
Qed.
