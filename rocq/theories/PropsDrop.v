(** C13, C14, C16, C17, C18, C25, C26, C87: the result of a collection on any input, malformed
    elements included. *)
From Verif Require Import LemDrop4 ExDrop ExFSource.
Local Open Scope string_scope.
Local Open Scope list_scope.

(** ** C16 Vec *)
Theorem C16_any_input : forall (env : Env) A (d : dict A) p inputs r, fine d -> vec_parser d p ->
  fst (p inputs) = r <-> vec_result d (elems inputs) r.
Proof. exact @l_vec_any. Qed.
Print Assumptions C16_any_input.
(** `1, true, x y, 4`: two errors.  `1, true, 2 3, 4`: one, at the `3`. *)
Example C16_any_ex :
  fine i32 /\
  fst (d_inline (vec_dict i32) Unnamed [root_stream dr_vec2]) =
    Err (mkSyn (mkErr (SAt 3) "expected integer literal") [mkErr (SAt 9) "expected integer literal"]) /\
  fst (d_inline (vec_dict i32) Unnamed [root_stream dr_vec]) = Err (mkSyn (mkErr (SAt 11) "expected `,`") []).
Proof. split; [exact fine_i32|]. vm_compute. auto. Qed.

(** ** C17 Sets *)
Theorem C17_any_input : forall (env : Env) A eqb (d : dict A) p inputs r, fine d -> set_parser eqb d p ->
  fst (p inputs) = r <-> set_result eqb d (elems inputs) r.
Proof. exact @l_set_any. Qed.
Print Assumptions C17_any_input.
Example C17_any_ex :
  fine path_ /\
  fst (d_inline (set_dict veq path_) Unnamed [root_stream dr_set]) =
    Err (mkSyn (mkErr (SAt 4) "Duplicate key") [mkErr (SAt 6) "expected path"]).
Proof. split; [exact fine_path_|]. vm_compute. auto. Qed.

(** ** C18 Maps *)
Theorem C18_any_input : forall (env : Env) K A eqb kstr (dk : dict K) (dv : dict A) p inputs r,
  fine dk -> fine dv -> map_parser eqb kstr dk dv p ->
  fst (p inputs) = r <-> map_result eqb kstr dk dv (elems inputs) r.
Proof. exact @l_map_any. Qed.
Print Assumptions C18_any_input.
(** `a = 1, b = true, a = 2` and `b = true, a = 2, 3, c` *)
Example C18_any_ex :
  fine path_ /\ fine i32 /\
  fst (d_inline (map_dict veq vstr path_ i32) Unnamed [root_stream dr_map]) =
    Err (mkSyn (mkErr (SAt 11) "expected integer literal") [mkErr (SAt 19) "Duplicate key"]) /\
  fst (d_inline (map_dict veq vstr path_ i32) Unnamed [root_stream dr_map2]) =
    Err (mkSyn (mkErr (SAt 17) "expected path") []).
Proof. split; [exact fine_path_|]. split; [exact fine_i32|]. vm_compute. auto. Qed.

(** ** C26 Rest maps *)
Theorem C26_any_input : forall (env : Env) K A eqb kstr (dk : dict K) (dv : dict A) exclude,
  fine dk -> fine dv -> forall inputs r,
  fst (map_rest eqb kstr dk dv exclude inputs) = r <-> rest_result eqb kstr dk dv exclude (elems inputs) r.
Proof. exact @l_rest_any. Qed.
Print Assumptions C26_any_input.
(** `b = 1, a = 1 2, x = 4, b = 2` and `b = 1, a = 1 2, x = y, b = 2`, without `a` *)
Example C26_any_ex :
  fine path_ /\ fine i32 /\
  fst (map_rest veq vstr path_ i32 ["a"] [root_stream dr_rest2]) = Err (mkSyn (mkErr (SAt 25) "Duplicate key") []) /\
  fst (map_rest veq vstr path_ i32 ["a"] [root_stream dr_rest]) = Err (mkSyn (mkErr (SAt 20) "expected `,`") []).
Proof. split; [exact fine_path_|]. split; [exact fine_i32|]. vm_compute. auto. Qed.

(** ** C25 Append fields *)
(** Every input is read up to its end, or up to the first item that has no key, or up to the
    first value after which tokens are left. *)
Theorem C25_reading : forall (env : Env) A (d : dict A) names, fine d -> forall inputs,
  exists ys stop, append_reading d names (elems inputs) ys stop.
Proof. exact @l_append_reading. Qed.
Print Assumptions C25_reading.
Theorem C25_vec_any_input : forall (env : Env) A (d : dict A) names, fine d -> forall inputs ys stop,
  append_reading d names (elems inputs) ys stop ->
  fst (vec_append d names inputs) = outcome (failures_of ys ++ stop) (values_of ys).
Proof. exact @l_vec_append_any. Qed.
Print Assumptions C25_vec_any_input.
(** A set drops the errors collected when the reading breaks off. *)
Theorem C25_set_any_input : forall (env : Env) A eqb (d : dict A) names, fine d -> forall inputs ys stop,
  append_reading d names (elems inputs) ys stop ->
  fst (set_append eqb d names inputs) =
  match stop with
  | [] => outcome (set_errors_of eqb [] ys) (once eqb [] (values_of ys))
  | e :: es => Err (mkSyn e es)
  end.
Proof. exact @l_set_append_any. Qed.
Print Assumptions C25_set_any_input.
(** `a = 1, b = true, c, a = 2 3, a = 4` *)
Example C25_any_ex :
  fine i32 /\
  fst (vec_append i32 ["a"; "b"] [root_stream dr_app]) =
    Err (mkSyn (mkErr (SAt 11) "expected integer literal") [mkErr (SAt 26) "expected `,`"]) /\
  fst (set_append veq i32 ["a"; "b"] [root_stream dr_app]) = Err (mkSyn (mkErr (SAt 26) "expected `,`") []).
Proof. split; [exact fine_i32|]. vm_compute. auto. Qed.

(** ** C13, C14 Tuples and arrays *)
(** Every input is read up to the last value, or up to its end, or up to the first element that
    tokens are left of. *)
Theorem C13_reading : forall (env : Env) A (ds : list (dict A)) inputs, Forall fine ds ->
  exists ys stop sp, row_read ds inputs ys stop sp.
Proof. exact @l_row. Qed.
Print Assumptions C13_reading.
Theorem C13_any_input : forall (env : Env) A (ds : list (dict A)) p inputs ys stop sp,
  Forall fine ds -> tuple_parser ds p -> row_read ds inputs ys stop sp ->
  fst (p inputs) =
  row_result (length ds) (fun k => ("Expected tuple of length " ++ show_nat (length ds) ++ ", got " ++ show_nat k)%string)
    ys stop sp.
Proof. exact @l_tuple_any. Qed.
Print Assumptions C13_any_input.
Theorem C14_any_input : forall (env : Env) A N (d : dict A) index p inputs ys stop sp,
  fine d -> array_parser_at N d index p -> row_read (repeat d N) inputs ys stop sp ->
  fst (p inputs) =
  row_result N (fun k => ("Expected array at index " ++ show_nat index ++ " of length " ++ show_nat N ++ ", got " ++ show_nat k)%string)
    ys stop sp.
Proof. exact @l_array_any. Qed.
Print Assumptions C14_any_input.
(** `true, 1 2, 3`, `true, 1, 2 3` (what follows the last element is left to the caller) and
    `true, 1` *)
Example C13_any_ex :
  Forall fine [i32; i32; i32] /\
  fst (d_inline (tuple_dict [i32; i32; i32]) Unnamed [root_stream dr_row2]) =
    Err (mkSyn (mkErr (SAt 0) "expected integer literal")
           [mkErr (SAt 8) "expected `,`"; mkErr (SAt 8) "Expected tuple of length 3, got 2"]) /\
  fst (d_inline (tuple_dict [i32; i32; i32]) Unnamed [root_stream dr_row]) =
    Err (mkSyn (mkErr (SAt 0) "expected integer literal") []).
Proof. split; [repeat (apply Forall_cons; [exact fine_i32|]); apply Forall_nil|]. vm_compute. auto. Qed.
Example C14_any_ex :
  fine i32 /\ array_parser_at 3 i32 4 (fu_parse (array_fu 3 i32) Unnamed 4) /\
  fst (fu_parse (array_fu 3 i32) Unnamed 4 [root_stream dr_row2]) =
    Err (mkSyn (mkErr (SAt 0) "expected integer literal")
           [mkErr (SAt 8) "expected `,`"; mkErr (SAt 8) "Expected array at index 4 of length 3, got 2"]) /\
  fst (d_inline (array_dict 3 i32) Unnamed [root_stream dr_row3]) =
    Err (mkSyn (mkErr (SAt 0) "expected integer literal")
           [mkErr SCall "Expected array at index 0 of length 3, got 2"]).
Proof. split; [exact fine_i32|]. split; [constructor|]. vm_compute. auto. Qed.

(** ** C87 An element that is not accepted is reported by its own errors *)
(** Arrays and tuples: whatever follows. *)
Theorem C87_tuple : forall (env : Env) A (ds : list (dict A)) p inputs i d x e, Forall fine ds -> tuple_parser ds p ->
  nth_error ds i = Some d -> nth_error (elems inputs) i = Some x -> fst (d_item d Unnamed (at_elem x)) = Err e ->
  (forall j d' x', j < i -> nth_error ds j = Some d' -> nth_error (elems inputs) j = Some x' -> clean (d_item d' Unnamed) x') ->
  exists e', fst (p inputs) = Err e' /\ incl (errs_of e) (errs_of e').
Proof. exact @l_tuple_reported. Qed.
Print Assumptions C87_tuple.
Theorem C87_array : forall (env : Env) A N (d : dict A) p inputs i x e, fine d -> array_parser N d p ->
  i < N -> nth_error (elems inputs) i = Some x -> fst (d_item d Unnamed (at_elem x)) = Err e ->
  (forall j x', j < i -> nth_error (elems inputs) j = Some x' -> clean (d_item d Unnamed) x') ->
  exists e', fst (p inputs) = Err e' /\ incl (errs_of e) (errs_of e').
Proof. exact @l_array_reported. Qed.
Print Assumptions C87_array.
(** Append to a Vec: whatever follows. *)
Theorem C87_append : forall (env : Env) A (d : dict A) names inputs ys stop p x e, fine d ->
  append_reading d names (elems inputs) ys stop -> In (p, x) ys -> fst (p (at_elem x)) = Err e ->
  exists e', fst (vec_append d names inputs) = Err e' /\ incl (errs_of e) (errs_of e').
Proof. exact @l_append_reported. Qed.
Print Assumptions C87_append.
(** A Vec: if tokens are left after none of the elements. *)
Theorem C87_vec_partial : forall (env : Env) A (d : dict A) p inputs a x b e, fine d -> vec_parser d p ->
  elems inputs = a ++ x :: b -> fst (d_item d Unnamed (at_elem x)) = Err e ->
  Forall (clean (d_item d Unnamed)) (elems inputs) ->
  exists e', fst (p inputs) = Err e' /\ incl (errs_of e) (errs_of e').
Proof. exact @l_vec_reported. Qed.
Print Assumptions C87_vec_partial.
(** A rest map does not do so even for a single entry that is well formed: for `x = y` and
    numbers only the missing comma is reported. *)
Theorem C87_rest_refuted : exists (env : Env) K A eqb kstr (dk : dict K) (dv : dict A) inputs x e,
  fine dk /\ fine dv /\ elems inputs = [x] /\
  (exists k, fst (d_item dk Unnamed (at_elem x)) = Ok k) /\
  fst (map_entry kstr dk dv (at_elem x)) = Err e /\
  exists e', fst (map_rest eqb kstr dk dv [] inputs) = Err e' /\ forall y, In y (errs_of e) -> ~ In y (errs_of e').
Proof.
  exists lexer_env, val, val, veq, vstr, path_, i32, [root_stream dr_rest3], (mkElem dr_rest3 [] SCall), (mkSyn (mkErr (SAt 4) "expected integer literal") []).
  split; [exact fine_path_|]. split; [exact fine_i32|]. split; [vm_compute; reflexivity|].
  split; [eexists; vm_compute; reflexivity|]. split; [vm_compute; reflexivity|].
  eexists. split; [vm_compute; reflexivity|]. intros y [<-|[]] [H|[]]. discriminate H.
Qed.
Print Assumptions C87_rest_refuted.
(** the second element of `true, 1 2, 3` stops the reading, the error of the first is kept *)
Example C87_ex :
  Forall fine [i32; i32; i32] /\ tuple_parser [i32; i32; i32] (d_inline (tuple_dict [i32; i32; i32]) Unnamed) /\
  option_map (fun x => fst (d_item i32 Unnamed (at_elem x))) (nth_error (elems [root_stream dr_row2]) 0) =
    Some (Err (mkSyn (mkErr (SAt 0) "expected integer literal") [])) /\
  append_reading i32 ["v"] (elems [root_stream dr_rest3]) [] [].
Proof.
  split; [repeat (apply Forall_cons; [exact fine_i32|]); apply Forall_nil|]. split; [constructor|]. split; [vm_compute; reflexivity|].
  apply AR_all; [|constructor]. eapply Oc_other; [vm_compute; reflexivity| |apply Oc_none]. cbn. intros [H|[]]. discriminate H.
Qed.
