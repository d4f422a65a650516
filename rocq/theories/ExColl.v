(** Concrete inputs for the examples and counterexamples of PropsColl.v. *)
From Verif Require Export ExStruct LemPunct.

(** the items of a lexed input, computed by [items] *)
Lemma hold_tk txt : hold [root_stream (tk txt)] (items (tk txt)).
Proof. pose proof (hold_of [root_stream (tk txt)]) as H. unfold root_stream in *. now rewrite items_of_one in H. Qed.
Lemma group_tk dl s ts gsp rest : toks s = TGroup dl ts gsp :: rest -> group_of dl s (items ts).
Proof. intro H. exists ts, gsp, rest. split; auto using listed_of. Qed.
Lemma fine_vec_ d : fine d -> fine (vec_ d).
Proof. intro F. apply fine_map, fine_vec; apply F. Qed.

Definition ex_tuple : sdef val := tuple [pos i32; posd string_ (VT "d")].
Definition ex_tuple_in : stream := root_stream (tk "(1, ""x"",)").
Lemma ex_tuple_ok :
  tuple_struct ex_tuple /\ fine_items ex_tuple /\ Forall uniform_missing (s_raw ex_tuple) /\
  s_is_transparent ex_tuple = false /\ existsb is_parsable (s_raw ex_tuple) = true /\
  (exists a b, group_of Paren ex_tuple_in [a; b]) /\
  fst (d_item (struct_dict ex_tuple) Unnamed ex_tuple_in) = Ok [VI 1; VT "x"] /\
  fst (d_item (struct_dict ex_tuple) Unnamed (root_stream (tk "(1)"))) = Ok [VI 1; VT "d"] /\
  is_ok (fst (d_item (struct_dict ex_tuple) Unnamed (root_stream (tk "()")))) = false /\
  is_ok (fst (d_item (struct_dict ex_tuple) Unnamed (root_stream (tk "(1, ""x"", 2)")))) = false.
Proof.
  refine (conj _ (conj _ (conj _ (conj eq_refl (conj eq_refl (conj _ (conj _ (conj _ (conj _ _))))))))).
  - split; [|split; [reflexivity|split; [reflexivity|discriminate]]]. split; [|discriminate]. unfold ex_tuple. cbn [s_shape s_raw tuple]. ga.
  - repeat (apply Forall_cons; [intros d _ H; injection H as <-; auto using fine_i32, fine_str|]). apply Forall_nil.
  - repeat (apply Forall_cons; [intros d n sp w n' sp' H; injection H as <-; intro X; discriminate X|]). apply Forall_nil.
  - let x := eval vm_compute in (toks ex_tuple_in) in
    match x with TGroup _ ?ts ?g :: ?r =>
      let y := eval vm_compute in (items ts) in
      match y with [?a; ?b] => exists a, b; exact (group_tk Paren ex_tuple_in ts g r eq_refl) end end.
  - vm_compute. reflexivity.
  - vm_compute. reflexivity.
  - vm_compute. reflexivity.
  - vm_compute. reflexivity.
Qed.

(** `true, 1 2` for i32 elements: only the missing comma is reported *)
Definition ex_lost : list stream := [root_stream (tk "true, 1 2")].
Lemma ex_vec_lost : exists (env : Env) A (d : dict A) p inputs x e e',
  fine d /\ vec_parser d p /\ In x (elems inputs) /\
  fst (d_item d Unnamed (at_elem x)) = Err e /\ fst (p inputs) = Err e' /\
  forall m, In m (map e_msg (errs_of e')) -> ~ In m (map e_msg (errs_of e)).
Proof.
  exists lexer_env, val, i32, (d_inline (vec_dict i32) Unnamed), ex_lost, (hd (mkElem [] [] SCall) (elems ex_lost)).
  eexists _, _. refine (conj fine_i32 (conj (VP_inline i32 Unnamed) (conj _ (conj _ (conj _ _))))).
  - left. reflexivity.
  - vm_compute. reflexivity.
  - vm_compute. reflexivity.
  - vm_compute. intuition congruence.
Qed.
Lemma ex_set_lost : exists (env : Env) A eqb (d : dict A) p inputs x e e',
  fine d /\ set_parser eqb d p /\ In x (elems inputs) /\
  fst (d_item d Unnamed (at_elem x)) = Err e /\ fst (p inputs) = Err e' /\
  forall m, In m (map e_msg (errs_of e')) -> ~ In m (map e_msg (errs_of e)).
Proof.
  exists lexer_env, val, veq, i32, (d_inline (set_dict veq i32) Unnamed), ex_lost, (hd (mkElem [] [] SCall) (elems ex_lost)).
  eexists _, _. refine (conj fine_i32 (conj (SP_inline veq i32 Unnamed) (conj _ (conj _ (conj _ _))))).
  - left. reflexivity.
  - vm_compute. reflexivity.
  - vm_compute. reflexivity.
  - vm_compute. intuition congruence.
Qed.
Definition ex_map_lost_in : list stream := [root_stream (tk """a"" = true, 1 = 2")].
Lemma ex_map_lost : exists (env : Env) K A eqb kstr (dk : dict K) (dv : dict A) p inputs x e e',
  fine dk /\ fine dv /\ map_parser eqb kstr dk dv p /\ In x (elems inputs) /\
  fst (map_entry kstr dk dv (at_elem x)) = Err e /\ fst (p inputs) = Err e' /\
  forall m, In m (map e_msg (errs_of e')) -> ~ In m (map e_msg (errs_of e)).
Proof.
  exists lexer_env, val, val, veq, vstr, string_, i32, (d_inline (map_dict veq vstr string_ i32) Unnamed),
    ex_map_lost_in, (hd (mkElem [] [] SCall) (elems ex_map_lost_in)).
  eexists _, _. refine (conj fine_str (conj fine_i32 (conj (MP_inline veq vstr string_ i32 Unnamed) (conj _ (conj _ (conj _ _)))))).
  - left. reflexivity.
  - vm_compute. reflexivity.
  - vm_compute. reflexivity.
  - vm_compute. intuition congruence.
Qed.
Lemma str_keys : nonempty_keys string_.
Proof. intros tl sc c E. tailcase E; [eexists; reflexivity|]. destruct r as [|[] r]; eexists; reflexivity. Qed.
Lemma path_keys : nonempty_keys path_.
Proof. intros tl sc c E. tailcase E; [eexists; reflexivity|]. destruct r as [|[] r]; eexists; reflexivity. Qed.

(** `(1, 2)` for Option<Vec<i32>> *)
Lemma ex_option_paren : exists (env : Env) A (d : dict A) n sp s v e,
  fine d /\ fst (d_named d n sp s) = Ok v /\ fst (d_named (option_dict d) n sp s) = Err e.
Proof.
  exists lexer_env, (list val), (vec_dict i32), "n", SCall, (root_stream (tk "(1, 2)")).
  eexists _, _. refine (conj (fine_vec i32 (fi_good i32 fine_i32) (fi_unaware i32 fine_i32)) (conj _ _)); vm_compute; reflexivity.
Qed.

(** an `append` and a `rest` field *)
Definition ex_app : sdef val := named [it "a" i32; fld "v" ["v"; "w"] (KAppend (append_ i32)) None].
Definition ex_app_in : list stream := [root_stream (tk "v = 1, a = 1, w = 3"); root_stream (tk "v(2)")].
Definition ex_rest : sdef val := named [it "a" i32; fld "m" ["m"] (KRest (rest_ path_ i32)) None].
Definition ex_rest_in : list stream := [root_stream (tk "b = 2, a = 1, c(3)")].
Lemma fine_path_ : fine path_.
Proof. apply fine_map, fine_syn; [exact wb_path|exact ub_path|exact lc_path|exact kp_path]. Qed.
Lemma good_path_ : good_dict path_. Proof. apply fine_path_. Qed.
Lemma good_append_ d : good_dict d -> good_multi (append_ d).
Proof. intros G l. unfold append_. apply wbm_map. now apply good_vec_append. Qed.
Lemma good_rest_ dk dv : good_dict dk -> good_dict dv -> good_multi (rest_ dk dv).
Proof. intros G G' l. unfold rest_. apply wbm_map. now apply good_map_rest. Qed.
Lemma ex_app_named : named_struct ex_app.
Proof.
  split; [|split; [reflexivity|discriminate]]. split; [|discriminate]. unfold ex_app. cbn [s_shape s_raw named].
  ga; now apply good_append_, good_i32.
Qed.
Lemma ex_rest_named : named_struct ex_rest.
Proof.
  split; [|split; [reflexivity|discriminate]]. split; [|discriminate]. unfold ex_rest. cbn [s_shape s_raw named].
  ga; now apply good_rest_; [apply good_path_|apply good_i32].
Qed.
Lemma ex_app_local : Forall local_field (s_raw ex_app).
Proof. apply Forall_cons; [eapply fine_field_k; [reflexivity|apply fine_i32]|]. apply Forall_cons; [intro H; discriminate H|apply Forall_nil]. Qed.
Lemma ex_rest_local : Forall local_field (s_raw ex_rest).
Proof. apply Forall_cons; [eapply fine_field_k; [reflexivity|apply fine_i32]|]. apply Forall_cons; [intro H; discriminate H|apply Forall_nil]. Qed.
Lemma ex_append : named_struct ex_app /\ Forall local_field (s_raw ex_app) /\
  nth_error (s_raw ex_app) 1 = Some (fld "v" ["v"; "w"] (KAppend (fun ps => pmap VL (vec_append i32 ps))) None) /\
  parse_run ex_app TMeta "" true (SAt 0) ex_app_in (Ok [VI 1; VL [VI 1; VI 3; VI 2]]).
Proof.
  refine (conj ex_app_named (conj ex_app_local (conj eq_refl _))).
  exact (run_list ex_app (Named (SAt 0)) ex_app_in eq_refl).
Qed.
Lemma ex_rests : named_struct ex_rest /\ Forall local_field (s_raw ex_rest) /\ fine path_ /\ nonempty_keys path_ /\
  nth_error (s_raw ex_rest) 1 = Some (fld "m" ["m"] (KRest (fun ex => pmap pmap_val (map_rest veq vstr path_ i32 ex))) None) /\
  parse_run ex_rest TMeta "" false (SAt 0) ex_rest_in (Ok [VI 1; VM [("b", VI 2); ("c", VI 3)]]).
Proof.
  refine (conj ex_rest_named (conj ex_rest_local (conj fine_path_ (conj path_keys (conj eq_refl _))))).
  exact (run_list ex_rest (Named (SAt 0)) ex_rest_in eq_refl).
Qed.
(** `m = 1` with a rest field called `m` *)
Lemma ex_rest_own : exists (env : Env) (s : sdef val) inputs ws f r,
  named_struct s /\ Forall local_field (s_raw s) /\ nth_error (s_raw s) 1 = Some f /\
  is_parsable f = true /\ f_kind f = KRest r /\
  parse_run s TMeta "" false SCall inputs (Ok ws) /\
  keys_in inputs = [("a", SAt 0); ("m", SAt 7)] /\
  (forall i g, nth_error (s_raw s) i = Some g -> pitem g = true -> ~ named_by "" g "m") /\
  nth_error ws 1 = Some (VM []).
Proof.
  pose (ins := [root_stream (tk "a = 1, m = 2")]).
  exists lexer_env, ex_rest, ins, [VI 1; VM []], (fld "m" ["m"] (KRest (rest_ path_ i32)) None), (rest_ path_ i32).
  refine (conj ex_rest_named (conj ex_rest_local (conj eq_refl (conj eq_refl (conj eq_refl (conj _ (conj _ (conj _ eq_refl)))))))).
  - exact (run_list ex_rest (Named SCall) ins eq_refl).
  - vm_compute. reflexivity.
  - intros [|[|[|i]]] g H P [n [N E]]; cbn in H; try discriminate H; injection H as <-; [|discriminate P].
    destruct N as [<-|[]]. discriminate E.
Qed.
(** `p::a = 1` with a struct flattened under the prefix `p` *)
Lemma ex_rest_prefix : exists (env : Env) (s : sdef val) inputs ws f g r,
  named_struct s /\ Forall local_field (s_raw s) /\
  nth_error (s_raw s) 0 = Some g /\ pitem g = true /\ named_by "p::" g "p::a" /\
  nth_error (s_raw s) 1 = Some f /\ is_parsable f = true /\ f_kind f = KRest r /\
  parse_run s TMeta "p::" false SCall inputs (Ok ws) /\
  nth_error ws 1 = Some (VM [("p::a", VI 1)]).
Proof.
  pose (ins := [root_stream (tk "p::a = 1")]).
  exists lexer_env, ex_rest, ins, [VI 1; VM [("p::a", VI 1)]], (fld "m" ["m"] (KRest (rest_ path_ i32)) None), (it "a" i32), (rest_ path_ i32).
  refine (conj ex_rest_named (conj ex_rest_local (conj eq_refl (conj eq_refl (conj _ (conj eq_refl (conj eq_refl (conj eq_refl (conj _ eq_refl))))))))).
  - exists "a". split; [left; reflexivity|reflexivity].
  - exact (R_flatten ex_rest (Named SCall) "p::" false ins).
Qed.

(** `["a", "b"]` for Punctuated<String, Token![,]> *)
Lemma ex_punct : exists (env : Env) A (d : dict A) segs vs m s e,
  fine d /\ group_of Bracket s segs /\ Forall2 (accepts (d_item d Unnamed)) segs vs /\
  fst (d_item (punctuated_dict comma_c d) m s) = Err e.
Proof.
  exists lexer_env, val, string_.
  pose (s := root_stream (tk "[""a"", ""b""]")).
  let x := eval vm_compute in (toks s) in
  match x with TGroup _ ?ts ?g :: ?r =>
    let y := eval vm_compute in (items ts) in exists y, [VT "a"; VT "b"], Unnamed, s;
    eexists; refine (conj fine_str (conj (group_tk Bracket s ts g r eq_refl) (conj _ _))) end.
  - repeat (apply Forall2_cons; [intros tl sc c E; split; reflexivity|]). apply Forall2_nil.
  - vm_compute. reflexivity.
Qed.

(** SpannedValue<Option<i32>>, absent *)
Lemma ex_spanned_missing : exists (env : Env) A (d : dict A) n sp v e,
  d_missing d n sp = Ok v /\ d_missing (spanned_dict d) n sp = Err e.
Proof. exists lexer_env, (option val), (option_dict i32), "n", SCall. eexists _, _. split; reflexivity. Qed.
(** the span in a SpannedValue<bool> depends on what follows the value *)
Lemma ex_spanned_next : exists (env : Env) A (d : dict A) body v v' tl tl',
  usable _ (spanned_dict d) /\ no_comma body /\ ends tl /\ ends tl' /\
  fst (d_item (spanned_dict d) Unnamed (root_stream (body ++ tl))) = Ok v /\
  fst (d_item (spanned_dict d) Unnamed (root_stream (body ++ tl'))) = Ok v' /\ v <> v'.
Proof.
  exists lexer_env, bool, bool_dict, [TIdent "true" (SAt 0)], (true, SAt 5), (true, SAt 6),
    [TPunct comma_c false (SAt 5)], [TPunct comma_c false (SAt 6)].
  refine (conj _ (conj _ (conj _ (conj _ (conj eq_refl (conj eq_refl _)))))).
  - apply Us_spanned, Us_regular, Im_bool.
  - apply nc_cons. split; [reflexivity|constructor].
  - apply ends_cons. reflexivity.
  - apply ends_cons. reflexivity.
  - discriminate.
Qed.
Lemma ex_regular : regular _ (struct_dict ex_s) /\ regular _ (vec_dict (option_dict (vec_dict (int_dict k_i32)))).
Proof.
  split.
  - apply Im_struct; [|discriminate|discriminate]. intros f I.
    assert (O : usable _ i32 /\ usable _ string_ /\ usable _ (opt_ i32)).
    { refine (conj _ (conj _ _)); [apply Us_convert, Us_regular, Im_int|apply Us_convert, Us_regular, Im_string|].
      apply Us_convert, Us_regular, Im_option, Im_convert, Im_int. }
    destruct O as [O1 [O2 O3]].
    repeat (destruct I as [<-|I]; [apply Ft_item; assumption|]). destruct I.
  - apply Im_vec, Us_regular, Im_option, Im_vec, Us_regular, Im_int.
Qed.
