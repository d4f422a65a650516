(** Concrete structs and inputs for the examples beside the theorems of PropsFlat.v:

    struct E { z: i32 }
    struct D { x: i32, #[deluxe(flatten(prefix = q))] e: E }
    struct C { x: i32, y: Option<i32> }
    struct P {
      a: i32,
      #[deluxe(flatten)] c: C,
      #[deluxe(flatten(prefix = p))] d: D,
      #[deluxe(append)] v: Vec<i32>,
    } *)
From Verif Require Export LemFlat2 ExColl.

Definition fx_e := named [it "z" i32].
Definition fx_d := named [it "x" i32; flatn "e" (Some "q") (sfn fx_e)].
Definition fx_c := named [it "x" i32; it "y" (opt_ i32)].
Definition fx_p := named [it "a" i32; flatn "c" None (sfn fx_c); flatn "d" (Some "p") (sfn fx_d);
                          fld "v" ["v"] (KAppend (append_ i32)) None].
Definition fx_in := [root_stream (tk "p::q::z = 4, v = 5, x = 2, a(1), p::x = 3, v = 6")].
Definition fx_vs := [VI 1; VS [VI 2; VO None]; VS [VI 3; VS [VI 4]]; VL [VI 5; VI 6]].

Lemma fx_local (fs : list (field val)) :
  (forall f, In f fs -> match f_kind f with KItem d => fine d | _ => True end) -> Forall local_field fs.
Proof. intro H. apply Forall_forall. intros f I. apply fine_field. specialize (H f I). destruct (f_kind f); auto. Qed.
Ltac fxl := apply fx_local; intros f I; repeat (destruct I as [<-|I]; [cbn; auto using fine_i32, fine_opt_|]); destruct I.
Lemma fx_e_local : Forall local_field (s_raw fx_e). Proof. fxl. Qed.
Lemma fx_d_local : Forall local_field (s_raw fx_d). Proof. fxl. Qed.
Lemma fx_c_local : Forall local_field (s_raw fx_c). Proof. fxl. Qed.
Lemma fx_p_local : Forall local_field (s_raw fx_p). Proof. fxl. Qed.
Ltac fxn := refine (conj (conj _ _) (conj eq_refl _)); [|discriminate|discriminate].
Lemma fx_e_named : named_struct fx_e. Proof. fxn. ga. Qed.
Lemma fx_c_named : named_struct fx_c. Proof. fxn. ga. apply good_opt_i32. Qed.
Lemma fx_e_good : good_fn (sfn fx_e). Proof. apply good_fn_map, good_struct_fn, fx_e_named. Qed.
Lemma fx_d_named : named_struct fx_d. Proof. fxn. ga. apply fx_e_good. Qed.
Lemma fx_p_named : named_struct fx_p.
Proof.
  fxn. repeat apply Forall_cons; try apply Forall_nil; unfold good_field; cbn.
  - ga0.
  - intros. apply good_fn_map, good_struct_fn, fx_c_named.
  - intros. apply good_fn_map, good_struct_fn, fx_d_named.
  - intros _ l. apply wbm_map. apply (good_vec_append i32 good_i32).
Qed.

Lemma pl_p : path_like "p". Proof. split; [discriminate|reflexivity]. Qed.
Lemma pl_q : path_like "q". Proof. split; [discriminate|reflexivity]. Qed.
Lemma fx_e_routes P : Forall (routes P) (s_raw fx_e).
Proof. repeat constructor. discriminate. Qed.
Lemma fx_c_routes P : Forall (routes P) (s_raw fx_c).
Proof. repeat (apply Forall_cons; [discriminate|]). apply Forall_nil. Qed.
Lemma fx_d_routes P : Forall (routes P) (s_raw fx_d).
Proof.
  apply Forall_cons; [discriminate|]. apply Forall_cons; [|apply Forall_nil]. intros _. cbn [f_kind flatn fld]. split; [apply pl_q|].
  apply l_by_keys_map, l_struct_by_keys; [apply fx_e_named|apply fx_e_local|apply is_prefix_like|apply fx_e_routes].
Qed.
Lemma fx_p_routes : Forall (routes "") (s_raw fx_p).
Proof.
  apply Forall_cons; [discriminate|]. apply Forall_cons; [|apply Forall_cons; [|apply Forall_cons; [|apply Forall_nil]]]; intros _; cbn [f_kind flatn fld].
  - split; auto. apply l_by_keys_map, l_struct_by_keys; [apply fx_c_named|apply fx_c_local|now left|apply fx_c_routes].
  - split; [apply pl_p|]. apply l_by_keys_map, l_struct_by_keys; [apply fx_d_named|apply fx_d_local|apply is_prefix_like|apply fx_d_routes].
  - apply (l_vec_append_keys i32 VL), fine_i32.
Qed.
Lemma fx_p_separate : separate fx_p.
Proof.
  intros i j f g n Ni Nj If Ig.
  assert (Q : forall k h, nth_error (s_raw fx_p) k = Some h ->
     (k = 0 /\ names_of h = ["a"]) \/ (k = 1 /\ names_of h = ["x"; "y"]) \/ (k = 2 /\ names_of h = ["p::x"; "p::q::z"]) \/ (k = 3 /\ names_of h = ["v"])).
  { intros [|[|[|[|[|k]]]]] h H; cbn in H; try discriminate; injection H as <-; cbn; tauto. }
  destruct (Q i f Ni) as [[-> E]|[[-> E]|[[-> E]|[-> E]]]]; destruct (Q j g Nj) as [[-> E']|[[-> E']|[[-> E']|[-> E']]]];
    auto; rewrite E in If; rewrite E' in Ig; cbn in If, Ig; intuition congruence.
Qed.
Lemma fx_p_run : exists sp, parse_run fx_p TMeta "" true sp fx_in (Ok fx_vs).
Proof.
  exists (to_full_span Unnamed fx_in).
  assert (E : fst (d_inline (struct_dict fx_p) Unnamed fx_in) = Ok fx_vs) by (vm_compute; reflexivity).
  rewrite <- E. exact (run_list fx_p Unnamed fx_in eq_refl).
Qed.

(** the same name in the parent and in the flattened child:
    struct O { x: i32, #[deluxe(flatten)] c: E2 }   struct E2 { x: i32 } *)
Definition fx_x := named [it "x" i32].
Definition fx_o := named [it "x" i32; flatn "c" None (sfn fx_x)].
Lemma fx_x_named : named_struct fx_x. Proof. fxn. ga. Qed.
Lemma fx_overlap : exists (env : Env) (s : sdef val) sp seg l vs i j fi fj vi vj,
  named_struct s /\ distinct_names s /\ parse_run s TMeta "" true sp l (Ok vs) /\ items_of l = [seg] /\
  i <> j /\ nth_error (s_raw s) i = Some fi /\ nth_error (s_raw s) j = Some fj /\
  field_part s TMeta "" sp (items_of l) i fi vi /\ field_part s TMeta "" sp (items_of l) j fj vj /\
  addressed "" (names_of fi) seg = true /\ addressed "" (names_of fj) seg = true /\
  nth_error vs i = Some vi /\ nth_error vs j = Some vj.
Proof.
  exists lexer_env, fx_o, (to_full_span Unnamed [root_stream (tk "x = 1")]), (tk "x = 1"), [root_stream (tk "x = 1")], [VI 1; VS [VI 1]], 0, 1,
    (it "x" i32), (flatn "c" None (sfn fx_x)), (VI 1), (VS [VI 1]).
  split; [|split; [|split; [|split; [|split; [|split; [|split; [|split; [|split; [|split; [|split; [|split]]]]]]]]]]]; try reflexivity; try discriminate.
  - fxn. ga. apply good_fn_map, good_struct_fn, fx_x_named.
  - intros [|[|i]] [|[|j]] f g n; cbn; auto; intros A B C D; try discriminate;
      try (injection A as <-; discriminate); try (injection B as <-; discriminate); try (destruct i; discriminate); try (destruct j; discriminate).
  - assert (E : fst (d_inline (struct_dict fx_o) Unnamed [root_stream (tk "x = 1")]) = Ok [VI 1; VS [VI 1]]) by (vm_compute; reflexivity).
    rewrite <- E. exact (run_list fx_o Unnamed _ eq_refl).
  - apply (FP_item fx_o TMeta "" _ _ 0 _ _ (tk "x = 1") (VI 1)); [reflexivity|reflexivity| |constructor].
    eexists "x", _, _. split; [vm_compute; reflexivity|]. split; [exists "x"; split; [left|]; reflexivity|].
    intros tl sc c En. inversion En; subst; eexists; split; reflexivity.
  - apply (FP_flat fx_o TMeta "" _ _ 1 _ _ [root_stream (tk "x = 1")] (VS [VI 1])); [reflexivity|reflexivity|vm_compute; reflexivity|constructor].
Qed.

(** flatten without a prefix inside of flatten with a prefix:
    struct T { #[deluxe(flatten(prefix = p))] m: M }   struct M { #[deluxe(flatten)] i: E2 } *)
Definition fx_m := named [flatn "i" None (sfn fx_x)].
Definition fx_t := named [flatn "m" (Some "p") (sfn fx_m)].
Lemma fx_t_named : named_struct fx_t.
Proof. fxn. ga. apply good_fn_map, good_struct_fn. split; [|discriminate]. ga. apply good_fn_map, good_struct_fn, fx_x_named. Qed.
Lemma fx_dropped : exists (env : Env) (s : sdef val) ts ts' n e e',
  named_struct s /\ s_names s = [("p::" ++ n)%string] /\
  (exists ksp body, item_key ts = Some ("p::" ++ n, ksp, body)%string) /\
  (exists ksp body, item_key ts' = Some (n, ksp, body)) /\
  fst (d_inline (struct_dict s) Unnamed [root_stream ts]) = Err e /\
  fst (d_inline (struct_dict s) Unnamed [root_stream ts']) = Err e' /\
  e_msg (se_hd e) = ("missing required field " ++ tick n)%string /\
  e_msg (se_hd e') = ("unknown field " ++ tick n)%string.
Proof.
  exists lexer_env, fx_t, (tk "p::x = 1"), (tk "x = 1"), "x". eexists _, _. split; [exact fx_t_named|]. split; [reflexivity|].
  split; [eexists _, _; vm_compute; reflexivity|]. split; [eexists _, _; vm_compute; reflexivity|].
  split; [vm_compute; reflexivity|]. split; [vm_compute; reflexivity|]. split; reflexivity.
Qed.

(** `p::x = 3, p::q::z = 4` and the same items with the keys `x` and `q::z` *)
Definition fx_body (n : N) : list token := [TPunct "=" false (SAt 8); TLit (LInt n) (SAt 9)].
Definition fx_sep (a : N) : list token := [TPunct ":" true (SAt a); TPunct ":" false (SAt a)].
Definition fx_segs : list (list token) :=
  [TIdent "p" (SAt 1) :: fx_sep 2 ++ TIdent "x" (SAt 3) :: fx_body 3;
   TIdent "p" (SAt 1) :: fx_sep 2 ++ TIdent "q" (SAt 3) :: fx_sep 4 ++ TIdent "z" (SAt 5) :: fx_body 4].
Definition fx_segs' : list (list token) :=
  [TIdent "x" (SAt 1) :: fx_body 3;
   TIdent "q" (SAt 1) :: fx_sep 4 ++ TIdent "z" (SAt 5) :: fx_body 4].
Definition fx_l : list stream := map root_stream fx_segs.
Definition fx_l' : list stream := map root_stream fx_segs'.
Lemma fx_moved : Forall2 (moved "p::" "") (items_of fx_l) (items_of fx_l').
Proof.
  change (items_of fx_l) with fx_segs. change (items_of fx_l') with fx_segs'.
  constructor; [|constructor; [|constructor]].
  - exists "p::x", "x", (SAt 1), (fx_body 3). split; [reflexivity|]. split; [reflexivity|]. intro n. simpl. split; intro H; [now injection H|now rewrite <- H].
  - exists "p::q::z", "q::z", (SAt 1), (fx_body 4). split; [reflexivity|]. split; [reflexivity|]. intro n. simpl. split; intro H; [now injection H|now rewrite <- H].
Qed.
Lemma nl_i32 : nameless i32. Proof. intros n n' sp v H. discriminate. Qed.
Lemma fx_e_movable : Forall movable_field (s_raw fx_e).
Proof. apply Forall_cons; [exact nl_i32|apply Forall_nil]. Qed.
Lemma fx_d_movable : Forall movable_field (s_raw fx_d).
Proof.
  apply Forall_cons; [exact nl_i32|]. apply Forall_cons; [|apply Forall_nil]. split; [exact pl_q|].
  apply l_movable_map, l_struct_movable; [apply fx_e_named|apply fx_e_local|apply fx_e_movable].
Qed.
