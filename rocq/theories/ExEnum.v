(** Concrete enums and inputs for the examples beside the theorems of PropsEnum.v:

    enum P {
      A,
      #[deluxe(alias = bb)] B(i32),
      #[deluxe(transparent)] T(i32),
      N { s: i32 },
      #[deluxe(skip)] K,
    }
    enum F {
      A,
      #[deluxe(flatten)] X { x: i32, y: Option<i32> },
      #[deluxe(flatten)] Z { z: i32, #[deluxe(default)] x: i32 },
      #[deluxe(flatten)] D { #[deluxe(default)] d: i32 },
    } *)
From Verif Require Export LemEnum7 ExFlat.

Definition xp : edef val :=
  mkEnum [mkVariant "A" ["a"] ShUnit [] false false false false;
          mkVariant "B" ["b"; "bb"] ShUnnamed [pos i32] false false false false;
          mkVariant "T" ["t"] ShUnnamed [pos i32] false true false false;
          mkVariant "N" ["n"] ShNamed [it "s" i32] false false false false;
          mkVariant "K" ["k"] ShUnit [] false false true false] None [] false [].
(** the same with `#[deluxe(default = P::A)]` *)
Definition xp_d : edef val := mkEnum (e_variants xp) (Some (0, [])) [] false [].
Definition xf_vs :=
  [mkVariant "A" ["a"] ShUnit [] false false false false;
   mkVariant "X" [] ShNamed [it "x" i32; it "y" (opt_ i32)] true false false false;
   mkVariant "Z" [] ShNamed [it "z" i32; itd "x" i32 (VI 0)] true false false false;
   mkVariant "D" [] ShNamed [itd "d" i32 (VI 0)] true false false false].
Definition xf : edef val := mkEnum xf_vs None [] false [].

Lemma good_opt : good_dict (opt_ i32). Proof. apply good_opt_i32. Qed.
Lemma unaware_fine {A} (d : dict A) : fine d -> unaware_dict d. Proof. intro H. apply H. Qed.
Lemma xp_proper tm d ats : proper_enum tm (mkEnum (e_variants xp) d ats false []).
Proof.
  refine (conj _ (conj _ (conj _ (conj _ _)))).
  - repeat (apply Forall_cons; [split; [ga|split; [destruct tm; ga|split; ga0]]|]); try apply Forall_nil.
  - intros v f I T F. simpl in I. destruct I as [<-|[<-|[<-|[<-|[<-|[]]]]]]; try discriminate. destruct F as [<-|[]]. intros x [].
  - intros i j v w n Ni Nj [O1 O2] [O3 O4] I1 I2.
    assert (Q : forall k u, nth_error (e_variants xp) k = Some u -> v_skip u = false ->
      (k = 0 /\ v_names u = ["a"]) \/ (k = 1 /\ v_names u = ["b"; "bb"]) \/ (k = 2 /\ v_names u = ["t"]) \/ (k = 3 /\ v_names u = ["n"])).
    { intros [|[|[|[|[|[|k]]]]]] u H S; cbn in H; try discriminate; injection H as <-; cbn in *; try discriminate; tauto. }
    destruct (Q i v Ni O2) as [[-> E]|[[-> E]|[[-> E]|[-> E]]]]; destruct (Q j w Nj O4) as [[-> E']|[[-> E']|[[-> E']|[-> E']]]];
      auto; rewrite E in I1; rewrite E' in I2; cbn in I1, I2; intuition congruence.
  - intros v f I F. simpl in I. destruct I as [<-|[<-|[<-|[<-|[<-|[]]]]]]; try destruct F as [<-|[]]; try destruct F; apply unaware_fine, fine_i32.
  - intros v f I T F. simpl in I. destruct I as [<-|[<-|[<-|[<-|[<-|[]]]]]]; try discriminate. destruct F as [<-|[]]. apply fine_i32.
Qed.
Lemma xp_plain d ats : no_flattened (mkEnum (e_variants xp) d ats false []).
Proof. intros v I. simpl in I. destruct I as [<-|[<-|[<-|[<-|[<-|[]]]]]]; reflexivity. Qed.
Lemma xf_proper tm d : proper_enum tm (mkEnum xf_vs d [] false []).
Proof.
  refine (conj _ (conj _ (conj _ (conj _ _)))).
  - repeat (apply Forall_cons; [split; [ga|split; [destruct tm; ga|split; ga0]]|]); try apply Forall_nil. apply good_opt.
  - intros v f I T F. simpl in I. destruct I as [<-|[<-|[<-|[<-|[]]]]]; discriminate.
  - intros i j v w n Ni Nj [O1 O2] [O3 O4] I1 I2.
    assert (Q : forall k u, nth_error xf_vs k = Some u -> v_flatten u = false -> k = 0).
    { intros [|[|[|[|[|k]]]]] u H S; cbn in H; try discriminate; injection H as <-; cbn in *; try discriminate; auto. }
    cbn in Ni, Nj. rewrite (Q i v Ni O1), (Q j w Nj O3). reflexivity.
  - intros v f I F. simpl in I. destruct I as [<-|[<-|[<-|[<-|[]]]]]; repeat (destruct F as [<-|F]; [apply unaware_fine; auto using fine_i32, fine_opt_|]); destruct F.
  - intros v f I T F. simpl in I. destruct I as [<-|[<-|[<-|[<-|[]]]]]; discriminate.
Qed.
Lemma xf_local d : flat_local (mkEnum xf_vs d [] false []).
Proof.
  intros v I F. simpl in I. destruct I as [<-|[<-|[<-|[<-|[]]]]]; try discriminate; (split; [fxl|]); intros f J _; simpl in J;
    repeat (destruct J as [<-|J]; [discriminate|]); destruct J.
Qed.
Definition xin (t : string) := [root_stream (tk t)].
Definition xrun (e : edef val) (t : string) := fst (d_inline (enum_dict e) Unnamed (xin t)).
Definition xmsgs {A} (r : res A) := match r with Err e => map e_msg (errs_of e) | _ => [] end.
Lemma xrun_run e t : enum_run e TMeta "" true (to_full_span Unnamed (xin t)) (xin t) (xrun e t).
Proof. exact (E_list e Unnamed (xin t)). Qed.

(** C21: a key that is no variant, with a default *)
Lemma ex_default_unknown : exists (env : Env) (e : edef val) inputs sp x k ksp,
  enum_run e TMeta "" true sp inputs (Ok x) /\ proper_enum TMeta e /\ no_flattened e /\ e_unknown_ok e = false /\
  In (k, ksp) (keys_in inputs) /\ ~ In k (variant_names e).
Proof.
  exists lexer_env, xp_d, (xin "zz = 1"), (to_full_span Unnamed (xin "zz = 1")), (0, []), "zz", (SAt 0).
  split. { assert (E : xrun xp_d "zz = 1" = Ok (0, [])) by (vm_compute; reflexivity). pose proof (xrun_run xp_d "zz = 1") as H. rewrite E in H. exact H. }
  split; [apply xp_proper|]. split; [apply xp_plain|]. split; auto. split; [vm_compute; auto|].
  cbn. intuition discriminate.
Qed.
(** C21: `a = () 1, b(2)`: the tokens left after the first value end the reading *)
Lemma ex_two_lost : exists (env : Env) (e : edef val) inputs sp x n1 n2 sp1 sp2,
  enum_run e TMeta "" true sp inputs (Err x) /\ proper_enum TMeta e /\ no_flattened e /\
  keys_in inputs = [(n1, sp1); (n2, sp2)] /\ In n1 (variant_names e) /\ In n2 (variant_names e) /\
  ~ In (two_variants "" n1 n2 sp2) (errs_of x).
Proof.
  exists lexer_env, xp, (xin "a = () 1, b(2)"), (to_full_span Unnamed (xin "a = () 1, b(2)")).
  destruct (xrun xp "a = () 1, b(2)") as [?|x|?] eqn:E; try (vm_compute in E; discriminate).
  exists x, "a", "b", (SAt 0), (SAt 10). split; [pose proof (xrun_run xp "a = () 1, b(2)") as H; rewrite E in H; exact H|].
  split; [apply xp_proper|]. split; [apply xp_plain|]. split; [vm_compute; reflexivity|].
  split; [cbn; auto|]. split; [cbn; auto|]. vm_compute in E. injection E as <-. cbn. intuition discriminate.
Qed.
Ltac xsound := unfold sound_enum; let x := eval vm_compute in (items_of (xin "b(1), t = 2")) in
  change (items_of (xin "b(1), t = 2")) with x.
Lemma ex_two_sound : sound_enum xp TMeta "" (xin "b(1), t = 2").
Proof.
  unfold sound_enum. assert (E : items_of (xin "b(1), t = 2") = [tk "b(1)"; [TIdent "t" (SAt 6); TPunct "=" false (SAt 8); TLit (LInt 2) (SAt 10)]]) by (vm_compute; reflexivity).
  rewrite E. apply Forall_cons; [|apply Forall_cons; [|apply Forall_nil]].
  - eexists "b", _, _. split; [vm_compute; reflexivity|]. intros i v [N [O [n [I K]]]]. left. cbn [append] in K. subst n.
    destruct i as [|[|[|[|[|[|i]]]]]]; cbn in N; try discriminate; injection N as <-; cbn in I; try (intuition discriminate).
    exists [VI 1]. apply VV_fields; [reflexivity|]. intros tl sc c En. split; reflexivity.
  - eexists "t", _, _. split; [vm_compute; reflexivity|]. intros i v [N [O [n [I K]]]]. left. cbn [append] in K. subst n.
    destruct i as [|[|[|[|[|[|i]]]]]]; cbn in N; try discriminate; injection N as <-; cbn in I; try (intuition discriminate).
    exists [VI 2]. apply (VV_transparent _ _ _ _ _ _ _ 0 (pos i32) i32 (VI 2)); try reflexivity.
    + intros tl sc c En. split; reflexivity.
    + split; [reflexivity|]. intros [|i] f v N1 N2; cbn in N1, N2; [|destruct i; discriminate]. injection N1 as <-. injection N2 as <-. left. split; auto. constructor.
Qed.

(** C50: `p::n(s = 1)` and `p::n(p::s = 1)` *)
Lemma ex_inner_prefix : exists (env : Env) (e : edef val) ts ts' x e1,
  proper_enum TMeta e /\ no_flattened e /\
  fst (fn_parse (enum_fn e) (Named SCall) "" false [root_stream ts]) = Ok x /\
  Forall2 (moved "" "p::") (items_of [root_stream ts]) (items_of [root_stream ts']) /\
  fst (fn_parse (enum_fn e) (Named SCall) "p::" false [root_stream ts']) = Err e1.
Proof.
  exists lexer_env, xp, (tk "n(s = 1)"), 
    ([TIdent "p" (SAt 0); TPunct ":" true (SAt 0); TPunct ":" false (SAt 0)] ++ tk "n(s = 1)"), (3, [VI 1]).
  eexists. split; [apply xp_proper|]. split; [apply xp_plain|]. split; [vm_compute; reflexivity|]. split; [|vm_compute; reflexivity].
  match goal with |- Forall2 _ ?a ?b => let x := eval vm_compute in a in let y := eval vm_compute in b in change a with x; change b with y end.
  constructor; [|constructor]. eexists "n", "p::n", (SAt 0), _. split; [vm_compute; reflexivity|]. split; [vm_compute; reflexivity|].
  intro m. cbn [append]. split; congruence.
Qed.

Ltac xkeyed := unfold keyed; match goal with |- Forall _ ?a => let x := eval vm_compute in a in change a with x end;
  repeat (apply Forall_cons; [eexists _, _, _; vm_compute; reflexivity|]); apply Forall_nil.
(** C54: an enum with flattened variants, flattened into a struct with a field `a` *)
Definition xb : edef val := mkEnum [mkVariant "B" [] ShNamed [it "b" i32] true false false false] None [] false [].
Lemma xb_proper : proper_enum TMeta xb.
Proof.
  refine (conj _ (conj _ (conj _ (conj _ _)))).
  - repeat (apply Forall_cons; [split; [ga|split; [ga|split; ga0]]|]); try apply Forall_nil.
  - intros v f [<-|[]]; discriminate.
  - intros [|i] j v w n Ni Nj [O1 O2]; cbn in Ni; [injection Ni as <-; discriminate|destruct i; discriminate].
  - intros v f [<-|[]] [<-|[]]. apply unaware_fine, fine_i32.
  - intros v f [<-|[]]; discriminate.
Qed.
Definition xb_p := named [it "a" i32; flatn "e" None (efn xb)].
Lemma ex_parent_key : exists (env : Env) (e : edef val) (s : sdef val) x,
  proper_enum TMeta e /\ flat_local e /\ named_struct s /\ separate s /\
  s_names s = ["a"; "b"] /\ fn_names (enum_fn e) = ["b"] /\
  is_ok (fst (fn_parse (enum_fn e) (Named SCall) "" false (xin "b = 2"))) = true /\
  fst (d_inline (struct_dict s) Unnamed (xin "a = 1, b = 2")) = Err x /\
  map e_msg (errs_of x) = ["unknown field `a`"] /\
  ~ by_keys "" (enum_fn e).
Proof.
  exists lexer_env, xb, xb_p. eexists. split; [apply xb_proper|]. split.
  { intros v I F. destruct I as [<-|[]]. split; [fxl|]. intros f J _. destruct J as [<-|[]]. discriminate. }
  split. { fxn. repeat apply Forall_cons; try apply Forall_nil; unfold good_field; cbn; [ga0|]. intros. apply good_fn_map, good_enum_fn, xb_proper. apply xb_proper. }
  split. { intros i j f g n Ni Nj I1 I2. destruct i as [|[|i]], j as [|[|j]]; cbn in Ni, Nj; try (destruct i; discriminate); try (destruct j; discriminate); auto;
    injection Ni as <-; injection Nj as <-; cbn in I1, I2; intuition congruence. }
  split; [reflexivity|]. split; [reflexivity|]. split; [reflexivity|]. split; [vm_compute; reflexivity|]. split; [reflexivity|].
  intro H. assert (K : keyed (xin "b = 2") /\ keyed (xin "b = 2, a = 1")) by (split; xkeyed).
  destruct (H SCall (xin "b = 2") (xin "b = 2, a = 1") (0, [VI 2]) (proj1 K) (proj2 K) eq_refl) as [H1 _].
  assert (F : fst (fn_parse (enum_fn xb) (Named SCall) "" false (xin "b = 2")) = Ok (0, [VI 2])) by reflexivity.
  apply H1 in F. vm_compute in F. discriminate.
Qed.

(** C55: enum { #[flatten] S { a }, #[flatten] L { a, b } } *)
Definition xs_l := mkVariant "L" [] ShNamed [it "a" i32; it "b" i32] true false false false.
Definition xs : edef val := mkEnum [mkVariant "S" [] ShNamed [it "a" i32] true false false false; xs_l] None [] false [].
Definition xs1 : edef val := mkEnum [xs_l] None [] false [].
Lemma xs_proper : proper_enum TMeta xs.
Proof.
  refine (conj _ (conj _ (conj _ (conj _ _)))).
  - repeat (apply Forall_cons; [split; [ga|split; [ga|split; ga0]]|]); try apply Forall_nil.
  - intros v f [<-|[<-|[]]]; discriminate.
  - intros i j v w n Ni Nj [O1 O2]; destruct i as [|[|i]]; cbn in Ni; try (injection Ni as <-; discriminate). destruct i; discriminate.
  - intros v f [<-|[<-|[]]] I; repeat (destruct I as [<-|I]; [apply unaware_fine, fine_i32|]); destruct I.
  - intros v f [<-|[<-|[]]]; discriminate.
Qed.
Lemma xs1_proper : proper_enum TMeta xs1.
Proof.
  refine (conj _ (conj _ (conj _ (conj _ _)))).
  - repeat (apply Forall_cons; [split; [ga|split; [ga|split; ga0]]|]); try apply Forall_nil.
  - intros v f [<-|[]]; discriminate.
  - intros i j v w n Ni Nj [O1 O2]; destruct i as [|i]; cbn in Ni; try (injection Ni as <-; discriminate). destruct i; discriminate.
  - intros v f [<-|[]] I; repeat (destruct I as [<-|I]; [apply unaware_fine, fine_i32|]); destruct I.
  - intros v f [<-|[]]; discriminate.
Qed.
Lemma xs_local : flat_local xs.
Proof.
  intros v I F. destruct I as [<-|[<-|[]]]; (split; [fxl|]); intros f J _; simpl in J;
    repeat (destruct J as [<-|J]; [discriminate|]); destruct J.
Qed.
Lemma xs1_local : flat_local xs1.
Proof.
  intros v I F. destruct I as [<-|[]]; (split; [fxl|]); intros f J _; simpl in J;
    repeat (destruct J as [<-|J]; [discriminate|]); destruct J.
Qed.
Lemma xs_l_notall : ~ takes_all xs_l.
Proof. intros [H|[f [I H]]]; [discriminate|]. destruct I as [<-|[<-|[]]]; destruct H. Qed.
Lemma ex_never : exists (env : Env) (e : edef val) i v inputs vs,
  proper_enum TMeta e /\ flat_local e /\ flattened e i v /\
  keyed inputs /\ variant_items e "" (items_of inputs) = [] /\
  chosen e "" inputs i v /\ flat_written e TMeta "" (to_full_span Unnamed inputs) inputs i v vs /\
  forall prefix validate sp inputs' r ws, enum_run e TMeta prefix validate sp inputs' r -> r <> Ok (i, ws).
Proof.
  exists lexer_env, xs, 1, xs_l, (xin "a = 1, b = 2"), [VI 1; VI 2]. split; [apply xs_proper|]. split; [apply xs_local|].
  split; [repeat split|]. split; [xkeyed|]. split; [reflexivity|].
  assert (N : needs xs_l) by (exists (it "a" i32); split; [now left|split; reflexivity]).
  split.
  { split; [repeat split|]. split; [|now left]. intros f I _. destruct I as [<-|[<-|[]]].
    - exists "a", (SAt 0). split; [vm_compute; auto|]. exists "a". split; [now left|reflexivity].
    - exists "b", (SAt 7). split; [vm_compute; auto|]. exists "b". split; [now left|reflexivity]. }
  split.
  - pose proof (xrun_run xs1 "a = 1, b = 2") as H. assert (E : xrun xs1 "a = 1, b = 2" = Ok (0, [VI 1; VI 2])) by (vm_compute; reflexivity).
    rewrite E in H. destruct (l_flat_others xs1 TMeta true _ _ _ H xs1_proper xs1_local eq_refl eq_refl eq_refl) as [i [v [vs [C [CH [[c [W1 [W2 [W3 _]]]] _]]]]]].
    inversion CH; subst. destruct C as [[NV _] _]. cbn in NV. injection NV as <-.
    exists c. split; [exact W1|]. split; [exact W2|]. split; [exact W3|]. intros T. destruct (xs_l_notall T).
  - intros prefix validate sp inputs r ws H E. apply LemEnum5.run_body in H. rewrite H in E.
    apply (enum_text TMeta xs prefix xs_proper) in E as [KY [y [CH [[seg [i' [vs [n' [VI _]]]]]|[VI M]]]]].
    + unfold variant_items, variant_names, part in VI. cbn [xs e_variants flat_map v_flatten orb app] in VI.
      assert (I : In seg [seg]) by now left. rewrite <- VI in I. apply filter_In in I as [_ I]. apply addressed_spec in I as [k [ksp [b [n [_ [I _]]]]]]. destruct I.
    + inversion CH; subst. set (ps := q_paths _) in *.
      assert (PK : forall w, pick_flat xs ps <> Some (1, w)).
      { intros w PK. unfold pick_flat in PK. change (flat_matches xs) with
          [(field_key (mkVariant "S" [] ShNamed [it "a" i32] true false false false), (0, mkVariant "S" [] ShNamed [it "a" i32] true false false false));
           (field_key xs_l, (1, xs_l))] in PK. cbn in PK.
        destruct (pm_has "a" ps); cbn in PK; discriminate. }
      destruct (pick_flat xs ps) as [[vi v]|] eqn:PF; [|discriminate].
      assert (vi = 1); [|subst; destruct (PK v eq_refl)].
      destruct (flat_block xs TMeta prefix sp vi v ps [] inputs) as [q ins] eqn:FB. cbn [fst] in M. subst q. unfold flat_block in FB.
      repeat match type of FB with context [match ?x with _ => _ end] => destruct x; try discriminate FB end;
      injection FB; intros; subst; try congruence; auto.
Qed.

(** C56: `a, x = 1` *)
Lemma ex_ignored : exists (env : Env) (e : edef val) inputs sp x n nsp m msp,
  enum_run e TMeta "" true sp inputs (Ok x) /\ proper_enum TMeta e /\ flat_local e /\ e_unknown_ok e = false /\
  keys_in inputs = [(n, nsp); (m, msp)] /\ In n (variant_names e) /\ ~ In m (variant_names e).
Proof.
  exists lexer_env, xf, (xin "a, x = 1"), (to_full_span Unnamed (xin "a, x = 1")), (0, []), "a", (SAt 0), "x", (SAt 3).
  split. { assert (E : xrun xf "a, x = 1" = Ok (0, [])) by (vm_compute; reflexivity). pose proof (xrun_run xf "a, x = 1") as H. rewrite E in H. exact H. }
  split; [apply xf_proper|]. split; [apply xf_local|]. split; auto. split; [vm_compute; reflexivity|]. split; cbn; intuition discriminate.
Qed.
Lemma ex_xf_chosen : chosen xf "" (xin "y = 2, x = 1") 1 (mkVariant "X" [] ShNamed [it "x" i32; it "y" (opt_ i32)] true false false false) /\
  (forall j w, chosen xf "" (xin "y = 2, x = 1") j w -> j = 1).
Proof.
  assert (P : all_present (mkVariant "X" [] ShNamed [it "x" i32; it "y" (opt_ i32)] true false false false) "" (xin "y = 2, x = 1")).
  { intros f I _. destruct I as [<-|[<-|[]]].
    - exists "x", (SAt 7). split; [vm_compute; auto|]. exists "x". split; [now left|reflexivity].
    - exists "y", (SAt 0). split; [vm_compute; auto|]. exists "y". split; [now left|reflexivity]. }
  assert (N : needs (mkVariant "X" [] ShNamed [it "x" i32; it "y" (opt_ i32)] true false false false)).
  { exists (it "x" i32). split; [now left|split; reflexivity]. }
  split; [split; [repeat split|auto]|].
  intros j w [[NJ [F _]] [A C]]. destruct j as [|[|[|[|j]]]]; cbn in NJ; [injection NJ as <-; discriminate|reflexivity| | |destruct j; discriminate].
  - injection NJ as <-. exfalso. destruct (A (it "z" i32) (or_introl eq_refl)) as [k [ksp [I [n [J ->]]]]]; [split; reflexivity|].
    destruct J as [<-|[]]. vm_compute in I. intuition discriminate.
  - injection NJ as <-. exfalso. destruct C as [[f [[<-|[]] [_ D]]]|C]; [discriminate|]. exact (C 1 _ (conj eq_refl (conj eq_refl eq_refl)) N P).
Qed.
Lemma ex_xf_default : forall i v, ~ chosen (mkEnum (firstn 3 xf_vs) (Some (0, [])) [] false []) "" (xin "y = 2") i v.
Proof.
  intros i v [[NJ [F _]] [A _]]. destruct i as [|[|[|i]]]; cbn in NJ; [injection NJ as <-; discriminate| | |destruct i; discriminate]; injection NJ as <-.
  - destruct (A (it "x" i32) (or_introl eq_refl)) as [k [ksp [I [n [J ->]]]]]; [split; reflexivity|]. destruct J as [<-|[]]. vm_compute in I. intuition discriminate.
  - destruct (A (it "z" i32) (or_introl eq_refl)) as [k [ksp [I [n [J ->]]]]]; [split; reflexivity|]. destruct J as [<-|[]]. vm_compute in I. intuition discriminate.
Qed.
(** an enum all of whose variants can be moved: enum { A, B(i32) } *)
Definition xm : edef val := mkEnum (firstn 2 (e_variants xp)) None [] false [].
Lemma xm_proper : proper_enum TMeta xm.
Proof.
  destruct (xp_proper TMeta None []) as [P1 [P2 [P3 [P4 P5]]]].
  assert (S : forall v, In v (e_variants xm) -> In v (e_variants xp)) by (intros v [<-|[<-|[]]]; cbn; auto).
  refine (conj _ (conj _ (conj _ (conj _ _)))).
  - unfold accepted_enum in *. rewrite Forall_forall in *. intros v I. apply P1. auto.
  - intros v f I. apply P2. auto.
  - intros i j v w n Ni Nj. assert (Q : forall k u, nth_error (e_variants xm) k = Some u -> nth_error (e_variants xp) k = Some u).
    { intros [|[|k]] u H; cbn in *; auto. destruct k; discriminate. }
    apply (P3 i j v w n); auto.
  - intros v f I. apply P4. auto.
  - intros v f I. apply P5. auto.
Qed.
Lemma xm_plain : no_flattened xm. Proof. intros v [<-|[<-|[]]]; reflexivity. Qed.
Lemma xm_free : forall v, In v (e_variants xm) -> prefix_free v.
Proof. intros v [<-|[<-|[]]]; discriminate. Qed.
Lemma xm_moved : Forall2 (moved "" "p::") (items_of (xin "b(1)"))
  (items_of [root_stream ([TIdent "p" (SAt 0); TPunct ":" true (SAt 0); TPunct ":" false (SAt 0)] ++ tk "b(1)")]).
Proof.
  match goal with |- Forall2 _ ?a ?b => let x := eval vm_compute in a in let y := eval vm_compute in b in change a with x; change b with y end.
  constructor; [|constructor]. eexists "b", "p::b", (SAt 0), _. split; [vm_compute; reflexivity|]. split; [vm_compute; reflexivity|].
  intro m. cbn [append]. split; congruence.
Qed.
