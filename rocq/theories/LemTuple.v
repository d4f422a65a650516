(** Positional input: arrays and tuples. *)
From Verif Require Export LemMap.

Section C.
Context {env : Env}.
Lemma elems_none l : elems l = [] <-> Forall (fun s => toks s = []) l.
Proof.
  induction l as [|s l IH]; [split; auto|]. unfold elems. cbn [flat_map]. fold (elems l). split.
  - intro H. apply app_eq_nil in H as [A B]. constructor; [|now apply IH]. destruct (toks s) eqn:T; auto.
    destruct (cut_item (t :: l0)) as [seg [tl [E [N EN]]]]. rewrite E, (pieces_app _ _ N EN) in A; [discriminate|]. rewrite <- E. discriminate.
  - intro H. inversion H as [|? ? A B]; subst. rewrite A. cbn. now apply IH.
Qed.
Lemma elems_cons s l : elems (s :: l) = elems1 (scope s) (toks s) ++ elems l.
Proof. reflexivity. Qed.
Lemma elems_empty s l : toks s = [] -> elems (s :: l) = elems l.
Proof. intro H. rewrite elems_cons, H. reflexivity. Qed.

Section Loop.
Context {St : Type} (step : nat -> St -> stream -> res St * stream) (len : nat)
  (func : nat -> St -> list stream -> res unit * St * list stream).
Inductive psteps : nat -> St -> list elem -> St -> Prop :=
| Ps_done c st : psteps c st [] st
| Ps_more c st x st1 xs st2 : fst (step c st (at_elem x)) = Ok st1 ->
    toks (snd (step c st (at_elem x))) = el_after x -> psteps (S c) st1 xs st2 -> psteps c st (x :: xs) st2.
Hypothesis FO : forall c st s rest st1 s1, c < len -> step c st s = (Ok st1, s1) -> func c st (s :: rest) = (Ok tt, st1, s1 :: rest).
Hypothesis FE : forall c st s rest, c < len -> (forall st1, fst (step c st s) <> Ok st1) -> fst (fst (func c st (s :: rest))) <> Ok tt.
Hypothesis US : forall c, ustep (step c).
Hypothesis SS : forall c st, stays (step c st).
Hypothesis KS : forall c st s, scope (snd (step c st s)) = scope s.
Definition reads_upto (c : nat) (st : St) (l : list stream) (n : nat) (st' : St) : Prop :=
  exists l1, supplies len c l l1 /\ psteps c st (elems l1) st' /\ n = c + length (elems l1).
Definition ends_ok (x : res nat * St * list stream) (n : nat) (st' : St) : Prop :=
  fst x = (Ok n, st') /\ Forall used_up (snd x).
Lemma blank_ends l : Forall (fun s => toks s = []) l -> Forall used_up l.
Proof. intro H. eapply Forall_impl; [|exact H]. intros; now left. Qed.
Lemma ru_skip c st s l n st' : toks s = [] -> reads_upto c st (s :: l) n st' <-> reads_upto c st l n st'.
Proof.
  intro T. split; intros [l1 [[l2 [E [L [A B]]]] [P Q]]].
  - destruct l1 as [|s1 l1]; cbn [app] in E.
    + subst l2. exists []. split; [|auto]. exists l. inversion A; subst. refine (conj eq_refl (conj L (conj _ _))); auto.
      destruct B as [B|B]; auto. right. now inversion B.
    + injection E as <- ->. rewrite (elems_empty s l1 T) in *. exists l1. split; auto. exists l2. auto.
  - exists (s :: l1). unfold supplies. rewrite (elems_empty s l1 T). subst l. split; auto. exists l2. auto.
Qed.
Lemma ru_full c st l n st' : len <= c -> c <= len -> reads_upto c st l n st' <-> (n = c /\ st' = st /\ Forall used_up l).
Proof.
  intros L1 L2. split.
  - intros [l1 [[l2 [E [L [A B]]]] [P Q]]]. assert (Z : elems l1 = []) by (destruct (elems l1); auto; simpl in L; lia).
    rewrite Z in *. inversion P; subst. simpl. split; [lia|]. split; auto. apply Forall_app. split; auto. apply blank_ends. now apply elems_none.
  - intros [-> [-> A]]. exists []. split; [|split; [constructor|simpl; lia]]. exists l. cbn. refine (conj eq_refl (conj _ (conj A _))); lia.
Qed.
Lemma ru_more c st s l n st' seg tl : c < len -> toks s = seg ++ tl -> seg ++ tl <> [] -> no_comma seg -> ends tl ->
  reads_upto c st (s :: l) n st' <->
  exists st1, fst (step c st (at_elem (mkElem seg tl (scope s)))) = Ok st1 /\
    toks (snd (step c st (at_elem (mkElem seg tl (scope s))))) = tl /\
    (if Nat.ltb (S c) len
     then reads_upto (S c) st1 (set_toks s (match tl with [] => [] | _ :: r => r end) :: l) n st'
     else reads_upto (S c) st1 (set_toks s tl :: l) n st').
Proof.
  intros LC T NZ N E. pose proof (elems1_cut seg tl (scope s) N E NZ) as CUT. split.
  - intros [l1 [[l2 [EQ [L [A B]]]] [P Q]]]. destruct l1 as [|s1 l1]; cbn [app] in EQ.
    { subst l2. simpl in B, L. destruct B as [B|B]; [lia|]. inversion B; subst. congruence. }
    injection EQ as <- ->. rewrite elems_cons, T, CUT in L, P, Q, B. cbn [app] in P, L, Q, B.
    inversion P as [|? ? x st1 xs st2 P1 P2 P3]; subst. exists st1. split; auto. split; auto.
    cbn [length] in *. set (r := match tl with [] => [] | _ :: r => r end).
    assert (R : elems1 (scope s) r = match tl with [] => [] | _ :: r => elems1 (scope s) r end) by (unfold r; destruct tl; reflexivity).
    rewrite <- R in *. clear R.
    assert (Q2 : reads_upto (S c) st1 (set_toks s r :: l1 ++ l2) (c + S (length (elems1 (scope s) r ++ elems l1))) st').
    { exists (set_toks s r :: l1). split; [|split].
      - exists l2. rewrite elems_cons. cbn [set_toks toks scope]. refine (conj eq_refl (conj _ (conj A _))); [lia|]. destruct B; [left; lia|now right].
      - rewrite elems_cons. exact P3.
      - rewrite elems_cons. cbn [set_toks toks scope]. lia. }
    destruct (Nat.ltb (S c) len) eqn:LT; auto. apply Nat.ltb_ge in LT.
    apply (ru_full (S c) st1 _ _ _ LT LC) in Q2 as [Q1 [-> Q2]]. apply (ru_full (S c) st1 _ _ _ LT LC). split; [lia|]. split; auto.
    inversion Q2; subst. constructor; auto.
    assert (Z : elems1 (scope s) r = []). { destruct (elems1 (scope s) r); auto. simpl in Q1. lia. }
    unfold used_up. cbn [set_toks toks]. unfold r in *. destruct tl as [|t r0]; auto. right. exists t. split; [|now apply ends_cons in E].
    f_equal. change (elems [mkStream r0 (scope s) None] = []) in Z || idtac.
    assert (Z2 : elems [mkStream r0 (scope s) None] = []) by (rewrite elems_cons; cbn [toks scope]; rewrite Z; reflexivity).
    apply elems_none in Z2. now inversion Z2.
  - intros [st1 [P1 [P2 P3]]]. set (r := match tl with [] => [] | _ :: r => r end) in *.
    assert (R : match tl with [] => [] | _ :: r => elems1 (scope s) r end = elems1 (scope s) r) by (unfold r; destruct tl; reflexivity).
    assert (Q2 : reads_upto (S c) st1 (set_toks s r :: l) n st').
    { destruct (Nat.ltb (S c) len) eqn:LT; auto. apply Nat.ltb_ge in LT.
      apply (ru_full (S c) st1 _ _ _ LT LC) in P3 as [Q1 [-> Q2]]. apply (ru_full (S c) st1 _ _ _ LT LC). split; [lia|]. split; auto.
      inversion Q2 as [|? ? Q3 Q4]; subst. constructor; auto. left. unfold used_up in Q3. cbn [set_toks toks] in *. unfold r.
      destruct tl; auto. destruct Q3 as [Q3|[t0 [Q3 _]]]; [discriminate|]. now injection Q3 as -> ->. }
    destruct Q2 as [l1 [[l2 [EQ [L [A B]]]] [P Q]]].
    assert (K : exists l1', l = l1' ++ l2 /\ elems (s :: l1') = mkElem seg tl (scope s) :: elems l1 \/
                l1 = [] /\ l2 = set_toks s r :: l /\ elems [s] = [mkElem seg tl (scope s)] /\ l1' = []).
    { destruct l1 as [|s1 l1]; cbn [app] in EQ.
      - exists []. right. subst l2. refine (conj eq_refl (conj eq_refl (conj _ eq_refl))). rewrite elems_cons, T, CUT, R.
        assert (Z : r = []).
        { simpl in B, L. destruct B as [B|B]; [|now inversion B]. inversion A as [|? ? A1 A2]; subst.
          destruct (Nat.ltb (S c) len) eqn:LT; [apply Nat.ltb_lt in LT; lia|]. apply Nat.ltb_ge in LT.
          apply (ru_full (S c) st1 _ _ _ LT LC) in P3 as [_ [_ P3]]. inversion P3 as [|? ? P4 _]; subst. unfold used_up in P4. cbn [set_toks toks] in P4.
          unfold r. destruct tl; auto. destruct P4 as [P4|[t0 [P4 _]]]; [discriminate|]. now injection P4 as -> ->. }
        rewrite Z. reflexivity.
      - injection EQ as <- ->. exists l1. left. split; auto. rewrite !elems_cons, T, CUT, R. reflexivity. }
    destruct K as [l1' [[EL EE]|[-> [-> [EE ->]]]]].
    + exists (s :: l1'). split; [|rewrite EE; split; [econstructor; eauto|simpl; lia]].
      exists l2. rewrite EE. subst l. cbn [length]. refine (conj eq_refl (conj _ (conj A _))); [lia|]. destruct B; [left; lia|now right].
    + exists [s]. split; [|rewrite EE; split; [inversion P; subst; eapply Ps_more; [exact P1|exact P2|constructor]|simpl in *; lia]].
      exists l. rewrite EE. simpl in *. inversion A; subst. refine (conj eq_refl (conj _ (conj _ _))); auto; [lia|].
      destruct B as [B|B]; [left; lia|right; now inversion B].
Qed.
Lemma step_at' c st s seg tl : toks s = seg ++ tl ->
  fst (step c st s) = fst (step c st (at_elem (mkElem seg tl (scope s)))) /\
  toks (snd (step c st s)) = toks (snd (step c st (at_elem (mkElem seg tl (scope s))))).
Proof. intro T. destruct (step_at (step c) (US c) st s seg tl T) as [A [B _]]. auto. Qed.
Lemma ru_cell c st s s' l n st' : toks s = toks s' -> scope s = scope s' ->
  reads_upto c st (s :: l) n st' <-> reads_upto c st (s' :: l) n st'.
Proof.
  intros T K. enough (X : forall s s', toks s = toks s' -> scope s = scope s' -> reads_upto c st (s :: l) n st' -> reads_upto c st (s' :: l) n st')
    by (split; apply X; auto).
  clear. intros s s' T K [l1 [[l2 [EQ [L [A B]]]] [P Q]]]. destruct l1 as [|s1 l1]; cbn [app] in EQ.
  - subst l2. exists []. split; [|auto]. exists (s' :: l). refine (conj eq_refl (conj L (conj _ _))).
    + inversion A; subst. constructor; auto. unfold used_up in *. now rewrite <- T.
    + destruct B as [B|B]; auto. right. inversion B; subst. constructor; auto. now rewrite <- T.
  - injection EQ as <- ->. rewrite elems_cons, T, K in *. exists (s' :: l1). unfold supplies. rewrite elems_cons. split; auto. exists l2. auto.
Qed.
Lemma tuple_loop_reads : forall fuel c st l n st', c <= len -> (len - c) + length l < fuel ->
  ends_ok (tuple_loop len func fuel c st l) n st' <-> reads_upto c st l n st'.
Proof.
  induction fuel as [|fuel IH]; intros c st l n st' LC FU; [lia|]. cbn [tuple_loop].
  destruct l as [|s l].
  { unfold ends_ok. cbn [fst snd]. split.
    - intros [H _]. injection H as <- <-. exists []. split; [|split; [constructor|simpl; lia]]. exists []. cbn. refine (conj eq_refl (conj _ (conj _ _))); auto; lia.
    - intros [l1 [[l2 [EQ [L [A B]]]] [P Q]]]. symmetry in EQ. apply app_eq_nil in EQ as [-> ->]. inversion P; subst. simpl. rewrite Nat.add_0_r. auto. }
  destruct (is_empty s) eqn:Z.
  { assert (T : toks s = []) by (unfold is_empty in Z; destruct (toks s); [auto|discriminate]).
    rewrite (ru_skip _ _ _ _ _ _ T). rewrite <- IH; [|auto|simpl in FU; lia].
    destruct (tuple_loop len func fuel c st l) as [[r st1] rest1]. unfold ends_ok. cbn [fst snd]. split; intros [H1 H2]; split; auto.
    - now inversion H2.
    - constructor; auto. now left. }
  assert (NZ : toks s <> []) by (unfold is_empty in Z; destruct (toks s); discriminate).
  destruct (Nat.leb len c) eqn:LL.
  { apply Nat.leb_le in LL. rewrite (ru_full _ _ _ _ _ LL LC). unfold ends_ok. cbn [fst snd]. split.
    - intros [H A]. injection H as <- <-. auto.
    - intros [-> [-> A]]. auto. }
  apply Nat.leb_gt in LL. destruct (cut_item (toks s)) as [seg [tl [T [N E]]]]. rewrite T in NZ.
  rewrite (ru_more c st s l n st' seg tl LL T NZ N E).
  destruct (step_at' c st s seg tl T) as [A B]. destruct (stays_cut (step c st) seg tl (scope s) None (SS c st) N E) as [rest [R [pre PR]]].
  change (mkStream (seg ++ tl) (scope s) None) with (at_elem (mkElem seg tl (scope s))) in R. set (x := mkElem seg tl (scope s)) in *.
  pose proof (KS c st s) as SC.
  destruct (step c st s) as [r s1] eqn:STEP. cbn [fst snd] in A, B, SC.
  assert (NOK : (forall st1, r <> Ok st1) ->
    ends_ok (match func c st (s :: l) with
             | (Ok _, st1, inputs1) =>
               match inputs1 with
               | [] => (Bad Panic, st1, [])
               | s1 :: rest1 =>
                 if negb (is_empty s1) && (Nat.ltb (S c) len)
                 then match parse_comma s1 with
                      | (Ok _, s2) => tuple_loop len func fuel (S c) st1 (s2 :: rest1)
                      | (Err e, s2) => (Err e, st1, s2 :: rest1)
                      | (Bad b, s2) => (Bad b, st1, s2 :: rest1)
                      end
                 else tuple_loop len func fuel (S c) st1 inputs1
               end
             | (Err e, st1, inputs1) => (Err e, st1, inputs1)
             | (Bad b, st1, inputs1) => (Bad b, st1, inputs1)
             end) n st' -> False).
  { intro NO. pose proof (FE c st s l LL) as H. rewrite STEP in H. cbn [fst] in H. specialize (H NO).
    destruct (func c st (s :: l)) as [[[[]|e|b] st1] ins]; cbn [fst] in H; [congruence| |]; intros [X _]; discriminate. }
  destruct r as [st1|e|b].
  2,3: split; [intro H; exfalso; apply NOK; [discriminate|exact H]|intros [st1 [X _]]; congruence].
  clear NOK. rewrite (FO c st s l st1 s1 LL STEP).
  assert (T1 : toks s1 = rest ++ tl) by congruence.
  destruct rest as [|t rest].
  - cbn [app] in T1, R. 
    assert (IFF : forall Q, (exists st2, fst (step c st (at_elem x)) = Ok st2 /\ toks (snd (step c st (at_elem x))) = tl /\ Q st2) <-> Q st1).
    { intro Q. split; [intros [st2 [X [_ Y]]]; assert (st2 = st1) as -> by congruence; exact Y|intro Y; exists st1; auto]. }
    rewrite (IFF (fun st2 => if Nat.ltb (S c) len then reads_upto (S c) st2 (set_toks s (match tl with [] => [] | _ :: r => r end) :: l) n st'
      else reads_upto (S c) st2 (set_toks s tl :: l) n st')). clear IFF.
    destruct (Nat.ltb (S c) len) eqn:LT.
    + destruct tl as [|t r].
      * assert (Z1 : is_empty s1 = true) by (unfold is_empty; rewrite T1; reflexivity). rewrite Z1. cbn [negb andb].
        rewrite IH; [|lia|simpl in *; lia]. apply ru_cell; cbn [set_toks toks scope]; auto.
      * assert (Z1 : is_empty s1 = false) by (unfold is_empty; rewrite T1; reflexivity). rewrite Z1. cbn [negb andb].
        apply ends_cons in E as C. rewrite (parse_comma_ok _ _ _ T1 C). rewrite IH; [|lia|simpl in *; lia]. apply ru_cell; cbn [set_toks toks scope]; auto.
    + rewrite Bool.andb_false_r. rewrite IH; [|lia|simpl in *; lia]. apply ru_cell; cbn [set_toks toks scope]; auto.
  - assert (C : is_comma t = false).
    { assert (NR : no_comma (t :: rest)) by (rewrite PR in N; now apply nc_app in N). now apply nc_cons in NR. }
    assert (Z1 : is_empty s1 = false) by (unfold is_empty; rewrite T1; reflexivity). rewrite Z1. cbn [negb andb].
    assert (NO : ~ (exists st2, fst (step c st (at_elem x)) = Ok st2 /\ toks (snd (step c st (at_elem x))) = tl /\
      (if Nat.ltb (S c) len then reads_upto (S c) st2 (set_toks s (match tl with [] => [] | _ :: r => r end) :: l) n st'
       else reads_upto (S c) st2 (set_toks s tl :: l) n st'))).
    { intros [st2 [_ [X _]]]. rewrite R in X. apply app_same in X. discriminate. }
    split; [|intro H; now apply NO in H]. intro H. exfalso. clear NO. destruct (Nat.ltb (S c) len) eqn:LT.
    + cbn [app] in T1. destruct (parse_comma_not s1 t (rest ++ tl) T1 C) as [e PC]. rewrite PC in H. destruct H as [H _]. discriminate.
    + apply Nat.ltb_ge in LT. rewrite IH in H; [|lia|simpl in *; lia]. apply (ru_full _ _ _ _ _ LT LL) in H as [_ [_ H]].
      inversion H as [|? ? H1 _]; subst. unfold used_up in H1. rewrite T1 in H1. cbn [app] in H1. destruct H1 as [H1|[t0 [H1 H2]]]; [discriminate|].
      injection H1 as -> _. congruence.
Qed.
End Loop.
End C.
