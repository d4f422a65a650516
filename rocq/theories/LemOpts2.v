(** The options of a field. *)
From Verif Require Import LemWf LemWfD LemWfE LemSmall LemItems LemAttr.
From Verif Require Export LemOpts LemSchema3.

Definition status {A} (l : list A) : fstatus A := match l with x :: _ => FSome x | [] => FNone end.
Lemma status_none {A} (l : list A) : status l = FNone -> l = [].
Proof. destruct l; [auto|discriminate]. Qed.
Lemma status_option {A} (l : list A) : fs_into_option (status l) = first_of l.
Proof. destruct l; reflexivity. Qed.
Definition shows {A} (v : fstatus span) (l : list A) : Prop :=
  match l with [] => v = FNone | _ => exists sp, v = FSome sp end.
Definition names_rep (n : nst) (rs als : list name) : Prop :=
  n_idents n = rs ++ als /\ shows (n_rename n) rs /\ shows (n_alias n) als.
Lemma shows_none {A} v (l : list A) : shows v l -> v = FNone -> l = [].
Proof. destruct l; [auto|]. intros [sp ->]. discriminate. Qed.
Lemma shows_snoc {A} sp v (l : list A) x : shows v l -> shows (if fs_is_none v then FSome sp else v) (l ++ [x]).
Proof. destruct l as [|y l]; cbn; [intros ->; eexists; reflexivity|]. intros [sp' ->]. eexists. reflexivity. Qed.

Lemma new_names_app own a x : new_names own (a ++ [x]) <->
  new_names own a /\ own_is own x = false /\ has_name x a = false.
Proof.
  unfold new_names. rewrite map_app. cbn [map]. split.
  - intros [N O]. assert (NX : ~ In (fst x) (map fst a)).
    { intro I. apply NoDup_remove in N as [_ N]. apply N. rewrite app_nil_r. exact I. }
    split; [split|split].
    + apply NoDup_remove in N as [N _]. now rewrite app_nil_r in N.
    + intros o E I. apply (O o E). apply in_or_app. auto.
    + destruct own as [o|]; [|reflexivity]. cbn. apply String.eqb_neq. intro E. apply (O o eq_refl). apply in_or_app. right. now left.
    + destruct (has_name x a) eqn:H; [|reflexivity]. apply has_name_in in H. contradiction.
  - intros [[N O] [E H]]. split.
    + apply NoDup_Add with (a := fst x) (l := map fst a); [rewrite <- (app_nil_r (map fst a)) at 1; apply Add_app|].
      split; auto. intro I. apply has_name_in in I. congruence.
    + intros o X I. apply in_app_or in I as [I|[I|[]]]; [now apply (O o X)|]. subst own. cbn in E. apply String.eqb_neq in E. congruence.
Qed.
Lemma new_names_front own a b x : new_names own ((a ++ [x]) ++ b) <-> new_names own ((a ++ b) ++ [x]).
Proof.
  assert (P : Permutation (map fst ((a ++ [x]) ++ b)) (map fst ((a ++ b) ++ [x]))).
  { apply Permutation_map. rewrite <- !app_assoc. apply Permutation_app_head. apply Permutation_app_comm. }
  unfold new_names. split; intros [N O]; (split; [eapply Permutation_NoDup; [|exact N]; auto using Permutation_sym|]).
  - intros o E I. apply (O o E). eapply Permutation_in; [|exact I]. now apply Permutation_sym.
  - intros o E I. apply (O o E). eapply Permutation_in; [|exact I]. exact P.
Qed.

Section F.
Context {env : Env}.
Variable sy : synlib.
Hypothesis SY : good_syn_lib sy.
Variable f : src_field.
Definition inc_f (l : list fopt) : Prop :=
  (once (flattens l) /\ once (appends l) /\ once (rests l) /\ once (defaults l) /\ once (withs l) /\
   once (renames l) /\ once (containers l) /\ once (skips l)) /\
  new_names (option_map fst (sf_ident f)) (renames l ++ aliases l) /\
  (sf_ident f = None -> appends l = [] /\ rests l = [] /\ renames l = [] /\ aliases l = []).
Definition rep_f (l : list fopt) (st : fst_) : Prop :=
  inc_f l /\ exists n, names_rep n (renames l) (aliases l) /\
    st = mkFst (status (defaults l)) (status (withs l)) (status (flattens l)) (status (appends l))
               (status (rests l)) (status (containers l)) (status (skips l)) n (transforms l).
Ltac norm := unfold flattens, appends, rests, defaults, withs, renames, aliases, containers, skips, transforms in *;
  rewrite ?flat_map_app in *; cbn [flat_map] in *; rewrite ?app_nil_r in *.
Lemma once_app {A} (a b : list A) : once (a ++ b) -> once a.
Proof. unfold once. rewrite app_length. lia. Qed.
Lemma once_one {A} (x : A) : once [x].
Proof. unfold once. cbn. lia. Qed.
Lemma once_two {A} (l : list A) x : once (l ++ [x]) -> l = [].
Proof. unfold once. rewrite app_length. destruct l; cbn; [auto|lia]. Qed.
Lemma nodup_sub {A} (p q r t : list A) : NoDup ((p ++ q) ++ (r ++ t)) -> NoDup (p ++ r).
Proof.
  intro N. rewrite <- app_assoc in N. induction p as [|z p IH]; cbn [app] in *.
  - induction q as [|z q IH]; cbn [app] in N; [|inversion N; auto].
    induction r as [|z r IH]; cbn [app] in *; [constructor|]. inversion N as [|? ? NI N2]; subst. constructor; auto.
    intro X. apply NI. apply in_or_app. auto.
  - inversion N as [|? ? NI N2]; subst. constructor; auto. intro X. apply NI. rewrite !in_app_iff in *. tauto.
Qed.
Lemma new_names_sub own a b a' b' : new_names own ((a ++ a') ++ (b ++ b')) -> new_names own (a ++ b).
Proof.
  unfold new_names. intros [N O]. assert (I : forall y, In y (a ++ b) -> In y ((a ++ a') ++ (b ++ b'))).
  { intros y. rewrite !in_app_iff. tauto. }
  split.
  - rewrite !map_app in *. now apply nodup_sub in N.
  - intros o E X. apply (O o E). apply in_map_iff in X as [y [<- Y]]. apply in_map. auto.
Qed.
Lemma inc_f_prefix a b : inc_f (a ++ b) -> inc_f a.
Proof.
  unfold inc_f. intros [[A1 [A2 [A3 [A4 [A5 [A6 [A7 A8]]]]]]] [N T]]. norm.
  split; [repeat split; eapply once_app; eassumption|]. split; [eapply new_names_sub; eassumption|].
  intro E. destruct (T E) as [T1 [T2 [T3 T4]]]. apply app_eq_nil in T1 as [T1 _], T2 as [T2 _], T3 as [T3 _], T4 as [T4 _]. auto.
Qed.
Lemma field_keys k sp st es s st' s' : field_arm sy f k sp st es s = (Ok (st', []), s') -> es = [].
Proof. intro H. exact (proj1 (keeps_field sy f _ _ _ _ _ _ _ _ H eq_refl)). Qed.

Lemma slot_sound {St A} nm sp (p : string -> span -> parser A) (l : list A) (set : fstatus A -> St) s st' s' :
  slot nm sp p (status l) set [] s = (Ok (st', []), s') ->
  l = [] /\ exists a, p nm sp s = (Ok a, s') /\ st' = set (FSome a).
Proof. intro H. apply slot_inv in H as [_ [H X]]. apply status_none in H. auto. Qed.
Lemma collect_inv {St A} (st : St) (p : parser A) add s st' s' : collect st p add [] s = (Ok (st', []), s') ->
  exists a, p s = (Ok a, s') /\ st' = add a.
Proof.
  unfold collect. destruct (p s) as [[a|e|b] s1]; intro H; try discriminate H.
  injection H as <- <-. eauto.
Qed.
Lemma refuse_push {St} (st : St) sp m s st' s' : refuse st (push [] sp m) s = (Ok (st', []), s') -> False.
Proof. unfold refuse. intro H. injection H as _ H _. now apply push_nil in H. Qed.
Lemma refuse_unknown {St} (st : St) k sp l s st' s' : mem_str k l = false ->
  refuse st (check_unknown k sp l []) s = (Ok (st', []), s') -> False.
Proof. unfold refuse, check_unknown. intros ->. intro H. injection H as _ H _. now apply push_syn_nil in H. Qed.

Ltac once_tac := first [assumption|apply once_one|(eapply once_app; eassumption)].
Ltac fin n := split; [refine (conj _ (conj _ _)); [repeat split; once_tac|assumption|auto]
                     |exists n; split; [auto|reflexivity]].
Lemma field_sound os k sp st s st' s' : rep_f os st -> field_arm sy f k sp st [] s = (Ok (st', []), s') ->
  exists o, spells_f sy k sp s o s' /\ rep_f (os ++ [o]) st'.
Proof.
  intros [[[A1 [A2 [A3 [A4 [A5 [A6 [A7 A8]]]]]]] [N T]] [n [NR ->]]]. unfold field_arm.
  repeat match goal with |- context [String.eqb k ?x] => destruct (String.eqb_spec k x) as [E|] end; try subst k.
  - intro H. apply slot_sound in H as [L [a [D ->]]]. exists (OFlatten a). split; [now constructor|]. unfold rep_f, inc_f. norm. rewrite L in *. fin n.
  - destruct (sf_ident f) as [x|] eqn:SF; [|intro H; now apply refuse_push in H].
    intro H. apply slot_sound in H as [L [a [D ->]]]. exists (OAppend a). split; [now constructor|]. unfold rep_f, inc_f. norm. rewrite L, SF in *. fin n.
    discriminate.
  - destruct (sf_ident f) as [x|] eqn:SF; [|intro H; now apply refuse_push in H].
    intro H. apply slot_sound in H as [L [a [D ->]]]. exists (ORest a). split; [now constructor|]. unfold rep_f, inc_f. norm. rewrite L, SF in *. fin n.
    discriminate.
  - intro H. apply slot_sound in H as [L [a [D ->]]]. exists (ODefault a). split; [now constructor|]. unfold rep_f, inc_f. norm. rewrite L in *. fin n.
  - intro H. apply slot_sound in H as [L [a [D ->]]]. exists (OWith a). split; [now constructor|]. unfold rep_f, inc_f. norm. rewrite L in *. fin n.
  - destruct (sf_ident f) as [x|] eqn:SF; [|intro H; injection H as _ H _; now apply push_nil in H].
    intro H. apply on_names_inv in H as [n' [H ->]]. apply rename_inv in H as [_ [RN [y [D [O [HN ->]]]]]].
    destruct NR as [NI [SR SA]]. pose proof (shows_none _ _ SR RN) as RE.
    exists (ORename y). split; [now constructor|]. unfold rep_f, inc_f. norm. rewrite RE, SF in *. cbn [app] in *. split.
    + refine (conj _ (conj _ _)); [repeat split; once_tac| |discriminate].
      apply (new_names_front _ [] _ y). cbn [app]. apply new_names_app. rewrite NI in HN. auto.
    + eexists. split; [|reflexivity]. split; [|split]; cbn [n_idents n_rename n_alias]; [now rewrite NI|cbn; eauto|exact SA].
  - destruct (sf_ident f) as [x|] eqn:SF; [|intro H; injection H as _ H _; now apply push_nil in H].
    intro H. apply on_names_inv in H as [n' [H ->]]. apply alias_inv in H as [_ [y [D [O [HN ->]]]]].
    destruct NR as [NI [SR SA]].
    exists (OAlias y). split; [now constructor|]. unfold rep_f, inc_f. norm. rewrite SF in *. split.
    + refine (conj _ (conj _ _)); [repeat split; once_tac| |discriminate].
      rewrite app_assoc. apply new_names_app. rewrite NI in HN. auto.
    + eexists. split; [|reflexivity]. split; [|split]; cbn [n_idents n_rename n_alias]; [now rewrite NI, app_assoc|exact SR|now apply shows_snoc].
  - intro H. apply slot_sound in H as [L [a [D ->]]]. exists (OContainer a). split; [now constructor|]. unfold rep_f, inc_f. norm. rewrite L in *. fin n.
  - intro H. apply slot_sound in H as [L [a [D ->]]]. exists (OSkip a). split; [now constructor|]. unfold rep_f, inc_f. norm. rewrite L in *. fin n.
  - intro H. apply collect_inv in H as [a [D ->]]. exists (OMap a). split; [now constructor|]. unfold rep_f, inc_f. norm. fin n.
  - intro H. apply collect_inv in H as [a [D ->]]. exists (OAndThen a). split; [now constructor|]. unfold rep_f, inc_f. norm. fin n.
  - intro H. apply refuse_unknown in H; [contradiction|].
    unfold field_attr_names. cbn [mem_str existsb]. repeat match goal with H : k <> ?x |- _ => apply String.eqb_neq in H; rewrite H; clear H end. reflexivity.
Qed.
Lemma slot_ok {St A} nm sp (p : string -> span -> parser A) (l : list A) (set : fstatus A -> St) s a s' :
  once (l ++ [a]) -> p nm sp s = (Ok a, s') ->
  l = [] /\ slot nm sp p (status l) set [] s = (Ok (set (FSome a), []), s').
Proof. intros O P. apply once_two in O. subst l. split; auto. unfold slot, fs_parse_named. rewrite P. reflexivity. Qed.
Lemma collect_ok {St A} (st : St) (p : parser A) add s a s' : p s = (Ok a, s') ->
  collect st p add [] s = (Ok (add a, []), s').
Proof. unfold collect. intros ->. reflexivity. Qed.
Lemma field_complete os k sp st s o s' : rep_f os st -> spells_f sy k sp s o s' -> inc_f (os ++ [o]) ->
  exists st', field_arm sy f k sp st [] s = (Ok (st', []), s') /\ rep_f (os ++ [o]) st'.
Proof.
  intros [_ [n [NR ->]]] SP I. pose proof I as [[A1 [A2 [A3 [A4 [A5 [A6 [A7 A8]]]]]]] [N T]].
  assert (TT : sf_ident f <> None \/ appends (os ++ [o]) = [] /\ rests (os ++ [o]) = [] /\ renames (os ++ [o]) = [] /\ aliases (os ++ [o]) = []).
  { destruct (sf_ident f); [left; discriminate|right; auto]. }
  unfold field_arm.
  destruct SP as [x s' -> D|x s' -> D|x s' -> D|x s' -> D|x s' -> D|x s' -> D|x s' -> D|x s' -> D|x s' -> D|x s' -> D|x s' -> D];
    cbn [String.eqb Ascii.eqb Bool.eqb].
  Ltac named := match goal with |- context [match sf_ident ?g with _ => _ end] =>
    let SF := fresh "SF" in destruct (sf_ident g) eqn:SF;
      [|match goal with TT : _ \/ _ |- _ => destruct TT as [TT|[T1 [T2 [T3 T4]]]]; [congruence|];
        norm; first [apply app_eq_nil in T1 as [_ T1]; discriminate T1|apply app_eq_nil in T2 as [_ T2]; discriminate T2
                    |apply app_eq_nil in T3 as [_ T3]; discriminate T3|apply app_eq_nil in T4 as [_ T4]; discriminate T4] end] end.
  Ltac byslot D A n I NR := let L := fresh "L" in let E := fresh "E" in unfold rep_f; clear - D A n I NR; revert I; norm; intro I;
    match goal with |- context [slot ?nm ?sp ?p (status ?l) ?set [] ?s] => destruct (slot_ok nm sp p l set s _ _ A D) as [L E] end;
    rewrite E; eexists; split; [reflexivity|]; split; [exact I|]; exists n; rewrite L; split; [assumption|reflexivity].
  - byslot D A1 n I NR.
  - named. byslot D A2 n I NR.
  - named. byslot D A3 n I NR.
  - byslot D A4 n I NR.
  - byslot D A5 n I NR.
  - assert (RE : renames os = []) by (norm; now apply once_two in A6).
    destruct NR as [NI [SR SA]]. rewrite RE in SR. cbn in SR.
    assert (NN : own_is (option_map fst (sf_ident f)) x = false /\ has_name x (n_idents n) = false).
    { rewrite NI. unfold renames at 1, aliases in N. rewrite !flat_map_app in N. fold (renames os) (aliases os) in N. rewrite RE in *. cbn [flat_map app] in N. rewrite app_nil_r in N.
      apply (new_names_front _ [] _ x) in N. cbn [app] in *. apply new_names_app in N. tauto. }
    destruct (sf_ident f) as [own|] eqn:SF.
    2: { destruct TT as [TT|[_ [_ [T3 _]]]]; [congruence|]. norm. apply app_eq_nil in T3 as [_ T3]. discriminate T3. }
    unfold on_names, rename_arm. rewrite D. cbn [option_map] in NN. unfold own_is in NN. rewrite SR, (proj1 NN), (proj2 NN). cbn [rmap fst snd fs_is_none].
    eexists. split; [reflexivity|]. split; [rewrite <- SF in *; exact I|].
    eexists. split; [|unfold flattens, appends, rests, defaults, withs, containers, skips, transforms; rewrite !flat_map_app; cbn [flat_map]; rewrite !app_nil_r; reflexivity].
    unfold renames, aliases in *. rewrite !flat_map_app, RE. cbn [flat_map app]. rewrite !app_nil_r. rewrite NI, RE. cbn [app].
    split; [reflexivity|]. split; [cbn; eauto|exact SA].
  - destruct NR as [NI [SR SA]].
    assert (NN : own_is (option_map fst (sf_ident f)) x = false /\ has_name x (n_idents n) = false).
    { rewrite NI. unfold renames, aliases in N. rewrite !flat_map_app in N. fold (renames os) (aliases os) in N. cbn [flat_map app] in N. rewrite app_nil_r, app_assoc in N.
      apply new_names_app in N. tauto. }
    destruct (sf_ident f) as [own|] eqn:SF.
    2: { destruct TT as [TT|[_ [_ [_ T3]]]]; [congruence|]. norm. apply app_eq_nil in T3 as [_ T3]. discriminate T3. }
    unfold on_names, alias_arm. rewrite D. cbn [option_map] in NN. unfold own_is in NN. rewrite (proj1 NN), (proj2 NN). cbn [rmap fst snd].
    eexists. split; [reflexivity|]. split; [rewrite <- SF in *; exact I|].
    eexists. split; [|unfold flattens, appends, rests, defaults, withs, containers, skips, transforms; rewrite !flat_map_app; cbn [flat_map]; rewrite !app_nil_r; reflexivity].
    unfold renames, aliases in *. rewrite !flat_map_app. cbn [flat_map app]. rewrite !app_nil_r. rewrite NI.
    split; [cbn [n_idents]; now rewrite app_assoc|]. split; [exact SR|]. now apply shows_snoc.
  - byslot D A7 n I NR.
  - byslot D A8 n I NR.
  - rewrite (collect_ok _ _ _ _ _ _ D). eexists. split; [reflexivity|]. split; [exact I|]. exists n. clear -NR. norm. split; [assumption|reflexivity].
  - rewrite (collect_ok _ _ _ _ _ _ D). eexists. split; [reflexivity|]. split; [exact I|]. exists n. clear -NR. norm. split; [assumption|reflexivity].
Qed.
End F.
