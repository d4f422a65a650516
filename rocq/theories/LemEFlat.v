(** Proofs for PropsEFlat.v. *)
From Verif Require Export SpecEFlat LemEStop LemEnum6.
From Verif Require Import LemRun LemStop.
Local Open Scope string_scope.
Local Open Scope list_scope.

(** *** Order *)
Lemma cmp_before {A} (cmp : A -> A -> comparison) (lt : A -> A -> Prop) :
  (forall x y, cmp x y = Eq <-> x = y) -> (forall x y, cmp x y = Lt <-> lt x y) -> (forall x, ~ lt x x) ->
  forall a b, cmp_list cmp a b = Lt <-> before lt a b.
Proof.
  intros CE CL IR. induction a as [|x a IH]; destruct b as [|y b]; cbn [cmp_list].
  - split; [discriminate|]. intro H. inversion H.
  - split; auto. intros _. constructor.
  - split; [discriminate|]. intro H. inversion H.
  - destruct (cmp x y) eqn:C.
    + apply CE in C as ->. rewrite IH. split; [now constructor|]. intro H. inversion H; subst; auto. now destruct (IR y).
    + split; auto. intros _. constructor. now apply CL.
    + split; [discriminate|]. intro H. inversion H; subst.
      * apply CL in H1. congruence.
      * assert (X : cmp y y = Eq) by now apply CE. congruence.
Qed.
Lemma before_irrefl {A} (lt : A -> A -> Prop) : (forall x, ~ lt x x) -> forall a, ~ before lt a a.
Proof. intro H. induction a as [|x a IH]; intro B; inversion B; subst; auto. eapply H; eauto. Qed.
Lemma before_trans {A} (lt : A -> A -> Prop) : (forall x y z, lt x y -> lt y z -> lt x z) ->
  forall a b c, before lt a b -> before lt b c -> before lt a c.
Proof.
  intros T a b c H. revert c. induction H as [y l|x y l m L|x l m B IH]; intros c H2; inversion H2; subst;
    first [apply Be_end | apply Be_here; solve [eauto] | apply Be_later; solve [eauto]].
Qed.
Lemma cmp_list_opp {A} (cmp : A -> A -> comparison) : (forall x y, cmp x y = CompOpp (cmp y x)) ->
  forall a b, cmp_list cmp a b = CompOpp (cmp_list cmp b a).
Proof.
  intros O. induction a as [|x a IH]; destruct b as [|y b]; cbn [cmp_list]; auto.
  rewrite (O x y). destruct (cmp y x); cbn [CompOpp]; auto.
Qed.
Lemma str_cmp_before a b : str_cmp a b = Lt <-> str_before a b.
Proof.
  unfold str_before. rewrite <- (cmp_before Ascii.compare).
  - revert b. induction a as [|c a IH]; destruct b as [|d b]; cbn; try tauto. destruct (Ascii.compare c d); try tauto. apply IH.
  - intros x y. split; [apply Ascii.compare_eq_iff|intros <-]. unfold Ascii.compare. apply N.compare_refl.
  - intros x y. unfold Ascii.compare. apply N.compare_lt_iff.
  - intros x. apply N.lt_irrefl.
Qed.
Lemma str_irrefl a : ~ str_before a a.
Proof. apply before_irrefl. intro. apply N.lt_irrefl. Qed.
Lemma str_before_trans a b c : str_before a b -> str_before b c -> str_before a c.
Proof. apply before_trans. intros x y z. apply N.lt_trans. Qed.
Lemma str_opp a b : str_cmp a b = CompOpp (str_cmp b a).
Proof. apply String.compare_antisym. Qed.
Definition set_cmp := cmp_list str_cmp.
Lemma set_cmp_before a b : set_cmp a b = Lt <-> set_before a b.
Proof. apply cmp_before; [apply str_cmp_eq|apply str_cmp_before|apply str_irrefl]. Qed.
Lemma set_cmp_eq a b : set_cmp a b = Eq <-> a = b.
Proof. apply cmp_list_eq. apply str_cmp_eq. Qed.
Lemma set_irrefl a : ~ set_before a a.
Proof. apply before_irrefl, str_irrefl. Qed.
Lemma set_before_trans a b c : set_before a b -> set_before b c -> set_before a c.
Proof. apply before_trans, str_before_trans. Qed.
Lemma set_opp a b : set_cmp a b = CompOpp (set_cmp b a).
Proof. apply cmp_list_opp, str_opp. Qed.
Lemma key_cmp_before a b : key_cmp a b = Lt <-> sets_before a b.
Proof. apply (cmp_before set_cmp); [apply set_cmp_eq|apply set_cmp_before|apply set_irrefl]. Qed.
Lemma key_opp a b : key_cmp a b = CompOpp (key_cmp b a).
Proof. apply (cmp_list_opp set_cmp), set_opp. Qed.
Lemma sets_before_trans a b c : sets_before a b -> sets_before b c -> sets_before a c.
Proof. apply before_trans, set_before_trans. Qed.
Lemma sets_irrefl a : ~ sets_before a a.
Proof. apply before_irrefl, set_irrefl. Qed.

Section Sets.
Context {A : Type} (cmp : A -> A -> comparison) (lt : A -> A -> Prop).
Hypothesis CE : forall x y, cmp x y = Eq <-> x = y.
Hypothesis CL : forall x y, cmp x y = Lt <-> lt x y.
Hypothesis CO : forall x y, cmp x y = CompOpp (cmp y x).
Hypothesis TR : forall x y z, lt x y -> lt y z -> lt x z.
Hypothesis IR : forall x, ~ lt x x.
Lemma set_insert_sorted x l : StronglySorted lt l -> StronglySorted lt (set_insert cmp x l).
Proof.
  induction 1 as [|y l S IH F]; cbn [set_insert]; [repeat constructor|]. destruct (cmp x y) eqn:C.
  - constructor; auto.
  - apply CL in C. constructor; [constructor; auto|]. constructor; auto. eapply Forall_impl; [|exact F]. intros z. apply TR. auto.
  - rewrite CO in C. assert (L : lt y x) by (apply CL; destruct (cmp y x); auto; discriminate).
    constructor; auto. rewrite Forall_forall in *. intros z I. apply set_insert_in in I; auto. destruct I as [->|I]; auto.
Qed.
Lemma set_of_sorted l : StronglySorted lt (set_of cmp l).
Proof.
  unfold set_of. assert (H : forall l s, StronglySorted lt s -> StronglySorted lt (fold_left (fun s x => set_insert cmp x s) l s)).
  { clear l. induction l as [|x l IH]; intros s S; auto. cbn [fold_left]. apply IH. now apply set_insert_sorted. }
  apply H. constructor.
Qed.
(** a set has one list in order *)
Lemma sorted_same a : forall b, StronglySorted lt a -> StronglySorted lt b -> (forall x, In x a <-> In x b) -> a = b.
Proof.
  induction a as [|x a IH]; intros b SA SB H.
  - destruct b as [|y b]; auto. destruct (proj2 (H y) (or_introl eq_refl)).
  - destruct b as [|y b]; [destruct (proj1 (H x) (or_introl eq_refl))|].
    inversion SA as [|? ? SA' FA]; subst. inversion SB as [|? ? SB' FB]; subst. rewrite Forall_forall in FA, FB.
    assert (E : x = y).
    { destruct (proj1 (H x) (or_introl eq_refl)) as [->|I]; auto. destruct (proj2 (H y) (or_introl eq_refl)) as [->|J]; auto.
      destruct (IR x). eapply TR; eauto. }
    subst y. f_equal. apply IH; auto. intro z. split; intro I.
    + destruct (proj1 (H z) (or_intror I)) as [->|J]; auto. destruct (IR z). auto.
    + destruct (proj2 (H z) (or_intror I)) as [->|J]; auto. destruct (IR z). auto.
Qed.
End Sets.

Section E.
Context {env : Env} {V : Type}.
Notation vdef := (vdef V).
Notation edef := (edef V).
Notation found := (@found V).

Lemma name_set_of (f : field V) ks : name_set f ks <-> ks = set_of str_cmp (f_names f).
Proof.
  assert (S : name_set f (set_of str_cmp (f_names f))).
  { split; [apply set_of_sorted; auto using str_cmp_eq, str_cmp_before, str_opp; apply str_before_trans|].
    intro n. apply set_of_in, str_cmp_eq. }
  split; [|intros ->; auto]. intros [A B]. destruct S as [C D].
  apply (sorted_same str_before str_before_trans str_irrefl); auto. intro n. now rewrite B, D.
Qed.
Lemma required_sets_of (v : vdef) kss : fields_named v -> (required_sets v kss <-> kss = field_key v).
Proof.
  intro FN. assert (S : required_sets v (field_key v)).
  { split.
    - unfold field_key. apply (set_of_sorted set_cmp set_before); auto using set_cmp_eq, set_cmp_before, set_opp. apply set_before_trans.
    - intro ks. rewrite field_key_in. split.
      + intros [f [I [R [E N]]]]. exists f. split; auto. split; auto. now apply name_set_of.
      + intros [f [I [R N]]]. apply name_set_of in N. exists f. repeat split; auto; try apply R. intro Z. subst ks. apply set_of_nil in Z; [|apply str_cmp_eq].
        apply (FN f I); auto. apply R. }
  split; [|intros ->; auto]. intros [A B]. destruct S as [C D].
  apply (sorted_same set_before set_before_trans set_irrefl); auto. intro n. now rewrite B, D.
Qed.

(** *** The order in which the flattened variants are tried *)
Definition mlt (a b : key_t * (nat * vdef)) : Prop := sets_before (fst a) (fst b).
Lemma map_insert_sorted k (y : nat * vdef) m : StronglySorted mlt m -> StronglySorted mlt (map_insert key_cmp k y m).
Proof.
  induction 1 as [|[k1 y1] l S IH F]; cbn [map_insert]; [repeat constructor|]. destruct (key_cmp k k1) eqn:C.
  - constructor; auto.
  - apply key_cmp_before in C. constructor; [constructor; auto|]. constructor; auto. eapply Forall_impl; [|exact F]. intros z. apply sets_before_trans. auto.
  - rewrite key_opp in C. assert (L : sets_before k1 k) by (apply key_cmp_before; destruct (key_cmp k1 k); auto; discriminate).
    constructor; auto. rewrite Forall_forall in *. intros z I. apply (proj1 (map_insert_spec key_cmp k y key_cmp_eq l)) in I as [->|I]; auto.
Qed.
Lemma map_insert_same k (y : nat * vdef) m z : StronglySorted mlt m -> In (k, z) (map_insert key_cmp k y m) -> z = y.
Proof.
  induction 1 as [|[k1 y1] l S IH F]; cbn [map_insert]; [intros [E|[]]; congruence|]. rewrite Forall_forall in F. destruct (key_cmp k k1) eqn:C.
  - apply key_cmp_eq in C as <-. intros [E|I]; [congruence|]. destruct (sets_irrefl k). apply (F _ I).
  - apply key_cmp_before in C. intros [E|[E|I]]; [congruence| |].
    + injection E as -> ->. destruct (sets_irrefl _ C).
    + destruct (sets_irrefl k). eapply sets_before_trans; [exact C|apply (F _ I)].
  - intros [E|I]; auto. injection E as -> ->. assert (X : key_cmp k k = Eq) by (now apply key_cmp_eq). congruence.
Qed.
Lemma matches_sorted (e : edef) : StronglySorted mlt (flat_matches e) /\
  (forall k i v j w, In (k, (i, v)) (flat_matches e) -> flattened e j w -> field_key w = k -> j <= i).
Proof.
  unfold flat_matches.
  set (step := fun (m : list (key_t * (nat * vdef))) (iv : nat * vdef) => let '(i, v) := iv in
     if v_flatten v && negb (v_skip v) then map_insert key_cmp (field_key v) (i, v) m else m).
  assert (H : forall l n m, StronglySorted mlt m ->
     StronglySorted mlt (fold_left step (combine (seq n (length l)) l) m) /\
     (forall k i v, In (k, (i, v)) (fold_left step (combine (seq n (length l)) l) m) -> n <= i \/ In (k, (i, v)) m) /\
     (forall k i v j w, In (k, (i, v)) (fold_left step (combine (seq n (length l)) l) m) ->
        In (j, w) (combine (seq n (length l)) l) -> v_flatten w = true -> v_skip w = false -> field_key w = k -> j <= i)).
  { induction l as [|u l IH]; intros n m S; cbn [length seq combine fold_left].
    - repeat split; auto; intros; contradiction.
    - assert (S1 : StronglySorted mlt (step m (n, u))).
      { cbn [step]. destruct (_ && _); auto. now apply map_insert_sorted. }
      destruct (IH (Datatypes.S n) _ S1) as [A [B C]]. split; auto.
      assert (ST : forall k i v, In (k, (i, v)) (step m (n, u)) -> i = n \/ In (k, (i, v)) m).
      { intros k i v I. cbn [step] in I. destruct (_ && _); auto. apply (proj1 (map_insert_spec key_cmp _ (n, u) key_cmp_eq m)) in I as [E|I]; auto.
        injection E as _ -> _. auto. }
      split.
      + intros k i v I. destruct (B _ _ _ I) as [L|I1]; [left; lia|]. destruct (ST _ _ _ I1) as [->|I2]; auto.
      + intros k i v j w I [E|J] F K FK; [|eapply C; eauto]. injection E as -> ->.
        destruct (B _ _ _ I) as [L|I1]; [lia|]. cbn [step] in I1. rewrite F, K in I1. cbn [andb negb] in I1. subst k.
        apply map_insert_same in I1; auto. injection I1 as -> _. auto. }
  destruct (H (e_variants e) 0 []) as [A [_ C]]; [constructor|]. split; auto.
  intros k i v j w I [N [F K]] FK. eapply C; eauto. apply in_indexed. rewrite Nat.sub_0_r. split; auto. lia.
Qed.
Lemma sorted_find (p : key_t * (nat * vdef) -> bool) l x : StronglySorted mlt l -> find p l = Some x ->
  forall y, In y l -> p y = true -> y = x \/ sets_before (fst x) (fst y).
Proof.
  induction 1 as [|z l S IH F]; cbn [find]; [discriminate|]. rewrite Forall_forall in F. destruct (p z) eqn:P.
  - intro E. injection E as ->. intros y [->|I] _; auto. right. apply F. auto.
  - intros E y [->|I] Q; [congruence|]. auto.
Qed.

Definition paths_read (prefix : string) (l : list entry) (m : pathmap) : Prop :=
  forall k, In k (pm_keys m) <-> key_read prefix k l.
Lemma present_read (v : vdef) prefix l m : paths_read prefix l m -> fields_named v ->
  present_in v prefix l <-> has_paths m (field_key v) = true.
Proof.
  intros PF FN. rewrite has_paths_keys. split.
  - intros AP ks I. apply field_key_in in I as [f [I [R [-> _]]]]. destruct (AP f I R) as [n [IN IK]].
    exists n. split; [now apply set_of_in; [apply str_cmp_eq|]|]. now apply PF.
  - intros H f I R. destruct (H (set_of str_cmp (f_names f))) as [k [IK IP]].
    + apply field_key_in. exists f. repeat split; auto; try apply R. intro Z. apply set_of_nil in Z; [|apply str_cmp_eq]. apply (FN f I); auto. apply R.
    + apply set_of_in in IK; [|apply str_cmp_eq]. apply PF in IP. eauto.
Qed.
Lemma in_matches (e : edef) j w : flattened e j w -> exists i v, In (field_key w, (i, v)) (flat_matches e) /\ j <= i.
Proof.
  intro F. destruct (matches_spec e) as [M1 M2]. pose proof (M2 j w F) as I. apply in_map_iff in I as [[k [i v]] [E I]]. cbn in E. subst k.
  exists i, v. split; auto. eapply (proj2 (matches_sorted e)); eauto.
Qed.
Lemma pick_chosen (e : edef) prefix l m i v : flat_named_ok e -> paths_read prefix l m ->
  pick_flat e m = Some (i, v) -> chosen_in e prefix l i v.
Proof.
  intros FN PF. unfold pick_flat. destruct (matches_spec e) as [M1 M2]. destruct (matches_sorted e) as [MS MI].
  destruct (find (fun kv => match fst kv with [] => false | ks => has_paths m ks end) (flat_matches e)) as [[k [i1 v1]]|] eqn:F1.
  - intro E. injection E as <- <-. pose proof F1 as F0. apply find_some in F1 as [I HP]. cbn [fst] in HP. destruct (M1 _ _ _ I) as [-> FL].
    destruct (flattened_in _ _ _ FL) as [IV FV]. pose proof (FN _ IV FV) as FN1.
    assert (KN : field_key v1 <> []) by (intro Z; rewrite Z in HP; discriminate).
    assert (ND : needs v1) by (now apply needs_key).
    split; auto. split; [apply (present_read v1 prefix l m PF FN1); destruct (field_key v1); auto; congruence|].
    intros j w FW PW. split; auto. intros [NW|NV] a b FA FB; [|contradiction].
    destruct (flattened_in _ _ _ FW) as [IW FWW]. pose proof (FN _ IW FWW) as FN2.
    apply required_sets_of in FA; auto. apply required_sets_of in FB; auto. subst a b.
    destruct (in_matches e j w FW) as [i2 [v2 [I2 L2]]].
    apply (needs_key w FN2) in NW. apply (present_read w prefix l m PF FN2) in PW.
    destruct (sorted_find _ _ _ MS F0 _ I2) as [X|X].
    + cbn [fst]. destruct (field_key w); [congruence|auto].
    + injection X as X1 X2 X3. subst. right. split; auto.
    + left. exact X.
  - destruct (find (fun kv => match fst kv with [] => true | _ => false end) (flat_matches e)) as [[k [i1 v1]]|] eqn:F2; [|discriminate].
    intro E. injection E as <- <-. apply find_some in F2 as [I HP]. cbn [fst] in HP. destruct (M1 _ _ _ I) as [-> FL].
    destruct (flattened_in _ _ _ FL) as [IV FV]. pose proof (FN _ IV FV) as FN1.
    assert (KN : field_key v1 = []) by (destruct (field_key v1); [auto|discriminate]).
    assert (ND : ~ needs v1) by (rewrite (needs_key v1 FN1); auto).
    split; auto. split; [apply (present_read v1 prefix l m PF FN1); rewrite KN; reflexivity|].
    intros j w FW PW. destruct (flattened_in _ _ _ FW) as [IW FWW]. pose proof (FN _ IW FWW) as FN2.
    assert (NW : ~ needs w).
    { intro NW. apply (present_read w prefix l m PF FN2) in PW. apply needs_key in NW; auto.
      pose proof (M2 _ _ FW) as J. apply in_map_iff in J as [[k2 iv2] [E2 I2]]. cbn [fst] in E2. subst k2.
      apply (find_none _ _ F1) in I2. cbn [fst] in I2. destruct (field_key w); congruence. }
    split; [tauto|]. intros _ a b FA FB. apply required_sets_of in FA; auto. apply required_sets_of in FB; auto. subst a b.
    right. assert (KW : field_key w = []) by (destruct (field_key w) eqn:Q; auto; destruct NW; apply needs_key; auto; congruence).
    rewrite KN, KW. split; auto. rewrite KN in I. eapply MI; eauto.
Qed.
Lemma pick_not (e : edef) prefix l m : flat_named_ok e -> paths_read prefix l m ->
  pick_flat e m = None -> forall i v, flattened e i v -> ~ present_in v prefix l.
Proof.
  intros FN PF. unfold pick_flat. destruct (matches_spec e) as [M1 M2].
  destruct (find (fun kv => match fst kv with [] => false | ks => has_paths m ks end) (flat_matches e)) as [[k [i1 v1]]|] eqn:F1; [discriminate|].
  destruct (find (fun kv => match fst kv with [] => true | _ => false end) (flat_matches e)) as [[k [i1 v1]]|] eqn:F2; [discriminate|].
  intros _ i v FW AP. destruct (flattened_in _ _ _ FW) as [IW FWW]. pose proof (FN _ IW FWW) as FN2.
  apply (present_read v prefix l m PF FN2) in AP. apply M2 in FW. apply in_map_iff in FW as [[k2 iv2] [E2 I2]]. cbn [fst] in E2. subst k2.
  pose proof (find_none _ _ F1 _ I2) as X1. pose proof (find_none _ _ F2 _ I2) as X2. cbn [fst] in X1, X2.
  destruct (field_key v); congruence.
Qed.

(** *** Keys beside a variant *)
Lemma pm_get_remove k k' (m : pathmap) : pm_get k (pm_remove k' m) = if String.eqb k k' then None else pm_get k m.
Proof.
  unfold pm_get, pm_remove. induction m as [|[a sp] m IH]; cbn [filter find fst]; [destruct (String.eqb k k'); auto|].
  destruct (String.eqb_spec a k') as [->|N]; cbn [negb].
  - rewrite IH. destruct (String.eqb_spec k k') as [->|N2]; auto. destruct (String.eqb_spec k' k); [congruence|auto].
  - cbn [find fst]. destruct (String.eqb_spec a k) as [->|N2]; auto. destruct (String.eqb_spec k k'); [congruence|auto].
Qed.
Definition joined (keys : list (string * list string)) : list string := flat_map (fun pk => map (join_path (fst pk)) (snd pk)) keys.
Lemma pm_get_removed k keys : forall m : pathmap, pm_get k (remove_paths m keys) = if mem_str k (joined keys) then None else pm_get k m.
Proof.
  assert (ONE : forall p ns m, pm_get k (fold_left (fun m n => pm_remove (join_path p n) m) ns m) = if mem_str k (map (join_path p) ns) then None else pm_get k m).
  { intros p. induction ns as [|n ns IH]; intro m; cbn [fold_left map]; [reflexivity|]. rewrite IH, pm_get_remove.
    unfold mem_str. cbn [existsb]. destruct (existsb _ (map (join_path p) ns)); [now rewrite orb_true_r|]. now rewrite orb_false_r. }
  unfold remove_paths, joined. induction keys as [|[p ns] keys IH]; intro m; cbn [fold_left flat_map fst snd]; [reflexivity|].
  rewrite IH, ONE. unfold mem_str. rewrite existsb_app. destruct (existsb _ (map (join_path p) ns)), (existsb _ (flat_map _ keys)); reflexivity.
Qed.
Lemma disallow_exact m keys cur : forall es, disallow_paths m keys cur es =
  es ++ flat_map (fun n => match pm_get n m with
                           | Some sp => [mkErr sp ("`" ++ n ++ "` not allowed with variant `" ++ cur ++ "`")]
                           | None => [] end) (joined keys).
Proof.
  unfold disallow_paths, joined. induction keys as [|[p ns] keys IH]; intro es; cbn [fold_left flat_map fst snd]; [now rewrite app_nil_r|].
  rewrite IH, flat_map_app, app_assoc. f_equal. clear IH. revert es. induction ns as [|n ns IH]; intro es; cbn [fold_left map flat_map]; [now rewrite app_nil_r|].
  cbv zeta. rewrite IH, app_assoc. f_equal. destruct (pm_get (join_path p n) m); [|now rewrite app_nil_r].
  unfold push, tick. do 3 f_equal. rewrite !app_str_assoc. reflexivity.
Qed.
Lemma filter_gone {A B} (g : A -> option B) (h : A -> bool) (k : A -> B -> list err) l :
  flat_map (fun n => match (if h n then None else g n) with Some x => k n x | None => [] end) l =
  flat_map (fun n => match g n with Some x => k n x | None => [] end) (filter (fun n => negb (h n)) l).
Proof. induction l as [|n l IH]; auto. cbn [flat_map filter]. destruct (h n); cbn [negb flat_map]; now rewrite IH. Qed.
Lemma joined_app a b : joined (a ++ b) = joined a ++ joined b.
Proof. apply flat_map_app. Qed.
Lemma joined_flat (v : vdef) : joined (flat_names v) = if v_flatten v then all_names v else [].
Proof.
  unfold flat_names, all_names, v_fields, joined. destruct (v_flatten v); auto. induction (v_raw v) as [|f l IH]; auto.
  cbn [map flat_map]. rewrite IH. f_equal. destruct (skip_default_names f) as [N [K _]]. rewrite N, K. unfold field_key_names, join_paths.
  assert (X : forall l : list string, map (join_path "") l = l) by (intro q; rewrite <- (map_id q) at 2; apply map_ext; reflexivity).
  destruct (f_kind f) as [d|[q|] u|u|a|a]; cbn [fst snd]; auto.
Qed.
Lemma all_flat_names (e : edef) : joined (flat_map flat_names (e_variants e)) = flattened_names e None.
Proof.
  unfold flattened_names. generalize 0. induction (e_variants e) as [|v l IH]; intro n; [reflexivity|].
  cbn [flat_map]. rewrite joined_app, joined_flat, (IH (S n)). unfold flat_mapi. cbn [mapi concat]. rewrite andb_true_r. reflexivity.
Qed.
Lemma other_flat_names (e : edef) i : joined (other_names e i) = flattened_names e (Some i).
Proof.
  unfold flattened_names, other_names. generalize 0. induction (e_variants e) as [|v l IH]; intro n; [reflexivity|].
  cbn [length seq combine flat_map fst snd]. rewrite joined_app, (IH (S n)). unfold flat_mapi. cbn [mapi concat]. f_equal.
  destruct (Nat.eqb n i); cbn [negb]; [now rewrite andb_false_r|]. rewrite andb_true_r. apply joined_flat.
Qed.

(** *** Where keys were read *)
Section W.
Variable tm : tmode V.
Variable e : edef.
Variable prefix : string.
Variable P : proper_enum tm e.
Lemma state_spans inputs : e_any_flat e = true -> forall n,
  pm_get n (q_paths (estate tm e prefix inputs)) = last_at prefix n (eread tm e prefix inputs).
Proof.
  intros AF n. unfold estate, last_at.
  assert (H : forall l q, pm_get n (q_paths (fold_entries (upd_enum tm e prefix) l q)) =
     match find (fun en => String.eqb (en_key en) (prefix ++ n)) (rev l) with Some en => Some (en_span en) | None => pm_get n (q_paths q) end).
  { induction l as [|en l IH]; intro q; cbn [fold_entries fold_left]; [reflexivity|].
    fold (fold_entries (upd_enum tm e prefix) l (upd_enum tm e prefix en q)). rewrite IH. cbn [rev].
    assert (FA : forall (p : entry -> bool) a b, find p (a ++ b) = match find p a with Some x => Some x | None => find p b end).
    { intros p a b. induction a as [|x a IHa]; auto. cbn [app find]. destruct (p x); auto. }
    rewrite FA. destruct (find _ (rev l)); auto. cbn [find].
    assert (U : q_paths (upd_enum tm e prefix en q) = match strip_prefix prefix (en_key en) with Some k => pm_insert k (en_span en) (q_paths q) | None => q_paths q end).
    { unfold upd_enum. destruct (strip_prefix prefix (en_key en)) as [k|]; auto. rewrite AF. cbv zeta.
      destruct (find_variant k (e_variants e) 0) as [[i v]|] eqn:F; auto.
      apply LemWfE.find_variant_in in F. pose proof (vp_good tm v prefix (en_key en) (en_span en) (G tm e P v F) (en_at en)) as [W _].
      destruct (fst (vp v tm prefix (en_key en) (en_span en) (en_at en))); auto. destruct W. }
    rewrite U. destruct (strip_prefix prefix (en_key en)) as [k|] eqn:SP.
    - apply strip_prefix_spec in SP. unfold pm_get at 1. unfold pm_insert. cbn [find fst]. rewrite SP.
      destruct (String.eqb_spec k n) as [->|N].
      + now rewrite String.eqb_refl.
      + fold (pm_get n (pm_remove k (q_paths q))). rewrite pm_get_remove. destruct (String.eqb_spec n k); [congruence|].
        destruct (String.eqb_spec (prefix ++ k) (prefix ++ n)) as [E|]; auto. apply app_str_inj in E. congruence.
    - destruct (String.eqb_spec (en_key en) (prefix ++ n)) as [E|]; auto. apply strip_prefix_spec in E. congruence. }
  rewrite H. destruct (find _ _); reflexivity.
Qed.
Lemma state_read inputs : e_any_flat e = true -> paths_read prefix (eread tm e prefix inputs) (q_paths (estate tm e prefix inputs)).
Proof. intros AF k. apply (state_paths tm e prefix P inputs AF). Qed.
End W.

(** *** Unknown keys *)
Lemma not_names_pass names es inputs :
  fst (validate_pass names es inputs) = es ++ not_names names inputs.
Proof.
  rewrite validate_exact. f_equal. unfold not_names. rewrite <- keys_until_walk.
  induction (fst (fst (walks eat_skip inputs))) as [|en l IH]; [reflexivity|].
  cbn [map flat_map fst snd]. rewrite IH. f_equal. unfold check_unknown. destruct (in_dec string_dec (en_key en) names) as [I|N].
  - apply mem_str_In in I. now rewrite I.
  - apply mem_str_false in N. rewrite N. reflexivity.
Qed.
Lemma unknown_pass (e : edef) validate es inputs tm prefix :
  (if negb (e_unknown_ok e) && validate then fst (validate_pass (e_names e) es (erest tm e prefix inputs)) else es) =
  es ++ unknown_keys e validate inputs.
Proof.
  unfold unknown_keys. destruct (negb (e_unknown_ok e) && validate) eqn:C; [|now rewrite app_nil_r].
  apply andb_true_iff in C as [C _]. apply negb_true_iff in C. rewrite erest_inputs by auto. apply not_names_pass.
Qed.
Lemma not_names_fork names inputs : not_names names (fork_inputs inputs) = not_names names inputs.
Proof. unfold not_names, items_of. now rewrite fork_pieces. Qed.

(** *** No variant *)
Lemma join_list sep l : join_strs sep l = in_a_list sep l.
Proof. induction l as [|x [|y l] IH]; auto. Qed.
Lemma missing_exact (e : edef) prefix sp : is_prefix prefix -> flat_named_ok e ->
  (forall v, In v (e_variants e) -> v_flatten v = false -> v_skip v = false -> v_names v <> []) ->
  exists x, missing_variant e prefix sp x /\ forall es, variant_required sp prefix (all_messages e) es = es ++ [x].
Proof.
  intros IP FN NN. unfold variant_required, push, all_messages. rewrite map_map.
  eexists. split; [|reflexivity]. exists (map (fun v => variant_msg prefix (variant_message v)) (filter (fun v => negb (v_skip v)) (e_variants e))).
  split; [|now rewrite join_list].
  assert (H : forall v, In v (filter (fun v => negb (v_skip v)) (e_variants e)) -> described prefix v (variant_msg prefix (variant_message v))).
  { intros v I. apply filter_In in I as [I K]. apply negb_true_iff in K. unfold variant_message. destruct (v_flatten v) eqn:F.
    - pose proof (FN v I F) as FV. pose proof (proj2 (required_sets_of v (field_key v) FV) eq_refl) as RS. pose proof (needs_key v FV) as NK.
      assert (J : forall ks, map (join_path prefix) (map tick ks) = map (fun n => prefix ++ "`" ++ n ++ "`")%string ks).
      { intro ks. rewrite map_map. apply map_ext. intro n. now rewrite LemFlat.join_path_prefix by auto. }
      destruct (field_key v) as [|ks [|ks2 l]].
      + unfold variant_msg. cbn [map join_strs]. rewrite LemFlat.join_path_prefix by auto. apply De_rust_name; auto. tauto.
      + unfold variant_msg. cbn [map]. rewrite J, join_list. now apply De_field.
      + unfold variant_msg. rewrite map_map. cbn [map]. rewrite !J, !join_list.
        replace (map (fun x => join_strs "|" (map (join_path prefix) (map tick x))) l)
          with (map (fun ks => in_a_list "|" (map (fun n => prefix ++ "`" ++ n ++ "`")%string ks)) l).
        2:{ apply map_ext. intro x. rewrite J. symmetry. apply join_list. }
        apply (De_fields prefix v (ks :: ks2 :: l) F RS). cbn. lia.
    - specialize (NN v I F K). destruct (v_names v) as [|n l] eqn:N; [congruence|]. unfold variant_msg. cbn [map join_strs].
      rewrite LemFlat.join_path_prefix by auto. eapply De_name; eauto. }
  induction (filter (fun v => negb (v_skip v)) (e_variants e)) as [|v l IH]; constructor; auto with datatypes.
Qed.

(** *** The fields of a flattened variant *)
Lemma variant_fields (v : vdef) tm : accepted_variant tm v -> s_fields tm (variant_struct v) = v_fields v.
Proof.
  intros [_ [C _]]. unfold s_fields, s_fields_meta, s_fields_attr, variant_struct. cbn [s_default s_raw has_target]. destruct tm; auto.
  fold (v_fields v). unfold v_fields. rewrite map_map. apply map_ext_in. intros f I. rewrite Forall_forall in C. specialize (C f I). cbn in C.
  unfold skip_default. destruct (f_default f) eqn:D; [unfold container_default; now rewrite D|].
  destruct (f_container f) eqn:K; [now destruct (C eq_refl)|]. destruct (f_skip f); unfold container_default; cbn [f_default f_container]; auto.
  now rewrite D, K.
Qed.
Lemma variant_named (v : vdef) tm : accepted_variant tm v -> v_flatten v = true -> named_struct (variant_struct v).
Proof.
  intros [A [_ [S _]]] F. specialize (S F). rewrite S in A. split; [|split; [reflexivity|discriminate]]. split; [exact A|].
  unfold s_is_transparent. cbn. discriminate.
Qed.
Lemma fields_result_body (v : vdef) tm prefix check sp inputs : accepted_variant tm v -> v_flatten v = true ->
  Forall local_field (v_raw v) -> Forall keeps_field (v_raw v) ->
  fields_result v tm prefix check sp inputs (fst (named_body (v_fields v) tm None (v_unknown_ok v) (v_allowed v) sp prefix check inputs)).
Proof.
  intros AV FV LF KF. pose proof (variant_named v tm AV FV) as NS. set (s := variant_struct v) in *.
  assert (B : fst (named_body (v_fields v) tm None (v_unknown_ok v) (v_allowed v) sp prefix check inputs) = fst (s_body s tm Unnamed sp prefix check 0 inputs)).
  { rewrite s_body_named by apply NS. change (s_and_thens s) with (@nil (list V -> list V + synerr)). cbn [after_and_thens].
    change (s_fields tm s) with (s_fields tm (variant_struct v)). rewrite (variant_fields v tm AV).
    assert (N : v_allowed v = s_names s). { rewrite v_allowed_names. reflexivity. }
    now rewrite N. }
  rewrite B. unfold fields_result. fold s. cbv zeta. set (R := struct_reader s tm prefix check).
  destruct (l_reading s tm prefix check inputs LF) as [pcs [stop RD]]. exists pcs, stop, (entries R inputs). split; auto.
  destruct (reading_reads s tm prefix check inputs pcs stop NS (local_stays_all _ LF) KF RD) as [X Y]. fold R in X, Y. split; auto. split; [apply entries_place; auto using local_stays_all|].
  pose proof (struct_exact s tm Unnamed sp prefix check inputs NS) as SX. cbv zeta in SX. fold R in SX.
  pose proof (errors_split s tm prefix check sp inputs) as ES. cbv zeta in ES. fold R in ES. rewrite Y in ES. rewrite <- ES.
  destruct (struct_errors s tm prefix check sp inputs) as [|x xs] eqn:SE; auto.
  pose proof (proj1 (s_body_good s tm Unnamed sp prefix check 0 (proj1 NS) inputs)) as GD.
  destruct (fst (s_body s tm Unnamed sp prefix check 0 inputs)) as [vs|x|b] eqn:FB; [| |destruct GD].
  - exists vs. split; auto. apply struct_text in FB as [ws [W C]]; auto. inversion C; subst. exact W.
  - exfalso. unfold post_ret in SX. cbn [s s_default s_and_thens variant_struct after_and_thens] in SX. fold s in SX.
    destruct (unwrap_slots _) as [vs|y|b] eqn:U; try discriminate SX. now apply LemStop.unwrap_no_err in U.
Qed.

(** *** The result *)
Lemma flat_validate_spec (v : vdef) : fields_named v -> flat_validate v = true <-> needs v /\ ~ takes_all v.
Proof.
  intro FN. pose proof (needs_empty v FN) as NE. pose proof (accepts_all_spec v) as TA. unfold flat_validate.
  assert (U : v_unknown_ok v = true -> v_accepts_all v = true) by (unfold v_accepts_all; intros ->; auto).
  assert (FE : flat_empty v = false <-> needs v).
  { rewrite (needs_key v FN). unfold flat_empty. destruct (field_key v); intuition congruence. }
  destruct (flat_empty v) eqn:F; cbn [andb].
  - assert (NN : ~ needs v) by (intro Z; apply FE in Z; discriminate).
    destruct (v_unknown_ok v); cbn [negb]; [rewrite (U eq_refl); cbn [negb]|]; split; try discriminate; tauto.
  - rewrite <- TA. destruct (v_accepts_all v); cbn [negb]; intuition congruence.
Qed.
Lemma pre_spec (e : edef) prefix sp (v : vdef) es inputs : fields_named v ->
  flat_pre e prefix sp v es inputs =
  if flat_empty v && negb (v_accepts_all v)
  then match es with
       | [] => match not_names (flat_names_of v) inputs with
               | [] => Ok []
               | z => rbind (check (variant_required sp prefix (all_messages e) z)) (fun _ => Bad Panic)
               end
       | z :: zs => Err (mkSyn z zs)
       end
  else Ok es.
Proof.
  intro FN. unfold flat_pre. assert (U : v_unknown_ok v = true -> v_accepts_all v = true) by (unfold v_accepts_all; intros ->; auto).
  replace (flat_empty v && negb (v_unknown_ok v) && negb (v_accepts_all v)) with (flat_empty v && negb (v_accepts_all v)).
  2:{ destruct (v_unknown_ok v); [rewrite U by auto; now rewrite !andb_false_r|now rewrite andb_true_r]. }
  destruct (_ && _); auto. destruct es as [|z zs]; cbn [errors_is_empty]; cbv zeta; [|reflexivity].
  rewrite not_names_pass, not_names_fork, v_allowed_names. cbn [app]. destruct (not_names (flat_names_of v) inputs); reflexivity.
Qed.
Lemma l_enum_flat_any (e : edef) tm prefix validate sp inputs r pcs stop :
  enum_run e tm prefix validate sp inputs r -> proper_enum tm e -> flat_local e -> flat_keeps e -> is_prefix prefix ->
  (forall v, In v (e_variants e) -> v_flatten v = false -> v_skip v = false -> v_names v <> []) ->
  enum_reading e tm prefix inputs pcs stop ->
  exists l ns, Forall2 reads pcs l /\ in_place inputs l /\ finds e tm prefix l ns /\
    enum_result e tm prefix validate sp inputs l stop ns r.
Proof.
  intros H P FL FK IP NN RD. apply LemEnum5.run_body in H as ->. pose proof (G tm e P) as GG. rewrite (body_exact tm e prefix GG).
  destruct (enum_reading_reads tm e prefix P inputs pcs stop RD) as [FR ST].
  exists (eread tm e prefix inputs). destruct (finds_state tm e prefix P (eread tm e prefix inputs) IP init) as [ns [FI [QV [QK QE]]]].
  exists ns. split; auto. split; [now apply eread_place|]. split; auto. cbn [init q_value q_key q_errors app] in QV, QK, QE. rewrite value_used in QV.
  fold (estate tm e prefix inputs) in QV, QK, QE.
  assert (ES : eerrors tm e prefix inputs = found_errors prefix ns ++ stop).
  { unfold eerrors. rewrite QE, <- ST. destruct (estop tm e prefix inputs) as [x|]; [reflexivity|]. cbn. now rewrite app_nil_r. }
  assert (FN : flat_named_ok e) by (intros v I F; apply (FL v I F)).
  unfold middle. rewrite ES, QV, QK. destruct ns as [|x ns].
  - cbn [found_errors app]. destruct (pick_flat e (q_paths (estate tm e prefix inputs))) as [[i v]|] eqn:PK.
    + destruct (e_any_flat e) eqn:AF; [|rewrite (no_flat_matches e AF) in PK; discriminate].
      pose proof (pick_chosen e prefix _ _ i v FN (state_read tm e prefix P inputs AF) PK) as CH.
      destruct (flattened_in e i v (proj1 CH)) as [IV FV]. pose proof (FN v IV FV) as FNV. destruct (FL v IV FV) as [LF _].
      assert (AV : accepted_variant tm v) by (destruct P as [A _]; unfold accepted_enum in A; rewrite Forall_forall in A; auto).
      assert (ER : erest tm e prefix inputs = inputs) by (unfold erest; now rewrite AF).
      rewrite ER, flat_exact, pre_spec by auto.
      pose proof (needs_empty v FNV) as NE. pose proof (accepts_all_spec v) as TA.
      assert (EC : (flat_empty v && negb (v_accepts_all v)) = true <-> ~ needs v /\ ~ takes_all v).
      { rewrite andb_true_iff, negb_true_iff, NE, <- TA. destruct (v_accepts_all v); intuition congruence. }
      destruct (missing_exact e prefix sp IP FN NN) as [mx [MV MX]].
      assert (MAIN : (~ needs v -> ~ takes_all v -> stop = [] /\ not_names (flat_names_of v) inputs = []) ->
        enum_result e tm prefix validate sp inputs (eread tm e prefix inputs) stop []
         (rbind (match fst (named_body (v_fields v) tm None (v_unknown_ok v) (v_allowed v) sp prefix (flat_validate v) inputs) with
            | Bad b => Bad b
            | r => Ok (match r with Ok l => FSome (i, l) | _ => FParseError end,
                       if negb (e_unknown_ok e || v_unknown_ok v) && v_accepts_all v
                       then disallow_paths (remove_paths (q_paths (estate tm e prefix inputs)) (flat_names v)) (other_names e i) (v_ident v) (push_result stop r)
                       else push_result stop r)
            end) (fun y => LemEnum2.finish (e_and_thens e) (fst y) (snd y)))).
      { intro HN. pose proof (fields_result_body v tm prefix (flat_validate v) sp inputs AV FV LF (FK v IV FV)) as FB.
        pose proof (variant_named v tm AV FV) as NS.
        set (fr := fst (named_body (v_fields v) tm None (v_unknown_ok v) (v_allowed v) sp prefix (flat_validate v) inputs)) in *.
        assert (NB : match fr with Bad _ => False | _ => True end).
        { destruct fr as [| |b]; auto. destruct FB as (p & st & l & _ & _ & _ & M).
          match type of M with match ?L with _ => _ end => destruct L end; [destruct M as [? [M _]]|]; discriminate M. }
        set (es := if negb (e_unknown_ok e || v_unknown_ok v) && v_accepts_all v
                   then not_allowed prefix (eread tm e prefix inputs) (v_ident v) (filter (fun n => negb (mem_str n (all_names v))) (flattened_names e (Some i))) else []).
        assert (BF : beside_fields e prefix (eread tm e prefix inputs) i v es).
        { unfold beside_fields, es. rewrite <- TA. destruct (e_unknown_ok e), (v_unknown_ok v), (v_accepts_all v); cbn [orb negb andb]; split; auto; try (intros (? & ? & ?); congruence);
            intro Z; exfalso; apply Z; auto. }
        assert (DE : (if negb (e_unknown_ok e || v_unknown_ok v) && v_accepts_all v
                       then disallow_paths (remove_paths (q_paths (estate tm e prefix inputs)) (flat_names v)) (other_names e i) (v_ident v) (push_result stop fr)
                       else push_result stop fr) = stop ++ match fr with Err x => errs_of x | _ => [] end ++ es).
        { assert (PR : push_result stop fr = stop ++ match fr with Err x => errs_of x | _ => [] end) by (destruct fr; cbn; rewrite ?app_nil_r; auto).
          rewrite PR, app_assoc. unfold es. destruct (negb (e_unknown_ok e || v_unknown_ok v) && v_accepts_all v); [|symmetry; apply app_nil_r].
          rewrite disallow_exact, other_flat_names. f_equal. unfold not_allowed.
          rewrite (flat_map_ext _ (fun n => match (if mem_str n (all_names v) then None else last_at prefix n (eread tm e prefix inputs)) with
             | Some sp0 => [mkErr sp0 ("`" ++ n ++ "` not allowed with variant `" ++ v_ident v ++ "`")] | None => [] end)).
          - apply (filter_gone (fun n => last_at prefix n (eread tm e prefix inputs)) (fun n => mem_str n (all_names v)) (fun n sp0 => [mkErr sp0 ("`" ++ n ++ "` not allowed with variant `" ++ v_ident v ++ "`")])).
          - intro n. rewrite pm_get_removed, joined_flat, FV. rewrite (state_spans tm e prefix P inputs AF). reflexivity. }
        eapply (En_flat _ _ _ _ _ _ _ _ i v (flat_validate v) fr es); eauto.
        - now apply flat_validate_spec.
        - destruct fr as [vs|y|b]; [| |destruct NB]; cbn [rbind fst snd]; rewrite DE.
          + apply (finish_concluded _ (FSome (i, vs))). discriminate.
          + apply (finish_concluded _ FParseError). intros _ Z. apply app_eq_nil in Z as [_ Z]. apply app_eq_nil in Z as [Z _]. discriminate Z. }
      destruct (flat_empty v && negb (v_accepts_all v)) eqn:Q.
      * destruct (proj1 EC eq_refl) as [Q1 Q2]. destruct stop as [|z zs].
        -- destruct (not_names (flat_names_of v) inputs) as [|z zs] eqn:UN.
           ++ cbn [rbind]. apply MAIN. auto.
           ++ rewrite MX. cbn [app check rbind]. eapply En_unknown; eauto.
        -- cbn [rbind]. eapply En_stopped; eauto.
      * cbn [rbind]. apply MAIN. intros Q1 Q2. discriminate (proj2 EC (conj Q1 Q2)).
    + assert (NO : forall i v, flattened e i v -> ~ present_in v prefix (eread tm e prefix inputs)).
      { destruct (e_any_flat e) eqn:AF.
        - exact (pick_not e prefix _ _ FN (state_read tm e prefix P inputs AF) PK).
        - intros i v F. apply flattened_any in F. congruence. }
      destruct (e_default e) as [y|] eqn:D.
      * cbn [rbind fst snd]. eapply En_default; eauto. apply (finish_concluded _ (FSome y)). discriminate.
      * destruct (missing_exact e prefix sp IP FN NN) as [mx [MV MX]]. cbn [rbind fst snd]. rewrite unknown_pass, MX, <- app_assoc.
        eapply En_none; eauto. apply (finish_concluded _ FNone). intros _ Z. apply app_eq_nil in Z as [_ Z]. apply app_eq_nil in Z as [_ Z]. discriminate Z.
  - destruct (used_value (x :: ns)) as [y|] eqn:U.
    + cbn [hd_error option_map]. cbn [rbind fst snd]. rewrite unknown_pass. eapply En_named; eauto.
      assert (BN : (if e_any_flat e && negb (e_unknown_ok e) && negb validate
                 then disallow_paths (pm_remove (fd_name x) (q_paths (estate tm e prefix inputs))) (flat_map flat_names (e_variants e)) (fd_name x) (found_errors prefix (x :: ns) ++ stop)
                 else found_errors prefix (x :: ns) ++ stop) = (found_errors prefix (x :: ns) ++ stop) ++ beside_name e prefix validate (eread tm e prefix inputs) (fd_name x)).
      { unfold beside_name. fold (e_any_flat e). destruct (e_any_flat e) eqn:AF; cbn [andb]; [|now rewrite app_nil_r].
        destruct (negb (e_unknown_ok e) && negb validate); [|now rewrite app_nil_r]. rewrite disallow_exact, all_flat_names. f_equal. unfold not_allowed.
        rewrite (flat_map_ext _ (fun n => match (if String.eqb n (fd_name x) then None else last_at prefix n (eread tm e prefix inputs)) with
             | Some sp0 => [mkErr sp0 ("`" ++ n ++ "` not allowed with variant `" ++ fd_name x ++ "`")] | None => [] end)).
        - apply (filter_gone (fun n => last_at prefix n (eread tm e prefix inputs)) (fun n => String.eqb n (fd_name x)) (fun n sp0 => [mkErr sp0 ("`" ++ n ++ "` not allowed with variant `" ++ fd_name x ++ "`")])).
        - intro n. rewrite pm_get_remove. rewrite (state_spans tm e prefix P inputs AF). reflexivity. }
      rewrite BN, <- !app_assoc. apply (finish_concluded _ (FSome y)). discriminate.
    + cbn [rbind fst snd]. eapply En_failed; eauto. apply (finish_concluded _ FParseError). intros _ Z. apply app_eq_nil in Z as [Z _].
      revert Z. apply own_ne; auto. discriminate.
Qed.

(** *** The choice is unique *)
Definition read_paths (prefix : string) (l : list entry) : pathmap :=
  flat_map (fun en => match strip_prefix prefix (en_key en) with Some n => [(n, en_span en)] | None => [] end) l.
Lemma read_paths_read prefix l : paths_read prefix l (read_paths prefix l).
Proof.
  intro k. unfold pm_keys, read_paths, key_read. rewrite in_map_iff. split.
  - intros [[n sp] [E I]]. cbn in E. subst n. apply in_flat_map in I as [en [I J]].
    destruct (strip_prefix prefix (en_key en)) as [n|] eqn:SP; [|destruct J]. destruct J as [J|[]]. injection J as -> <-.
    apply strip_prefix_spec in SP. eauto.
  - intros [en [I E]]. apply strip_prefix_spec in E. exists (k, en_span en). split; auto. apply in_flat_map. exists en. split; auto. rewrite E. now left.
Qed.
Lemma l_choice (e : edef) prefix l : flat_local e ->
  (exists i v, flattened e i v /\ present_in v prefix l) ->
  exists i v, chosen_in e prefix l i v /\ forall j w, chosen_in e prefix l j w -> j = i /\ w = v.
Proof.
  intros FL [i0 [v0 [F0 P0]]]. assert (FN : flat_named_ok e) by (intros v I F; apply (FL v I F)).
  destruct (pick_flat e (read_paths prefix l)) as [[i v]|] eqn:PK.
  2:{ destruct (pick_not e prefix l _ FN (read_paths_read prefix l) PK i0 v0 F0 P0). }
  pose proof (pick_chosen e prefix l _ i v FN (read_paths_read prefix l) PK) as CH. exists i, v. split; auto.
  intros j w CW. destruct CH as [FV [PV HV]], CW as [FW [PW HW]].
  destruct (HV j w FW PW) as [N1 O1]. destruct (HW i v FV PV) as [N2 O2].
  destruct (flattened_in _ _ _ FV) as [IV FFV]. destruct (flattened_in _ _ _ FW) as [IW FFW].
  pose proof (proj2 (required_sets_of v _ (FN _ IV FFV)) eq_refl) as RV. pose proof (proj2 (required_sets_of w _ (FN _ IW FFW)) eq_refl) as RW.
  assert (D : needs w \/ ~ needs w). { rewrite (needs_key w (FN _ IW FFW)). destruct (field_key w); [right; congruence|left; discriminate]. }
  assert (X1 : needs w \/ ~ needs v) by tauto. assert (X2 : needs v \/ ~ needs w) by tauto.
  specialize (O1 X1 _ _ RV RW). specialize (O2 X2 _ _ RW RV).
  assert (E : i = j).
  { destruct O1 as [B1|[E1 L1]], O2 as [B2|[E2 L2]]; [|rewrite E2 in B1|rewrite E1 in B2|lia]; exfalso.
    - eapply sets_irrefl, sets_before_trans; eauto.
    - eapply sets_irrefl; eauto.
    - eapply sets_irrefl; eauto. }
  subst j. split; auto. destruct FV as [NV _], FW as [NW _]. congruence.
Qed.
End E.
