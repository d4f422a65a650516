(** Routing of keys to flattened structs. *)
From Verif Require Export SpecFlat LemWith.

Section L.
Context {env : Env}.

Lemma addressed_spec prefix names seg : addressed prefix names seg = true <->
  exists k ksp body n, item_key seg = Some (k, ksp, body) /\ In n names /\ k = (prefix ++ n)%string.
Proof.
  unfold addressed. destruct (item_key seg) as [[[k ksp] body]|]; split.
  - intro H. apply existsb_exists in H as [n [I E]]. apply String.eqb_eq in E. exists k, ksp, body, n. auto.
  - intros [k' [ksp' [body' [n [E [I ->]]]]]]. injection E as -> -> ->. apply existsb_exists. exists n. split; auto. apply String.eqb_refl.
  - discriminate.
  - intros [k [ksp [body [n [E _]]]]]. discriminate.
Qed.
Lemma filter_filter {A} (p q : A -> bool) l : (forall x, p x = true -> q x = true) -> filter p (filter q l) = filter p l.
Proof.
  intro H. induction l as [|a l IH]; simpl; auto. destruct (q a) eqn:Q; simpl; [now rewrite IH|].
  rewrite IH. destruct (p a) eqn:P; auto. apply H in P. congruence.
Qed.
Lemma addressed_sub prefix prefix' names names' : (forall n, In n names -> exists n', In n' names' /\ (prefix ++ n = prefix' ++ n')%string) ->
  forall seg, addressed prefix names seg = true -> addressed prefix' names' seg = true.
Proof.
  intros H seg A. apply addressed_spec in A as [k [ksp [body [n [K [I ->]]]]]]. destruct (H n I) as [n' [I' E]].
  apply addressed_spec. exists (prefix ++ n)%string, ksp, body, n'. auto.
Qed.
Lemma part_sub prefix prefix' names names' l l' : (forall n, In n names -> exists n', In n' names' /\ (prefix ++ n = prefix' ++ n')%string) ->
  part prefix' names' l = part prefix' names' l' -> part prefix names l = part prefix names l'.
Proof.
  intros H E. unfold part in *. rewrite <- (filter_filter _ (addressed prefix' names') l), <- (filter_filter _ (addressed prefix' names') l');
    [now rewrite E| |]; now apply addressed_sub.
Qed.
Lemma part_in prefix names its seg : In seg (part prefix names its) <-> In seg its /\ addressed prefix names seg = true.
Proof. apply filter_In. Qed.

(** *** prefixes *)
Lemma app_str_assoc a b c : ((a ++ b) ++ c = a ++ (b ++ c))%string.
Proof. induction a; simpl; congruence. Qed.
Lemma join_path_prefix prefix n : is_prefix prefix -> join_path prefix n = (prefix ++ n)%string.
Proof.
  intros [->|[q ->]]; auto. unfold join_path. rewrite ends_with_app. now destruct (is_empty_str (q ++ "::")) eqn:Q; [destruct q; discriminate|].
Qed.
Lemma join_path_like p n : path_like p -> join_path p n = (p ++ "::" ++ n)%string.
Proof. intros [H1 H2]. unfold join_path. rewrite H2. destruct p; [congruence|]. reflexivity. Qed.
Lemma join_prefix_like prefix p : is_prefix prefix -> join_prefix prefix p = (prefix ++ p ++ "::")%string.
Proof. intro H. rewrite join_prefix_is, join_path_prefix by auto. apply app_str_assoc. Qed.
Lemma is_prefix_like prefix p : is_prefix (prefix ++ p ++ "::").
Proof. right. exists (prefix ++ p)%string. now rewrite app_str_assoc. Qed.

(** *** structs *)
Context {V : Type}.
Lemma owns_addressed (s : sdef V) tm prefix v i seg : owns (struct_reader s tm prefix v) i seg = true ->
  exists f, nth_error (s_raw s) i = Some f /\ pitem f = true /\ addressed prefix (names_of f) seg = true.
Proof.
  unfold owns. destruct (item_key seg) as [[[k ksp] body]|] eqn:K; [|discriminate].
  destruct (owner_in (struct_reader s tm prefix v) k) as [[j g]|] eqn:O; [|discriminate].
  intro E. apply Nat.eqb_eq in E. subst j. apply owner_named in O as [N [P [n [I ->]]]]. exists g. split; auto. split; auto.
  apply addressed_spec. exists (prefix ++ n)%string, ksp, body, n. split; auto. split; auto. unfold names_of.
  rewrite (pitem_parsable g P). apply pitem_spec in P as [_ [_ [d KD]]]. unfold field_key_names. rewrite KD. exact I.
Qed.
Lemma names_of_in (s : sdef V) f n : In f (s_raw s) -> In n (names_of f) -> In n (s_names s).
Proof.
  unfold names_of. destruct (is_parsable f) eqn:P; [|intros _ []]. intros I J. unfold s_names. eapply in_fields_names; eauto.
Qed.
Lemma names_in (s : sdef V) n : In n (s_names s) -> exists i f, nth_error (s_raw s) i = Some f /\ In n (names_of f).
Proof.
  unfold s_names, fields_names. intro H. apply in_flat_map in H as [f [I J]]. apply In_nth_error in I as [i N].
  exists i, f. split; auto.
Qed.
Lemma part_field (s : sdef V) prefix f l l' : In f (s_raw s) ->
  part prefix (s_names s) l = part prefix (s_names s) l' ->
  part prefix (names_of f) l = part prefix (names_of f) l'.
Proof. intros I. apply part_sub. intros n J. exists n. split; auto. eapply names_of_in; eauto. Qed.

(** the value of a flat field is taken from its part *)
Lemma flat_call_routes prefix sp allowed (f : field V) l l' w : is_prefix prefix -> routes prefix f -> pflat f = true ->
  keyed l -> keyed l' -> part prefix (names_of f) (items_of l) = part prefix (names_of f) (items_of l') ->
  fst (flat_call f prefix sp allowed l) = Ok w <-> fst (flat_call f prefix sp allowed l') = Ok w.
Proof.
  intros IP RT P K K' E. specialize (RT P). unfold names_of in E. rewrite (pflat_parsable f P) in E. unfold field_key_names in E.
  unfold flat_call. destruct (f_kind f) as [d|[p|] u|u|a|r]; try contradiction.
  - destruct RT as [PL BK]. rewrite join_prefix_like by auto. apply BK; auto. revert E. apply part_sub.
    intros n I. exists (join_path p n). split; [unfold join_paths; apply in_map; auto|]. rewrite join_path_like by auto. now rewrite !app_str_assoc.
  - destruct RT as [-> BK]. apply BK; auto.
  - apply RT; auto. revert E. apply part_sub. intros n I. unfold join_paths in I. apply in_map_iff in I as [m [<- I]].
    exists m. split; auto. now rewrite join_path_prefix.
Qed.
Lemma keyed_fork l : keyed l -> keyed (fork_inputs l).
Proof. unfold keyed. now rewrite items_of_fork. Qed.
Lemma flat_in_items (R : reader V) l i : items_of (flat_in R l i) = items_of l.
Proof. unfold flat_in. destruct (existsb _ _); auto using items_of_fork. Qed.
Lemma keyed_flat_in (R : reader V) l i : keyed l -> keyed (flat_in R l i).
Proof. unfold keyed. now rewrite flat_in_items. Qed.

Lemma same_parts (s : sdef V) tm prefix sp l l' vs : is_prefix prefix -> Forall (routes prefix) (s_raw s) ->
  keyed l -> keyed l' -> part prefix (s_names s) (items_of l) = part prefix (s_names s) (items_of l') ->
  let R := struct_reader s tm prefix false in
  parses_to R tm (s_default s) sp l (items_of l) vs -> parses_to R tm (s_default s) sp l' (items_of l') vs.
Proof.
  intros IP RT K K' E R [A [B [L D]]].
  assert (SUB : forall i seg, owns R i seg = true -> addressed prefix (s_names s) seg = true).
  { intros i seg O. apply owns_addressed in O as [f [N [_ O]]]. revert seg O. apply addressed_sub. intros n I. exists n. split; auto.
    eapply names_of_in; eauto using nth_error_In. }
  assert (OW : forall i, filter (owns R i) (items_of l) = filter (owns R i) (items_of l')).
  { intro i. unfold part in E. rewrite <- (filter_filter (owns R i) _ (items_of l) (SUB i)), <- (filter_filter (owns R i) _ (items_of l') (SUB i)), E. reflexivity. }
  assert (EX : forall i, existsb (owns R i) (items_of l) = existsb (owns R i) (items_of l')).
  { intro i. specialize (OW i). destruct (existsb (owns R i) (items_of l)) eqn:Q, (existsb (owns R i) (items_of l')) eqn:Q'; auto; exfalso.
    - apply existsb_exists in Q as [x [I O]]. assert (I2 : In x (filter (owns R i) (items_of l'))) by (rewrite <- OW; now apply filter_In).
      apply filter_In in I2 as [I2 O2]. enough (existsb (owns R i) (items_of l') = true) by congruence. apply existsb_exists. eauto.
    - apply existsb_exists in Q' as [x [I O]]. assert (I2 : In x (filter (owns R i) (items_of l))) by (rewrite OW; now apply filter_In).
      apply filter_In in I2 as [I2 O2]. enough (existsb (owns R i) (items_of l) = true) by congruence. apply existsb_exists. eauto. }
  assert (MV : forall seg i, owns R i seg = true -> In seg (items_of l) -> In seg (items_of l')).
  { intros seg i O I. assert (I2 : In seg (filter (owns R i) (items_of l'))) by (rewrite <- OW; now apply filter_In). now apply filter_In in I2. }
  assert (MV' : forall seg i, owns R i seg = true -> In seg (items_of l') -> In seg (items_of l)).
  { intros seg i O I. assert (I2 : In seg (filter (owns R i) (items_of l))) by (rewrite OW; now apply filter_In). now apply filter_In in I2. }
  assert (GO : forall seg i v, gives R seg i v -> owns R i seg = true).
  { intros seg i v [k [ksp [body [f [H1 [H2 _]]]]]]. unfold owns. rewrite H1, H2. apply Nat.eqb_refl. }
  split; [|split; [|split]]; auto.
  - apply Forall_forall. intros seg I. unfold keyed in K'. rewrite Forall_forall in K'. destruct (K' seg I) as [k [ksp [body H]]].
    destruct (owner_in R k) as [[i f]|] eqn:O.
    + rewrite Forall_forall in A. apply A. apply (MV' seg i); auto. unfold owns. rewrite H, O. apply Nat.eqb_refl.
    + right. exists k, ksp, body. split; auto. split; auto. unfold R. cbn [r_check struct_reader]. rewrite andb_false_r. discriminate.
  - intro i. now rewrite <- OW.
  - intros i f x N M. specialize (D i f x N M). destruct D as [seg w I G T|w P FC T|pn obj TM C T|w X P C FD T|t X P C FD SD NT|d w X C FD SD KD DM T].
    + eapply G_item; eauto.
    + eapply G_flat; eauto. cbn [R r_fields struct_reader] in N.
      pose proof (s_fields_parsable tm s i f N (pflat_parsable f P)) as N2. rewrite Forall_forall in RT.
      eapply (flat_call_routes prefix sp (s_names s) f (flat_in R l i) (flat_in R l' i)); eauto using nth_error_In, keyed_flat_in.
      rewrite !flat_in_items. eapply part_field; eauto using nth_error_In.
    + eapply G_container; eauto.
    + eapply G_default; rewrite <- ?EX; eauto.
    + eapply G_target; rewrite <- ?EX; eauto.
    + eapply G_missing; rewrite <- ?EX; eauto.
Qed.
Lemma l_struct_by_keys (s : sdef V) prefix : named_struct s -> Forall local_field (s_raw s) -> is_prefix prefix ->
  Forall (routes prefix) (s_raw s) -> by_keys prefix (struct_fn s).
Proof.
  intros NS LF IP RT.
  assert (X : forall sp l l' v, keyed l -> keyed l' ->
    part prefix (s_names s) (items_of l) = part prefix (s_names s) (items_of l') ->
    fst (fn_parse (struct_fn s) (Named sp) prefix false l) = Ok v ->
    fst (fn_parse (struct_fn s) (Named sp) prefix false l') = Ok v).
  { intros sp l l' v K K' E H. cbn [struct_fn fn_parse] in *. unfold to_full_span in *. cbn [named_span] in *.
    apply struct_text in H; auto. apply struct_text; auto. destruct H as [vs [H C]]. exists vs. split; auto.
    exact (same_parts s TMeta prefix sp l l' vs IP RT K K' E H). }
  intros sp l l' v K K' E. cbn [struct_fn fn_names] in E. split; apply X; auto.
Qed.


(** *** the split *)
Lemma separate_distinct (s : sdef V) : separate s -> distinct_names s.
Proof.
  intros D i j f g n N M P Q I J.
  apply (D i j f g n); auto; unfold names_of.
  - rewrite (pitem_parsable f P). apply pitem_spec in P as [_ [_ [d K]]]. unfold field_key_names. now rewrite K.
  - rewrite (pitem_parsable g Q). apply pitem_spec in Q as [_ [_ [d K]]]. unfold field_key_names. now rewrite K.
Qed.
Lemma names_of_item (f : field V) : pitem f = true -> names_of f = f_names f.
Proof.
  intro P. unfold names_of. rewrite (pitem_parsable f P). apply pitem_spec in P as [_ [_ [d K]]]. unfold field_key_names. now rewrite K.
Qed.
Lemma addressed_owns (s : sdef V) tm prefix v i f seg : distinct_names s -> nth_error (s_raw s) i = Some f -> pitem f = true ->
  addressed prefix (names_of f) seg = owns (struct_reader s tm prefix v) i seg.
Proof.
  intros D N P. destruct (owns (struct_reader s tm prefix v) i seg) eqn:O.
  - apply owns_addressed in O as [g [M [_ O]]]. congruence.
  - destruct (addressed prefix (names_of f) seg) eqn:A; auto. apply addressed_spec in A as [k [ksp [body [n [K [I E]]]]]].
    rewrite names_of_item in I by auto.
    assert (NB : named_by prefix f k) by (exists n; auto). unfold owns in O. rewrite K, (named_owner s tm prefix v k i f D N P NB), Nat.eqb_refl in O. discriminate.
Qed.
Lemma part_owned (s : sdef V) tm prefix v i f its : distinct_names s -> nth_error (s_raw s) i = Some f -> pitem f = true ->
  part prefix (names_of f) its = filter (owns (struct_reader s tm prefix v) i) its.
Proof. intros D N P. unfold part. apply filter_ext. intro seg. now apply addressed_owns. Qed.
Lemma addressed_up (s : sdef V) prefix f seg : In f (s_raw s) -> addressed prefix (names_of f) seg = true -> addressed prefix (s_names s) seg = true.
Proof. intros I. apply addressed_sub. intros n J. exists n. split; auto. eapply names_of_in; eauto. Qed.
Lemma single {A} (x : A) l : length l <= 1 -> In x l -> l = [x].
Proof. destruct l as [|y [|z l]]; simpl; [intros _ []|intros _ [->|[]]; auto|lia]. Qed.
Lemma item_listed seg inputs : In seg (items_of inputs) -> exists l, items_of l = [seg].
Proof.
  intro I. exists [mkStream (seg ++ [TPunct "," false SCall]) SCall None]. rewrite items_of_one. apply listed_items.
  apply Li_trailing; [eapply items_no_comma; eauto|]. do 2 eexists. reflexivity.
Qed.
Lemma one_stream_items (its : list (list token)) inputs : (forall seg, In seg its -> In seg (items_of inputs)) ->
  exists l, items_of l = its.
Proof.
  intro H. revert H. induction its as [|seg its IH]; intro H; [exists []; reflexivity|].
  destruct IH as [l E]; [intros; apply H; now right|]. assert (I : In seg (items_of inputs)) by (apply H; now left).
  destruct (item_listed seg inputs I) as [l1 E1]. exists (l1 ++ l). now rewrite items_of_app, E1, E.
Qed.
Lemma part_idem prefix names its : part prefix names (part prefix names its) = part prefix names its.
Proof. apply filter_filter. auto. Qed.

Lemma keyed_of (pt : field V -> list (list token) -> list (list token)) l l' f : (forall f its seg, In seg (pt f its) -> In seg its) ->
  keyed l -> items_of l' = pt f (items_of l) -> keyed l'.
Proof. intros PS. unfold keyed. intros K E. rewrite E. rewrite Forall_forall in *. intros seg I. apply K. eapply PS; eauto. Qed.
(** the split, [pt] being the part of the items a flat field looks at *)
Inductive field_part_of (pt : field V -> list (list token) -> list (list token)) (s : sdef V) (tm : tmode V) (prefix : string) (sp : span)
  (its : list (list token)) (i : nat) (f : field V) (x : V) : Prop :=
| FG_item seg w : pitem f = true -> part prefix (names_of f) its = [seg] ->
    written prefix f seg w -> transformed (f_transforms f) w x -> field_part_of pt s tm prefix sp its i f x
| FG_none : pflat f = false -> part prefix (names_of f) its = [] ->
    left_out s tm prefix sp i f x -> field_part_of pt s tm prefix sp its i f x
| FG_flat l w : pflat f = true -> items_of l = pt f its ->
    fst (flat_call f prefix sp (s_names s) l) = Ok w ->
    transformed (f_transforms f) w x -> field_part_of pt s tm prefix sp its i f x.
Lemma l_split_of (pt : field V -> list (list token) -> list (list token)) (s : sdef V) tm prefix v sp inputs r ws : parse_run s tm prefix v sp inputs r ->
  named_struct s -> Forall local_field (s_raw s) ->
  (forall f its seg, In seg (pt f its) -> In seg its) -> (forall f its, pt f (pt f its) = pt f its) ->
  (forall f l l' w, In f (s_raw s) -> pflat f = true -> keyed l -> keyed l' -> pt f (items_of l) = pt f (items_of l') ->
     fst (flat_call f prefix sp (s_names s) l) = Ok w <-> fst (flat_call f prefix sp (s_names s) l') = Ok w) ->
  separate s -> is_prefix prefix -> (v = true -> prefix = "") ->
  r = Ok ws <->
  exists vs, chained (s_and_thens s) vs ws /\ length vs = length (s_raw s) /\ keyed inputs /\
    (v = true -> s_unknown_ok s = false ->
       forall seg, In seg (items_of inputs) -> addressed prefix (s_names s) seg = true) /\
    forall i f x, nth_error (s_raw s) i = Some f -> nth_error vs i = Some x ->
      field_part_of pt s tm prefix sp (items_of inputs) i f x.
Proof.
  intros R1 NS LF PSUB PIDEM RT SE IP VP. destruct (run_body _ _ _ _ _ _ _ R1) as [m ->]; [apply NS|]. clear R1.
  rewrite struct_text by auto. pose proof (separate_distinct s SE) as DN.
  set (R := struct_reader s tm prefix v).
  split.
  - intros [vs [[A [B [L D]]] C]]. exists vs. split; auto. cbn [R r_fields struct_reader] in L. rewrite s_fields_len in L. split; auto.
    assert (KI : keyed inputs).
    { unfold keyed. rewrite Forall_forall in *. intros seg I. destruct (A seg I) as [[i [w [k [ksp [body [f [H _]]]]]]]|[k [ksp [body [H _]]]]]; eauto. }
    split; auto. split.
    + intros VT UO seg I. rewrite Forall_forall in A. destruct (A seg I) as [[i [w G]]|[k [ksp [body [H [_ X]]]]]].
      * assert (O : owns R i seg = true). { destruct G as [k [ksp [body [f [H1 [H2 _]]]]]]. unfold owns. rewrite H1, H2. apply Nat.eqb_refl. }
        apply owns_addressed in O as [f [N [_ O]]]. eapply addressed_up; eauto using nth_error_In.
      * apply addressed_spec. exists k, ksp, body, k. split; auto. rewrite (VP VT). split; auto. apply X. cbn. now rewrite VT, UO.
    + intros i f x N NX. destruct (s_fields_eff tm s i f N) as [g [Ng [E1 [E2 [E3 [E4 [E5 [E6 E7]]]]]]]].
      specialize (D i g x Ng NX).
      assert (NO : existsb (owns R i) (items_of inputs) = false -> pflat f = false -> part prefix (names_of f) (items_of inputs) = []).
      { intros X PF. destruct (pitem f) eqn:P.
        - rewrite (part_owned s tm prefix v i f) by auto. fold R. destruct (filter (owns R i) (items_of inputs)) as [|y l] eqn:Q; auto.
          assert (I : In y (filter (owns R i) (items_of inputs))) by (rewrite Q; now left). apply filter_In in I as [I O].
          enough (existsb (owns R i) (items_of inputs) = true) by congruence. apply existsb_exists; eauto.
        - unfold names_of. assert (is_parsable f = false) as ->. { unfold pitem, pflat in *. destruct (is_parsable f), (is_flat f); auto. }
          unfold part. clear. induction (items_of inputs) as [|seg l IH]; auto. cbn [filter]. unfold addressed at 1. destruct (item_key seg) as [[[k a] b]|]; exact IH. }
      assert (FC : f_container f = true -> pflat f = false). { unfold pflat, is_parsable. now intros ->. }
      destruct D as [seg w I G T|w P FL T|pn obj TM C2 T|w EX P C2 FD T|t EX P C2 FD SD NT|d w EX C2 FD SD K DM T].
      * pose proof (gives_pitem _ _ _ _ _ G Ng) as P. rewrite E5 in P. rewrite E3 in T. apply (FG_item pt s tm prefix sp (items_of inputs) i f x seg w); auto.
        -- rewrite (part_owned s tm prefix v i f) by auto. apply single; [apply B|]. apply filter_In. split; auto.
           destruct G as [k [ksp [body [h [H1 [H2 _]]]]]]. unfold owns. rewrite H1. unfold R in H2. now rewrite H2, Nat.eqb_refl.
        -- apply (written_gives s tm prefix v i f seg w); auto.
      * rewrite E6 in P. rewrite E3 in T.
        destruct (one_stream_items (pt f (items_of inputs)) inputs) as [l EL]; [intros seg I; now apply PSUB in I|].
        eapply (FG_flat pt s tm prefix sp (items_of inputs) i f x l w); auto.
        assert (g = f). { pose proof (s_fields_nth tm s i f N (pflat_parsable f P)). congruence. } subst g.
        apply (RT f (flat_in R inputs i) l w); eauto using nth_error_In, keyed_flat_in, keyed_of.
        rewrite flat_in_items, EL, PIDEM. reflexivity.
      * rewrite E4 in C2. rewrite E3 in T. eapply FG_none; auto.
        -- unfold names_of, is_parsable. rewrite C2. simpl.
           unfold part. clear. induction (items_of inputs) as [|seg l IH]; auto. cbn [filter]. unfold addressed at 1. destruct (item_key seg) as [[[k a] b]|]; exact IH.
        -- eapply LO_container; eauto.
      * rewrite E6 in P. rewrite E3 in T. rewrite E4 in C2. rewrite E1 in FD. eapply FG_none; auto. eapply LO_default; eauto.
      * rewrite E6 in P. rewrite E4 in C2. rewrite E1 in FD. eapply FG_none; auto. eapply LO_struct; eauto.
      * rewrite E3 in T. rewrite E4 in C2. rewrite E1 in FD. rewrite E2 in K.
        cbn [R r_prefix struct_reader] in DM. rewrite (missing_name_ident tm prefix f g E7) in DM.
        assert (P : pflat f = false) by (unfold pflat, is_flat; rewrite K; apply andb_false_r).
        eapply FG_none; auto. eapply LO_missing; eauto.
  - intros [vs [C [L [KI [UN D]]]]]. exists vs. split; auto.
    assert (LN : forall i f, nth_error (s_raw s) i = Some f -> exists x, nth_error vs i = Some x).
    { intros i f N. destruct (nth_error vs i) as [x|] eqn:NX; eauto. apply nth_error_None in NX. rewrite L in NX. apply nth_error_None in NX. congruence. }
    assert (OWN : forall seg i f, In seg (items_of inputs) -> nth_error (s_raw s) i = Some f -> pitem f = true ->
      addressed prefix (names_of f) seg = true -> part prefix (names_of f) (items_of inputs) = [seg] /\ exists w, written prefix f seg w).
    { intros seg i f I N P AD. destruct (LN i f N) as [x NX].
      assert (J : In seg (part prefix (names_of f) (items_of inputs))) by (apply part_in; auto).
      assert (PF : pflat f = false) by (unfold pflat, pitem in *; destruct (is_parsable f), (is_flat f); auto).
      destruct (D i f x N NX) as [seg' w _ E W T|_ E _|l w P' _ _ _].
      - rewrite E in J. destruct J as [->|[]]. eauto.
      - rewrite E in J. destruct J.
      - congruence. }
    split; [|split; [|split]].
    + apply Forall_forall. intros seg I. unfold keyed in KI. rewrite Forall_forall in KI. destruct (KI seg I) as [k [ksp [body K]]].
      destruct (owner_in R k) as [[i f]|] eqn:O.
      * left. apply owner_named in O as [N [P [n [In_ ->]]]].
        destruct (OWN seg i f I N P) as [_ [w W]].
        { apply addressed_spec. exists (prefix ++ n)%string, ksp, body, n. rewrite names_of_item by auto. auto. }
        exists i, w. eapply written_gives in W; eauto.
      * right. exists k, ksp, body. split; auto. split; auto. cbn [R r_check r_allowed struct_reader]. intro X.
        apply andb_true_iff in X as [X1 X2]. apply negb_true_iff in X1.
        specialize (UN X2 X1 seg I). apply addressed_spec in UN as [k' [ksp' [body' [n [K' [In_ E]]]]]].
        rewrite K in K'. injection K' as <- <- <-. rewrite (VP X2) in E. simpl in E. now subst.
    + intro i. destruct (nth_error (s_raw s) i) as [f|] eqn:N.
      * destruct (pitem f) eqn:P.
        -- unfold R. rewrite <- (part_owned s tm prefix v i f) by auto. destruct (part prefix (names_of f) (items_of inputs)) as [|seg l] eqn:Q; [simpl; lia|].
           assert (J : In seg (part prefix (names_of f) (items_of inputs))) by (rewrite Q; now left). apply part_in in J as [I AD].
           destruct (OWN seg i f I N P AD) as [E _]. rewrite Q in E. injection E as ->. simpl. lia.
        -- pose proof (not_owned s tm prefix v i f (items_of inputs) N P) as X. fold R in X.
           destruct (filter (owns R i) (items_of inputs)) as [|y l] eqn:Q; [simpl; lia|].
           assert (J : In y (filter (owns R i) (items_of inputs))) by (rewrite Q; now left). apply filter_In in J as [J1 J2].
           enough (existsb (owns R i) (items_of inputs) = true) by congruence. apply existsb_exists; eauto.
      * destruct (filter (owns R i) (items_of inputs)) as [|y l] eqn:Q; [simpl; lia|].
        assert (J : In y (filter (owns R i) (items_of inputs))) by (rewrite Q; now left). apply filter_In in J as [_ J2].
        apply owns_addressed in J2 as [f [N' _]]. congruence.
    + cbn [R r_fields struct_reader]. now rewrite s_fields_len.
    + intros i g x Ng NX. cbn [R r_fields struct_reader] in Ng.
      assert (exists f, nth_error (s_raw s) i = Some f) as [f N].
      { destruct (nth_error (s_raw s) i) as [f|] eqn:N; eauto. apply nth_error_None in N. rewrite <- (s_fields_len tm s) in N. apply nth_error_None in N. congruence. }
      destruct (s_fields_eff tm s i f N) as [g' [Ng' [E1 [E2 [E3 [E4 [E5 [E6 E7]]]]]]]]. assert (g' = g) by congruence. subst g'. clear Ng'.
      assert (NO : part prefix (names_of f) (items_of inputs) = [] -> existsb (owns R i) (items_of inputs) = false).
      { intro E. destruct (pitem f) eqn:P; [|eapply not_owned; eauto].
        rewrite (part_owned s tm prefix v i f) in E by auto. fold R in E. destruct (existsb (owns R i) (items_of inputs)) eqn:Q; auto.
        apply existsb_exists in Q as [y [I O]]. assert (J : In y (filter (owns R i) (items_of inputs))) by (apply filter_In; auto). rewrite E in J. destruct J. }
      destruct (D i f x N NX) as [seg w P E W T|PF E LO|l w P E FL T].
      * assert (I : In seg (items_of inputs)). { assert (J : In seg (part prefix (names_of f) (items_of inputs))) by (rewrite E; now left). now apply part_in in J. }
        eapply G_item; [exact I| |rewrite E3; exact T]. eapply written_gives; eauto.
      * specialize (NO E). destruct LO as [pn obj TM FC T|w FC FD T|t FC FD SD NT|d w FC FD SD K DM T].
        -- eapply G_container; rewrite ?E3, ?E4; eauto.
        -- eapply G_default; rewrite ?E3, ?E4, ?E6, ?E1; eauto.
        -- eapply G_target; rewrite ?E3, ?E4, ?E6, ?E1; eauto.
        -- eapply G_missing; rewrite ?E3, ?E4, ?E6, ?E1, ?E2; eauto. cbn [R r_prefix struct_reader]. rewrite (missing_name_ident tm prefix f g E7). exact DM.
      * assert (g = f). { pose proof (s_fields_nth tm s i f N (pflat_parsable f P)). congruence. } subst g.
        eapply G_flat; eauto.
        apply (RT f (flat_in R inputs i) l w); eauto using nth_error_In, keyed_flat_in, keyed_of.
        rewrite flat_in_items, E, PIDEM. reflexivity.
Qed.

Lemma l_split_keys (s : sdef V) tm prefix v sp inputs r ws : parse_run s tm prefix v sp inputs r ->
  named_struct s -> Forall local_field (s_raw s) -> Forall (routes prefix) (s_raw s) -> separate s ->
  is_prefix prefix -> (v = true -> prefix = "") ->
  r = Ok ws <->
  exists vs, chained (s_and_thens s) vs ws /\ length vs = length (s_raw s) /\ keyed inputs /\
    (v = true -> s_unknown_ok s = false ->
       forall seg, In seg (items_of inputs) -> addressed prefix (s_names s) seg = true) /\
    forall i f x, nth_error (s_raw s) i = Some f -> nth_error vs i = Some x ->
      field_part s tm prefix sp (items_of inputs) i f x.
Proof.
  intros R1 NS LF RT SE IP VP. set (pt := fun (f : field V) its => part prefix (names_of f) its).
  assert (EQ : forall i f x, field_part_of pt s tm prefix sp (items_of inputs) i f x <-> field_part s tm prefix sp (items_of inputs) i f x).
  { intros i f x. split.
    - intros [seg w A B C D|A B C|l w A B C D]; [exact (FP_item s tm prefix sp _ i f x seg w A B C D)|exact (FP_none s tm prefix sp _ i f x A B C)|exact (FP_flat s tm prefix sp _ i f x l w A B C D)].
    - intros [seg w A B C D|A B C|l w A B C D]; [exact (FG_item pt s tm prefix sp _ i f x seg w A B C D)|exact (FG_none pt s tm prefix sp _ i f x A B C)|exact (FG_flat pt s tm prefix sp _ i f x l w A B C D)]. }
  rewrite (l_split_of pt s tm prefix v sp inputs r ws R1 NS LF); auto.
  - split; intros [vs [A [B [C [D E]]]]]; exists vs; repeat (split; [assumption|]); intros i f x N1 N2; apply EQ; auto.
  - intros f its seg I. now apply part_in in I.
  - intros f its. apply part_idem.
  - intros f l l' w I P K K' E. rewrite Forall_forall in RT. apply flat_call_routes; auto.
Qed.

(** *** append *)
Lemma part_cons prefix names seg its : part prefix names (seg :: its) = if addressed prefix names seg then seg :: part prefix names its else part prefix names its.
Proof. reflexivity. Qed.
Lemma appended_part {A} (d : dict A) names its vs : appended d names its vs <->
  Forall (fun seg => exists k ksp body, item_key seg = Some (k, ksp, body)) its /\ appended d names (part "" names its) vs.
Proof.
  revert vs. induction its as [|seg its IH]; intro vs.
  - split; [intro H; split; auto|tauto].
  - rewrite part_cons. split.
    + intro H. inversion H as [|? k ksp body v ? vs' K I AC H'|? k ksp body ? ? K I H']; subst.
      * apply IH in H' as [F H']. split; [constructor; eauto|].
        rewrite (proj2 (addressed_spec "" names seg)) by (exists k, ksp, body, k; auto). eapply Ap_mine; eauto.
      * apply IH in H' as [F H']. split; [constructor; eauto|].
        destruct (addressed "" names seg) eqn:Q; auto. apply addressed_spec in Q as [k' [ksp' [body' [n [K' [I' E]]]]]].
        rewrite K in K'. injection K' as -> -> ->. simpl in E. subst. contradiction.
    + intros [F H]. inversion F as [|? ? [k [ksp [body K]]] F']; subst.
      destruct (addressed "" names seg) eqn:Q.
      * inversion H as [|? k' ksp' body' v ? vs' K' I AC H'|? k' ksp' body' ? ? K' I H']; subst.
        -- eapply Ap_mine; eauto. apply IH. auto.
        -- eapply Ap_other; eauto. apply IH. auto.
      * eapply Ap_other; eauto; [|apply IH; auto]. intro I. enough (addressed "" names seg = true) by congruence.
        apply addressed_spec. exists k, ksp, body, k. auto.
Qed.
Lemma l_vec_append_keys {A B} (d : dict A) (g : list A -> B) : fine d -> append_by_keys (fun ps => pmap g (vec_append d ps)).
Proof.
  intros FD names l l' v K K' E.
  assert (X : forall vs, fst (vec_append d names l) = Ok vs <-> fst (vec_append d names l') = Ok vs).
  { intro vs. rewrite !vec_append_ok by auto. rewrite (appended_part d names (items_of l)), (appended_part d names (items_of l')), E. unfold keyed in *. tauto. }
  rewrite !pmap_ok. split; intros [vs [H1 H2]]; exists vs; split; auto; now apply X.
Qed.
Lemma l_set_append_keys {A B} eqb (d : dict A) (g : list A -> B) : fine d -> append_by_keys (fun ps => pmap g (set_append eqb d ps)).
Proof.
  intros FD names l l' v K K' E.
  assert (X : forall vs, fst (set_append eqb d names l) = Ok vs <-> fst (set_append eqb d names l') = Ok vs).
  { intro vs. rewrite !set_append_ok by auto. rewrite (appended_part d names (items_of l)), (appended_part d names (items_of l')), E. unfold keyed in *. tauto. }
  rewrite !pmap_ok. split; intros [vs [H1 H2]]; exists vs; split; auto; now apply X.
Qed.
End L.
