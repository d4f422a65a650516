(** Collections, arrays and tuples as values; Option, Flag, quoted, SpannedValue. *)
From Verif Require Export LemAppend.

Section C.
Context {env : Env}.

(** *** text of a group *)
Lemma comma_tok_is t : comma_tok t <-> is_comma t = true.
Proof. symmetry. apply comma_true. Qed.
Lemma listed_of ts : listed (items ts) ts.
Proof.
  remember (length ts) as n eqn:L. assert (L2 : length ts <= n) by lia. clear L. revert ts L2.
  induction n as [|n IH]; intros ts L.
  - destruct ts; [constructor|simpl in L; lia].
  - destruct ts as [|t0 r0]; [constructor|]. destruct (cut_item (t0 :: r0)) as [seg [tl [T [N E]]]].
    assert (Z : seg ++ tl <> []) by (rewrite <- T; discriminate). rewrite T. unfold items. rewrite (pieces_app _ _ N E Z). cbn [map fst].
    destruct tl as [|t r].
    + rewrite app_nil_r in *. cbn [map]. now constructor.
    + apply ends_cons in E as C. destruct r as [|t1 r1].
      * cbn [map pieces]. constructor; auto. now apply comma_tok_is.
      * fold (items (t1 :: r1)). apply Li_more; auto; [now apply comma_tok_is| |].
        -- unfold items. intro X. apply map_eq_nil in X. cbn [pieces] in X. destruct (is_comma t1); [discriminate|]. destruct (pieces r1) as [|[]]; discriminate.
        -- apply IH. apply (f_equal (@length token)) in T. rewrite app_length in T. simpl in T, L |- *. lia.
Qed.
Lemma group_items dl s segs : group_of dl s segs <-> exists ts gsp rest, toks s = TGroup dl ts gsp :: rest /\ items ts = segs.
Proof.
  split; intros [ts [gsp [rest [E H]]]]; exists ts, gsp, rest; split; auto; [now apply listed_items|]. subst. apply listed_of.
Qed.
Lemma hold_of l : hold l (items_of l).
Proof.
  exists (map (fun s => items (toks s)) l). split.
  - induction l; constructor; auto. apply listed_of.
  - induction l as [|s l IH]; auto. change (s :: l) with ([s] ++ l). rewrite items_of_app. cbn [app map concat]. rewrite IH. destruct s. now rewrite items_of_one.
Qed.

(** *** lists *)
Lemma vec_parser_eq {A} (d : dict A) p : vec_parser d p -> p = vec_flat d.
Proof. intros []; reflexivity. Qed.
Lemma set_parser_eq {A} eqb (d : dict A) p : set_parser eqb d p -> p = set_flat eqb d.
Proof. intros []; reflexivity. Qed.
Lemma map_parser_eq {K A} eqb (kstr : K -> string) dk (dv : dict A) p : map_parser eqb kstr dk dv p -> p = map_flat eqb kstr dk dv.
Proof. intros []; reflexivity. Qed.
Lemma array_parser_eq {A} N (d : dict A) p : array_parser N d p -> exists i, p = array_flat N d i.
Proof. intros []; eexists; reflexivity. Qed.
Lemma tuple_parser_eq {A} (ds : list (dict A)) p : tuple_parser ds p -> p = tuple_flat ds.
Proof. intros []; reflexivity. Qed.

Lemma l_vec A (d : dict A) p inputs segs vs : fine d -> vec_parser d p -> hold inputs segs ->
  fst (p inputs) = Ok vs <-> Forall2 (accepts (d_item d Unnamed)) segs vs.
Proof.
  intros F P H. rewrite (vec_parser_eq d p P). rewrite <- (hold_items _ _ H). apply vec_ok; apply F.
Qed.
Lemma l_vec_group A (d : dict A) m s vs : fine d ->
  fst (d_item (vec_dict d) m s) = Ok vs <->
  exists segs, group_of Bracket s segs /\ Forall2 (accepts (d_item d Unnamed)) segs vs.
Proof.
  intro F. rewrite l_vec_item by auto. setoid_rewrite group_items. split.
  - intros [ts [gsp [rest [E H]]]]. exists (items ts). split; eauto 8.
  - intros [segs [[ts [gsp [rest [E H]]]] H2]]. subst. eauto 8.
Qed.
Lemma l_vec_errors A (d : dict A) p inputs : fine d -> vec_parser d p ->
  Forall (clean (d_item d Unnamed)) (elems inputs) ->
  fst (p inputs) = outcome (failures (d_item d Unnamed) (elems inputs)) (values (d_item d Unnamed) (elems inputs)).
Proof.
  intros F P C. rewrite (vec_parser_eq d p P). apply vec_exact; [apply F|intro m; apply (fi_item d F m)|apply F|intro s; apply (gd_item d (fi_good d F) Unnamed)|exact C].
Qed.
Lemma l_set A eqb (d : dict A) p inputs segs vs : fine d -> set_parser eqb d p -> hold inputs segs ->
  fst (p inputs) = Ok vs <-> Forall2 (accepts (d_item d Unnamed)) segs vs /\ all_different eqb vs.
Proof.
  intros F P H. rewrite (set_parser_eq eqb d p P). rewrite <- (hold_items _ _ H). now apply set_ok.
Qed.
Lemma l_set_group A eqb (d : dict A) m s vs : fine d ->
  fst (d_item (set_dict eqb d) m s) = Ok vs <->
  exists segs, group_of Bracket s segs /\ Forall2 (accepts (d_item d Unnamed)) segs vs /\ all_different eqb vs.
Proof.
  intro F. rewrite l_set_item by auto. setoid_rewrite group_items. split.
  - intros [ts [gsp [rest [E H]]]]. exists (items ts). split; eauto 8.
  - intros [segs [[ts [gsp [rest [E H]]]] H2]]. subst. eauto 8.
Qed.
Lemma l_set_errors A eqb (d : dict A) p inputs : fine d -> set_parser eqb d p ->
  Forall (clean (d_item d Unnamed)) (elems inputs) ->
  fst (p inputs) = outcome (set_errors eqb (d_item d Unnamed) [] (elems inputs)) (once eqb [] (values (d_item d Unnamed) (elems inputs))).
Proof. intros F P C. rewrite (set_parser_eq eqb d p P). now apply set_exact. Qed.
Lemma l_map K A eqb (kstr : K -> string) dk (dv : dict A) p inputs segs kvs : fine dk -> fine dv -> nonempty_keys dk ->
  map_parser eqb kstr dk dv p -> hold inputs segs ->
  fst (p inputs) = Ok kvs <-> Forall2 (accepts (map_entry kstr dk dv)) segs kvs /\ all_different eqb (map fst kvs).
Proof.
  intros FK FV NE P H. rewrite (map_parser_eq _ _ _ _ p P). rewrite <- (hold_items _ _ H). now apply map_ok.
Qed.
Lemma l_map_group K A eqb (kstr : K -> string) dk (dv : dict A) m s kvs : fine dk -> fine dv -> nonempty_keys dk ->
  fst (d_item (map_dict eqb kstr dk dv) m s) = Ok kvs <->
  exists segs, group_of Brace s segs /\ Forall2 (accepts (map_entry kstr dk dv)) segs kvs /\ all_different eqb (map fst kvs).
Proof.
  intros FK FV NE. rewrite l_map_item by auto. setoid_rewrite group_items. split.
  - intros [ts [gsp [rest [E H]]]]. exists (items ts). split; eauto 8.
  - intros [segs [[ts [gsp [rest [E H]]]] H2]]. subst. eauto 8.
Qed.
Lemma l_map_errors K A eqb (kstr : K -> string) dk (dv : dict A) p inputs : fine dk -> fine dv -> map_parser eqb kstr dk dv p ->
  Forall (clean (map_entry kstr dk dv)) (elems inputs) ->
  Forall (fun x => exists k, fst (d_item dk Unnamed (at_elem x)) = Ok k) (elems inputs) ->
  fst (p inputs) = outcome (map_errors eqb kstr dk dv [] (elems inputs)) (values (map_entry kstr dk dv) (elems inputs)).
Proof. intros FK FV P C KY. rewrite (map_parser_eq _ _ _ _ p P). now apply map_exact. Qed.

(** *** arity *)
Lemma single_items n s l1 : 0 < n -> supplies n 0 [s] l1 -> items_of l1 = items (toks s).
Proof.
  intros Z [l2 [E [L [U B]]]]. destruct l1 as [|s1 l1].
  - cbn [app] in E. subst l2. destruct B as [B|B].
    + cbn in B. lia.
    + inversion B; subst. rewrite H1. reflexivity.
  - injection E as <- E. symmetry in E. apply app_eq_nil in E as [-> ->]. destruct s. now rewrite items_of_one.
Qed.
Lemma none_items s : (exists l1, supplies 0 0 [s] l1 /\ items_of l1 = []) <-> used_up s.
Proof.
  split.
  - intros [l1 [[l2 [E [L [U B]]]] I]]. destruct l1 as [|s1 l1].
    + cbn [app] in E. subst l2. now inversion U.
    + injection E as <- E. symmetry in E. apply app_eq_nil in E as [-> ->]. left. destruct s as [[|t r] sc c]; auto. exfalso.
      rewrite items_of_one in I. unfold items in I. apply map_eq_nil in I. cbn [pieces] in I. destruct (is_comma t); [discriminate|]. destruct (pieces r) as [|[]]; discriminate.
  - intro U. exists []. split; auto. exists [s]. cbn. repeat split; auto.
Qed.
Lemma used_group dl s : (exists ts gsp rest, toks s = TGroup dl ts gsp :: rest /\ used_up (mkStream ts (SClose gsp) (cell s))) <-> empty_group dl s.
Proof.
  split; intros [ts [gsp [rest [E H]]]]; exists ts, gsp, rest; split; auto; destruct H as [H|H]; [left; exact H| |left; exact H|]; right; destruct H as [t [H1 H2]]; exists t; cbn [toks] in *; split; auto; now apply comma_tok_is.
Qed.
Lemma tuple_len {A} (ds : list (dict A)) : ds <> [] -> 0 < length ds.
Proof. destruct ds; [tauto|simpl; lia]. Qed.
Lemma l_tuple_group A (ds : list (dict A)) m s vs : Forall fine ds -> ds <> [] ->
  fst (d_item (tuple_dict ds) m s) = Ok vs <-> exists segs, group_of Paren s segs /\ each_accepts ds segs vs.
Proof.
  intros F NE. cbn [tuple_dict dict_inline d_item]. rewrite delimited_ok.
  2:{ apply wbm_tuple. eapply Forall_impl; [|exact F]. intros d X. apply X. }
  setoid_rewrite group_items. split.
  - intros [ts [gsp [rest [E H]]]]. unfold whole in H. rewrite tuple_ok in H by auto. destruct H as [l1 [S H]].
    rewrite (single_items _ _ _ (tuple_len ds NE) S) in H. exists (items ts). split; eauto 8.
  - intros [segs [[ts [gsp [rest [E H]]]] H2]]. subst. exists ts, gsp, rest. split; auto. unfold whole. rewrite tuple_ok by auto.
    exists [mkStream ts (SClose gsp) (cell s)]. rewrite items_of_one. split; auto. apply supplies_all. rewrite items_of_one. destruct (each_accepts_len _ _ _ H2). lia.
Qed.
Lemma not_ok {A} (r : res A) : returns r -> (forall v, r <> Ok v) -> exists e, r = Err e.
Proof. destruct r as [v|e|b]; [intros _ H; destruct (H v); auto|eauto|intros []]. Qed.
Lemma group_unique dl s a b : group_of dl s a -> group_of dl s b -> a = b.
Proof.
  rewrite !group_items. intros [ts [gsp [rest [E H]]]] [ts' [gsp' [rest' [E' H']]]]. congruence.
Qed.
Lemma l_tuple_arity A (ds : list (dict A)) m s segs : Forall fine ds -> ds <> [] -> group_of Paren s segs -> length segs <> length ds ->
  exists e, fst (d_item (tuple_dict ds) m s) = Err e.
Proof.
  intros F NE G L. apply not_ok.
  - apply (gd_item _ (good_tuple ds (Forall_impl _ (fun d X => fi_good d X) F)) m s).
  - intros v H. apply l_tuple_group in H; auto. destruct H as [segs' [G' H]]. rewrite (group_unique _ _ _ _ G G') in L.
    destruct (each_accepts_len _ _ _ H). congruence.
Qed.
Lemma l_tuple_streams A (ds : list (dict A)) p inputs segs vs : Forall fine ds -> tuple_parser ds p -> hold inputs segs -> ~ In [] segs ->
  whole p inputs vs <-> each_accepts ds segs vs.
Proof.
  intros F P H NB. rewrite (tuple_parser_eq ds p P). rewrite <- (hold_items _ _ H) in *. now apply l_tuple.
Qed.
Lemma l_array_group A N (d : dict A) m s vs : fine d -> N <> 0 ->
  fst (d_item (array_dict N d) m s) = Ok vs <->
  exists segs, group_of Bracket s segs /\ length segs = N /\ Forall2 (accepts (d_item d Unnamed)) segs vs.
Proof.
  intros F NE. cbn [array_dict dict_inline d_item]. rewrite delimited_ok by (apply wbm_array; apply F).
  setoid_rewrite group_items. split.
  - intros [ts [gsp [rest [E H]]]]. unfold whole in H. rewrite array_ok in H by auto. destruct H as [l1 [S [H L]]].
    assert (Z : 0 < N) by lia. rewrite (single_items _ _ _ Z S) in H. exists (items ts). split; [eauto 8|]. split; auto.
    pose proof (Forall2_len _ _ _ H) as Q. cbn [toks] in Q. congruence.
  - intros [segs [[ts [gsp [rest [E H]]]] [L H2]]]. subst segs. exists ts, gsp, rest. split; auto. unfold whole. rewrite array_ok by auto.
    exists [mkStream ts (SClose gsp) (cell s)]. rewrite items_of_one. split; [|split; auto; now rewrite <- (Forall2_len _ _ _ H2)].
    apply supplies_all. rewrite items_of_one. cbn [toks] in *. lia.
Qed.
Lemma l_array_zero A (d : dict A) m s vs : fine d ->
  fst (d_item (array_dict 0 d) m s) = Ok vs <-> vs = [] /\ empty_group Bracket s.
Proof.
  intros F. cbn [array_dict dict_inline d_item]. rewrite delimited_ok by (apply wbm_array; apply F). rewrite <- used_group. split.
  - intros [ts [gsp [rest [E H]]]]. unfold whole in H. rewrite array_ok in H by auto. destruct H as [l1 [S [H L]]].
    destruct vs; [|discriminate]. split; auto. exists ts, gsp, rest. split; auto. apply none_items. exists l1. split; auto. now inversion H.
  - intros [-> [ts [gsp [rest [E H]]]]]. exists ts, gsp, rest. split; auto. unfold whole. rewrite array_ok by auto.
    apply none_items in H as [l1 [S I]]. exists l1. rewrite I. split; auto.
Qed.
Lemma l_array_returns A N (d : dict A) m s p inputs : fine d -> array_parser N d p ->
  returns (fst (d_item (array_dict N d) m s)) /\ returns (fst (p inputs)).
Proof.
  intros F P. split.
  - apply (gd_item _ (good_array N d (fi_good d F)) m s).
  - destruct (array_parser_eq N d p P) as [i ->]. apply (wbm_array N d i (fi_good d F) inputs).
Qed.
Lemma l_array_streams A N (d : dict A) p inputs segs vs : fine d -> array_parser N d p -> hold inputs segs -> ~ In [] segs ->
  whole p inputs vs <-> length segs = N /\ Forall2 (accepts (d_item d Unnamed)) segs vs.
Proof.
  intros F P H NB. destruct (array_parser_eq N d p P) as [i ->]. rewrite <- (hold_items _ _ H) in *. rewrite l_array by auto.
  split; intros [A1 A2]; split; auto; [rewrite (Forall2_len _ _ _ A1); auto|now rewrite <- (Forall2_len _ _ _ A2)].
Qed.

(** *** tuple structs *)
Section TS.
Context {V : Type} (s : sdef V) (T : tuple_struct s) (FI : fine_items s) (UM : Forall uniform_missing (s_raw s)) (NT : s_is_transparent s = false).
Lemma ts_item m st ws : fst (d_item (struct_dict s) m st) = Ok ws <->
  exists ts gsp rest, toks st = TGroup Paren ts gsp :: rest /\ whole (s_inline s m) [mkStream ts (SClose gsp) (cell st)] ws.
Proof.
  unfold struct_dict. rewrite NT. destruct T as [AC [SH _]]. rewrite SH. cbn [d_item]. apply delimited_ok. now apply good_s_inline.
Qed.
Lemma ts_whole m l ws : whole (s_inline s m) l ws <->
  exists l1 os vs, supplies (length (filter is_parsable (s_raw s))) 0 l l1 /\ positional (s_raw s) (items_of l1) os /\ tuple_values s TMeta os vs /\ chained (s_and_thens s) vs ws.
Proof.
  unfold whole, s_inline. rewrite (proj1 (proj2 T)). unfold struct_fu. rewrite (proj1 (proj2 T)). cbn [fu_parse].
  apply (tuple_struct_ok s TMeta m SCall "" false 0 l ws T FI UM).
Qed.
Lemma some_parsable : existsb is_parsable (s_raw s) = true -> 0 < length (filter is_parsable (s_raw s)).
Proof.
  intro H. apply existsb_exists in H as [f [I P]]. assert (X : In f (filter is_parsable (s_raw s))) by (apply filter_In; auto).
  destruct (filter is_parsable (s_raw s)); [destruct X|simpl; lia].
Qed.
Lemma no_parsable : existsb is_parsable (s_raw s) = false -> length (filter is_parsable (s_raw s)) = 0.
Proof.
  clear. induction (s_raw s) as [|f fs IH]; cbn [existsb filter]; auto. intro H. apply orb_false_iff in H as [H1 H2]. rewrite H1. exact (IH H2).
Qed.
Lemma l_tstruct_group m st ws : existsb is_parsable (s_raw s) = true ->
  fst (d_item (struct_dict s) m st) = Ok ws <->
  exists segs os vs, group_of Paren st segs /\ positional (s_raw s) segs os /\ tuple_values s TMeta os vs /\ chained (s_and_thens s) vs ws.
Proof.
  intro PP. apply some_parsable in PP. rewrite ts_item. setoid_rewrite group_items. split.
  - intros [ts [gsp [rest [E H]]]]. apply ts_whole in H as [l1 [os [vs [S [H1 H2]]]]].
    rewrite (single_items _ _ _ PP S) in H1. exists (items ts), os, vs. split; eauto 8.
  - intros [segs [os [vs [[ts [gsp [rest [E H]]]] [H1 H2]]]]]. subst. exists ts, gsp, rest. split; auto. apply ts_whole.
    exists [mkStream ts (SClose gsp) (cell st)], os, vs. rewrite items_of_one. split; auto. apply supplies_all. rewrite items_of_one. now apply positional_len in H1.
Qed.
Lemma l_tstruct_none m st ws : existsb is_parsable (s_raw s) = false ->
  fst (d_item (struct_dict s) m st) = Ok ws <->
  exists vs, empty_group Paren st /\ tuple_values s TMeta (map (fun _ => None) (s_raw s)) vs /\ chained (s_and_thens s) vs ws.
Proof.
  intro PP. pose proof PP as PP0. apply no_parsable in PP. rewrite ts_item.
  assert (PO : forall segs os, positional (s_raw s) segs os <-> segs = [] /\ os = map (fun _ => None) (s_raw s)).
  { clear -PP0. induction (s_raw s) as [|f fs IH]; intros segs os; cbn [existsb map] in *.
    - split; [intro H; inversion H; auto|]. intros [-> ->]. constructor.
    - apply orb_false_iff in PP0 as [P1 P2]. specialize (IH P2). split.
      + intro H. inversion H as [| | |? ? ? ? _ H4]; subst; try congruence. apply IH in H4 as [-> ->]. auto.
      + intros [-> ->]. apply Po_other; auto. now apply IH. }
  split.
  - intros [ts [gsp [rest [E H]]]]. apply ts_whole in H as [l1 [os [vs [S [H1 H2]]]]]. rewrite PP in S. apply PO in H1 as [H1 ->].
    exists vs. split; auto. apply used_group. exists ts, gsp, rest. split; auto. apply none_items. eauto.
  - intros [vs [G H2]]. apply used_group in G as [ts [gsp [rest [E U]]]]. exists ts, gsp, rest. split; auto. apply ts_whole. rewrite PP.
    apply none_items in U as [l1 [S I]]. exists l1, (map (fun _ => None) (s_raw s)), vs. rewrite I. split; auto. split; auto. now apply PO.
Qed.
Lemma ts_returns m st : returns (fst (d_item (struct_dict s) m st)).
Proof. apply (gd_item _ (good_struct_dict s (proj1 T)) m st). Qed.
Lemma l_tstruct_many m st segs : group_of Paren st segs -> length (filter is_parsable (s_raw s)) < length segs -> existsb is_parsable (s_raw s) = true ->
  exists e, fst (d_item (struct_dict s) m st) = Err e.
Proof.
  intros G L PP. apply not_ok; [apply ts_returns|]. intros v H. apply l_tstruct_group in H as [segs' [os [vs [G' [P _]]]]]; auto.
  rewrite <- (group_unique _ _ _ _ G G') in P. apply positional_len in P. lia.
Qed.
Lemma positional_short (fs : list (field V)) : forall segs os, positional fs segs os -> forall i f, nth_error fs i = Some f ->
  length segs <= length (filter is_parsable (firstn i fs)) -> nth_error os i = Some None.
Proof.
  induction 1 as [|f d fs seg segs v os P K A H IH|f fs os P H IH|f fs segs os P H IH]; intros i g N L.
  - destruct i; discriminate.
  - destruct i as [|i]; cbn in *; [lia|]. rewrite P in L. cbn in L. apply (IH i g N). lia.
  - destruct i as [|i]; cbn in *; auto. apply (IH i g N). lia.
  - destruct i as [|i]; cbn in *; auto. rewrite P in L. apply (IH i g N L).
Qed.
Lemma l_tstruct_few m st segs i f d : group_of Paren st segs -> nth_error (s_raw s) i = Some f -> f_kind f = KItem d -> is_parsable f = true ->
  length segs <= length (filter is_parsable (firstn i (s_raw s))) ->
  f_default f = None -> s_default s = None -> no_missing_value d ->
  exists e, fst (d_item (struct_dict s) m st) = Err e.
Proof.
  intros G N K P L D SD NM. apply not_ok; [apply ts_returns|]. intros v H.
  assert (PP : existsb is_parsable (s_raw s) = true). { apply existsb_exists. exists f. split; auto. eapply nth_error_In; eauto. }
  apply l_tstruct_group in H as [segs' [os [vs [G' [PO [[LV TV] _]]]]]]; auto.
  rewrite <- (group_unique _ _ _ _ G G') in PO. pose proof (positional_short _ _ _ PO i f N L) as O.
  destruct (nth_error vs i) as [x|] eqn:X.
  2:{ apply nth_error_None in X. rewrite LV in X. apply nth_error_None in X. congruence. }
  assert (PC : f_container f = false /\ f_skip f = false). { unfold is_parsable in P. destruct (f_container f), (f_skip f); auto; discriminate. }
  assert (FDN : field_default s TMeta f = None). { unfold field_default. rewrite D. destruct PC as [-> ->]. reflexivity. }
  specialize (TV i f None x N O X). cbn in TV. destruct TV as [pn obj E|w E1 E2|t E1 E2 E3|d' w E1 E2 E3 E4 E5]; try congruence.
Qed.
End TS.
Lemma l_tstruct_streams V (s : sdef V) tm p inputs segs ws : tuple_run s tm p -> tuple_struct s -> fine_items s -> Forall uniform_missing (s_raw s) ->
  hold inputs segs -> ~ In [] segs ->
  whole p inputs ws <->
  exists os vs, positional (s_raw s) segs os /\ tuple_values s tm os vs /\ chained (s_and_thens s) vs ws.
Proof.
  intros R T FI UM H NB. rewrite <- (hold_items _ _ H) in *. now apply l_tuple_struct.
Qed.
End C.
