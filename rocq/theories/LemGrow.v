(** Adding a field or a variant. *)
From Verif Require Export LemPerm LemOwn LemAdvert SpecGrow.
Local Open Scope string_scope.
Local Open Scope list_scope.

Section G.
Context {env : Env} {V : Type}.
Notation sdef := (sdef V).
Notation edef := (edef V).
Notation vdef := (vdef V).

(** the number of a field after one was added as number [n] *)
Definition up (n j : nat) : nat := if (j <? n)%nat then j else S j.
Lemma up_nth {A} (a b : list A) f j : nth_error (a ++ f :: b) (up (length a) j) = nth_error (a ++ b) j.
Proof.
  unfold up. destruct (Nat.ltb_spec j (length a)).
  - rewrite !nth_error_app1; auto.
  - rewrite !nth_error_app2 by lia. replace (S j - length a) with (S (j - length a)) by lia. reflexivity.
Qed.
Lemma at_nth {A} (a b : list A) f : nth_error (a ++ f :: b) (length a) = Some f.
Proof. rewrite nth_error_app2 by lia. now rewrite Nat.sub_diag. Qed.
Lemma up_or n i : i = n \/ exists j, i = up n j.
Proof.
  destruct (Nat.lt_trichotomy i n) as [L|[->|L]]; auto; right.
  - exists i. unfold up. destruct (Nat.ltb_spec i n); lia.
  - exists (pred i). unfold up. destruct (Nat.ltb_spec (pred i) n); lia.
Qed.
Lemma up_not n j : up n j <> n.
Proof. unfold up. destruct (Nat.ltb_spec j n); lia. Qed.
Lemma up_inj n i j : up n i = up n j -> i = j.
Proof. unfold up. destruct (Nat.ltb_spec i n), (Nat.ltb_spec j n); lia. Qed.
Lemma find_up k (a b : list (field V)) f : ~ In k (f_names f) ->
  find_field k (a ++ f :: b) 0 = match find_field k (a ++ b) 0 with Some (j, g) => Some (up (length a) j, g) | None => None end.
Proof.
  intro NI. assert (SH : forall (l : list (field V)) i, find_field k l (S i) = match find_field k l i with Some (j, g) => Some (S j, g) | None => None end).
  { induction l as [|g l IH]; intro i; cbn [find_field]; auto. destruct (pitem g && mem_str k (f_names g)); auto. }
  assert (NM : pitem f && mem_str k (f_names f) = false) by (apply andb_false_iff; right; now apply mem_str_false).
  induction a as [|g a IH]; cbn [app find_field length].
  - rewrite NM. rewrite SH. destruct (find_field k b 0) as [[j g]|]; auto.
  - destruct (pitem g && mem_str k (f_names g)) eqn:E; [reflexivity|]. rewrite !SH, IH.
    destruct (find_field k (a ++ b) 0) as [[j h]|]; auto. f_equal. f_equal. unfold up. destruct (Nat.ltb_spec j (length a)), (Nat.ltb_spec (S j) (S (length a))); lia.
Qed.

Section Two.
Variables (a b : list (field V)) (f : field V) (prefix : string) (c : bool) (al al' : list string) (inputs : list stream).
Let R := mkReader (a ++ b) prefix c al.
Let R' := mkReader (a ++ f :: b) prefix c al'.
Hypothesis (NF : pflat f = false).
Hypothesis (FR : forall k ksp, In (k, ksp) (keys_in inputs) -> forall n, k = (prefix ++ n)%string -> ~ In n (f_names f)).
Hypothesis (AL : forall k ksp, In (k, ksp) (keys_in inputs) -> (In k al <-> In k al')).
Lemma owner_up k ksp : In (k, ksp) (keys_in inputs) ->
  owner_in R' k = match owner_in R k with Some (j, g) => Some (up (length a) j, g) | None => None end.
Proof.
  intro I. unfold owner_in. cbn [R R' r_prefix r_fields]. destruct (strip_prefix prefix k) as [n|] eqn:E; auto.
  apply find_up. apply strip_prefix_spec in E. eapply FR; eauto.
Qed.
Lemma seg_key seg k ksp body : In seg (items_of inputs) -> item_key seg = Some (k, ksp, body) -> In (k, ksp) (keys_in inputs).
Proof. intros I K. apply in_keys_items. eauto. Qed.
Lemma owns_up i seg : In seg (items_of inputs) -> owns R' (up (length a) i) seg = owns R i seg.
Proof.
  intro I. unfold owns. destruct (item_key seg) as [[[k ksp] body]|] eqn:K; auto. rewrite (owner_up k ksp (seg_key _ _ _ _ I K)).
  destruct (owner_in R k) as [[j g]|]; auto. destruct (Nat.eqb_spec i j) as [->|N]; [apply Nat.eqb_refl|].
  apply Nat.eqb_neq. intro E. apply N. eapply up_inj; eauto.
Qed.
Lemma owns_new seg : In seg (items_of inputs) -> owns R' (length a) seg = false.
Proof.
  intro I. unfold owns. destruct (item_key seg) as [[[k ksp] body]|] eqn:K; auto. rewrite (owner_up k ksp (seg_key _ _ _ _ I K)).
  destruct (owner_in R k) as [[j g]|]; auto. apply Nat.eqb_neq. intro E. symmetry in E. exact (up_not _ _ E).
Qed.
Lemma gives_up seg i w : In seg (items_of inputs) -> gives R' seg (up (length a) i) w <-> gives R seg i w.
Proof.
  intro I. split; intros [k [ksp [body [g [K [O A]]]]]]; exists k, ksp, body, g; (split; [auto|split; [|auto]]).
  - rewrite (owner_up k ksp (seg_key _ _ _ _ I K)) in O. destruct (owner_in R k) as [[j h]|]; [|discriminate]. injection O as O ->. apply up_inj in O. now subst.
  - rewrite (owner_up k ksp (seg_key _ _ _ _ I K)), O. reflexivity.
Qed.
Lemma gives_new seg w : In seg (items_of inputs) -> ~ gives R' seg (length a) w.
Proof.
  intros I [k [ksp [body [g [K [O A]]]]]]. rewrite (owner_up k ksp (seg_key _ _ _ _ I K)) in O. destruct (owner_in R k) as [[j h]|]; [|discriminate].
  injection O as O _. exact (up_not _ _ O).
Qed.
Lemma ok_up seg : In seg (items_of inputs) -> item_ok R' seg <-> item_ok R seg.
Proof.
  intro I. split; (intros [[i [w G]]|[k [ksp [body [K [O C]]]]]]; [left|right]).
  - destruct (up_or (length a) i) as [->|[j ->]]; [now apply gives_new in G|]. exists j, w. now apply gives_up.
  - pose proof (seg_key _ _ _ _ I K) as J. rewrite (owner_up k ksp J) in O. exists k, ksp, body. split; auto. split; [destruct (owner_in R k) as [[? ?]|]; [discriminate|auto]|].
    intro Q. apply (AL k ksp J). auto.
  - exists (up (length a) i), w. now apply gives_up.
  - pose proof (seg_key _ _ _ _ I K) as J. exists k, ksp, body. split; auto. split; [rewrite (owner_up k ksp J), O; auto|].
    intro Q. apply (AL k ksp J). auto.
Qed.
Lemma exists_up i : existsb (owns R' (up (length a) i)) (items_of inputs) = existsb (owns R i) (items_of inputs).
Proof.
  assert (X : forall l, (forall s, In s l -> In s (items_of inputs)) -> existsb (owns R' (up (length a) i)) l = existsb (owns R i) l).
  { induction l as [|s l IH]; intro H; auto. cbn [existsb]. rewrite owns_up by (apply H; now left). f_equal. apply IH. intros t J. apply H. now right. }
  apply X. auto.
Qed.
Lemma exists_new : existsb (owns R' (length a)) (items_of inputs) = false.
Proof.
  destruct (existsb _ _) eqn:E; auto. apply existsb_exists in E as [s [I E]]. now rewrite owns_new in E.
Qed.
Lemma filter_up i : length (filter (owns R' (up (length a) i)) (items_of inputs)) = length (filter (owns R i) (items_of inputs)).
Proof.
  f_equal. apply filter_ext_in. intros s I. now apply owns_up.
Qed.
Lemma filter_new : filter (owns R' (length a)) (items_of inputs) = [].
Proof.
  destruct (filter _ _) as [|s l] eqn:E; auto. assert (I : In s (filter (owns R' (length a)) (items_of inputs))) by (rewrite E; now left).
  apply filter_In in I as [I O]. now rewrite owns_new in O.
Qed.
Lemma flat_in_up i : flat_in R' inputs (up (length a) i) = flat_in R inputs i.
Proof.
  unfold flat_in. cbn [R R' r_fields]. assert (X : existsb pflat (skipn (S (up (length a) i)) (a ++ f :: b)) = existsb pflat (skipn (S i) (a ++ b))); [|now rewrite X].
  unfold up. destruct (Nat.ltb_spec i (length a)).
  - rewrite !skipn_app, !existsb_app. replace (S i - length a) with 0 by lia. cbn [skipn existsb]. now rewrite NF.
  - rewrite !skipn_app, !existsb_app. rewrite !(skipn_all2 a) by lia. replace (S (S i) - length a) with (S (S i - length a)) by lia. reflexivity.
Qed.
Lemma inserted_up n x (vs : list V) j : n <= length vs -> nth_error (inserted n x vs) (up n j) = nth_error vs j.
Proof.
  intro L. unfold inserted. rewrite <- (firstn_skipn n vs) at 3. rewrite <- (firstn_length_le vs L) at 3. apply up_nth.
Qed.
Lemma inserted_at n x (vs : list V) : n <= length vs -> nth_error (inserted n x vs) n = Some x.
Proof. intro L. unfold inserted. rewrite <- (firstn_length_le vs L) at 3. apply at_nth. Qed.
Lemma inserted_length n x (vs : list V) : n <= length vs -> length (inserted n x vs) = S (length vs).
Proof. intro L. unfold inserted. rewrite app_length. cbn [length]. rewrite <- (firstn_skipn n vs) at 3. rewrite app_length. lia. Qed.

Hypothesis (NR : forall g r, In g (a ++ b) -> f_kind g <> KRest r).
Lemma call_up g sp l : In g (a ++ b) -> flat_call g prefix sp al' l = flat_call g prefix sp al l.
Proof. intro I. unfold flat_call. destruct (f_kind g) eqn:K; auto. destruct (NR g _ I K). Qed.
Lemma gets_up tm sp i g v : nth_error (a ++ b) i = Some g ->
  field_gets R' tm None sp inputs (items_of inputs) (up (length a) i) g v <-> field_gets R tm None sp inputs (items_of inputs) i g v.
Proof.
  intro N. pose proof (nth_error_In _ _ N) as IG.
  split; intros [seg w I G T|w PF FL T|pn obj TM C2 T|w E PF C2 FD T|t E PF C2 FD SD NT|d w E C2 FD SD K DM T]; try discriminate.
  - eapply G_item; eauto. now apply gives_up.
  - eapply G_flat; eauto. rewrite flat_in_up in FL. cbn [R R' r_prefix r_allowed] in *. now rewrite call_up in FL.
  - eapply G_container; eauto.
  - eapply G_default; eauto. now rewrite exists_up in E.
  - eapply G_missing; eauto. now rewrite exists_up in E.
  - eapply G_item; eauto. now apply gives_up.
  - eapply G_flat; eauto. rewrite flat_in_up. cbn [R R' r_prefix r_allowed] in *. now rewrite call_up.
  - eapply G_container; eauto.
  - eapply G_default; eauto. now rewrite exists_up.
  - eapply G_missing; eauto. now rewrite exists_up.
Qed.
Lemma new_gets tm sp d x y : f_container f = false -> f_default f = Some d -> transformed (f_transforms f) d x ->
  field_gets R' tm None sp inputs (items_of inputs) (length a) f y <-> y = x.
Proof.
  intros NC FD TX. split.
  - intros [seg w I G T|w PF FL T|pn obj TM C2 T|w E PF C2 FD' T|t E PF C2 FD' SD NT|d' w E C2 FD' SD K DM T]; try congruence.
    + now apply gives_new in G.
    + assert (w = d) by congruence. subst. eapply transformed_fun; eauto.
  - intros ->. eapply G_default; eauto. apply exists_new.
Qed.
Lemma parses_up tm sp d x ws : f_container f = false -> f_default f = Some d -> transformed (f_transforms f) d x ->
  parses_to R' tm None sp inputs (items_of inputs) ws <->
  exists vs, parses_to R tm None sp inputs (items_of inputs) vs /\ ws = inserted (length a) x vs.
Proof.
  intros NC FD TX. split.
  - intros [A [B [L D]]]. cbn [R' r_fields] in L. rewrite app_length in L. cbn [length] in L.
    assert (WX : nth_error ws (length a) = Some x).
    { destruct (nth_error ws (length a)) as [y|] eqn:N; [|apply nth_error_None in N; lia]. f_equal.
      apply (new_gets tm sp d x y NC FD TX). apply D; auto. apply at_nth. }
    destruct (nth_error_split ws (length a) WX) as [u [v [E LU]]].
    exists (u ++ v). assert (EW : ws = inserted (length a) x (u ++ v)).
    { unfold inserted. rewrite E, <- LU. rewrite firstn_app, skipn_app, firstn_all, skipn_all, Nat.sub_diag. cbn. now rewrite app_nil_r. }
    split; [|exact EW]. assert (LE : length a <= length (u ++ v)) by (rewrite app_length; lia).
    split; [|split; [|split]].
    + rewrite Forall_forall in *. intros s I. apply ok_up; auto.
    + intro i. rewrite <- filter_up. apply B.
    + cbn [R r_fields]. rewrite E in L. rewrite !app_length in *. cbn [length] in L. lia.
    + intros i g y N NY. cbn [R r_fields] in N. apply gets_up; auto. apply D; [cbn [R' r_fields]; now rewrite up_nth|].
      rewrite EW, inserted_up; auto.
  - intros [vs [[A [B [L D]]] ->]]. cbn [R r_fields] in L. assert (LE : length a <= length vs) by (rewrite L, app_length; lia).
    split; [|split; [|split]].
    + rewrite Forall_forall in *. intros s I. apply ok_up; auto.
    + intro i. destruct (up_or (length a) i) as [->|[j ->]]; [rewrite filter_new; cbn; lia|]. rewrite filter_up. apply B.
    + rewrite inserted_length by auto. cbn [R' r_fields]. rewrite app_length in *. cbn [length]. lia.
    + intros i g y N NY. cbn [R' r_fields] in N. destruct (up_or (length a) i) as [->|[j ->]].
      * rewrite at_nth in N. injection N as <-. rewrite inserted_at in NY by auto. injection NY as <-. now apply (new_gets tm sp d x x NC FD TX).
      * rewrite up_nth in N. rewrite inserted_up in NY by auto. apply gets_up; auto.
Qed.
End Two.
Lemma l_grow_struct (s s' : sdef) n f d x tm prefix v sp inputs r r' ws :
  parse_run s tm prefix v sp inputs r -> parse_run s' tm prefix v sp inputs r' ->
  named_struct s -> named_struct s' -> Forall local_field (s_raw s') ->
  with_field s n f s' -> optional_field f d x -> (forall g q, In g (s_raw s) -> f_kind g <> KRest q) ->
  not_among prefix (f_names f) inputs ->
  r' = Ok ws <-> exists vs, r = Ok vs /\ ws = inserted n x vs.
Proof.
  intros R1 R2 NS NS' LF [[a [b [E1 [E2 <-]]]] [D1 D2] U [T1 T2]] [PF [NC [FD TX]]] NR NA.
  assert (LF1 : Forall local_field (s_raw s)).
  { rewrite E1. rewrite E2 in LF. apply Forall_app in LF as [L1 L2]. inversion L2; subst. apply Forall_app; auto. }
  set (q := fun g : field V => match tm with TMeta => container_default (skip_default g) | TAttrs _ _ => skip_default g end).
  assert (FE : forall z : sdef, s_default z = None -> s_fields tm z = map q (s_raw z)).
  { intros z Z. unfold s_fields, s_fields_meta, s_fields_attr, q. rewrite Z. cbn [has_target]. destruct tm; auto. now rewrite map_map. }
  assert (QF : q f = f).
  { unfold q, skip_default, container_default. destruct tm; rewrite FD; auto. now rewrite FD. }
  assert (QK : forall g, f_kind (q g) = f_kind g).
  { intro g. unfold q, skip_default, container_default. destruct tm; destruct (f_default g) eqn:FG; rewrite ?FG; auto; destruct (f_skip g); auto; cbn; rewrite ?FG; auto; destruct (f_container g); auto. }
  destruct (run_body _ _ _ _ _ _ _ R1) as [m1 ->]; [apply NS|]. destruct (run_body _ _ _ _ _ _ _ R2) as [m2 ->]; [apply NS'|].
  rewrite (struct_text s' tm m2) by auto. setoid_rewrite (struct_text s tm m1); auto.
  unfold struct_reader. rewrite (FE s D1), (FE s' D2), D1, D2, T1, T2, U, E1, E2, !map_app. cbn [map]. rewrite QF.
  assert (AL : forall k ksp, In (k, ksp) (keys_in inputs) -> (In k (s_names s) <-> In k (s_names s'))).
  { intros k ksp I. unfold s_names, fields_names. rewrite E1, E2, !flat_map_app, !in_app_iff. cbn [flat_map]. rewrite in_app_iff.
    assert (NK : ~ In k (if is_parsable f then field_key_names f else [])); [|tauto].
    destruct (NA k ksp I) as [N1 _]. apply pitem_spec in PF as [_ [_ [dd K]]]. unfold field_key_names. rewrite K. destruct (is_parsable f); auto. }
  assert (NFL : pflat f = false).
  { apply pitem_spec in PF as [_ [_ [dd K]]]. unfold pflat, is_flat. rewrite K. apply andb_false_r. }
  assert (NR' : forall g r, In g (map q a ++ map q b) -> f_kind g <> KRest r).
  { intros g r I. rewrite <- map_app in I. apply in_map_iff in I as [h [<- I]]. rewrite QK. apply NR. now rewrite E1. }
  assert (FR : forall k ksp, In (k, ksp) (keys_in inputs) -> forall m, k = (prefix ++ m)%string -> ~ In m (f_names f)) by (intros k ksp I; apply (NA k ksp I)).
  pose proof (fun us => parses_up (map q a) (map q b) f prefix (negb (s_unknown_ok s) && v) (s_names s) (s_names s') inputs NFL FR AL NR' tm sp d x us NC FD TX) as X.
  rewrite map_length in X. split.
  - intros [us [P C]]. inversion C; subst. apply X in P as [vs [P ->]]. exists vs. split; auto. exists vs. split; auto. constructor.
  - intros [vs [[us [P C]] ->]]. inversion C; subst. eexists. split; [|constructor]. apply X. eauto.
Qed.

(** *** Enums *)
Section Enum.
Variables (e e' : edef) (v : vdef) (prefix : string) (inputs : list stream).
Hypothesis (W : with_variant e v e').
Hypothesis (NA : not_among prefix (if v_skip v then [] else v_names v) inputs).
Lemma nth_new i w : nth_error (e_variants e') i = Some w <-> nth_error (e_variants e) i = Some w \/ (i = length (e_variants e) /\ w = v).
Proof.
  rewrite (wv_variants _ _ _ W). split.
  - intro N. destruct (Nat.lt_ge_cases i (length (e_variants e))) as [L|L]; [left; now rewrite nth_error_app1 in N|right].
    rewrite nth_error_app2 in N by auto. destruct (i - length (e_variants e)) as [|m] eqn:E; [|destruct m; discriminate N]. injection N as <-. split; auto. lia.
  - intros [N|[-> ->]]; [rewrite nth_error_app1; auto; apply nth_error_Some; congruence|]. rewrite nth_error_app2, Nat.sub_diag by lia. reflexivity.
Qed.
Lemma flattened_new i w : flattened e' i w <-> flattened e i w.
Proof.
  unfold flattened. rewrite nth_new. pose proof (wv_plain _ _ _ W). split; [intros [[N|[_ ->]] [F S]]; [auto|congruence]|intros [N F]; auto].
Qed.
Lemma chosen_new i w : chosen e' prefix inputs i w <-> chosen e prefix inputs i w.
Proof.
  unfold chosen. rewrite flattened_new. split; intros [F [A [C|C]]]; (split; [auto|split; [auto|]]); auto; right; intros j u FU; apply (C j u); now apply flattened_new.
Qed.
Lemma first_new i w : first_chosen e' prefix inputs i w <-> first_chosen e prefix inputs i w.
Proof.
  unfold first_chosen. rewrite chosen_new. split; intros [C H]; (split; [auto|]); intros j u CU; apply H; now apply chosen_new.
Qed.
Lemma written_new tm sp i w vs : flat_written e' tm prefix sp inputs i w vs <-> flat_written e tm prefix sp inputs i w vs.
Proof.
  assert (F : forall k, foreign e' prefix i w k <-> foreign e prefix i w k).
  { intro k. pose proof (wv_plain _ _ _ W). split; intros [j [u [m [N [FU X]]]]]; exists j, u, m; (split; [|auto]).
    - apply nth_new in N as [N|[_ ->]]; [auto|congruence].
    - apply nth_new. auto. }
  unfold flat_written. rewrite (wv_unknown _ _ _ W). split; intros [c [C1 [C2 [C3 C4]]]]; exists c; (split; [auto|split; [auto|split; [auto|]]]);
    intros T U1 U2 k ksp I Q; apply (C4 T U1 U2 k ksp I); now apply F.
Qed.
Lemma items_new : variant_items e' prefix (items_of inputs) = variant_items e prefix (items_of inputs).
Proof.
  unfold variant_items, part. apply filter_ext_in. intros seg I. apply eq_true_iff_eq. rewrite !addressed_spec.
  assert (VN : variant_names e' = variant_names e ++ (if v_skip v then [] else v_names v)).
  { unfold variant_names. rewrite (wv_variants _ _ _ W), flat_map_app. cbn [flat_map]. rewrite app_nil_r, (wv_plain _ _ _ W). reflexivity. }
  rewrite VN. split; intros [k [ksp [body [n [K [IN KE]]]]]]; exists k, ksp, body, n; (split; [auto|split; [|auto]]); [|apply in_app_iff; auto].
  apply in_app_iff in IN as [IN|IN]; auto. destruct (proj2 (NA k ksp (proj2 (in_keys_items inputs k ksp) (ex_intro _ seg (ex_intro _ body (conj I K))))) n KE IN).
Qed.
Lemma variant_new tm seg i vs : In seg (items_of inputs) -> variant_written e' tm prefix seg i vs <-> variant_written e tm prefix seg i vs.
Proof.
  intro I. split; intros [k [ksp [body [w [K [[N [O [n [IN KE]]]] VV]]]]]]; exists k, ksp, body, w; (split; [auto|split; [|auto]]); (split; [|eauto]).
  - apply nth_new in N as [N|[_ ->]]; auto. exfalso.
    apply (proj2 (NA k ksp (proj2 (in_keys_items inputs k ksp) (ex_intro _ seg (ex_intro _ body (conj I K))))) n KE). destruct O as [_ ->]. exact IN.
  - apply nth_new. auto.
Qed.
Lemma others_new validate n : others_ok e' prefix (e_names e') validate n inputs <-> others_ok e prefix (e_names e) validate n inputs.
Proof.
  assert (EN : e_names e' = e_names e ++ (if v_skip v then [] else v_names v)).
  { unfold e_names. rewrite (wv_variants _ _ _ W), flat_map_app. cbn [flat_map]. rewrite (wv_plain _ _ _ W). cbn [orb]. now rewrite !app_nil_r. }
  assert (AF : e_any_flat e' = e_any_flat e).
  { unfold e_any_flat. rewrite (wv_variants _ _ _ W), existsb_app. cbn [existsb]. rewrite (wv_plain _ _ _ W). cbn. apply orb_false_r. }
  assert (FN : flat_map flat_names (e_variants e') = flat_map flat_names (e_variants e)).
  { rewrite (wv_variants _ _ _ W), flat_map_app. cbn [flat_map]. unfold flat_names at 2. rewrite (wv_plain _ _ _ W). cbn. now rewrite app_nil_r. }
  unfold others_ok. rewrite (wv_unknown _ _ _ W), AF, FN, EN. split; intros H U; destruct (H U) as [H1 H2]; (split; [|auto]); intros Q k ksp I; specialize (H1 Q k ksp I).
  - apply in_app_iff in H1 as [H1|H1]; auto. destruct (proj1 (NA k ksp I) H1).
  - apply in_app_iff. auto.
Qed.
Lemma l_grow_enum tm validate sp r r' x : enum_run e tm prefix validate sp inputs r -> enum_run e' tm prefix validate sp inputs r' ->
  proper_enum tm e -> proper_enum tm e' -> flat_local e -> r' = Ok x <-> r = Ok x.
Proof.
  intros R1 R2 P P' FL.
  assert (FL' : flat_local e').
  { intros w I F. rewrite (wv_variants _ _ _ W) in I. apply in_app_iff in I as [I|[<-|[]]]; [auto|]. pose proof (wv_plain _ _ _ W). congruence. }
  assert (SI : forall seg, variant_items e prefix (items_of inputs) = [seg] -> In seg (items_of inputs)).
  { intros seg E. assert (I : In seg (variant_items e prefix (items_of inputs))) by (rewrite E; now left). now apply filter_In in I. }
  pose proof (LemEnum5.run_body _ _ _ _ _ _ _ R1) as B1. pose proof (LemEnum5.run_body _ _ _ _ _ _ _ R2) as B2.
  pose proof items_new as IT. split; intro H; pose proof H as H0.
  - rewrite B2 in H0. apply (enum_text tm e' prefix P') in H0 as [K [y [CH [[seg [i [vs [n [V1 [V2 [V3 [V4 V5]]]]]]]]|[V1 _]]]]].
    + rewrite B1. apply (enum_text tm e prefix P). split; auto. exists y. rewrite <- (wv_and_thens _ _ _ W). split; auto. left. exists seg, i, vs, n.
      rewrite IT in V1. split; auto. split; [apply variant_new; auto|]. split; auto. split; auto. now apply others_new.
    + apply (l_flat_exact e' tm prefix validate sp inputs r' x R2 P' FL' V1) in H as [_ [z [CZ C]]]. rewrite IT in V1.
      apply (l_flat_exact e tm prefix validate sp inputs r x R1 P FL V1). split; auto. exists z. rewrite <- (wv_and_thens _ _ _ W). split; auto.
      destruct C as [[i [w [ws [C1 [C2 C3]]]]]|[C1 C2]].
      * left. exists i, w, ws. split; [now apply first_new|]. split; auto. now apply written_new.
      * right. rewrite <- (wv_default _ _ _ W). split; auto. intros i w C. apply (C1 i w). now apply chosen_new.
  - rewrite B1 in H0. apply (enum_text tm e prefix P) in H0 as [K [y [CH [[seg [i [vs [n [V1 [V2 [V3 [V4 V5]]]]]]]]|[V1 _]]]]].
    + rewrite B2. apply (enum_text tm e' prefix P'). split; auto. exists y. rewrite (wv_and_thens _ _ _ W). split; auto. left. exists seg, i, vs, n.
      rewrite IT. split; auto. split; [apply variant_new; auto|]. split; auto. split; auto. now apply others_new.
    + apply (l_flat_exact e tm prefix validate sp inputs r x R1 P FL V1) in H as [_ [z [CZ C]]]. rewrite <- IT in V1.
      apply (l_flat_exact e' tm prefix validate sp inputs r' x R2 P' FL' V1). split; auto. exists z. rewrite (wv_and_thens _ _ _ W). split; auto.
      destruct C as [[i [w [ws [C1 [C2 C3]]]]]|[C1 C2]].
      * left. exists i, w, ws. split; [now apply first_new|]. split; auto. now apply written_new.
      * right. rewrite (wv_default _ _ _ W). split; auto. intros i w C. apply (C1 i w). now apply chosen_new.
Qed.
End Enum.

Lemma l_grow_known (s s' : sdef) n f d x tm sp inputs vs r' :
  parse_run s tm "" true sp inputs (Ok vs) -> parse_run s' tm "" true sp inputs r' ->
  named_struct s -> named_struct s' -> Forall local_field (s_raw s') ->
  with_field s n f s' -> optional_field f d x -> (forall g q, In g (s_raw s) -> f_kind g <> KRest q) ->
  s_unknown_ok s = false -> (forall m, In m (f_names f) -> ~ In m (s_names s)) ->
  r' = Ok (inserted n x vs).
Proof.
  intros R1 R2 NS NS' LF W O NR U NN.
  assert (LF1 : Forall local_field (s_raw s)).
  { destruct (wf_raw _ _ _ _ W) as [a [b [E1 [E2 _]]]]. rewrite E1. rewrite E2 in LF. apply Forall_app in LF as [L1 L2]. inversion L2; subst. apply Forall_app; auto. }
  apply (l_grow_struct s s' n f d x tm "" true sp inputs _ r' _ R1 R2 NS NS' LF W O NR); [|eauto].
  intros k ksp I. assert (IK : In k (s_names s)).
  { apply (l_known s tm sp inputs vs R1 NS) with (ksp := ksp); auto. revert LF1. apply Forall_impl. intros g. apply local_stays. }
  split; [intro J; exact (NN k J IK)|]. cbn. intros m ->. intro J. exact (NN m J IK).
Qed.
Lemma l_grow_enum_known (e e' : edef) v tm sp inputs x r' :
  enum_run e tm "" true sp inputs (Ok x) -> enum_run e' tm "" true sp inputs r' ->
  proper_enum tm e -> proper_enum tm e' -> flat_local e -> with_variant e v e' ->
  e_unknown_ok e = false -> e_default e = None ->
  (forall w, In w (e_variants e) -> v_flatten w = true -> ~ takes_all w) ->
  (forall n, In n (v_names v) -> ~ In n (fn_names (enum_fn e))) ->
  r' = Ok x.
Proof.
  intros R1 R2 P P' FL W U D NT NN.
  refine (proj2 (l_grow_enum e e' v "" inputs W _ tm true sp (Ok x) r' x R1 R2 P P' FL) eq_refl).
  intros k ksp I. pose proof (l_enum_known e tm sp inputs x R1 P FL U D NT k ksp I) as IK.
  destruct (v_skip v); [split; auto|]. split; [intro J; exact (NN k J IK)|]. cbn. intros m ->. intro J. exact (NN m J IK).
Qed.
End G.
