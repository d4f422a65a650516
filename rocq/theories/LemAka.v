(** Adding a name to a field or a variant. *)
From Verif Require Export LemPerm LemOwn LemAdvert SpecAka.
Local Open Scope string_scope.
Local Open Scope list_scope.

Section G.
Context {env : Env} {V : Type}.
Notation sdef := (sdef V).
Notation edef := (edef V).
Notation vdef := (vdef V).

(** two fields that differ in their names only *)
Record alike (g g' : field V) : Prop := {
  al_ident : f_ident g' = f_ident g;
  al_kind : f_kind g' = f_kind g;
  al_default : f_default g' = f_default g;
  al_transforms : f_transforms g' = f_transforms g;
  al_container : f_container g' = f_container g;
  al_skip : f_skip g' = f_skip g;
  al_first : first_name g' = first_name g;
  al_flat : pflat g = true -> g' = g }.
Lemma alike_refl g : alike g g.
Proof. constructor; auto. Qed.
Lemma alike_pflat g g' : alike g g' -> pflat g' = pflat g.
Proof. intros H. unfold pflat, is_parsable, is_flat. now rewrite (al_kind _ _ H), (al_container _ _ H), (al_skip _ _ H). Qed.
Lemma alike_sym g g' : alike g g' -> alike g' g.
Proof.
  intros H. pose proof (alike_pflat _ _ H) as E. destruct H as [A B C D F G I J]. constructor; auto. intro P. symmetry. apply J. congruence.
Qed.
Definition owner_alike (o o' : option (nat * field V)) : Prop :=
  match o, o' with Some (j, g), Some (j', g') => j' = j /\ alike g g' | None, None => True | _, _ => False end.

Lemma alike_length (l l' : list (field V)) : Forall2 alike l l' -> length l = length l'.
Proof. induction 1; cbn; auto. Qed.
Lemma alike_exists : forall (l l' : list (field V)) n, Forall2 alike l l' -> existsb pflat (skipn n l') = existsb pflat (skipn n l).
Proof.
  intros l l' n H. revert n. induction H as [|g g' l l' A H IH]; intros [|n]; cbn [skipn existsb]; auto. specialize (IH 0). cbn [skipn] in IH. now rewrite IH, (alike_pflat _ _ A).
Qed.
Section Two.
Variables (fs fs' : list (field V)) (prefix : string) (c : bool) (al al' : list string) (inputs : list stream).
Let R := mkReader fs prefix c al.
Let R' := mkReader fs' prefix c al'.
Hypothesis (FA : Forall2 alike fs fs').
Hypothesis (OW : forall k ksp, In (k, ksp) (keys_in inputs) -> owner_alike (owner_in R k) (owner_in R' k)).
Hypothesis (AL : forall k ksp, In (k, ksp) (keys_in inputs) -> In k al -> In k al').
Hypothesis (NR : forall g r, In g fs -> f_kind g <> KRest r).
Lemma aka_key seg k ksp body : In seg (items_of inputs) -> item_key seg = Some (k, ksp, body) -> In (k, ksp) (keys_in inputs).
Proof. intros I K. apply in_keys_items. eauto. Qed.
Lemma aka_owns i seg : In seg (items_of inputs) -> owns R' i seg = owns R i seg.
Proof.
  intro I. unfold owns. destruct (item_key seg) as [[[k ksp] body]|] eqn:K; auto. pose proof (OW k ksp (aka_key _ _ _ _ I K)) as O.
  unfold owner_alike in O. destruct (owner_in R k) as [[j g]|], (owner_in R' k) as [[j' g']|]; auto; try contradiction. now destruct O as [-> _].
Qed.
Lemma aka_gives seg i w : In seg (items_of inputs) -> gives R seg i w -> gives R' seg i w.
Proof.
  intros I [k [ksp [body [g [K [O A]]]]]]. pose proof (OW k ksp (aka_key _ _ _ _ I K)) as W. rewrite O in W. unfold owner_alike in W.
  destruct (owner_in R' k) as [[j' g']|] eqn:O'; [|contradiction]. destruct W as [-> W]. exists k, ksp, body, g'. split; auto. split; auto.
  unfold item_named in *. now rewrite (al_kind _ _ W), (al_first _ _ W).
Qed.
Lemma aka_ok seg : In seg (items_of inputs) -> item_ok R seg -> item_ok R' seg.
Proof.
  intros I [[i [w G]]|[k [ksp [body [K [O C]]]]]]; [left; exists i, w; now apply aka_gives|right].
  pose proof (aka_key _ _ _ _ I K) as J. pose proof (OW k ksp J) as W. rewrite O in W. unfold owner_alike in W.
  exists k, ksp, body. split; auto. split; [destruct (owner_in R' k) as [[? ?]|]; [contradiction|auto]|]. intro Q. apply (AL k ksp J). auto.
Qed.
Lemma aka_exists i : existsb (owns R' i) (items_of inputs) = existsb (owns R i) (items_of inputs).
Proof.
  assert (X : forall l, (forall s, In s l -> In s (items_of inputs)) -> existsb (owns R' i) l = existsb (owns R i) l).
  { induction l as [|s l IH]; intro H; auto. cbn [existsb]. rewrite aka_owns by (apply H; now left). f_equal. apply IH. intros t J. apply H. now right. }
  apply X. auto.
Qed.
Lemma aka_flat_in i : flat_in R' inputs i = flat_in R inputs i.
Proof.
  unfold flat_in. cbn [R R' r_fields]. assert (X : existsb pflat (skipn (S i) fs') = existsb pflat (skipn (S i) fs)); [|now rewrite X].
  now apply alike_exists.
Qed.
Lemma aka_gets tm target sp i g g' v : nth_error fs i = Some g -> alike g g' ->
  field_gets R tm target sp inputs (items_of inputs) i g v -> field_gets R' tm target sp inputs (items_of inputs) i g' v.
Proof.
  intros N W. pose proof (nth_error_In _ _ N) as IG. pose proof (alike_pflat _ _ W) as PE.
  intros [seg w I G T|w PF FL T|pn obj TM C2 T|w E PF C2 FD T|t E PF C2 FD SD NT|d w E C2 FD SD K DM T].
  - eapply G_item; [exact I|apply aka_gives; eauto|]. now rewrite (al_transforms _ _ W).
  - rewrite (al_flat _ _ W PF) in *. eapply G_flat; eauto. rewrite aka_flat_in. cbn [R R' r_prefix r_allowed] in *.
    replace (flat_call g prefix sp al' (flat_in R inputs i)) with (flat_call g prefix sp al (flat_in R inputs i)); auto.
    unfold flat_call. destruct (f_kind g) eqn:K; auto. destruct (NR g _ IG K).
  - eapply G_container; eauto; [now rewrite (al_container _ _ W)|now rewrite (al_transforms _ _ W)].
  - eapply G_default; [now rewrite aka_exists|congruence|now rewrite (al_container _ _ W)|rewrite (al_default _ _ W); exact FD|now rewrite (al_transforms _ _ W)].
  - eapply G_target; [now rewrite aka_exists|congruence|now rewrite (al_container _ _ W)|now rewrite (al_default _ _ W)|exact SD|exact NT].
  - eapply G_missing; [now rewrite aka_exists|now rewrite (al_container _ _ W)|now rewrite (al_default _ _ W)|exact SD|rewrite (al_kind _ _ W); exact K| |rewrite (al_transforms _ _ W); exact T].
    unfold missing_name_named in *. cbn [R R' r_prefix] in *. now rewrite (al_ident _ _ W).
Qed.
Lemma aka_parses tm target sp vs : parses_to R tm target sp inputs (items_of inputs) vs -> parses_to R' tm target sp inputs (items_of inputs) vs.
Proof.
  intros [A [B [L D]]]. split; [|split; [|split]].
  - rewrite Forall_forall in *. intros s I. apply aka_ok; auto.
  - intro i. rewrite (filter_ext_in (owns R' i) (owns R i)); auto. intros s I. now apply aka_owns.
  - rewrite L. cbn [R R' r_fields]. now apply alike_length.
  - intros i g' y N NY. cbn [R' r_fields] in N. destruct (nth_error fs i) as [g|] eqn:NG.
    + assert (W : alike g g').
      { clear -FA N NG. revert i N NG. induction FA; intros [|i] N NG; try discriminate; cbn in *; [congruence|eauto]. }
      eapply aka_gets; eauto.
    + exfalso. apply nth_error_None in NG. assert (i < length fs') by (apply nth_error_Some; congruence). pose proof (alike_length _ _ FA). lia.
Qed.
End Two.

Lemma find_aka k (b : list (field V)) f f' : alike f f' -> (In k (f_names f) <-> In k (f_names f')) -> forall a i,
  owner_alike (find_field k (a ++ f :: b) i) (find_field k (a ++ f' :: b) i).
Proof.
  intros W NN. assert (E : pitem f' && mem_str k (f_names f') = pitem f && mem_str k (f_names f)).
  { f_equal; [unfold pitem, is_parsable, is_flat; now rewrite (al_kind _ _ W), (al_container _ _ W), (al_skip _ _ W)|].
    apply eq_true_iff_eq. rewrite !mem_str_In. tauto. }
  induction a as [|g a IH]; intro i; cbn [app find_field].
  - rewrite E. destruct (pitem f && mem_str k (f_names f)); [cbn; auto|]. destruct (find_field k b (S i)) as [[j g]|]; cbn; auto using alike_refl.
  - destruct (pitem g && mem_str k (f_names g)); [cbn; auto using alike_refl|apply IH].
Qed.
Lemma alike_more (f : field V) more : pitem f = true -> f_names f <> [] -> alike f (with_names f more).
Proof.
  intros PF NE. constructor; auto.
  - unfold first_name. cbn. destruct (f_names f); [contradiction|reflexivity].
  - intro P. unfold pitem, pflat in *. destruct (is_flat f); [rewrite andb_false_r in PF; discriminate|rewrite andb_false_r in P; discriminate].
Qed.
Lemma same_list (l : list (field V)) : Forall2 alike l l.
Proof. induction l; constructor; auto using alike_refl. Qed.

Lemma l_aka (s s' : sdef) more tm prefix v sp inputs r r' ws :
  parse_run s tm prefix v sp inputs r -> parse_run s' tm prefix v sp inputs r' ->
  named_struct s -> named_struct s' -> Forall local_field (s_raw s) ->
  more_names s more s' -> (forall g q, In g (s_raw s) -> f_kind g <> KRest q) ->
  not_among prefix more inputs -> r' = Ok ws <-> r = Ok ws.
Proof.
  intros R1 R2 NS NS' LF [[a [f [b [E1 [E2 [PF NE]]]]]] D U T] NR NA.
  assert (LF' : Forall local_field (s_raw s')).
  { rewrite E1 in LF. rewrite E2. apply Forall_app in LF as [L1 L2]. inversion L2; subst. apply Forall_app. split; [auto|constructor; auto]. }
  destruct (LemRun.run_body _ _ _ _ _ _ _ R1) as [m1 ->]; [apply NS|]. destruct (LemRun.run_body _ _ _ _ _ _ _ R2) as [m2 ->]; [apply NS'|].
  rewrite (struct_text s' tm m2) by auto. rewrite (struct_text s tm m1) by auto.
  set (q := fun g : field V => match tm with TMeta => container_default (if has_target (s_default s) then g else skip_default g) | TAttrs _ _ => if has_target (s_default s) then g else skip_default g end).
  assert (FE : forall z : sdef, s_default z = s_default s -> s_fields tm z = map q (s_raw z)).
  { intros z Z. unfold s_fields, s_fields_meta, s_fields_attr, q. rewrite Z. destruct tm; destruct (has_target (s_default s)); rewrite ?map_map, ?map_id; auto. }
  assert (SK : f_skip f = false /\ f_container f = false).
  { unfold pitem, is_parsable in PF. destruct (f_skip f), (f_container f); cbn in PF; try discriminate; auto. }
  assert (QF : forall g : field V, f_skip g = false -> f_container g = false -> q g = g).
  { intros g S C. assert (S1 : skip_default g = g) by (unfold skip_default; destruct (f_default g); rewrite ?S; auto).
    unfold q. rewrite S1. destruct (has_target (s_default s)); destruct tm; auto; unfold container_default; destruct (f_default g); rewrite ?C; auto. }
  assert (QK : forall g, f_kind (q g) = f_kind g).
  { intro g. unfold q, skip_default, container_default. destruct tm; destruct (has_target (s_default s)); auto; destruct (f_default g) eqn:FG; rewrite ?FG; auto; destruct (f_skip g); auto; cbn; rewrite ?FG; auto; destruct (f_container g); auto. }
  unfold struct_reader. rewrite (FE s eq_refl), (FE s' D), D, T, U, E1, E2, !map_app. cbn [map].
  rewrite (QF f (proj1 SK) (proj2 SK)), (QF (with_names f more) (proj1 SK) (proj2 SK)).
  pose proof (alike_more f more PF NE) as W.
  assert (AL : forall k ksp, In (k, ksp) (keys_in inputs) -> (In k (s_names s) <-> In k (s_names s'))).
  { intros k ksp I. unfold s_names, fields_names. rewrite E1, E2, !flat_map_app, !in_app_iff. cbn [flat_map]. rewrite !in_app_iff.
    destruct (NA k ksp I) as [N1 _]. apply pitem_spec in PF as [_ [_ [dd K]]]. unfold field_key_names. cbn [with_names f_kind f_names]. rewrite K.
    change (is_parsable (with_names f more)) with (is_parsable f). destruct (is_parsable f); rewrite ?in_app_iff; tauto. }
  assert (NR1 : forall h, alike f h -> forall g r, In g (map q a ++ h :: map q b) -> f_kind g <> KRest r).
  { intros h WH g r I. apply in_app_iff in I as [I|[<-|I]].
    - apply in_map_iff in I as [x [<- I]]. rewrite QK. apply NR. rewrite E1. apply in_app_iff. auto.
    - rewrite (al_kind _ _ WH). apply NR. rewrite E1. apply in_app_iff. right. now left.
    - apply in_map_iff in I as [x [<- I]]. rewrite QK. apply NR. rewrite E1. apply in_app_iff. right. now right. }
  assert (OW : forall k ksp, In (k, ksp) (keys_in inputs) -> forall n, k = (prefix ++ n)%string -> In n (f_names f) <-> In n (f_names (with_names f more))).
  { intros k ksp I n K. cbn [with_names f_names]. rewrite in_app_iff. pose proof (proj2 (NA k ksp I) n K). tauto. }
  split; intros [vs [P C]]; exists vs; (split; [|exact C]); revert P; apply aka_parses.
  - apply Forall2_app; [apply same_list|]. constructor; [now apply alike_sym|apply same_list].
  - intros k ksp I. unfold owner_in. cbn [r_prefix r_fields]. destruct (strip_prefix prefix k) as [n|] eqn:E; [|exact Logic.I]. apply strip_prefix_spec in E.
    apply find_aka; [now apply alike_sym|]. symmetry. eapply OW; eauto.
  - intros k ksp I. apply (AL k ksp I).
  - now apply NR1.
  - apply Forall2_app; [apply same_list|]. constructor; [exact W|apply same_list].
  - intros k ksp I. unfold owner_in. cbn [r_prefix r_fields]. destruct (strip_prefix prefix k) as [n|] eqn:E; [|exact Logic.I]. apply strip_prefix_spec in E.
    apply find_aka; [exact W|]. eapply OW; eauto.
  - intros k ksp I. apply (AL k ksp I).
  - apply NR1. apply alike_refl.
Qed.
Lemma l_aka_known (s s' : sdef) more tm sp inputs ws r' :
  parse_run s tm "" true sp inputs (Ok ws) -> parse_run s' tm "" true sp inputs r' ->
  named_struct s -> named_struct s' -> Forall local_field (s_raw s) ->
  more_names s more s' -> (forall g q, In g (s_raw s) -> f_kind g <> KRest q) ->
  s_unknown_ok s = false -> (forall m, In m more -> ~ In m (s_names s)) -> r' = Ok ws.
Proof.
  intros R1 R2 NS NS' LF M NR U NN. apply (l_aka s s' more tm "" true sp inputs _ r' ws R1 R2 NS NS' LF M NR); auto.
  intros k ksp I. assert (IK : In k (s_names s)).
  { apply (l_known s tm sp inputs ws R1 NS) with (ksp := ksp); auto. revert LF. apply Forall_impl. intros g. apply local_stays. }
  split; [intro J; exact (NN k J IK)|]. cbn. intros m ->. intro J. exact (NN m J IK).
Qed.

(** *** Enums *)
Section Enum.
Variables (e e' : edef) (more : list string) (prefix : string) (inputs : list stream) (a b : list vdef) (v : vdef).
Hypothesis (VS : e_variants e = a ++ v :: b).
Hypothesis (VS' : e_variants e' = a ++ v_with_names v more :: b).
Hypothesis (VO : ordinary v).
Hypothesis (VD : e_default e' = e_default e).
Hypothesis (VT : e_and_thens e' = e_and_thens e).
Hypothesis (VU : e_unknown_ok e' = e_unknown_ok e).
Hypothesis (NA : not_among prefix more inputs).
Lemma nth_mid {A} (l r : list A) x y i w : nth_error (l ++ x :: r) i = Some w ->
  (w = x /\ nth_error (l ++ y :: r) i = Some y) \/ nth_error (l ++ y :: r) i = Some w.
Proof.
  revert i. induction l as [|z l IH]; intros [|i]; cbn [app nth_error]; auto. intro H. injection H as <-. auto.
Qed.
Lemma aka_flattened i w : flattened e' i w <-> flattened e i w.
Proof.
  unfold flattened. rewrite VS, VS'. destruct VO as [O1 O2]. split; intros [N [F S]]; (split; [|auto]).
  - destruct (nth_mid a b _ v i w N) as [[-> _]|N']; auto. cbn in F. congruence.
  - destruct (nth_mid a b _ (v_with_names v more) i w N) as [[-> _]|N']; auto. congruence.
Qed.
Lemma aka_chosen i w : chosen e' prefix inputs i w <-> chosen e prefix inputs i w.
Proof.
  unfold chosen. rewrite aka_flattened. split; intros [F [A [C|C]]]; (split; [auto|split; [auto|]]); auto; right; intros j u FU; apply (C j u); now apply aka_flattened.
Qed.
Lemma aka_first i w : first_chosen e' prefix inputs i w <-> first_chosen e prefix inputs i w.
Proof.
  unfold first_chosen. rewrite aka_chosen. split; intros [C H]; (split; [auto|]); intros j u CU; apply H; now apply aka_chosen.
Qed.
Lemma aka_flat_written tm sp i w vs : flat_written e' tm prefix sp inputs i w vs <-> flat_written e tm prefix sp inputs i w vs.
Proof.
  assert (F : forall k, foreign e' prefix i w k <-> foreign e prefix i w k).
  { intro k. unfold foreign. rewrite VS, VS'. destruct VO as [O1 O2]. split; intros [j [u [m [N [FU X]]]]]; exists j, u, m; (split; [|auto]).
    - destruct (nth_mid a b _ v j u N) as [[-> _]|N']; auto. cbn in FU. congruence.
    - destruct (nth_mid a b _ (v_with_names v more) j u N) as [[-> _]|N']; auto. congruence. }
  unfold flat_written. rewrite VU. split; intros [c [C1 [C2 [C3 C4]]]]; exists c; (split; [auto|split; [auto|split; [auto|]]]);
    intros T U1 U2 k ksp I Q; apply (C4 T U1 U2 k ksp I); now apply F.
Qed.
Lemma aka_in k ksp seg body n : In seg (items_of inputs) -> item_key seg = Some (k, ksp, body) -> k = (prefix ++ n)%string -> ~ In n more.
Proof. intros I K E. exact (proj2 (NA k ksp (aka_key inputs _ _ _ _ I K)) n E). Qed.
Lemma aka_items : variant_items e' prefix (items_of inputs) = variant_items e prefix (items_of inputs).
Proof.
  unfold variant_items, part. apply filter_ext_in. intros seg I. apply eq_true_iff_eq. rewrite !addressed_spec.
  assert (VN : forall n, In n (variant_names e') <-> In n (variant_names e) \/ In n more).
  { intro n. unfold variant_names. rewrite VS, VS', !flat_map_app, !in_app_iff. cbn [flat_map]. rewrite !in_app_iff. cbn [v_with_names v_flatten v_skip v_names].
    destruct VO as [-> ->]. cbn [orb]. rewrite in_app_iff. tauto. }
  split; intros [k [ksp [body [n [K [IN KE]]]]]]; exists k, ksp, body, n; (split; [auto|split; [|auto]]); [|apply VN; auto].
  apply VN in IN as [IN|IN]; auto. destruct (aka_in _ _ _ _ _ I K KE IN).
Qed.
Lemma aka_value tm k ksp body vs : variant_value (v_with_names v more) tm prefix k ksp body vs <-> variant_value v tm prefix k ksp body vs.
Proof.
  split; (intros [T A|j f d x T N P K A AR]; [apply VV_fields; [exact T|exact A]|eapply VV_transparent; [exact T|exact N|exact P|exact K|exact A|exact AR]]).
Qed.
Lemma aka_written tm seg i vs : In seg (items_of inputs) -> variant_written e' tm prefix seg i vs <-> variant_written e tm prefix seg i vs.
Proof.
  intro I. split; intros [k [ksp [body [w [K [[N [O [n [IN KE]]]] VV]]]]]].
  - rewrite VS' in N. destruct (nth_mid a b _ v i w N) as [[-> N']|N'].
    + exists k, ksp, body, v. split; auto. split; [|now apply aka_value]. split; [now rewrite VS|]. split; auto. exists n. split; auto.
      cbn [v_with_names v_names] in IN. apply in_app_iff in IN as [IN|IN]; auto. destruct (aka_in _ _ _ _ _ I K KE IN).
    + exists k, ksp, body, w. split; auto. split; auto. split; [now rewrite VS|eauto].
  - rewrite VS in N. destruct (nth_mid a b _ (v_with_names v more) i w N) as [[-> N']|N'].
    + exists k, ksp, body, (v_with_names v more). split; auto. split; [|now apply aka_value]. split; [now rewrite VS'|]. split; [exact VO|]. exists n. split; auto.
      cbn [v_with_names v_names]. apply in_app_iff. auto.
    + exists k, ksp, body, w. split; auto. split; auto. split; [now rewrite VS'|eauto].
Qed.
Lemma aka_others validate n : others_ok e' prefix (e_names e') validate n inputs <-> others_ok e prefix (e_names e) validate n inputs.
Proof.
  assert (EN : forall k, In k (e_names e') <-> In k (e_names e) \/ In k more).
  { intro k. unfold e_names. rewrite VS, VS', !flat_map_app, !in_app_iff. cbn [flat_map]. rewrite !in_app_iff. cbn [v_with_names v_flatten v_skip v_names].
    destruct VO as [-> ->]. cbn [orb]. rewrite !in_app_iff. tauto. }
  assert (AF : e_any_flat e' = e_any_flat e).
  { unfold e_any_flat. rewrite VS, VS', !existsb_app. reflexivity. }
  assert (FN : flat_map flat_names (e_variants e') = flat_map flat_names (e_variants e)).
  { rewrite VS, VS', !flat_map_app. reflexivity. }
  unfold others_ok. rewrite VU, AF, FN. split; intros H U; destruct (H U) as [H1 H2]; (split; [|auto]); intros Q k ksp I; specialize (H1 Q k ksp I).
  - apply EN in H1 as [H1|H1]; auto. destruct (proj1 (NA k ksp I) H1).
  - apply EN. auto.
Qed.
Lemma aka_run tm validate sp r r' x : enum_run e tm prefix validate sp inputs r -> enum_run e' tm prefix validate sp inputs r' ->
  proper_enum tm e -> proper_enum tm e' -> flat_local e -> r' = Ok x <-> r = Ok x.
Proof.
  intros R1 R2 P P' FL.
  assert (FL' : flat_local e').
  { intros w I F. apply FL; auto. rewrite VS' in I. rewrite VS. apply in_app_iff in I as [I|[<-|I]]; [apply in_app_iff; auto| |apply in_app_iff; right; now right].
    cbn in F. destruct VO. congruence. }
  assert (SI : forall seg, variant_items e prefix (items_of inputs) = [seg] -> In seg (items_of inputs)).
  { intros seg E. assert (I : In seg (variant_items e prefix (items_of inputs))) by (rewrite E; now left). now apply filter_In in I. }
  pose proof (LemEnum5.run_body _ _ _ _ _ _ _ R1) as B1. pose proof (LemEnum5.run_body _ _ _ _ _ _ _ R2) as B2.
  pose proof aka_items as IT. split; intro H; pose proof H as H0.
  - rewrite B2 in H0. apply (enum_text tm e' prefix P') in H0 as [K [y [CH [[seg [i [vs [n [V1 [V2 [V3 [V4 V5]]]]]]]]|[V1 _]]]]].
    + rewrite B1. apply (enum_text tm e prefix P). split; auto. exists y. rewrite <- VT. split; auto. left. exists seg, i, vs, n.
      rewrite IT in V1. split; auto. split; [apply aka_written; auto|]. split; auto. split; auto. now apply aka_others.
    + apply (l_flat_exact e' tm prefix validate sp inputs r' x R2 P' FL' V1) in H as [_ [z [CZ C]]]. rewrite IT in V1.
      apply (l_flat_exact e tm prefix validate sp inputs r x R1 P FL V1). split; auto. exists z. rewrite <- VT. split; auto.
      destruct C as [[i [w [ws [C1 [C2 C3]]]]]|[C1 C2]].
      * left. exists i, w, ws. split; [now apply aka_first|]. split; auto. now apply aka_flat_written.
      * right. rewrite <- VD. split; auto. intros i w C. apply (C1 i w). now apply aka_chosen.
  - rewrite B1 in H0. apply (enum_text tm e prefix P) in H0 as [K [y [CH [[seg [i [vs [n [V1 [V2 [V3 [V4 V5]]]]]]]]|[V1 _]]]]].
    + rewrite B2. apply (enum_text tm e' prefix P'). split; auto. exists y. rewrite VT. split; auto. left. exists seg, i, vs, n.
      rewrite IT. split; auto. split; [apply aka_written; auto|]. split; auto. split; auto. now apply aka_others.
    + apply (l_flat_exact e tm prefix validate sp inputs r x R1 P FL V1) in H as [_ [z [CZ C]]]. rewrite <- IT in V1.
      apply (l_flat_exact e' tm prefix validate sp inputs r' x R2 P' FL' V1). split; auto. exists z. rewrite VT. split; auto.
      destruct C as [[i [w [ws [C1 [C2 C3]]]]]|[C1 C2]].
      * left. exists i, w, ws. split; [now apply aka_first|]. split; auto. now apply aka_flat_written.
      * right. rewrite VD. split; auto. intros i w C. apply (C1 i w). now apply aka_chosen.
Qed.
End Enum.
Lemma l_aka_enum (e e' : edef) more tm prefix validate sp inputs r r' x :
  enum_run e tm prefix validate sp inputs r -> enum_run e' tm prefix validate sp inputs r' ->
  proper_enum tm e -> proper_enum tm e' -> flat_local e -> more_variant_names e more e' ->
  not_among prefix more inputs -> r' = Ok x <-> r = Ok x.
Proof.
  intros R1 R2 P P' FL [[a [v [b [V1 [V2 V3]]]]] D T U] NA. exact (aka_run e e' more prefix inputs a b v V1 V2 V3 D T U NA tm validate sp r r' x R1 R2 P P' FL).
Qed.
Lemma l_aka_enum_known (e e' : edef) more tm sp inputs x r' :
  enum_run e tm "" true sp inputs (Ok x) -> enum_run e' tm "" true sp inputs r' ->
  proper_enum tm e -> proper_enum tm e' -> flat_local e -> more_variant_names e more e' ->
  e_unknown_ok e = false -> e_default e = None ->
  (forall w, In w (e_variants e) -> v_flatten w = true -> ~ takes_all w) ->
  (forall n, In n more -> ~ In n (fn_names (enum_fn e))) -> r' = Ok x.
Proof.
  intros R1 R2 P P' FL W U D NT NN. apply (l_aka_enum e e' more tm "" true sp inputs _ r' x R1 R2 P P' FL W); auto.
  intros k ksp I. pose proof (l_enum_known e tm sp inputs x R1 P FL U D NT k ksp I) as IK.
  split; [intro J; exact (NN k J IK)|]. cbn. intros m ->. intro J. exact (NN m J IK).
Qed.
End G.
