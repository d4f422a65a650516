(** Proofs for PropsAlias.v: the different names of a field or variant *)
From Verif Require Import LemEnum3 LemEnum4 LemRun LemStructP LemFlat LemFlat2 LemNamed LemAppend.
From Verif Require Export LemPerm SpecAlias.
Local Open Scope string_scope.
Local Open Scope list_scope.

Section A.
Context {env : Env} {V : Type}.
Notation vdef := (vdef V).
Notation edef := (edef V).
Notation sdef := (sdef V).

Lemma rekeyed_keyed same l l' : Forall2 (rekeyed same) (items_of l) (items_of l') -> keyed l -> keyed l'.
Proof.
  unfold keyed. intros M K. rewrite Forall_forall in *. intros y I. destruct (Forall2_in_r _ _ _ _ M I) as [x [J XY]].
  destruct XY as [->|[k [k' [ksp [body [H1 [H2 H3]]]]]]]; [now apply K|eauto].
Qed.
Lemma rekeyed_sym (same : string -> string -> Prop) its its' : (forall k k', same k k' -> same k' k) -> Forall2 (rekeyed same) its its' -> Forall2 (rekeyed same) its' its.
Proof.
  intros S M. apply Forall2_flip in M. revert M. apply Forall2_imp. intros x y [->|[k [k' [ksp [body [H1 [H2 H3]]]]]]]; [now left|right].
  exists k', k, ksp, body. auto.
Qed.
Section R.
Variables (R : reader V) (same : string -> string -> Prop).
Hypothesis SO : forall k k', same k k' -> owner_in R k = owner_in R k' /\
  (owner_in R k = None -> r_check R = true -> In k (r_allowed R) -> In k' (r_allowed R)).
Lemma owns_rekeyed i x y : rekeyed same x y -> owns R i x = owns R i y.
Proof.
  intros [->|[k [k' [ksp [body [H1 [H2 H3]]]]]]]; auto. unfold owns. rewrite H1, H2. now rewrite (proj1 (SO k k' H3)).
Qed.
Lemma gives_rekeyed i x y w : rekeyed same x y -> gives R x i w -> gives R y i w.
Proof.
  intros [->|[k [k' [ksp [body [H1 [H2 H3]]]]]]]; auto. intros [k0 [ksp0 [body0 [f [G1 [G2 G3]]]]]].
  rewrite H1 in G1. injection G1 as <- <- <-. exists k', ksp, body, f. split; auto. split; auto. now rewrite <- (proj1 (SO k k' H3)).
Qed.
Lemma rekey_parses tm target sp l l' its its' vs :
  (forall i f, nth_error (r_fields R) i = Some f -> pflat f = true ->
     forall w, fst (flat_call f (r_prefix R) sp (r_allowed R) (flat_in R l i)) = Ok w ->
               fst (flat_call f (r_prefix R) sp (r_allowed R) (flat_in R l' i)) = Ok w) ->
  Forall2 (rekeyed same) its its' ->
  parses_to R tm target sp l its vs -> parses_to R tm target sp l' its' vs.
Proof.
  intros FC M [A [B [L D]]].
  assert (OW : forall i, length (filter (owns R i) its) = length (filter (owns R i) its')).
  { intro i. clear A B D. induction M as [|x y its its' XY M IH]; auto. cbn [filter].
    rewrite (owns_rekeyed i x y XY). destruct (owns _ i y); cbn [length]; auto. }
  assert (EX : forall i, existsb (owns R i) its = existsb (owns R i) its').
  { intro i. clear A B D OW. induction M as [|x y its its' XY M IH]; auto. cbn [existsb].
    rewrite (owns_rekeyed i x y XY), IH. reflexivity. }
  split; [|split; [|split]]; auto.
  - apply Forall_forall. intros y I. destruct (Forall2_in_r _ _ _ _ M I) as [x [I' XY]]. rewrite Forall_forall in A.
    destruct (A x I') as [[i [w G]]|[k [ksp [body [H1 [H2 H3]]]]]].
    + left. exists i, w. eapply gives_rekeyed; eauto.
    + right. destruct XY as [->|[k1 [k' [ksp1 [body1 [X1 [X2 X3]]]]]]]; [eauto 6|]. rewrite H1 in X1. injection X1 as <- <- <-.
      destruct (SO k k' X3) as [S1 S2]. exists k', ksp, body. split; auto. split; [now rewrite <- S1|]. auto.
  - intro i. now rewrite <- OW.
  - intros i f x N NX. specialize (D i f x N NX).
    destruct D as [seg w I G T|w PF FL T|pn obj TM C2 T|w E PF C2 FD T|t E PF C2 FD SD NT|d w E C2 FD SD K DM T].
    + destruct (Forall2_in_l _ _ _ _ M I) as [y [I' XY]]. eapply G_item; eauto. eapply gives_rekeyed; eauto.
    + eapply G_flat; eauto.
    + eapply G_container; eauto.
    + eapply G_default; rewrite <- ?EX; eauto.
    + eapply G_target; rewrite <- ?EX; eauto.
    + eapply G_missing; rewrite <- ?EX; eauto.
Qed.
End R.

(** items that [names] do not address can have other keys *)
Lemma rekeyed_part (same : string -> string -> Prop) (prefix : string) names its its' :
  (forall k k', same k k' -> (forall n, In n names -> k <> (prefix ++ n)%string) /\ (forall n, In n names -> k' <> (prefix ++ n)%string)) ->
  Forall2 (rekeyed same) its its' -> part prefix names its = part prefix names its'.
Proof.
  intros H M. unfold part. induction M as [|x y its its' XY M IH]; auto. cbn [filter]. rewrite IH.
  destruct XY as [->|[k [k' [ksp [body [H1 [H2 H3]]]]]]]; auto. destruct (H k k' H3) as [N1 N2].
  assert (X : forall q, (forall n, In n names -> q <> (prefix ++ n)%string) -> existsb (fun n => String.eqb q (prefix ++ n)%string) names = false).
  { intros q NQ. apply not_true_iff_false. intro E. apply existsb_exists in E as [n [I E]]. apply String.eqb_eq in E. now apply (NQ n I). }
  assert (A1 : addressed prefix names x = false) by (unfold addressed; rewrite H1; auto).
  assert (A2 : addressed prefix names y = false) by (unfold addressed; rewrite H2; auto).
  now rewrite A1, A2.
Qed.
Lemma prefix_inj (p a b : string) : (p ++ a = p ++ b)%string -> a = b.
Proof. induction p; cbn; intro H; [auto|injection H; auto]. Qed.
Lemma names_pitem (f : field V) : pitem f = true -> names_of f = f_names f.
Proof.
  intro P. unfold names_of. rewrite (pitem_parsable f P). unfold field_key_names. unfold pitem, is_flat in P.
  destruct (f_kind f); auto; rewrite andb_false_r in P; discriminate.
Qed.
Lemma separate_distinct (s : sdef) : separate s -> distinct_names s.
Proof. intros S i j f g n N1 N2 P1 P2 I1 I2. apply (S i j f g n); auto; rewrite names_pitem; auto. Qed.

Lemma struct_rekey (s : sdef) tm prefix v sp inputs inputs' r r' ws (same : string -> string -> Prop) :
  parse_run s tm prefix v sp inputs r -> parse_run s tm prefix v sp inputs' r' ->
  named_struct s -> Forall local_field (s_raw s) ->
  (forall k k', same k k' -> owner_in (struct_reader s tm prefix v) k = owner_in (struct_reader s tm prefix v) k' /\
     (owner_in (struct_reader s tm prefix v) k = None -> v = true -> In k (s_names s) -> In k' (s_names s))) ->
  (forall f m m' w, In f (s_raw s) -> pflat f = true -> keyed m -> keyed m' ->
     Forall2 (rekeyed same) (items_of m) (items_of m') ->
     fst (flat_call f prefix sp (s_names s) m) = Ok w -> fst (flat_call f prefix sp (s_names s) m') = Ok w) ->
  Forall2 (rekeyed same) (items_of inputs) (items_of inputs') ->
  r = Ok ws -> r' = Ok ws.
Proof.
  intros R1 R2 NS LF SO FC M. destruct (LemRun.run_body _ _ _ _ _ _ _ R1) as [m1 ->]; [apply NS|]. destruct (LemRun.run_body _ _ _ _ _ _ _ R2) as [m2 ->]; [apply NS|].
  rewrite (struct_text s tm m1), (struct_text s tm m2) by auto. intros [vs [H C]]. exists vs. split; auto.
  pose proof (parses_keyed _ _ _ _ _ _ H) as K. pose proof (rekeyed_keyed _ _ _ M K) as K'.
  eapply (rekey_parses _ same); [| |exact M|exact H].
  - intros k k' S. destruct (SO k k' S) as [S1 S2]. split; auto. cbn [r_check struct_reader r_allowed]. intros O C0. apply andb_true_iff in C0 as [_ C0]. auto.
  - intros i f N PF w. pose proof (s_fields_parsable tm s i f N (pflat_parsable f PF)) as NR.
    apply (FC f); eauto using nth_error_In; unfold keyed; rewrite !flat_in_items; auto.
Qed.
Lemma l_alias (s : sdef) tm prefix v sp inputs inputs' r r' ws :
  parse_run s tm prefix v sp inputs r -> parse_run s tm prefix v sp inputs' r' ->
  named_struct s -> Forall local_field (s_raw s) -> is_prefix prefix -> Forall (routes prefix) (s_raw s) -> separate s ->
  Forall2 (rekeyed (aliases s prefix)) (items_of inputs) (items_of inputs') ->
  r = Ok ws <-> r' = Ok ws.
Proof.
  assert (X : forall tm prefix v sp inputs inputs' r r' ws,
    parse_run s tm prefix v sp inputs r -> parse_run s tm prefix v sp inputs' r' ->
    named_struct s -> Forall local_field (s_raw s) -> is_prefix prefix -> Forall (routes prefix) (s_raw s) -> separate s ->
    Forall2 (rekeyed (aliases s prefix)) (items_of inputs) (items_of inputs') -> r = Ok ws -> r' = Ok ws).
  { clear. intros tm prefix v sp inputs inputs' r r' ws R1 R2 NS LF IP RT SE M. eapply (struct_rekey s tm prefix v sp inputs inputs'); eauto.
    - intros k k' [f [I [P [N1 N2]]]]. apply In_nth_error in I as [i N].
      pose proof (named_owner s tm prefix v k i f (separate_distinct s SE) N P N1) as O1.
      pose proof (named_owner s tm prefix v k' i f (separate_distinct s SE) N P N2) as O2. split; congruence.
    - intros g m m' w I PF K K' MM. rewrite Forall_forall in RT. apply (flat_call_routes prefix sp (s_names s) g m m' w IP (RT g I) PF K K').
      eapply rekeyed_part; [|exact MM]. intros k k' [f [J [P [[n [N1 ->]] [n' [N2 ->]]]]]].
      apply In_nth_error in I as [i N]. apply In_nth_error in J as [j NJ].
      assert (Y : forall q, In q (f_names f) -> forall n0, In n0 (names_of g) -> (prefix ++ q)%string <> (prefix ++ n0)%string).
      { intros q Q n0 I0 E. apply prefix_inj in E. subst n0. assert (i = j) by (eapply SE; eauto; now rewrite names_pitem). subst j.
        assert (f = g) by congruence. subst g. unfold pitem in P. unfold pflat in PF. destruct (is_parsable f), (is_flat f); discriminate. }
      split; intros; apply Y; auto. }
  intros R1 R2 NS LF IP RT SE M. split; [now apply (X tm prefix v sp inputs inputs')|].
  apply (X tm prefix v sp inputs' inputs); auto. apply rekeyed_sym; auto. intros k k' [f [I [P [N1 N2]]]]. exists f. auto.
Qed.
Lemma l_alias_flattened (s : sdef) prefix : named_struct s -> Forall local_field (s_raw s) -> is_prefix prefix ->
  Forall (routes prefix) (s_raw s) -> separate s -> interchangeable prefix (struct_fn s) (aliases s prefix).
Proof.
  intros NS LF IP RT SE sp l l' w _ M.
  pose proof (R_flatten s (Named sp) prefix false l) as R1. pose proof (R_flatten s (Named sp) prefix false l') as R2.
  apply (l_alias s TMeta prefix false sp l l' _ _ w R1 R2 NS LF IP RT SE M).
Qed.

(** where the names of a flattened type are, seen from the struct *)
Lemma below_names prefix (f : field V) p u n : pflat f = true -> f_kind f = KFlatN p u -> routes prefix f -> In n (fn_names u) ->
  exists q, In q (names_of f) /\ (below prefix p ++ n = prefix ++ q)%string.
Proof.
  intros PF K RT I. specialize (RT PF). unfold names_of. rewrite (pflat_parsable f PF). unfold field_key_names. rewrite K in *. destruct p as [p|].
  - exists (join_path p n). split; [unfold join_paths; now apply in_map|]. rewrite join_path_like by apply RT. cbn [below]. now rewrite !app_str_assoc.
  - exists n. auto.
Qed.
Lemma l_alias_nested (s : sdef) tm prefix v sp inputs inputs' r r' ws f p u (same : string -> string -> Prop) :
  parse_run s tm prefix v sp inputs r -> parse_run s tm prefix v sp inputs' r' ->
  named_struct s -> Forall local_field (s_raw s) -> is_prefix prefix -> Forall (routes prefix) (s_raw s) -> separate s ->
  (v = true -> prefix = "") -> In f (s_raw s) -> pflat f = true -> f_kind f = KFlatN p u ->
  interchangeable (below prefix p) u same -> among (below prefix p) u same ->
  Forall2 (rekeyed same) (items_of inputs) (items_of inputs') ->
  r = Ok ws -> r' = Ok ws.
Proof.
  intros R1 R2 NS LF IP RT SE VP I PF K IC AM M.
  assert (RF : routes prefix f) by (rewrite Forall_forall in RT; auto).
  assert (BN : forall k k', same k k' -> exists q q', In q (names_of f) /\ In q' (names_of f) /\ k = (prefix ++ q)%string /\ k' = (prefix ++ q')%string).
  { intros k k' S. destruct (AM k k' S) as [n [n' [N1 [N2 [-> ->]]]]].
    destruct (below_names prefix f p u n PF K RF N1) as [q [Q ->]]. destruct (below_names prefix f p u n' PF K RF N2) as [q' [Q' ->]]. exists q, q'. auto. }
  apply In_nth_error in I as [i N].
  assert (OT : forall j g q, nth_error (s_raw s) j = Some g -> In q (names_of g) -> In q (names_of f) -> g = f).
  { intros j g q NG I1 I2. assert (j = i) by (eapply SE; eauto). congruence. }
  assert (NO : forall q, In q (names_of f) -> owner_in (struct_reader s tm prefix v) (prefix ++ q)%string = None).
  { intros q Q. destruct (owner_in (struct_reader s tm prefix v) (prefix ++ q)%string) as [[j g]|] eqn:O; auto. exfalso.
    apply owner_named in O as [NG [PG [m [I1 E]]]]. apply prefix_inj in E. subst m.
    assert (g = f) by (apply (OT j g q NG); auto; now rewrite names_pitem). subst g.
    unfold pitem in PG. unfold pflat in PF. destruct (is_parsable f), (is_flat f); discriminate. }
  eapply (struct_rekey s tm prefix v sp inputs inputs'); eauto.
  - intros k k' S. destruct (BN k k' S) as [q [q' [Q [Q' [-> ->]]]]]. rewrite !NO by auto. split; auto. intros _ V0 _. rewrite (VP V0). cbn.
    eapply names_of_in; eauto using nth_error_In.
  - intros g m m' w I PG Km Km' MM. destruct (In_nth_error _ _ I) as [j NG]. destruct (Nat.eq_dec j i) as [->|NE].
    + assert (g = f) by congruence. subst g. specialize (RF PF). unfold flat_call. rewrite K in RF |- *. destruct p as [p|].
      * rewrite join_prefix_like by (auto; apply RF). now apply IC.
      * destruct RF as [-> _]. now apply IC.
    + rewrite Forall_forall in RT. apply (flat_call_routes prefix sp (s_names s) g m m' w IP (RT g I) PG Km Km').
      eapply rekeyed_part; [|exact MM]. intros k k' S. destruct (BN k k' S) as [q [q' [Q [Q' [-> ->]]]]].
      split; intros n IN E; apply prefix_inj in E; subst n; apply NE; eapply SE; eauto.
Qed.
Lemma l_alias_deeper (s : sdef) prefix f p u (same : string -> string -> Prop) :
  named_struct s -> Forall local_field (s_raw s) -> is_prefix prefix -> Forall (routes prefix) (s_raw s) -> separate s ->
  In f (s_raw s) -> pflat f = true -> f_kind f = KFlatN p u ->
  interchangeable (below prefix p) u same -> among (below prefix p) u same ->
  interchangeable prefix (struct_fn s) same.
Proof.
  intros NS LF IP RT SE I PF K IC AM sp l l' w _ M.
  pose proof (R_flatten s (Named sp) prefix false l) as R1. pose proof (R_flatten s (Named sp) prefix false l') as R2.
  apply (l_alias_nested s TMeta prefix false sp l l' _ _ w f p u same R1 R2); auto. discriminate.
Qed.
Lemma l_alias_among (s : sdef) prefix : among prefix (struct_fn s) (aliases s prefix).
Proof.
  intros k k' [f [I [P [[n [N ->]] [n' [N' ->]]]]]]. exists n, n'. cbn [struct_fn fn_names].
  split; [|split; auto]; apply (names_of_in s f); auto; now rewrite names_pitem.
Qed.
(** *** Enums *)
Section E.
Variables (e : edef) (prefix : string).
Lemma rekeyed_one x y : rekeyed (variant_aliases e prefix) x y -> addressed prefix (variant_names e) x = addressed prefix (variant_names e) y /\
  (addressed prefix (variant_names e) x = false -> x = y).
Proof.
  intros [->|[k [k' [ksp [body [H1 [H2 H3]]]]]]]; [auto|].
  assert (A : forall z q, item_key z = Some (q, ksp, body) -> (exists i v, variant_at e prefix q i v) -> addressed prefix (variant_names e) z = true).
  { intros z q E [i [v [N [[O1 O2] [n [I ->]]]]]]. unfold addressed. rewrite E. apply existsb_exists. exists n. split; [|apply String.eqb_refl].
    unfold variant_names. apply in_flat_map. exists v. split; [eapply nth_error_In; eauto|]. now rewrite O1, O2. }
  destruct H3 as [i [v [V1 V2]]]. rewrite (A x k H1), (A y k' H2) by eauto. split; auto. discriminate.
Qed.
Lemma rekeyed_items its its' : Forall2 (rekeyed (variant_aliases e prefix)) its its' ->
  (forall seg, variant_items e prefix its = [seg] -> exists seg', variant_items e prefix its' = [seg'] /\ rekeyed (variant_aliases e prefix) seg seg' /\
     forall y, In y its' -> y = seg' \/ (In y its /\ addressed prefix (variant_names e) y = false)) /\
  (variant_items e prefix its = [] -> its' = its).
Proof.
  unfold variant_items, part. induction 1 as [|x y its its' XY M [IH1 IH2]]; [split; [discriminate|auto]|]. cbn [filter].
  destruct (rekeyed_one x y XY) as [A1 A2]. destruct (addressed prefix (variant_names e) x) eqn:AX; rewrite <- A1.
  - split; [|discriminate]. intros seg E. injection E as <- E. rewrite (IH2 E). exists y. rewrite E. split; auto. split; auto.
    intros z [<-|I]; auto. right. split; [now right|]. apply not_true_iff_false. intro T.
    assert (Q : In z (filter (addressed prefix (variant_names e)) its)) by now apply filter_In. rewrite E in Q. destruct Q.
  - rewrite <- (A2 eq_refl) in *. split.
    + intros seg E. destruct (IH1 seg E) as [seg' [E' [R' H]]]. exists seg'. split; auto. split; auto.
      intros z [<-|I]; [right; split; [now left|auto]|]. destruct (H z I) as [->|[J N]]; [auto|right; split; [now right|auto]].
    + intro E. now rewrite (IH2 E).
Qed.
Lemma value_rekeyed (tm : tmode V) (v : vdef) k k' ksp body vs : any_name v ->
  variant_value v tm prefix k ksp body vs -> variant_value v tm prefix k' ksp body vs.
Proof.
  intros AN [T A|j f d x T N P K A R]; [now apply VV_fields|]. eapply VV_transparent; eauto.
  assert (X : exists f0, In f0 (v_raw v) /\ f_kind f0 = KItem d).
  { unfold v_fields in N. rewrite nth_error_map in N. destruct (nth_error (v_raw v) j) as [g|] eqn:NG; [|discriminate]. cbn in N. injection N as <-.
    exists g. split; [eapply nth_error_In; eauto|]. rewrite <- K. unfold skip_default. destruct (f_default g); auto. destruct (f_skip g); auto. }
  destruct X as [f0 [I0 K0]]. exact (AN T f0 d I0 K0 k k' ksp body x A).
Qed.
End E.
Lemma enum_alias (e : edef) tm prefix validate sp inputs inputs' r r' x :
  enum_run e tm prefix validate sp inputs r -> enum_run e tm prefix validate sp inputs' r' ->
  proper_enum tm e -> flat_local e ->
  (forall v, In v (e_variants e) -> v_flatten v = true -> Forall textual_field (v_raw v)) ->
  (validate = true -> prefix = "") -> (forall v, In v (e_variants e) -> any_name v) ->
  Forall2 (rekeyed (variant_aliases e prefix)) (items_of inputs) (items_of inputs') ->
  r = Ok x -> r' = Ok x.
Proof.
  intros R1 R2 PE FL TF VP AN M H.
  pose proof (LemEnum5.run_body _ _ _ _ _ _ _ R1) as B1. pose proof (LemEnum5.run_body _ _ _ _ _ _ _ R2) as B2.
  pose proof H as H0. rewrite B1 in H0. destruct (rekeyed_items e prefix _ _ M) as [M1 M2].
  apply (enum_text tm e prefix PE) in H0 as [K [y [CH [[seg [i [vs [n [V1 [V2 [V3 [[ksp [body V4]] V5]]]]]]]]|[V1 _]]]]].
  - rewrite B2. apply (enum_text tm e prefix PE). split; [eapply rekeyed_keyed; eauto|]. exists y. split; auto. left.
    destruct (M1 seg V1) as [seg' [E' [RK OT]]].
    assert (SK : exists n', variant_written e tm prefix seg' i vs /\ item_key seg' = Some ((prefix ++ n')%string, ksp, body) /\ In n' (variant_names e)).
    { destruct V2 as [k0 [ksp0 [body0 [v [K0 [VA VV]]]]]]. rewrite V4 in K0. injection K0 as <- <- <-.
      assert (VN : forall q j w, variant_at e prefix q j w -> exists m, q = (prefix ++ m)%string /\ In m (variant_names e)).
      { intros q j w [N [[O1 O2] [m [I ->]]]]. exists m. split; auto. unfold variant_names. apply in_flat_map. exists w.
        split; [eapply nth_error_In; eauto|]. now rewrite O1, O2. }
      destruct RK as [<-|[k [k' [ksp1 [body1 [H1 [H2 [j [w [W1 W2]]]]]]]]]].
      - destruct (VN _ _ _ VA) as [m [E I]]. exists m. split; [exists (prefix ++ n)%string, ksp, body, v; auto|]. split; auto. now rewrite <- E.
      - rewrite V4 in H1. injection H1 as <- <- <-. destruct (VN _ _ _ W2) as [m [-> I]]. exists m. split; [|auto].
        assert (i = j /\ v = w) as [<- <-].
        { destruct VA as [N1 [O1 [a [I1 E1]]]]. destruct W1 as [N2 [O2 [b [I2 E2]]]]. rewrite E1 in E2. apply prefix_inj in E2. subst b.
          assert (i = j) by (destruct PE as [_ [_ [DV _]]]; eapply DV; eauto). subst j. split; congruence. }
        exists (prefix ++ m)%string, ksp, body, v. split; auto. split; auto.
        eapply (value_rekeyed prefix tm v); eauto. apply AN. eapply nth_error_In. apply VA. }
    destruct SK as [n' [W [K' IN']]]. exists seg', i, vs, n'. split; auto. split; auto. split; auto. split; [eauto|].
    intro U. destruct (V5 U) as [V6 V7].
    assert (KI : forall k ksp0, In (k, ksp0) (keys_in inputs') -> k = (prefix ++ n')%string \/
                   (In (k, ksp0) (keys_in inputs) /\ forall m, In m (variant_names e) -> k <> (prefix ++ m)%string)).
    { intros k ksp0 I. apply in_keys_items in I as [z [bz [I KZ]]]. destruct (OT z I) as [->|[J NA]]; [left; congruence|right].
      split; [apply in_keys_items; eauto|]. intros m IM ->. assert (T : addressed prefix (variant_names e) z = true); [|congruence].
      unfold addressed. rewrite KZ. apply existsb_exists. exists m. split; auto. apply String.eqb_refl. }
    split.
    + intros VA k ksp0 I. destruct (KI k ksp0 I) as [->|[J _]]; [|exact (V6 VA k ksp0 J)]. rewrite (VP VA). cbn.
      unfold variant_names in IN'. apply in_flat_map in IN' as [w [IW IN']]. unfold e_names. apply in_flat_map. exists w. split; auto.
      destruct (v_flatten w), (v_skip w); cbn in *; auto; try contradiction. apply in_app_iff. auto.
    + intros VA AF p ns m I1 I2 NE k ksp0 I. destruct (KI k ksp0 I) as [->|[J NV]]; [intro E; apply prefix_inj in E; congruence|].
      destruct (string_dec (join_path p m) n) as [E|E]; [|exact (V7 VA AF p ns m I1 I2 E k ksp0 J)]. rewrite E. apply NV.
      destruct V2 as [k0 [ksp1 [body0 [v [K0 [[N [[O1 O2] [a [IA EA]]]] VV]]]]]]. rewrite V4 in K0. injection K0 as K0 _ _. rewrite EA in K0. apply prefix_inj in K0. subst a.
      unfold variant_names. apply in_flat_map. exists v. split; [eapply nth_error_In; eauto|]. now rewrite O1, O2.
  - apply (l_enum_split e tm prefix validate sp inputs inputs' r r' x R1 R2 PE FL TF); auto. now rewrite (M2 V1).
Qed.
Lemma l_enum_alias (e : edef) tm prefix validate sp inputs inputs' r r' x :
  enum_run e tm prefix validate sp inputs r -> enum_run e tm prefix validate sp inputs' r' ->
  proper_enum tm e -> flat_local e ->
  (forall v, In v (e_variants e) -> v_flatten v = true -> Forall textual_field (v_raw v)) ->
  (validate = true -> prefix = "") -> (forall v, In v (e_variants e) -> any_name v) ->
  Forall2 (rekeyed (variant_aliases e prefix)) (items_of inputs) (items_of inputs') ->
  r = Ok x <-> r' = Ok x.
Proof.
  intros R1 R2 PE FL TF VP AN M. split; [now apply (enum_alias e tm prefix validate sp inputs inputs')|].
  apply (enum_alias e tm prefix validate sp inputs' inputs); auto. apply rekeyed_sym; auto. intros k k' [i [v [V1 V2]]]. exists i, v. auto.
Qed.
Lemma l_alias_map {B C} (g : B -> C) (u : flat_named B) prefix (same : string -> string -> Prop) :
  interchangeable prefix u same -> interchangeable prefix (fn_map g u) same.
Proof.
  intros H sp l l' w K M. rewrite !fn_map_ok. intros [x [H1 H2]]. exists x. split; auto. exact (H sp l l' x K M H1).
Qed.
(** *** append *)
Lemma l_alias_append (s : sdef) tm prefix v sp inputs inputs' r r' ws f a :
  parse_run s tm prefix v sp inputs r -> parse_run s tm prefix v sp inputs' r' ->
  named_struct s -> Forall local_field (s_raw s) -> is_prefix prefix -> Forall (routes prefix) (s_raw s) -> separate s ->
  (v = true -> prefix = "") -> In f (s_raw s) -> pflat f = true -> f_kind f = KAppend a -> append_any_name a ->
  Forall2 (rekeyed (fun k k' => named_by prefix f k /\ named_by prefix f k')) (items_of inputs) (items_of inputs') ->
  r = Ok ws <-> r' = Ok ws.
Proof.
  assert (X : forall inputs inputs' r r',
    parse_run s tm prefix v sp inputs r -> parse_run s tm prefix v sp inputs' r' ->
    named_struct s -> Forall local_field (s_raw s) -> is_prefix prefix -> Forall (routes prefix) (s_raw s) -> separate s ->
    (v = true -> prefix = "") -> In f (s_raw s) -> pflat f = true -> f_kind f = KAppend a -> append_any_name a ->
    Forall2 (rekeyed (fun k k' => named_by prefix f k /\ named_by prefix f k')) (items_of inputs) (items_of inputs') ->
    r = Ok ws -> r' = Ok ws).
  { clear inputs inputs' r r'. intros inputs inputs' r r' R1 R2 NS LF IP RT SE VP I PF K AA M.
    assert (NF : names_of f = f_names f) by (unfold names_of, field_key_names; rewrite (pflat_parsable f PF), K; auto).
    apply In_nth_error in I as [i N].
    assert (NO : forall q, In q (f_names f) -> owner_in (struct_reader s tm prefix v) (prefix ++ q)%string = None).
    { intros q Q. destruct (owner_in (struct_reader s tm prefix v) (prefix ++ q)%string) as [[j g]|] eqn:O; auto. exfalso.
      apply owner_named in O as [NG [PG [m [I1 E]]]]. apply prefix_inj in E. subst m.
      assert (j = i) by (eapply (SE j i g f q); eauto; [now rewrite names_pitem|now rewrite NF]). subst j. assert (g = f) by congruence. subst g.
      unfold pitem in PG. unfold pflat in PF. destruct (is_parsable f), (is_flat f); discriminate. }
    eapply (struct_rekey s tm prefix v sp inputs inputs'); eauto.
    - intros k k' [[q [Q ->]] [q' [Q' ->]]]. rewrite !NO by auto. split; auto. intros _ V0 _. rewrite (VP V0). cbn.
      eapply names_of_in; [eapply nth_error_In; eauto|]. now rewrite NF.
    - intros g m m' w I PG Km Km' MM. destruct (In_nth_error _ _ I) as [j NG]. destruct (Nat.eq_dec j i) as [->|NE].
      + assert (g = f) by congruence. subst g. unfold flat_call. rewrite K. apply AA; auto. revert MM. apply Forall2_imp. intros x y [->|[k [k' [ksp [body [H1 [H2 [N1 N2]]]]]]]]; [now left|right].
        exists k, k', ksp, body. split; auto. split; auto. rewrite map_join by auto. destruct N1 as [q [Q ->]]. destruct N2 as [q' [Q' ->]]. split; now apply in_map.
      + rewrite Forall_forall in RT. apply (flat_call_routes prefix sp (s_names s) g m m' w IP (RT g I) PG Km Km').
        eapply rekeyed_part; [|exact MM]. intros k k' [[q [Q ->]] [q' [Q' ->]]].
        split; intros n IN E; apply prefix_inj in E; subst n; apply NE; eapply SE; eauto; now rewrite NF. }
  intros R1 R2 NS LF IP RT SE VP I PF K AA M. split; [now apply (X inputs inputs')|].
  apply (X inputs' inputs); auto. apply rekeyed_sym; auto. tauto.
Qed.
Lemma appended_rekeyed {B} (d : dict B) names its its' vs : nameless_value d ->
  Forall2 (rekeyed (fun k k' => In k names /\ In k' names)) its its' -> appended d names its vs -> appended d names its' vs.
Proof.
  intros ND M. revert vs. induction M as [|x y its its' XY M IH]; intros vs H; auto.
  inversion H as [|? k ksp body w ? ws K I A H'|? k ksp body ? ? K I H']; subst.
  - destruct XY as [<-|[k1 [k' [ksp1 [body1 [H1 [H2 [N1 N2]]]]]]]]; [eapply Ap_mine; eauto|]. rewrite K in H1. injection H1 as <- <- <-.
    eapply Ap_mine; eauto.
  - destruct XY as [<-|[k1 [k' [ksp1 [body1 [H1 [H2 [N1 N2]]]]]]]]; [eapply Ap_other; eauto|]. rewrite K in H1. injection H1 as <- <- <-. contradiction.
Qed.
Lemma l_alias_vec {B C} (d : dict B) (g : list B -> C) : fine d -> nameless_value d -> append_any_name (fun ps => pmap g (vec_append d ps)).
Proof.
  intros FD ND names l l' v K M. rewrite !pmap_ok. intros [vs [H1 H2]]. exists vs. split; auto. rewrite vec_append_ok in * by auto.
  eapply appended_rekeyed; eauto.
Qed.
Lemma l_alias_set {B C} eqb (d : dict B) (g : list B -> C) : fine d -> nameless_value d -> append_any_name (fun ps => pmap g (set_append eqb d ps)).
Proof.
  intros FD ND names l l' v K M. rewrite !pmap_ok. intros [vs [H1 H2]]. exists vs. split; auto. rewrite set_append_ok in * by auto.
  destruct H1 as [H1 H3]. split; auto. eapply appended_rekeyed; eauto.
Qed.
End A.
