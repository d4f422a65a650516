(** Proofs for PropsPerm.v: the order of the items *)
From Verif Require Import LemEnum3 LemEnum4 LemRun LemStructP LemFlat LemFlat2.
From Verif Require Export LemOwn SpecPerm.

Section P.
Context {env : Env} {V : Type}.
Notation vdef := (vdef V).
Notation edef := (edef V).
Notation sdef := (sdef V).

Lemma perm_filter {A} (p : A -> bool) l l' : Permutation l l' -> Permutation (filter p l) (filter p l').
Proof.
  induction 1 as [|x l l' P IH|x y l|l m n P1 IH1 P2 IH2]; cbn [filter]; auto.
  - destruct (p x); auto.
  - destruct (p x), (p y); auto. apply perm_swap.
  - etransitivity; eauto.
Qed.
Lemma perm_keyed l l' : Permutation (items_of l) (items_of l') -> keyed l -> keyed l'.
Proof.
  unfold keyed. intros P K. rewrite Forall_forall in *. intros x I. apply K. eapply Permutation_in; [|exact I]. now symmetry.
Qed.
Lemma perm_keys l l' k ksp : Permutation (items_of l) (items_of l') -> In (k, ksp) (keys_in l) -> In (k, ksp) (keys_in l').
Proof.
  intro P. rewrite !in_keys_items. intros [seg [body [I K]]]. exists seg, body. split; auto. eapply Permutation_in; eauto.
Qed.
Lemma order_sym prefix l l' (f : field V) : in_order prefix l l' f -> in_order prefix l' l f.
Proof. intros H P. specialize (H P). destruct (f_kind f); auto. destruct H as [? [? ?]]. split; auto. Qed.
Lemma unordered_in_order prefix l l' (f : field V) : unordered_field f -> in_order prefix l l' f.
Proof. intros H P. specialize (H P). destruct (f_kind f); auto. destruct H. Qed.
Lemma in_order_call prefix sp allowed (f : field V) l l' w : pflat f = true -> in_order prefix l l' f ->
  keyed l -> keyed l' -> Permutation (items_of l) (items_of l') ->
  forall m m', items_of m = items_of l -> items_of m' = items_of l' ->
  fst (flat_call f prefix sp allowed m) = Ok w -> fst (flat_call f prefix sp allowed m') = Ok w.
Proof.
  intros P O K K' PE m m' E E'. specialize (O P). unfold flat_call. destruct (f_kind f) as [d|p u|u|a|r]; try contradiction.
  - refine (proj1 (O sp _ m m' w _)). now rewrite E, E'.
  - destruct O as [IP [A PT]]. refine (proj1 (A _ m m' w _ _ _)).
    + unfold keyed. rewrite E. exact K.
    + unfold keyed. rewrite E'. exact K'.
    + rewrite E, E'. revert PT. apply part_sub. intros n I. unfold join_paths in I. apply in_map_iff in I as [q [<- I]].
      exists q. split; auto. now rewrite LemFlat.join_path_prefix.
Qed.
Lemma parses_keyed (R : reader V) tm target sp l vs : parses_to R tm target sp l (items_of l) vs -> keyed l.
Proof.
  intros [A _]. unfold keyed. eapply Forall_impl; [|exact A]. intros seg [[i [w [k [ksp [body [f [H _]]]]]]]|[k [ksp [body [H _]]]]]; eauto.
Qed.
Lemma fields_perm (R : reader V) raw tm target sp l l' vs :
  (forall i f, nth_error (r_fields R) i = Some f -> pflat f = true -> nth_error raw i = Some f) ->
  Forall (in_order (r_prefix R) l l') raw -> Permutation (items_of l) (items_of l') ->
  parses_to R tm target sp l (items_of l) vs -> parses_to R tm target sp l' (items_of l') vs.
Proof.
  intros RW O P H. pose proof (parses_keyed R tm target sp l vs H) as K. eapply parses_to_perm; [|exact P|exact H].
  intros i f N PF w. rewrite Forall_forall in O.
  eapply (in_order_call (r_prefix R) sp (r_allowed R) f l l' w PF); auto using flat_in_items.
  - eapply O, nth_error_In, RW; eauto.
  - eapply perm_keyed; eauto.
Qed.
Lemma l_struct_perm (s : sdef) tm prefix v sp inputs inputs' r r' ws :
  parse_run s tm prefix v sp inputs r -> parse_run s tm prefix v sp inputs' r' ->
  named_struct s -> Forall local_field (s_raw s) ->
  Forall (in_order prefix inputs inputs') (s_raw s) ->
  Permutation (items_of inputs) (items_of inputs') ->
  r = Ok ws <-> r' = Ok ws.
Proof.
  intros R1 R2 NS LF O P. destruct (run_body _ _ _ _ _ _ _ R1) as [m1 ->]; [apply NS|]. destruct (run_body _ _ _ _ _ _ _ R2) as [m2 ->]; [apply NS|].
  rewrite (struct_text s tm m1), (struct_text s tm m2) by auto.
  assert (RW : forall i f, nth_error (r_fields (struct_reader s tm prefix v)) i = Some f -> pflat f = true -> nth_error (s_raw s) i = Some f).
  { intros i f N PF. exact (s_fields_parsable tm s i f N (pflat_parsable f PF)). }
  split; intros [vs [H C]]; exists vs; (split; [|auto]).
  - exact (fields_perm _ (s_raw s) tm _ sp inputs inputs' vs RW O P H).
  - refine (fields_perm _ (s_raw s) tm _ sp inputs' inputs vs RW _ (Permutation_sym P) H). cbn [struct_reader r_prefix].
    rewrite Forall_forall in *. intros f I. apply order_sym. auto.
Qed.
Lemma l_struct_unordered (s : sdef) : named_struct s -> Forall local_field (s_raw s) -> Forall unordered_field (s_raw s) ->
  unordered (struct_fn s).
Proof.
  intros NS LF U sp prefix l l' v P.
  pose proof (R_flatten s (Named sp) prefix false l) as R1. pose proof (R_flatten s (Named sp) prefix false l') as R2.
  eapply (l_struct_perm s TMeta prefix false sp l l' _ _ v R1 R2); auto.
  rewrite Forall_forall in *. intros f I. apply unordered_in_order. auto.
Qed.
Lemma perm_present (v : vdef) prefix l l' : Permutation (items_of l) (items_of l') -> all_present v prefix l -> all_present v prefix l'.
Proof.
  intros P A f I R. destruct (A f I R) as [k [ksp [J N]]]. exists k, ksp. split; auto. eapply perm_keys; eauto.
Qed.
Lemma perm_chosen (e : edef) prefix l l' i v : Permutation (items_of l) (items_of l') -> chosen e prefix l i v -> chosen e prefix l' i v.
Proof.
  intros P [F [A C]]. split; auto. split; [eapply perm_present; eauto|]. destruct C as [C|C]; [now left|right].
  intros j w FW N A'. apply (C j w FW N). eapply perm_present; [symmetry; exact P|exact A'].
Qed.
Lemma perm_first (e : edef) prefix l l' i v : Permutation (items_of l) (items_of l') -> first_chosen e prefix l i v -> first_chosen e prefix l' i v.
Proof.
  intros P [C H]. split; [eapply perm_chosen; eauto|]. intros j w CW. apply H. eapply perm_chosen; [symmetry; exact P|exact CW].
Qed.
Lemma variant_raw (v : vdef) i f : nth_error (v_fields v) i = Some f -> pflat f = true -> nth_error (v_raw v) i = Some f.
Proof.
  unfold v_fields. rewrite nth_error_map. destruct (nth_error (v_raw v) i) as [g|]; [|discriminate]. cbn. intros E P. injection E as <-. f_equal.
  pose proof (pflat_parsable _ P) as Q. unfold is_parsable, skip_default in *. destruct (f_default g); auto. destruct (f_skip g) eqn:S; auto.
  exfalso. cbn [f_skip f_container f_kind] in Q. apply andb_true_iff in Q as [_ Q]. rewrite ?S in Q. discriminate Q.
Qed.
Definition agree (prefix : string) (sp : span) (allowed : list string) (l l' : list stream) (f : field V) : Prop :=
  pflat f = true -> forall m m' w, items_of m = items_of l -> items_of m' = items_of l' ->
    fst (flat_call f prefix sp allowed m) = Ok w -> fst (flat_call f prefix sp allowed m') = Ok w.
Lemma perm_written (e : edef) tm prefix sp l l' i (v : vdef) vs :
  Forall (agree prefix sp (flat_names_of v) l l') (v_raw v) -> Permutation (items_of l) (items_of l') ->
  flat_written e tm prefix sp l i v vs -> flat_written e tm prefix sp l' i v vs.
Proof.
  intros O P [c [CS [H [A B]]]]. exists c. split; auto. split; [|split].
  - eapply parses_to_perm; [|exact P|exact H]. intros j f N PF w. cbn [variant_reader r_prefix r_allowed]. rewrite Forall_forall in O.
    apply (O f (nth_error_In _ _ (variant_raw v j f N PF)) PF); apply flat_in_items.
  - intros N T k ksp I. apply (A N T k ksp). eapply perm_keys; [symmetry; exact P|exact I].
  - intros T U1 U2 k ksp I. apply (B T U1 U2 k ksp). eapply perm_keys; [symmetry; exact P|exact I].
Qed.
Lemma enum_perm (e : edef) tm prefix validate sp l l' r r' x :
  enum_run e tm prefix validate sp l r -> enum_run e tm prefix validate sp l' r' ->
  proper_enum tm e -> flat_local e ->
  (forall v, In v (e_variants e) -> v_flatten v = true -> keyed l -> Forall (agree prefix sp (flat_names_of v) l l') (v_raw v)) ->
  Permutation (items_of l) (items_of l') -> r = Ok x -> r' = Ok x.
Proof.
  intros R1 R2 PE FL O P H.
  assert (VI : forall m m', Permutation (items_of m) (items_of m') -> forall q, length q <= 1 -> variant_items e prefix (items_of m) = q -> variant_items e prefix (items_of m') = q).
  { intros m m' PM q L E. assert (Q : Permutation q (variant_items e prefix (items_of m'))) by (rewrite <- E; now apply perm_filter).
    destruct q as [|a [|b q]]; [now apply Permutation_nil|now apply Permutation_length_1_inv|cbn in L; lia]. }
  pose proof (LemEnum5.run_body _ _ _ _ _ _ _ R1) as B1. pose proof (LemEnum5.run_body _ _ _ _ _ _ _ R2) as B2.
  pose proof H as H0. rewrite B1 in H0. apply (enum_text tm e prefix PE) in H0 as [K [y [CH [[seg [i [vs [n [V1 [V2 [V3 [V4 V5]]]]]]]]|[V1 _]]]]].
  - rewrite B2. apply (enum_text tm e prefix PE). split; [eapply perm_keyed; eauto|]. exists y. split; auto. left. exists seg, i, vs, n.
    split; [eapply VI; eauto|]. split; auto. split; auto. split; auto.
    intro U. destruct (V5 U) as [V6 V7]. split.
    + intros VA k ksp I. apply (V6 VA k ksp). eapply perm_keys; [symmetry; exact P|exact I].
    + intros VA AF p ns m I1 I2 NE k ksp I. apply (V7 VA AF p ns m I1 I2 NE k ksp). eapply perm_keys; [symmetry; exact P|exact I].
  - apply (l_flat_exact e tm prefix validate sp l r x R1 PE FL V1) in H as [_ [z [CZ C]]].
    apply (l_flat_exact e tm prefix validate sp l' r' x R2 PE FL (VI l l' P [] (Nat.le_0_l 1) V1)).
    split; [eapply perm_keyed; eauto|]. exists z. split; auto. destruct C as [[i [v [ws [C1 [C2 C3]]]]]|[C1 C2]].
    + left. exists i, v, ws. split; [eapply perm_first; eauto|]. split; auto.
      destruct (flattened_in _ _ _ (proj1 (proj1 C1))) as [IV FFV]. exact (perm_written e tm prefix sp l l' i v ws (O v IV FFV K) P C3).
    + right. split; auto. intros i v C. apply (C1 i v). eapply perm_chosen; [symmetry; exact P|exact C].
Qed.
Lemma l_enum_perm (e : edef) tm prefix validate sp inputs inputs' r r' x :
  enum_run e tm prefix validate sp inputs r -> enum_run e tm prefix validate sp inputs' r' ->
  proper_enum tm e -> flat_local e ->
  (forall v, In v (e_variants e) -> v_flatten v = true -> Forall (in_order prefix inputs inputs') (v_raw v)) ->
  Permutation (items_of inputs) (items_of inputs') ->
  r = Ok x <-> r' = Ok x.
Proof.
  intros R1 R2 PE FL O P. split.
  - apply (enum_perm e tm prefix validate sp inputs inputs' r r' x R1 R2 PE FL); auto. intros v I F K. specialize (O v I F).
    rewrite Forall_forall in *. intros f J PF m m' w E E'. exact (in_order_call prefix sp _ f inputs inputs' w PF (O f J) K (perm_keyed _ _ P K) P m m' E E').
  - apply (enum_perm e tm prefix validate sp inputs' inputs r' r x R2 R1 PE FL); [|now symmetry]. intros v I F K. specialize (O v I F).
    rewrite Forall_forall in *. intros f J PF m m' w E E'.
    exact (in_order_call prefix sp _ f inputs' inputs w PF (order_sym _ _ _ _ (O f J)) K (perm_keyed _ _ (Permutation_sym P) K) (Permutation_sym P) m m' E E').
Qed.
Lemma l_enum_split (e : edef) tm prefix validate sp inputs inputs' r r' x :
  enum_run e tm prefix validate sp inputs r -> enum_run e tm prefix validate sp inputs' r' ->
  proper_enum tm e -> flat_local e ->
  (forall v, In v (e_variants e) -> v_flatten v = true -> Forall textual_field (v_raw v)) ->
  items_of inputs = items_of inputs' ->
  r = Ok x <-> r' = Ok x.
Proof.
  intros R1 R2 PE FL O P.
  assert (A : forall l l', items_of l = items_of l' -> forall v, In v (e_variants e) -> v_flatten v = true -> keyed l ->
    Forall (agree prefix sp (flat_names_of v) l l') (v_raw v)).
  { intros l l' EI v I F K. specialize (O v I F). rewrite Forall_forall in *. intros f J PF m m' w E E'.
    assert (EM : items_of m = items_of m') by congruence. apply (O f J PF prefix sp (flat_names_of v) m m' EM w). }
  split.
  - apply (enum_perm e tm prefix validate sp inputs inputs' r r' x R1 R2 PE FL); [apply A; auto|now rewrite P].
  - apply (enum_perm e tm prefix validate sp inputs' inputs r' r x R2 R1 PE FL); [apply A; auto|now rewrite P].
Qed.
Lemma l_enum_textual (e : edef) sp prefix : proper_enum TMeta e -> flat_local e ->
  (forall v, In v (e_variants e) -> v_flatten v = true -> Forall textual_field (v_raw v)) ->
  textual (fn_parse (enum_fn e) (Named sp) prefix false).
Proof.
  intros PE FL U l l' P x.
  pose proof (E_flatten e (Named sp) prefix false l) as R1. pose proof (E_flatten e (Named sp) prefix false l') as R2.
  exact (l_enum_split e TMeta prefix false sp l l' _ _ x R1 R2 PE FL U P).
Qed.
Lemma l_enum_unordered (e : edef) : proper_enum TMeta e -> flat_local e ->
  (forall v, In v (e_variants e) -> v_flatten v = true -> Forall unordered_field (v_raw v)) -> unordered (enum_fn e).
Proof.
  intros PE FL U sp prefix l l' x P.
  pose proof (E_flatten e (Named sp) prefix false l) as R1. pose proof (E_flatten e (Named sp) prefix false l') as R2.
  eapply (l_enum_perm e TMeta prefix false sp l l' _ _ x R1 R2); auto.
  intros v I F. specialize (U v I F). rewrite Forall_forall in *. intros f J. apply unordered_in_order. auto.
Qed.
Lemma l_unordered_map {A B} (g : A -> B) (u : flat_named A) : unordered u -> unordered (fn_map g u).
Proof.
  intros H sp P l l' w PE. rewrite !fn_map_ok. split; intros [x [H1 H2]]; exists x; (split; auto); apply (H sp P l l' x PE); auto.
Qed.
End P.
