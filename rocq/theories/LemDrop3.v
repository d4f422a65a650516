(** Arrays and tuples on any input. *)
From Verif Require Export LemDrop2.
From Verif Require Import LemTuple2.
Local Open Scope string_scope.
Local Open Scope list_scope.

Section S.
Context {env : Env}.
Section Loop.
Context {St : Type} (step : nat -> St -> stream -> res St * stream) (len : nat)
  (func : nat -> St -> list stream -> res unit * St * list stream).
Hypothesis FO : forall c st s rest st1 s1, c < len -> step c st s = (Ok st1, s1) -> func c st (s :: rest) = (Ok tt, st1, s1 :: rest).
Hypothesis US : forall c, ustep (step c).
Hypothesis SS : forall c st, stays (step c st).
Hypothesis KS : forall c st s, scope (snd (step c st s)) = scope s.
Lemma loop_done l : forall fuel st, length l < fuel -> tuple_loop len func fuel len st l = (Ok len, st, l).
Proof.
  induction l as [|s l IH]; intros fuel st L; (destruct fuel as [|n]; [cbn in L; lia|]); cbn [tuple_loop]; [reflexivity|].
  destruct (is_empty s); [|now rewrite Nat.leb_refl]. rewrite IH; [reflexivity|]. cbn in L. lia.
Qed.
(** one element *)
Lemma loop_one fuel c st s more x xs st1 : c < len -> elems1 (scope s) (toks s) = x :: xs ->
  fst (step c st (at_elem x)) = Ok st1 -> S (length more) < fuel ->
  (S c = len -> exists s1, toks s1 = toks (snd (step c st (at_elem x))) /\
    tuple_loop len func (S fuel) c st (s :: more) = (Ok len, st1, s1 :: more)) /\
  (S c < len -> toks (snd (step c st (at_elem x))) = el_after x ->
    exists s1, scope s1 = scope s /\ elems1 (scope s1) (toks s1) = xs /\
      tuple_loop len func (S fuel) c st (s :: more) = tuple_loop len func fuel (S c) st1 (s1 :: more)) /\
  (S c < len -> forall t rest, toks (snd (step c st (at_elem x))) = t :: rest ++ el_after x ->
    exists s1, toks s1 = t :: rest ++ el_after x /\
      tuple_loop len func (S fuel) c st (s :: more) = (Err (comma_expected t), st1, s1 :: more)).
Proof.
  intros LC EQ ST FU. cbn [tuple_loop]. destruct (is_empty s) eqn:Z.
  { unfold is_empty in Z. destruct (toks s) eqn:T; [|discriminate]. discriminate EQ. }
  assert (TS : toks s <> []) by (unfold is_empty in Z; destruct (toks s); discriminate).
  destruct (cut_item (toks s)) as [seg [tl [T [N E]]]]. rewrite T in TS.
  rewrite T, (elems1_cut _ _ _ N E TS) in EQ. injection EQ as X0 EQ.
  destruct (step_at (step c) (US c) st s seg tl T) as [A [B _]]. rewrite X0 in A, B.
  assert (SC : scope (snd (step c st s)) = scope s) by apply KS.
  destruct (Nat.leb len c) eqn:LL; [apply Nat.leb_le in LL; lia|].
  destruct (stays_cut (step c st) seg tl (scope s) None (SS c st) N E) as [rs [R [pre Q]]].
  change (mkStream (seg ++ tl) (scope s) None) with (at_elem (mkElem seg tl (scope s))) in R. rewrite X0 in R.
  assert (AF : el_after x = tl) by (subst x; reflexivity).
  destruct (step c st s) as [r s1] eqn:STEP. cbn [fst snd] in A, B, SC. rewrite ST in A. subst r.
  rewrite (FO c st s more st1 s1 LC STEP). rewrite R in B. split; [|split].
  - intro L. rewrite L. rewrite (proj2 (Nat.ltb_ge len len) (le_n _)). rewrite andb_false_r. exists s1. split; [now rewrite B, R|]. now apply loop_done.
  - intros L H. apply Nat.ltb_lt in L. rewrite L, andb_true_r. rewrite R, AF in H. apply app_same in H. subst rs. cbn [app] in B.
    unfold is_empty. rewrite B. destruct tl as [|t r]; cbn [negb].
    + exists s1. rewrite SC, B. split; auto.
    + apply ends_cons in E as C. rewrite (parse_comma_ok _ _ _ B C). exists (set_toks s1 r). cbn [scope set_toks toks]. rewrite SC. auto.
  - intros L t rest H. apply Nat.ltb_lt in L. rewrite L, andb_true_r. rewrite R, AF in H.
    change (t :: rest ++ tl) with ((t :: rest) ++ tl) in H. apply app_inv_tail in H. subst rs. cbn [app] in B.
    assert (C : is_comma t = false).
    { rewrite Q in N. apply nc_app in N as [_ N]. now apply nc_cons in N. }
    unfold is_empty. rewrite B. cbn [negb]. rewrite (parse_comma_at _ _ _ B C). exists s1. rewrite AF. auto.
Qed.
(** some elements of a stream *)
Lemma loop_items a : forall fuel c st s more b st1, len - c + S (length more) < fuel -> elems1 (scope s) (toks s) = a ++ b ->
  c + length a < len -> psteps step c st a st1 ->
  exists fuel1 s1, scope s1 = scope s /\ elems1 (scope s1) (toks s1) = b /\ len - (c + length a) + S (length more) < fuel1 /\
    tuple_loop len func fuel c st (s :: more) = tuple_loop len func fuel1 (c + length a) st1 (s1 :: more).
Proof.
  induction a as [|y a IH]; intros fuel c st s more b st1 FU EQ L P; cbn [app length] in *.
  - inversion P; subst. exists fuel, s. rewrite Nat.add_0_r. auto.
  - inversion P as [|? ? ? st3 ? ? P1 P2 P3]; subst. destruct fuel as [|fuel]; [lia|].
    destruct (loop_one fuel c st s more y (a ++ b) st3) as [_ [X _]]; auto; [lia|lia|].
    destruct X as [s1 [SC [E1 ->]]]; auto; [lia|].
    destruct (IH fuel (S c) st3 s1 more b st1) as [f1 [s2 [SC2 [E2 [F2 X]]]]]; auto; try lia.
    exists f1, s2. replace (c + S (length a)) with (S c + length a) by lia. split; [congruence|]. auto.
Qed.
Definition emptied (s s1 : stream) : Prop := scope s1 = scope s /\ toks s1 = [].
Lemma psteps_app a : forall c st b st2, psteps step c st (a ++ b) st2 -> exists st1, psteps step c st a st1 /\ psteps step (c + length a) st1 b st2.
Proof.
  induction a as [|x a IH]; intros c st b st2 P; cbn [app length] in *.
  - exists st. rewrite Nat.add_0_r. split; [constructor|auto].
  - inversion P as [|? ? ? st3 ? ? P1 P2 P3]; subst. destruct (IH _ _ _ _ P3) as [st1 [Q1 Q2]]. exists st1.
    replace (c + S (length a)) with (S c + length a) by lia. split; auto. econstructor; eauto.
Qed.
(** whole streams *)
Lemma loop_streams ins : forall fuel c st more st1, len - c + length (ins ++ more) < fuel ->
  c + length (elems ins) < len -> psteps step c st (elems ins) st1 ->
  exists fuel1 ins1, Forall2 emptied ins ins1 /\ len - (c + length (elems ins)) + length more < fuel1 /\
    tuple_loop len func fuel c st (ins ++ more) =
    (let '(r, st', l) := tuple_loop len func fuel1 (c + length (elems ins)) st1 more in (r, st', ins1 ++ l)).
Proof.
  induction ins as [|s ins IH]; intros fuel c st more st1 FU L P; cbn [app length] in *.
  - cbn in P. inversion P; subst. exists fuel, []. cbn [elems flat_map length]. rewrite Nat.add_0_r. split; [constructor|]. split; auto.
    destruct (tuple_loop len func fuel c st1 more) as [[r st'] l]. reflexivity.
  - rewrite elems_cons in *. rewrite app_length in L |- *. apply psteps_app in P as [st2 [P1 P2]].
    destruct (loop_items (elems1 (scope s) (toks s)) fuel c st s (ins ++ more) [] st2) as [f1 [s1 [SC [E1 [F1 X]]]]]; auto; [now rewrite app_nil_r|lia|].
    rewrite X. clear X. assert (T : toks s1 = []).
    { assert (Z : elems [s1] = []) by (rewrite elems_cons, E1; reflexivity). apply elems_none in Z. now inversion Z. }
    destruct f1 as [|f1]; [lia|]. cbn [tuple_loop]. unfold is_empty. rewrite T.
    destruct (IH f1 (c + length (elems1 (scope s) (toks s))) st2 more st1) as [f2 [ins1 [EM [F2 X]]]]; [lia|lia|exact P2|].
    exists f2, (s1 :: ins1). rewrite X. rewrite Nat.add_assoc. split; [constructor; auto; split; auto|]. split; [exact F2|].
    destruct (tuple_loop len func f2 (c + length (elems1 (scope s) (toks s)) + length (elems ins)) st1 more) as [[r st'] l]. reflexivity.
Qed.
Lemma emptied_spans ins ins1 : Forall2 emptied ins ins1 -> map in_span ins1 = map scope ins.
Proof. induction 1 as [|s s1 ins ins1 [E1 E2] H IH]; cbn [map]; auto. f_equal; auto. unfold in_span. now rewrite E2. Qed.
Lemma span_joined l : inputs_span l = joined (map in_span l).
Proof.
  destruct l as [|s l]; [reflexivity|]. cbn [inputs_span joined map]. generalize (in_span s). induction l as [|s1 l IH]; intro sp; [reflexivity|].
  cbn [fold_left map]. apply IH.
Qed.
End Loop.
Lemma elems_split l : forall a x b, elems l = a ++ x :: b -> exists ins1 s ins2 a1 b1, l = ins1 ++ s :: ins2 /\ a = elems ins1 ++ a1 /\ elems1 (scope s) (toks s) = a1 ++ x :: b1.
Proof.
  induction l as [|s l IH]; intros a x b H; [destruct a; discriminate H|]. rewrite elems_cons in H.
  assert (Q : (exists a2, a = elems1 (scope s) (toks s) ++ a2 /\ elems l = a2 ++ x :: b) \/ exists b2, elems1 (scope s) (toks s) = a ++ x :: b2).
  { clear IH. revert a H. induction (elems1 (scope s) (toks s)) as [|y ys IHy]; intros a H; cbn [app] in *.
    - left. exists a. auto.
    - destruct a as [|z a]; cbn [app] in H; injection H as -> H.
      + right. exists ys. reflexivity.
      + destruct (IHy a H) as [[a2 [-> E]]|[b2 E]]; [left; exists a2; auto|right; exists b2; cbn; congruence]. }
  destruct Q as [[a2 [-> E]]|[b2 E]].
  - destruct (IH _ _ _ E) as (ins1 & s1 & ins2 & a1 & b1 & -> & -> & E1). exists (s :: ins1), s1, ins2, a1, b1.
    rewrite elems_cons, app_assoc. auto.
  - exists [], s, l, a, b2. auto.
Qed.

Section Sum.
Context {A St : Type} (ds : list (dict A)) (step : nat -> St -> stream -> res St * stream)
  (func : nat -> St -> list stream -> res unit * St * list stream) (sum : list (parser A * elem) -> St).
Local Notation len := (length ds).
Hypothesis FD : Forall fine ds.
Hypothesis FO : forall c st s rest st1 s1, c < len -> step c st s = (Ok st1, s1) -> func c st (s :: rest) = (Ok tt, st1, s1 :: rest).
Hypothesis US : forall c, ustep (step c).
Hypothesis SS : forall c st, stays (step c st).
Hypothesis KS : forall c st s, scope (snd (step c st s)) = scope s.
Hypothesis ST : forall ys d x, nth_error ds (length ys) = Some d ->
  step (length ys) (sum ys) (at_elem x) =
  match d_item d Unnamed (at_elem x) with
  | (Ok v, s1) => (Ok (sum (ys ++ [(d_item d Unnamed, x)])), s1)
  | (Err e, s1) => (Ok (sum (ys ++ [(d_item d Unnamed, x)])), skip_item s1)
  | (Bad b, s1) => (Bad b, s1)
  end.
Lemma pos_len xs : length (positions ds xs) = Nat.min len (length xs).
Proof. unfold positions. now rewrite combine_length, map_length. Qed.
Lemma combine_snoc {B C} (l : list B) : forall (xs : list C) x b, nth_error l (length xs) = Some b ->
  combine l (xs ++ [x]) = combine l xs ++ [(b, x)].
Proof.
  induction l as [|b0 l IH]; intros xs x b H; [destruct xs; discriminate H|]. destruct xs as [|x0 xs]; cbn [length nth_error app combine] in *.
  - injection H as ->. destruct l; reflexivity.
  - f_equal. now apply IH.
Qed.
Lemma combine_more {B C} (l : list B) : forall (a b : list C), length l <= length a -> combine l (a ++ b) = combine l a.
Proof. induction l as [|b0 l IH]; intros [|x a] b H; cbn in *; auto; [lia|]. f_equal. apply IH. lia. Qed.
Lemma pos_snoc xs x d : nth_error ds (length xs) = Some d ->
  positions ds (xs ++ [x]) = positions ds xs ++ [(d_item d Unnamed, x)].
Proof. intro H. unfold positions. apply combine_snoc. rewrite nth_error_map, H. reflexivity. Qed.
Lemma fine_at c d : nth_error ds c = Some d -> fine d.
Proof. intro H. rewrite Forall_forall in FD. apply FD. eapply nth_error_In; eauto. Qed.
Lemma sum_step a x d : nth_error ds (length a) = Some d ->
  fst (step (length a) (sum (positions ds a)) (at_elem x)) = Ok (sum (positions ds (a ++ [x]))) /\
  (no_comma (el_toks x) -> ends (el_after x) -> clean (d_item d Unnamed) x ->
     toks (snd (step (length a) (sum (positions ds a)) (at_elem x))) = el_after x) /\
  (forall v, fst (d_item d Unnamed (at_elem x)) = Ok v ->
     toks (snd (step (length a) (sum (positions ds a)) (at_elem x))) = toks (snd (d_item d Unnamed (at_elem x)))).
Proof.
  intro H. assert (L : length (positions ds a) = length a).
  { rewrite pos_len. assert (length a < len) by (apply nth_error_Some; congruence). lia. }
  pose proof (ST (positions ds a) d x) as X. rewrite L in X. specialize (X H).
  pose proof (proj1 (gd_item d (fi_good d (fine_at _ _ H)) Unnamed (at_elem x))) as G.
  rewrite (pos_snoc a x d H), X. split; [|split].
  - destruct (d_item d Unnamed (at_elem x)) as [[v|e|b] s1]; cbn [fst] in *; [reflexivity..|destruct G].
  - intros N E C. destruct (cut_rest (d_item d Unnamed) x (proj1 (fi_item d (fine_at _ _ H) Unnamed)) N E) as [rest [NR R]].
    unfold clean in C. destruct (d_item d Unnamed (at_elem x)) as [[v|e|b] s1]; cbn [fst snd] in *; [now apply (C v)| |destruct G].
    cbn [skip_item set_toks toks]. rewrite R. now apply skip_toks_app.
  - intros v V. destruct (d_item d Unnamed (at_elem x)) as [r s1]; cbn [fst snd] in *. now subst r.
Qed.
Lemma sum_steps b : forall a, (forall x, In x b -> no_comma (el_toks x) /\ ends (el_after x)) -> length (a ++ b) <= len ->
  Forall clean_value (positions ds (a ++ b)) ->
  psteps step (length a) (sum (positions ds a)) b (sum (positions ds (a ++ b))).
Proof.
  induction b as [|x b IH]; intros a W L C.
  { rewrite app_nil_r. constructor. }
  assert (LA : length a < len) by (rewrite app_length in L; cbn [length] in L; lia).
  destruct (nth_error ds (length a)) as [d|] eqn:N; [|apply nth_error_None in N; lia].
  destruct (sum_step a x d N) as [S1 [S2 _]]. destruct (W x (or_introl eq_refl)) as [NC E].
  replace (a ++ x :: b) with ((a ++ [x]) ++ b) in * by (rewrite <- app_assoc; reflexivity).
  eapply Ps_more; [exact S1| |].
  - apply S2; auto. rewrite Forall_forall in C. apply (C (d_item d Unnamed, x)).
    apply nth_error_In with (n := length a). unfold positions. clear - N LA.
    revert a N LA. induction ds as [|d0 l IH]; intros a N LA; [destruct a; discriminate N|]. destruct a as [|y a]; cbn in *; [now injection N as ->|].
    apply IH; auto. lia.
  - specialize (IH (a ++ [x])). rewrite (app_length a [x]) in IH. cbn [length] in IH. rewrite Nat.add_1_r in IH. apply IH; auto. intros y I. apply W. now right.
Qed.
Lemma pos_none : positions ds [] = [].
Proof. unfold positions. destruct ds; reflexivity. Qed.
(** the loop on what can be read *)
(** where the streams are then: where they were if nothing is read; at their ends if there are too
    few elements; behind the last element *)
Definition row_end (inputs : list stream) (ys : list (parser A * elem)) (stop : list err) (l : list stream) : Prop :=
  (len = 0 -> l = inputs) /\ (length ys < len -> stop = [] -> Forall (fun s => toks s = []) l) /\
  (forall ys' p x v s, ys = ys' ++ [(p, x)] -> length ys = len -> fst (p (at_elem x)) = Ok v -> inputs = [s] ->
     exists s1, l = [s1] /\ toks s1 = toks (snd (p (at_elem x)))).
Lemma row_run_end inputs ys stop sp : row_read ds inputs ys stop sp ->
  exists r l, parse_tuple_struct len func (sum []) inputs = (r, sum ys, l) /\
    match r with Ok _ => stop = [] | Err e => stop = errs_of e | Bad _ => False end /\
    length ys <= len /\ (length ys < len -> inputs_span l = sp) /\ (length ys = len -> stop = []) /\ row_end inputs ys stop l.
Proof.
  assert (W : forall x, In x (elems inputs) -> no_comma (el_toks x) /\ ends (el_after x)) by (intros x I; eapply elem_of; eauto).
  unfold parse_tuple_struct. intro R. destruct R as [sp L C|L C|ins1 s ins2 a x b d t EI EQ L C ND OV].
  - assert (PL : length (positions ds (elems inputs)) = len) by (rewrite pos_len; lia).
    enough (X : exists l, tuple_loop len func (S (len + length inputs)) 0 (sum []) inputs = (Ok len, sum (positions ds (elems inputs)), l) /\
      row_end inputs (positions ds (elems inputs)) [] l).
    { destruct X as [l [X X2]]. exists (Ok len), l. split; [exact X|]. rewrite PL. split; [reflexivity|]. split; [lia|]. split; [lia|]. auto. }
    destruct len as [|n] eqn:LN.
    { exists inputs. assert (ds = []) as D0 by (destruct ds; [auto|discriminate LN]). rewrite D0. cbn [positions map combine].
      split; [apply (loop_done 0 func); lia|]. split; [auto|]. split; [rewrite LN; cbn; lia|]. intros ys' p x v s E. destruct ys'; discriminate E. }
    rewrite <- LN in *. set (xs := elems inputs) in *.
    assert (Ln : n < length xs) by lia. destruct (nth_error xs n) as [x|] eqn:NX; [|apply nth_error_None in NX; lia].
    apply nth_error_split in NX as [a [b [EQ LA]]]. destruct (nth_error ds n) as [d|] eqn:ND; [|apply nth_error_None in ND; lia].
    assert (PX : positions ds xs = positions ds (a ++ [x])).
    { rewrite EQ. replace (a ++ x :: b) with ((a ++ [x]) ++ b) by (rewrite <- app_assoc; reflexivity). unfold positions. apply combine_more.
      rewrite map_length, app_length. cbn [length]. lia. }
    rewrite PX in *. rewrite <- LA in ND. rewrite (pos_snoc a x d ND), removelast_last in C.
    assert (WA : forall y, In y a -> no_comma (el_toks y) /\ ends (el_after y)).
    { intros y I. apply W. rewrite EQ. apply in_or_app. auto. }
    pose proof (sum_steps a [] WA ltac:(cbn; lia) C) as P. rewrite pos_none in P. cbn [app length] in P.
    destruct (sum_step a x d ND) as [S1 [_ S3]].
    destruct (elems_split inputs a x b EQ) as (ins1 & s & ins2 & a1 & b1 & EI & EA & E1).
    assert (LA1 : length a = length (elems ins1) + length a1) by (rewrite EA; apply app_length).
    rewrite EA in P. apply psteps_app in P as [st1 [P1 P2]]. cbn [Nat.add] in P2.
    destruct (loop_streams step len func FO US SS KS ins1 (S (len + length inputs)) 0 (sum []) (s :: ins2) st1) as [f1 [ins1' [EM [F1 X]]]]; [rewrite EI; lia|lia|exact P1|].
    rewrite EI in X |- *. rewrite X. clear X. cbn [Nat.add] in *.
    destruct (loop_items step len func FO US SS KS a1 f1 (length (elems ins1)) st1 s ins2 (x :: b1) _ F1 E1 ltac:(lia) P2) as [f2 [s1 [SC [E2 [F2 X]]]]].
    rewrite X. clear X. rewrite <- EA in *. rewrite <- LA1 in *. destruct f2 as [|f2]; [lia|].
    destruct (loop_one step len func FO US SS KS f2 (length a) (sum (positions ds a)) s1 ins2 x b1 _ ltac:(lia) E2 S1 ltac:(lia)) as [X _].
    destruct (X ltac:(lia)) as [s2 [T2 Y]]. rewrite Y. eexists. split; [reflexivity|]. split; [lia|]. split; [rewrite pos_len, app_length; cbn; lia|].
    intros ys' p y v s0 E _ V EI0. rewrite (pos_snoc a x d ND) in E. apply app_inj_tail in E as [_ E]. injection E as <- <-.
    destruct ins1 as [|i1 ins1]; [|exfalso; injection EI0 as _ EI0; destruct ins1; discriminate EI0].
    injection EI0 as <- ->. inversion EM; subst. cbn [app].
    exists s2. split; [reflexivity|]. rewrite T2. now apply (S3 v).
  - pose proof (sum_steps (elems inputs) [] W ltac:(cbn; lia) C) as P. rewrite pos_none in P. cbn [app length] in P.
    destruct (loop_streams step len func FO US SS KS inputs (S (len + length inputs)) 0 (sum []) [] _ ltac:(rewrite app_nil_r; lia) ltac:(cbn; lia) P) as [f1 [ins1 [EM [F1 X]]]].
    rewrite app_nil_r in X. rewrite X. clear X. destruct f1 as [|f1]; [lia|]. cbn [tuple_loop]. rewrite app_nil_r.
    exists (Ok (0 + length (elems inputs))), ins1. split; [reflexivity|]. split; [reflexivity|]. rewrite pos_len. split; [lia|].
    split; [intros _; now rewrite span_joined, (emptied_spans _ _ EM)|]. split; [lia|]. split; [intro; lia|]. split.
    + intros _ _. clear - EM. induction EM as [|s s1 l l' [_ E] EM IH]; constructor; auto.
    + intros ys' p x v s _ PL. rewrite pos_len in PL. lia.
  - rewrite app_assoc. assert (EQ1 : elems1 (scope s) (toks s) = a ++ x :: b).
    { rewrite elems_cons in EQ. cbn [elems flat_map] in EQ. now rewrite app_nil_r in EQ. }
    assert (WA : forall y, In y (elems ins1 ++ a) -> no_comma (el_toks y) /\ ends (el_after y)).
    { intros y I. apply W. rewrite EI. unfold elems. rewrite flat_map_app. fold (elems ins1). fold (elems (s :: ins2)). rewrite elems_cons, EQ1.
      rewrite !in_app_iff in *. tauto. }
    pose proof (sum_steps (elems ins1 ++ a) [] WA ltac:(cbn; lia) C) as P. rewrite pos_none in P. cbn [app length] in P.
    apply psteps_app in P as [st1 [P1 P2]]. cbn [Nat.add] in P2. rewrite app_length in L, ND.
    destruct (loop_streams step len func FO US SS KS ins1 (S (len + length inputs)) 0 (sum []) (s :: ins2) st1) as [f1 [ins1' [EM [F1 X]]]]; [rewrite EI; lia|lia|exact P1|].
    rewrite EI in X |- *. rewrite X. clear X. cbn [Nat.add] in *.
    destruct (loop_items step len func FO US SS KS a f1 (length (elems ins1)) st1 s ins2 (x :: b) _ F1 EQ1 ltac:(lia) P2) as [f2 [s1 [SC [E2 [F2 X]]]]].
    rewrite X. clear X. rewrite <- app_length in *. destruct f2 as [|f2]; [lia|].
    destruct (sum_step (elems ins1 ++ a) x d ND) as [S1 [_ S3]]. destruct OV as [v [rest [O1 O2]]].
    destruct (loop_one step len func FO US SS KS f2 (length (elems ins1 ++ a)) (sum (positions ds (elems ins1 ++ a))) s1 ins2 x b _ ltac:(lia) E2 S1 ltac:(lia)) as [_ [_ X]].
    destruct (X ltac:(lia) t rest) as [s2 [T2 Y]]; [rewrite (S3 v O1); exact O2|]. rewrite Y.
    exists (Err (comma_expected t)), (ins1' ++ s2 :: ins2). split; [reflexivity|]. split; [reflexivity|].
    assert (PL : length (positions ds ((elems ins1 ++ a) ++ [x])) = S (length (elems ins1 ++ a))).
    { rewrite pos_len, (app_length _ [x]). cbn [length]. lia. }
    rewrite PL. split; [lia|]. split; [|split; [lia|]; split; [intro; lia|]; split; [discriminate|intros; lia]]. intros _. rewrite span_joined, map_app, (emptied_spans _ _ EM). cbn [map].
    unfold in_span at 1. rewrite T2. reflexivity.
Qed.
Lemma row_run inputs ys stop sp : row_read ds inputs ys stop sp ->
  exists r l, parse_tuple_struct len func (sum []) inputs = (r, sum ys, l) /\
    match r with Ok _ => stop = [] | Err e => stop = errs_of e | Bad _ => False end /\
    length ys <= len /\ (length ys < len -> inputs_span l = sp) /\ (length ys = len -> stop = []).
Proof. intro R. destruct (row_run_end inputs ys stop sp R) as (r & l & X & RR & LE & SP & SE & _). exists r, l. auto. Qed.
End Sum.
Lemma clean_or_pos {A} (ds : list (dict A)) : Forall fine ds -> forall xs, (forall x, In x xs -> no_comma (el_toks x) /\ ends (el_after x)) ->
  Forall clean_value (positions ds xs) \/
  exists a x b d t, xs = a ++ x :: b /\ Forall clean_value (positions ds a) /\ nth_error ds (length a) = Some d /\ overrun (d_item d Unnamed) x t.
Proof.
  induction 1 as [|d ds F FD IH]; intros xs W; [left; destruct xs; constructor|]. destruct xs as [|x xs]; [left; constructor|].
  destruct (W x (or_introl eq_refl)) as [N E].
  destruct (clean_or (d_item d Unnamed) (proj1 (fi_item d F Unnamed)) [x] ltac:(intros y [<-|[]]; auto)) as [C|[a [y [b [t [EQ [_ O]]]]]]].
  - inversion C as [|? ? C1 _]; subst. destruct (IH xs (fun y I => W y (or_intror I))) as [H|(a & y & b & d' & t & -> & H & ND & O)].
    + left. unfold positions. cbn [map combine]. constructor; auto.
    + right. exists (x :: a), y, b, d', t. split; [reflexivity|]. split; [unfold positions; cbn [map combine]; constructor; auto|auto].
  - right. destruct a as [|z a]; cbn [app] in EQ; [|destruct a; discriminate EQ]. injection EQ as <- <-.
    exists [], x, xs, d, t. split; [reflexivity|]. split; [constructor|]. auto.
Qed.
Lemma row_ex {A} (ds : list (dict A)) inputs : Forall fine ds -> exists ys stop sp, row_read ds inputs ys stop sp.
Proof.
  intros FD. assert (W : forall x, In x (elems inputs) -> no_comma (el_toks x) /\ ends (el_after x)) by (intros x I; eapply elem_of; eauto).
  destruct (clean_or_pos ds FD (elems inputs) W) as [C|(a & x & b & d & t & EQ & C & ND & O)].
  - destruct (Nat.lt_ge_cases (length (elems inputs)) (length ds)) as [L|L]; [do 3 eexists; now apply RW_short|].
    do 3 eexists. apply (RW_full ds inputs SCall); auto. destruct (positions ds (elems inputs)) as [|y ys] eqn:Q using rev_ind; [constructor|]. rewrite removelast_last. now apply Forall_app in C.
  - assert (LA : length a < length ds) by (apply nth_error_Some; congruence).
    destruct (Nat.lt_ge_cases (S (length a)) (length ds)) as [L|L].
    + destruct (elems_split inputs a x b EQ) as (ins1 & s & ins2 & a1 & b1 & EI & -> & E1).
      do 3 eexists. eapply (RW_left ds inputs ins1 s ins2 a1 x b1 d t); eauto. rewrite elems_cons. cbn [elems flat_map]. now rewrite app_nil_r.
    + do 3 eexists. apply (RW_full ds inputs SCall); [rewrite EQ, app_length; cbn; lia|].
      assert (PX : positions ds (elems inputs) = positions ds a ++ [(d_item d Unnamed, x)]).
      { rewrite <- (pos_snoc ds a x d ND), EQ. replace (a ++ x :: b) with ((a ++ [x]) ++ b) by (rewrite <- app_assoc; reflexivity). unfold positions. apply combine_more.
        rewrite map_length, app_length. cbn [length]. lia. }
      rewrite PX, removelast_last. exact C.
Qed.
End S.
