(** The errors of [read_items], entry by entry. *)
From Verif Require Import LemWf LemWfD LemWfE LemSmall LemItems LemAttr.
From Verif Require Export SpecDiag LemOpts LemOpts4.

Lemma wb_snoc {A B} (j : list A -> A -> list B) : forall l b x,
  with_before j b (l ++ [x]) = with_before j b l ++ j (b ++ l) x.
Proof.
  induction l as [|y l IH]; intros b x; cbn [app with_before]; [now rewrite !app_nil_r|].
  rewrite IH, <- !app_assoc. reflexivity.
Qed.
Lemma wb_app {A B} (j : list A -> A -> list B) : forall l b m,
  with_before j b (l ++ m) = with_before j b l ++ with_before j (b ++ l) m.
Proof.
  induction l as [|y l IH]; intros b m; cbn [app with_before]; [now rewrite !app_nil_r|].
  rewrite IH, <- !app_assoc. reflexivity.
Qed.
Lemma skip_ends s : ends (toks s) -> skip_item s = s.
Proof.
  intro E. unfold skip_item. rewrite <- (app_nil_l (toks s)), skip_toks_app; [|constructor|auto]. destruct s; reflexivity.
Qed.
Lemma skip_to s s' : to_comma s s' -> skip_item s = s'.
Proof. intros [pre [T [N [E ->]]]]. unfold skip_item. rewrite T, skip_toks_app; auto. Qed.
Lemma lin_in k l : listed_in k l = true <-> In k l.
Proof.
  unfold listed_in, is_key. rewrite existsb_exists. split; [intros [x [I E]]; apply String.eqb_eq in E; now subst|].
  intro I. exists k. split; auto. apply String.eqb_refl.
Qed.
Lemma lin_app k a b : listed_in k (a ++ b) = listed_in k a || listed_in k b.
Proof. apply existsb_app. Qed.
Lemma pairs_fun {A B} (l : list (A * B)) k p q : NoDup (map fst l) -> In (k, p) l -> In (k, q) l -> p = q.
Proof.
  induction l as [|[k' r] l IH]; intros N I1 I2; [destruct I1|]. cbn [map fst] in N. inversion N as [|a b NI N2]; subst.
  destruct I1 as [I1|I1], I2 as [I2|I2]; try congruence; auto.
  - exfalso. injection I1 as -> ->. apply NI. exact (in_map fst l _ I2).
  - exfalso. injection I2 as -> ->. apply NI. exact (in_map fst l _ I1).
Qed.
Lemma check_diag {A} (es : errors) (f : unit -> A) : diagnosed (rmap f (check es)) es.
Proof. destruct es; reflexivity. Qed.

Section G.
Context {env : Env} {O St : Type}.
Variable G : grammar O.
Variable arm : string -> span -> St -> errors -> parser (St * errors).
Hypothesis AW : forall k sp st es, well_behaved (arm k sp st es).
(** what an aentry can be *)
Definition valid (x : aentry O) : Prop :=
  match x with
  | Good k _ _ | Wrong k _ _ => listed_in k (map fst (gr_barred G)) = false /\ listed_in k (map fst (gr_keys G)) = true
  | Barred k _ _ => listed_in k (map fst (gr_barred G)) = true
  | Strange k _ => listed_in k (map fst (gr_barred G)) = false /\ listed_in k (map fst (gr_keys G)) = false
  end.
Lemma in_key {B} k (p : B) l : In (k, p) l -> listed_in k (map fst l) = true.
Proof. intro I. apply lin_in. change k with (fst (k, p)). now apply in_map. Qed.
Lemma rest_valid k sp s x s' : entry_rest G k sp s x s' -> valid x /\ entry_key x = k.
Proof. intro H. destruct H; cbn; split; auto; eauto using in_key. Qed.
Variable R : list (aentry O) -> St -> Prop.
Hypothesis AD : forall before k sp st es s x s', R before st -> Forall valid before -> entry_rest G k sp s x s' -> ends (toks s') ->
  exists st', arm k sp st es s = (Ok (st', es ++ judge G before x), s') /\ R (before ++ [x]) st'.

Let func (k : string) (sp : span) (q : St * errors) (s : stream) : res unit * (St * errors) * stream :=
  match arm k sp (fst q) (snd q) s with
  | (Ok q1, s1) => (Ok tt, q1, s1)
  | (Err e, s1) => (Err e, q, s1)
  | (Bad b, s1) => (Bad b, q, s1)
  end.
Lemma diag_loop s xs s' : entries_in G s xs s' -> forall n before st es, R before st -> Forall valid before -> length (toks s) < n ->
  exists st', struct_loop func n (st, es) s = (Ok tt, (st', es ++ with_before (judge G) before xs), s') /\ R (before ++ xs) st' /\ Forall valid (before ++ xs).
Proof.
  induction 1 as [s E|s k sp s1 x s2 NE AT SP E|s k sp s1 x s2 c r xs s3 NE AT SP E CT W IH]; intros n before st es HR HV L; (destruct n as [|n]; [lia|]); cbn [struct_loop].
  - unfold is_empty. rewrite E. exists st. cbn [with_before]. rewrite !app_nil_r. auto.
  - assert (EM : is_empty s = false) by (unfold is_empty; destruct (toks s); congruence). rewrite EM.
    destruct AT as [p [P [<- <-]]]. rewrite P. unfold func at 1. cbn [fst snd].
    destruct (AD _ _ _ _ es _ _ _ HR HV SP (or_introl E)) as [st' [A HR2]]. rewrite A. unfold is_empty. rewrite E. exists st'. cbn [with_before]. rewrite app_nil_r.
    split; auto. split; auto. apply Forall_app. split; auto. constructor; auto. now destruct (rest_valid _ _ _ _ _ SP).
  - assert (EM : is_empty s = false) by (unfold is_empty; destruct (toks s); congruence). rewrite EM.
    destruct AT as [p [P [<- <-]]]. rewrite P. unfold func at 1. cbn [fst snd].
    assert (EN : ends (toks s2)). { right. rewrite E. now exists c, r. }
    destruct (AD _ _ _ _ es _ _ _ HR HV SP EN) as [st1 [A HR2]]. rewrite A.
    assert (E2 : is_empty s2 = false) by (unfold is_empty; rewrite E; auto). rewrite E2.
    rewrite (parse_comma_cons s2 c r E) by (now apply comma_true).
    assert (LL : length (toks (set_toks s2 r)) < n).
    { destruct (AW (path_key p) (p_span p) st es s1) as [_ [pre H]]. rewrite A in H. cbn [snd] in H.
      assert (LS : length (toks s2) <= length (toks s1)) by (rewrite H, app_length; lia). rewrite E in LS. cbn [length] in LS.
      pose proof (wb_path s) as [_ [pre2 PP]]. rewrite P in PP. cbn [snd] in PP. rewrite PP, app_length in L. cbn [toks set_toks]. lia. }
    assert (HV2 : Forall valid (before ++ [x])). { apply Forall_app. split; auto. constructor; auto. now destruct (rest_valid _ _ _ _ _ SP). }
    destruct (IH n (before ++ [x]) st1 (es ++ judge G before x) HR2 HV2 LL) as [st' [SL [HR3 HV3]]]. exists st'.
    rewrite <- !app_assoc in *. cbn [app] in *. cbn [with_before]. auto.
Qed.
Lemma diag_all l xs l' : entries_in_all G l xs l' -> forall before st es, R before st -> Forall valid before ->
  exists st', parse_struct func (st, es) l = (Ok tt, (st', es ++ with_before (judge G) before xs), l') /\ R (before ++ xs) st'.
Proof.
  induction 1 as [|s xs s' l ys l' W Ws IH]; intros before st es HR HV; cbn [parse_struct].
  - exists st. cbn [with_before]. rewrite !app_nil_r. auto.
  - destruct (diag_loop _ _ _ W (S (length (toks s))) before st es HR HV ltac:(lia)) as [st1 [L [HR1 HV1]]].
    rewrite L. destruct (IH _ _ (es ++ with_before (judge G) before xs) HR1 HV1) as [st2 [PS HR2]]. exists st2.
    match goal with |- context [parse_struct ?f ?q l] => replace (parse_struct f q l) with (Ok tt, (st2, (es ++ with_before (judge G) before xs) ++ with_before (judge G) (before ++ xs) ys : errors), l') by (symmetry; exact PS) end.
    rewrite wb_app. split; now rewrite app_assoc.
Qed.
Lemma diag_read l xs l' st es : entries_in_all G l xs l' -> R [] st ->
  exists st', read_items arm st es l = (Ok (st', es ++ judged G xs), l') /\ R xs st'.
Proof.
  intros Ws HR. destruct (diag_all _ _ _ Ws [] st es HR (Forall_nil _)) as [st' [PS HR2]]. exists st'. split; auto.
  unfold read_items.
  match goal with |- context [parse_struct ?f ?q l] => replace (parse_struct f q l) with (Ok tt, (st', es ++ judged G xs : errors), l') by (symmetry; exact PS) end.
  reflexivity.
Qed.

End G.

(** *** what the arms do *)
Section G2.
Context {env : Env} {O St : Type}.
Variable G : grammar O.
Hypothesis ND : NoDup (map fst (gr_keys G)).
Lemma keys_fun k p q : In (k, p) (gr_keys G) -> In (k, q) (gr_keys G) -> p = q.
Proof. apply pairs_fun. exact ND. Qed.
Definition st_of {A} (k : string) (get : O -> option A) (xs : list (aentry O)) : fstatus A :=
  match filter (fun x => is_key k (entry_key x)) xs with
  | Good _ _ o :: _ => match get o with Some a => FSome a | None => FParseError end
  | Wrong _ _ _ :: _ => FParseError
  | _ => FNone
  end.
Lemma st_value {A} k (get : O -> option A) xs : fs_into_option (st_of k get xs) = first_value k get xs.
Proof. unfold st_of, first_value. destruct (filter _ xs) as [|[] l]; auto. destruct (get o); auto. Qed.
Lemma st_span {A} k (get : O -> option A) (f : A -> span) xs : span_if f (st_of k get xs) = option_map f (first_value k get xs).
Proof. unfold st_of, first_value. destruct (filter _ xs) as [|[] l]; auto. destruct (get o); auto. Qed.
Lemma filter_snoc (k : string) (xs : list (aentry O)) x : filter (fun x => is_key k (entry_key x)) (xs ++ [x]) =
  filter (fun x => is_key k (entry_key x)) xs ++ (if is_key k (entry_key x) then [x] else []).
Proof. rewrite filter_app. cbn [filter]. reflexivity. Qed.
Lemma st_other {A} k (get : O -> option A) xs x : is_key k (entry_key x) = false -> st_of k get (xs ++ [x]) = st_of k get xs.
Proof. intro E. unfold st_of. rewrite filter_snoc, E, app_nil_r. reflexivity. Qed.
Lemma st_again {A} k (get : O -> option A) xs x : st_of k get xs <> FNone -> st_of k get (xs ++ [x]) = st_of k get xs.
Proof.
  unfold st_of. rewrite filter_snoc. destruct (filter _ xs) as [|y l]; [congruence|]. reflexivity.
Qed.
Lemma filter_nil k (xs : list (aentry O)) : filter (fun x => is_key k (entry_key x)) xs = [] <-> listed_in k (map entry_key xs) = false.
Proof.
  unfold listed_in. induction xs as [|x xs IH]; cbn [filter map existsb]; [tauto|]. destruct (is_key k (entry_key x)); cbn [orb]; [split; discriminate|auto].
Qed.
(** a key that can be given once *)
Lemma none_iff {A} k (get : O -> option A) xs : Forall (valid G) xs -> listed_in k (map fst (gr_barred G)) = false -> listed_in k (map fst (gr_keys G)) = true ->
  fs_is_none (st_of k get xs) = negb (listed_in k (map entry_key xs)).
Proof.
  intros V B K. unfold st_of. destruct (filter (fun x => is_key k (entry_key x)) xs) as [|y l] eqn:F.
  - apply filter_nil in F. rewrite F. reflexivity.
  - assert (I : In y (filter (fun x => is_key k (entry_key x)) xs)) by (rewrite F; now left). apply filter_In in I as [I E].
    assert (AM : listed_in k (map entry_key xs) = true). { destruct (listed_in k (map entry_key xs)) eqn:AM; auto. apply filter_nil in AM. congruence. }
    rewrite AM. cbn [negb]. rewrite Forall_forall in V. specialize (V y I). apply String.eqb_eq in E.
    destruct y; cbn [valid entry_key] in *; subst k0; try (destruct V; congruence); try congruence; [destruct (get o)|]; reflexivity.
Qed.
Lemma pmap_inv {A B} (C : A -> B) (p : parser A) s r s' : pmap C p s = (r, s') ->
  exists r', p s = (r', s') /\ r = rmap C r'.
Proof. unfold pmap. destruct (p s) as [r' s1]. intro H. injection H as <- <-. eauto. Qed.
Lemma slot_diag2 {A} (C : A -> O) (get : O -> option A) nm k sp (p pt : string -> span -> parser A) (set : fstatus A -> St) es s x s' before :
  (forall a, get (C a) = Some a) -> Forall (valid G) before -> In (k, fun k sp => pmap C (pt k sp)) (gr_keys G) ->
  listed_in k (map fst (gr_barred G)) = false -> listed_in k (gr_many G) = false -> gr_shown G k = nm -> p nm sp s = pt k sp s ->
  (forall a b, gr_more G b sp (C a) = []) -> entry_rest G k sp s x s' -> 
  slot nm sp p (st_of k get before) set es s = (Ok (set (st_of k get (before ++ [x])), es ++ judge G before x), s').
Proof.
  intros GC V I B M SH NM MO ER. unfold slot, fs_parse_named. rewrite NM.
  pose proof (none_iff k get before V B (in_key _ _ _ I)) as NI.
  destruct ER as [q o s' B2 I2 Q|q e s1 s' B2 I2 Q TC|msg s' B2 _|s' K2 _ _].
  - rewrite (keys_fun _ _ _ I2 I) in Q. apply pmap_inv in Q as [[a|e|b] [Q E]]; try discriminate E. cbn in E. injection E as ->. rewrite Q.
    cbn [judge rmap fst snd]. rewrite MO, app_nil_r. unfold again. rewrite M, NI. do 3 f_equal.
    + destruct (listed_in k (map entry_key before)) eqn:AM; cbn [negb] in *.
      * f_equal. symmetry. apply st_again. intro X. rewrite X in NI. discriminate NI.
      * unfold st_of. rewrite filter_snoc. rewrite (proj2 (filter_nil _ _) AM). cbn [entry_key app]. unfold is_key. rewrite String.eqb_refl. now rewrite GC.
    + destruct (listed_in k (map entry_key before)); cbn [negb]; [|now rewrite app_nil_r]. unfold push, push_syn, tick. now rewrite SH.
  - rewrite (keys_fun _ _ _ I2 I) in Q. apply pmap_inv in Q as [[a|e'|b] [Q E]]; try discriminate E. cbn in E. injection E as ->. rewrite Q.
    rewrite (skip_to _ _ TC). cbn [judge rmap fst snd]. unfold again. rewrite M, NI. do 3 f_equal.
    + destruct (listed_in k (map entry_key before)) eqn:AM; cbn [negb] in *.
      * f_equal. symmetry. apply st_again. intro X. rewrite X in NI. discriminate NI.
      * unfold st_of. rewrite filter_snoc. rewrite (proj2 (filter_nil _ _) AM). cbn [entry_key app]. unfold is_key. now rewrite String.eqb_refl.
    + destruct (listed_in k (map entry_key before)); cbn [negb]; [|reflexivity]. unfold push, push_syn, tick. now rewrite SH, <- app_assoc.
  - apply in_key in B2. congruence.
  - assert (X : listed_in k (map fst (gr_keys G)) = true) by exact (in_key _ _ _ I). congruence.
Qed.
Lemma slot_diag {A} (C : A -> O) (get : O -> option A) nm k sp (p : string -> span -> parser A) (set : fstatus A -> St) es s x s' before :
  (forall a, get (C a) = Some a) -> Forall (valid G) before -> In (k, fun k sp => pmap C (p k sp)) (gr_keys G) ->
  listed_in k (map fst (gr_barred G)) = false -> listed_in k (gr_many G) = false -> gr_shown G k = nm -> p nm sp s = p k sp s ->
  (forall a b, gr_more G b sp (C a) = []) -> entry_rest G k sp s x s' -> 
  slot nm sp p (st_of k get before) set es s = (Ok (set (st_of k get (before ++ [x])), es ++ judge G before x), s').
Proof. intros. now apply slot_diag2 with (pt := p) (C := C). Qed.
(** a key that can be given several times *)
Lemma collect_diag {A} (C : A -> O) k sp (p : string -> span -> parser A) (st : St) add es s x s' before :
  In (k, fun k sp => pmap C (p k sp)) (gr_keys G) ->
  listed_in k (map fst (gr_barred G)) = false -> listed_in k (gr_many G) = true ->
  (forall a b, gr_more G b sp (C a) = []) -> entry_rest G k sp s x s' -> 
  (exists a, collect st (p k sp) add es s = (Ok (add a, es ++ judge G before x), s')) \/
  collect st (p k sp) add es s = (Ok (st, es ++ judge G before x), s').
Proof.
  intros I B M MO ER. unfold collect.
  destruct ER as [q o s' B2 I2 Q|q e s1 s' B2 I2 Q TC|msg s' B2 _|s' K2 _ _].
  - rewrite (keys_fun _ _ _ I2 I) in Q. apply pmap_inv in Q as [[a|e|b] [Q E]]; try discriminate E. cbn in E. injection E as ->. rewrite Q.
    left. exists a. cbn [judge]. unfold again. rewrite M, MO, !app_nil_r. reflexivity.
  - rewrite (keys_fun _ _ _ I2 I) in Q. apply pmap_inv in Q as [[a|e'|b] [Q E]]; try discriminate E. cbn in E. injection E as ->. rewrite Q.
    rewrite (skip_to _ _ TC). right. cbn [judge]. unfold again. rewrite M. reflexivity.
  - apply in_key in B2. congruence.
  - assert (X : listed_in k (map fst (gr_keys G)) = true) by exact (in_key _ _ _ I). congruence.
Qed.
Lemma refuse_barred k sp (st : St) m es s x s' before : NoDup (map fst (gr_barred G)) -> In (k, m) (gr_barred G) -> listed_in k (gr_loose G) = false ->
  entry_rest G k sp s x s' -> refuse st (push es sp m) s = (Ok (st, es ++ judge G before x), s').
Proof.
  intros N I L ER. pose proof (in_key _ _ _ I) as B.
  destruct ER as [q o s' B2 I2 Q|q e s1 s' B2 I2 Q TC|msg s' B2 TC|s' K2 B2 _]; try congruence.
  rewrite L in TC. unfold refuse. rewrite (skip_to _ _ TC). cbn [judge]. unfold push, push_syn.
  rewrite (pairs_fun _ _ _ _ N B2 I). reflexivity.
Qed.
Lemma refuse_strange k sp (st : St) es s x s' before hints : gr_hints G = hints -> mem_str k hints = false -> listed_in k (map fst (gr_keys G)) = false ->
  listed_in k (map fst (gr_barred G)) = false ->
  entry_rest G k sp s x s' -> refuse st (check_unknown k sp hints es) s = (Ok (st, es ++ judge G before x), s').
Proof.
  intros H M K B ER.
  destruct ER as [q o s' B2 I2 Q|q e s1 s' B2 I2 Q TC|msg s' B2 TC|s' K2 B2 TC]; try (apply in_key in I2; congruence); try (apply in_key in B2; congruence).
  unfold refuse, check_unknown. rewrite M, (skip_to _ _ TC). cbn [judge]. now rewrite H.
Qed.
End G2.
