(** Tuple structs. *)
From Verif Require Export LemTuple2.

Inductive all3 {A B C} (P : nat -> A -> B -> C -> Prop) : nat -> list A -> list B -> list C -> Prop :=
| A3_nil i : all3 P i [] [] []
| A3_cons i a b c la lb lc : P i a b c -> all3 P (S i) la lb lc -> all3 P i (a :: la) (b :: lb) (c :: lc).

Section C.
Context {env : Env} {V : Type}.
Local Notation field := (field V).
Lemma all3_nth {A B C} (P : nat -> A -> B -> C -> Prop) i la lb lc : all3 P i la lb lc <->
  length la = length lb /\ length lc = length la /\
  forall j a b c, nth_error la j = Some a -> nth_error lb j = Some b -> nth_error lc j = Some c -> P (i + j) a b c.
Proof.
  split.
  - induction 1 as [i|i a b c la lb lc H X [IH1 [IH2 IH3]]]; simpl.
    + split; auto. split; auto. intros [|j]; discriminate.
    + split; [lia|]. split; [lia|]. intros [|j] a' b' c' E1 E2 E3; simpl in *.
      * rewrite Nat.add_0_r. congruence.
      * rewrite <- Nat.add_succ_comm. eauto.
  - revert i lb lc. induction la as [|a la IH]; intros i [|b lb] [|c lc] [L1 [L2 H]]; simpl in *; try lia; constructor.
    + specialize (H 0 a b c eq_refl eq_refl eq_refl). now rewrite Nat.add_0_r in H.
    + apply IH. split; [lia|]. split; [lia|]. intros j a' b' c' E1 E2 E3. rewrite Nat.add_succ_comm. exact (H (S j) _ _ _ E1 E2 E3).
Qed.

(** *** the slots after the loop *)
Definition o2s (o : option V) : fstatus V := match o with Some v => FSome v | None => FNone end.
Fixpoint place (fs : list field) (ws : list V) : list (option V) :=
  match fs with
  | [] => []
  | f :: fs' =>
    if is_parsable f
    then match ws with w :: ws' => Some w :: place fs' ws' | [] => None :: place fs' [] end
    else None :: place fs' ws
  end.
Definition dicts (fs : list field) : list (dict V) :=
  flat_map (fun f => if is_parsable f then match f_kind f with KItem d => [d] | _ => [] end else []) fs.
Definition plain (fs : list field) : Prop := Forall (fun f => is_parsable f = true -> exists d, f_kind f = KItem d /\ fine d) fs.
Definition tlook (fs : list field) (k : nat) (c : nat) : option (nat * dict V) :=
  match nth_error (tuple_fields fs k) c with
  | Some (ri, f) => match f_kind f with KItem d => Some (ri, d) | _ => None end
  | None => None
  end.
Lemma tf_skip (f : field) fs k : is_parsable f = false -> tuple_fields (f :: fs) k = tuple_fields fs (S k).
Proof. intro H. cbn [tuple_fields]. rewrite H. destruct (f_kind f); reflexivity. Qed.
Lemma tf_take (f : field) d fs k : is_parsable f = true -> f_kind f = KItem d -> tuple_fields (f :: fs) k = (k, f) :: tuple_fields fs (S k).
Proof. intros H K. cbn [tuple_fields]. now rewrite H, K. Qed.
Lemma tlook_dicts fs : plain fs -> forall k c d, nth_error (dicts fs) c = Some d -> exists ri, tlook fs k c = Some (ri, d).
Proof.
  unfold tlook. induction 1 as [|f fs H P IH]; intros k c d N; [destruct c; discriminate|]. cbn [dicts flat_map] in N.
  destruct (is_parsable f) eqn:PF.
  - destruct (H eq_refl) as [e [K _]]. rewrite (tf_take f e fs k PF K). rewrite K in N. destruct c as [|c]; cbn [app nth_error] in *.
    + rewrite K. injection N as <-. eauto.
    + exact (IH (S k) c d N).
  - rewrite (tf_skip f fs k PF). exact (IH (S k) c d N).
Qed.
Lemma tlook_fine fs k : plain fs -> forall c ri d, tlook fs k c = Some (ri, d) -> fine d.
Proof.
  intros P c ri d. unfold tlook. destruct (nth_error (tuple_fields fs k) c) as [[r f]|] eqn:E; [|discriminate].
  apply nth_error_In in E. assert (IN : In f fs /\ is_parsable f = true).
  { revert k E. clear. induction fs as [|g fs IH]; intros k E; [destruct E|]. cbn [tuple_fields] in E.
    assert (X : forall k, In (r, f) (tuple_fields fs k) -> In f (g :: fs) /\ is_parsable f = true).
    { intros k' I. destruct (IH k' I). split; auto. now right. }
    destruct (f_kind g); try (destruct (is_parsable g) eqn:PG; [destruct E as [E|E]; [injection E as <- <-; split; auto; now left|]|]); eauto. }
  destruct IN as [I PF]. unfold plain in P. rewrite Forall_forall in P. destruct (P f I PF) as [e [K FE]]. rewrite K. intro H. now injection H as <- <-.
Qed.
Lemma fill_place fs ws : plain fs -> forall look c pre, (forall j, look (c + j) = tlook fs (length pre) j) ->
  fill look c ws (pre ++ map (fun _ => FNone) fs) = pre ++ map o2s (place fs ws).
Proof.
  intro P. revert ws. induction P as [|f fs H P IH]; intros ws look c pre LK; cbn [map place].
  - rewrite !app_nil_r. revert c pre LK. induction ws as [|w ws IHw]; intros c pre LK; cbn [fill]; auto.
    specialize (LK 0) as L0. rewrite Nat.add_0_r in L0. rewrite L0. unfold tlook. cbn [tuple_fields nth_error].
    apply IHw. intro j. specialize (LK (S j)). rewrite Nat.add_succ_comm. rewrite LK. unfold tlook. cbn [tuple_fields]. destruct j; reflexivity.
  - destruct (is_parsable f) eqn:PF.
    + destruct (H eq_refl) as [d [K _]]. destruct ws as [|w ws].
      * cbn [fill map o2s]. specialize (IH [] look (S c) (pre ++ [FNone])). cbn [fill] in IH. rewrite <- !app_assoc in IH. cbn [app] in IH. apply IH.
        intro j. rewrite Nat.add_succ_comm, LK. unfold tlook. rewrite (tf_take f d fs _ PF K). cbn [nth_error]. rewrite app_length. cbn [length]. now rewrite Nat.add_1_r.
      * cbn [fill map o2s]. specialize (LK 0) as L0. rewrite Nat.add_0_r in L0. rewrite L0. unfold tlook. rewrite (tf_take f d fs _ PF K). cbn [nth_error]. rewrite K.
        assert (X : upd_nth (length pre) (FSome w) (pre ++ FNone :: map (fun _ => FNone) fs) = (pre ++ [FSome w]) ++ map (fun _ => FNone) fs).
        { clear. induction pre as [|b pre IH]; cbn; auto. now rewrite IH. }
        rewrite X, IH; [now rewrite <- app_assoc|]. intro j. rewrite Nat.add_succ_comm, LK. unfold tlook. rewrite (tf_take f d fs _ PF K). cbn [nth_error]. rewrite app_length. cbn [length]. now rewrite Nat.add_1_r.
    + specialize (IH ws look c (pre ++ [FNone])). rewrite <- !app_assoc in IH. cbn [app] in IH. cbn [map o2s]. apply IH.
      intro j. rewrite LK. unfold tlook. rewrite (tf_skip f fs _ PF). rewrite app_length. cbn [length]. now rewrite Nat.add_1_r.
Qed.
Lemma dicts_len fs : plain fs -> length (dicts fs) = length (filter is_parsable fs).
Proof.
  induction 1 as [|f fs H P IH]; auto. cbn [dicts flat_map filter]. destruct (is_parsable f); auto. destruct (H eq_refl) as [d [K _]]. rewrite K. cbn. now rewrite <- IH.
Qed.
Lemma each_len {A} (ds : list (dict A)) its vs : each_accepts ds its vs -> length ds = length its /\ length vs = length its.
Proof. induction 1; simpl; lia. Qed.
Lemma positional_place fs its os : plain fs ->
  positional fs its os <-> exists ws, each_accepts (firstn (length its) (dicts fs)) its ws /\ os = place fs ws.
Proof.
  intro P. split.
  - induction 1 as [|f d fs seg segs v os PF K AC X IH|f fs os PF X IH|f fs segs os PF X IH].
    + exists []. split; constructor.
    + inversion P as [|? ? _ P']; subst. destruct (IH P') as [ws [E ->]]. exists (v :: ws). cbn [place dicts flat_map length]. rewrite PF, K. cbn [app firstn]. split; auto. constructor; auto.
    + inversion P as [|? ? _ P']; subst. destruct (IH P') as [ws [E ->]]. exists []. cbn [place length firstn]. rewrite PF. split; [constructor|].
      apply each_len in E as [_ E]. destruct ws; [reflexivity|discriminate].
    + inversion P as [|? ? _ P']; subst. destruct (IH P') as [ws [E ->]]. exists ws. cbn [place dicts flat_map]. rewrite PF. split; auto.
  - intros [ws [E ->]]. revert its ws E. induction P as [|f fs H P IH]; intros its ws E.
    + cbn [dicts flat_map] in E. rewrite firstn_nil in E. inversion E; subst. constructor.
    + cbn [dicts flat_map place] in *. destruct (is_parsable f) eqn:PF.
      * destruct (H eq_refl) as [d [K _]]. rewrite K in E. cbn [app] in E. destruct its as [|seg its]; cbn [length firstn] in E.
        -- inversion E; subst. apply Po_short; [exact PF|]. apply (IH [] []). constructor.
        -- inversion E; subst. eapply Po_item; eauto.
      * apply Po_other; auto.
Qed.
Lemma place_len fs : forall ws, length (place fs ws) = length fs.
Proof. induction fs as [|f fs IH]; intro ws; auto. cbn [place]. destruct (is_parsable f); [destruct ws|]; cbn; now rewrite IH. Qed.

(** *** after the loop *)
Definition m_out (vt : bool) (f : field) (st st2 : fstatus V) : Prop :=
  if wants_error vt f && fs_is_none st
  then exists d w n sp, f_kind f = KItem d /\ d_missing d n sp = Ok w /\ st2 = FSome w
  else st2 = st.
Definition m_good (f : field) : Prop :=
  exists d, f_kind f = KItem d /\ uniform_missing f /\ forall n sp, returns (d_missing d n sp).
Lemma um_ok tm vt variant m sp ins : forall fs sl es index cur ex sl2,
  Forall (fun f => wants_error vt f = true -> m_good f) fs -> length sl = length fs ->
  unnamed_missing tm vt variant m sp ins fs sl es index cur ex = Ok (sl2, []) <->
  es = [] /\ all3 (fun _ => m_out vt) 0 fs sl sl2.
Proof.
  induction fs as [|f fs IH]; intros sl es index cur ex sl2 G L.
  { destruct sl; [|discriminate]. cbn [unnamed_missing]. split; [intro H; injection H as <- <-; split; auto; constructor|]. intros [-> H]. inversion H. auto. }
  destruct sl as [|st sl]; [discriminate|]. injection L as L. inversion G as [|? ? GF G']; subst. cbn [unnamed_missing].
  set (cur' := if f_container f then cur else if is_flatten f then cur else S cur).
  set (ex' := if f_container f then ex else match f_kind f with KFlatU u => ex + fu_count0 u | _ => ex end).
  assert (NX : forall st' es' index',
    match unnamed_missing tm vt variant m sp ins fs sl es' index' cur' ex' with
    | Ok (sl2, es2) => Ok (st' :: sl2, es2) | Err e => Err e | Bad b => Bad b end = Ok (sl2, []) <->
    (es' = [] /\ exists sl3, sl2 = st' :: sl3 /\ all3 (fun _ => m_out vt) 1 fs sl sl3)).
  { intros st' es' index'. specialize (IH sl es' index' cur' ex').
    assert (A0 : forall i j (P : field -> fstatus V -> fstatus V -> Prop) la lb lc, all3 (fun _ => P) i la lb lc -> all3 (fun _ => P) j la lb lc).
    { clear. intros i j P la lb lc H. revert j. induction H; intro k; constructor; auto. }
    split.
    - destruct (unnamed_missing tm vt variant m sp ins fs sl es' index' cur' ex') as [[sl3 es3]| |] eqn:U; try discriminate.
      intro H. injection H as <- ->. destruct (proj1 (IH sl3 G' L) eq_refl) as [-> U2]. split; auto. exists sl3. split; auto. eapply A0; exact U2.
    - intros [-> [sl3 [-> A]]]. rewrite (proj2 (IH sl3 G' L) (conj eq_refl (A0 _ 0 _ _ _ _ A))). reflexivity. }
  destruct (wants_error vt f && fs_is_none st) eqn:W.
  - apply andb_true_iff in W as W'. destruct W' as [W1 W2]. destruct (GF W1) as [d [K [UM RT]]]. rewrite K.
    set (nm := missing_name_unnamed tm (index + cur + ex)). set (fsp := to_full_span m ins).
    assert (MO : forall st2, m_out vt f st st2 <-> exists w, d_missing d nm fsp = Ok w /\ st2 = FSome w).
    { intro st2. unfold m_out. rewrite W. split.
      - intros [d' [w [n [s' [K' [D E]]]]]]. assert (d' = d) by congruence. subst d'. exists w. split; auto. eapply UM; eauto.
      - intros [w [D E]]. exists d, w, nm, fsp. auto. }
    specialize (RT nm fsp). destruct (d_missing d nm fsp) as [w|e|b] eqn:D; [| |destruct RT].
    + rewrite NX. split.
      * intros [-> [sl3 [-> A]]]. split; auto. constructor; [apply MO; eauto|exact A].
      * intros [-> H]. inversion H as [|? ? ? st2 ? ? sl3 M A]; subst. split; auto. apply MO in M as [w' [E ->]]. injection E as <-. exists sl3. auto.
    + rewrite NX. split.
      * intros [H _]. unfold push_syn in H. apply app_eq_nil in H as [_ H]. now apply errs_of_ne in H.
      * intros [_ H]. inversion H as [|? ? ? st2 ? ? sl3 M A]; subst. apply MO in M as [w' [E _]]. discriminate.
  - rewrite NX. assert (MO : forall st2, m_out vt f st st2 <-> st2 = st) by (intro; unfold m_out; now rewrite W). split.
    + intros [-> [sl3 [-> A]]]. split; auto. constructor; [now apply MO|exact A].
    + intros [-> H]. inversion H as [|? ? ? st2 ? ? sl3 M A]; subst. split; auto. apply MO in M as ->. exists sl3. auto.
Qed.
Lemma sets_ok : forall (fs : list field) sl es sl1 i, length sl = length fs ->
  field_sets fs sl es = (sl1, []) <-> es = [] /\ all3 (fun _ f st st1 => set_field f st [] = (st1, [])) i fs sl sl1.
Proof.
  induction fs as [|f fs IH]; intros sl es sl1 i L.
  { destruct sl; [|discriminate]. cbn [field_sets]. split; [intro H; injection H as <- <-; split; auto; constructor|]. intros [-> H]. inversion H. auto. }
  destruct sl as [|st sl]; [discriminate|]. injection L as L. cbn [field_sets].
  assert (SF : set_field f st es = (fst (set_field f st []), es ++ snd (set_field f st []))) by apply run_transforms_es.
  rewrite SF. specialize (IH sl (es ++ snd (set_field f st []))). destruct (field_sets fs sl (es ++ snd (set_field f st []))) as [sl2 es2].
  destruct (set_field f st []) as [st1 e1] eqn:SE. cbn [fst snd] in *. split.
  - intro H. injection H as <- ->. destruct (proj1 (IH sl2 (S i) L) eq_refl) as [X Y].
    apply app_eq_nil in X as [-> ->]. split; auto. constructor; auto.
  - intros [-> H]. inversion H as [|? ? ? c ? ? lc H1 H2]; subst. rewrite SE in H1. injection H1 as <- ->.
    assert (Z := proj2 (IH lc (S i) L) (conj eq_refl H2)). injection Z as <- ->. reflexivity.
Qed.
Definition value_of (target : option (list V)) (i : nat) (st1 : fstatus V) (v : V) : Prop :=
  match target with
  | None => st1 = FSome v
  | Some t => exists tv, nth_error t i = Some tv /\ v = fs_unwrap_or st1 tv
  end.
Lemma unwrap_slots_ok (sl : list (fstatus V)) : forall vs, unwrap_slots sl = Ok vs <-> sl = map FSome vs.
Proof.
  induction sl as [|st sl IH]; intros vs; cbn [unwrap_slots].
  - split; [intro H; injection H as <-; auto|]. destruct vs; [auto|discriminate].
  - destruct st as [| |v]; [split; [discriminate|destruct vs; discriminate]..|].
    destruct (unwrap_slots sl) as [ws| |] eqn:U; cbn.
    + split; [intro H; injection H as <-; cbn; f_equal; now apply IH|]. destruct vs as [|v' vs]; [discriminate|]. cbn. intro H. injection H as -> H.
      apply IH in H. now injection H as <-.
    + split; [discriminate|]. destruct vs as [|v' vs]; [discriminate|]. cbn. intro H. injection H as -> H. apply IH in H. discriminate.
    + split; [discriminate|]. destruct vs as [|v' vs]; [discriminate|]. cbn. intro H. injection H as -> H. apply IH in H. discriminate.
Qed.
Lemma ret_ok target sl1 vs : (forall t, target = Some t -> length t = length sl1) ->
  post_ret target sl1 = Ok vs <-> all3 (fun i _ st v => value_of target i st v) 0 sl1 sl1 vs.
Proof.
  intro L. unfold post_ret, value_of. rewrite all3_nth. cbn [Nat.add]. destruct target as [t|].
  - specialize (L t eq_refl). split.
    + intro H. injection H as <-. split; auto. split; [rewrite overwrite_len; auto|]. revert sl1 L. induction t as [|tv t IH]; intros [|st sl] L; try discriminate; intros [|j] a b c N1 N2 N3; cbn in *; try discriminate.
      * injection N1 as ->. injection N2 as ->. injection N3 as <-. eauto.
      * injection L as L. eapply (IH sl L j a b c); eauto.
    + intros [_ [L2 H]]. f_equal. revert sl1 vs L L2 H. induction t as [|tv t IH]; intros [|st sl] [|v vs] L L2 H; try discriminate; auto. cbn [overwrite].
      f_equal.
      * destruct (H 0 st st v eq_refl eq_refl eq_refl) as [tv' [E ->]]. injection E as <-. auto.
      * apply IH; [now injection L|now injection L2|]. intros j a b c N1 N2 N3. exact (H (S j) a b c N1 N2 N3).
  - rewrite unwrap_slots_ok. split.
    + intros ->. rewrite map_length. split; auto. split; auto. intros j a b c N1 N2 N3. rewrite nth_map, N3 in N2. cbn in N2. congruence.
    + intros [_ [L2 H]]. clear L. revert vs L2 H. induction sl1 as [|st sl IH]; intros [|v vs] L2 H; try discriminate; auto. cbn [map]. f_equal.
      * exact (H 0 st st v eq_refl eq_refl eq_refl).
      * apply IH; [now injection L2|]. intros j a b c N1 N2 N3. exact (H (S j) a b c N1 N2 N3).
Qed.
(** one field, from the slot after the loop *)
Definition slot_value (tm : tmode V) (target : option (list V)) (i : nat) (f : field) (o : option V) (v : V) : Prop :=
  exists st2 st1, m_out (has_target target) f (after_container tm f (o2s o)) st2 /\ set_field f st2 [] = (st1, []) /\ value_of target i st1 v.
Lemma containers_map tm : forall fs os, length os = length fs ->
  set_containers tm fs (map o2s os) = map (fun fo => after_container tm (fst fo) (o2s (snd fo))) (combine fs os).
Proof.
  destruct tm as [|pn obj].
  - intros fs os L. cbn [set_containers after_container]. revert os L. induction fs as [|f fs IH]; intros [|o os] L; try discriminate; auto. injection L as L. cbn. f_equal. rewrite <- (IH os L). destruct fs; reflexivity.
  - induction fs as [|f fs IH]; intros [|o os] L; try discriminate; auto. injection L as L. cbn [map combine fst snd]. rewrite <- IH by auto. reflexivity.
Qed.
Lemma um_len tm vt variant m sp ins : forall fs sl es index a b sl2 es2, length sl = length fs ->
  unnamed_missing tm vt variant m sp ins fs sl es index a b = Ok (sl2, es2) -> length sl2 = length (fs : list field).
Proof.
  induction fs as [|f fs IH]; intros sl es index a b sl2 es2 LS U; destruct sl as [|st sl]; try discriminate; cbn [unnamed_missing] in U.
  - injection U as <- <-. auto.
  - injection LS as LS.
    repeat match type of U with
      | (if ?c then _ else _) = _ => destruct c
      | match f_kind f with _ => _ end = _ => destruct (f_kind f)
      | match d_missing ?d ?n ?s with _ => _ end = _ => destruct (d_missing d n s)
      | match parse_empty ?x ?y with _ => _ end = _ => destruct (parse_empty x y) as [[? ?]| |]
      end; try discriminate;
    match type of U with match ?q with _ => _ end = _ => destruct q as [[sl3 es3]| |] eqn:Q; try discriminate; injection U as <- <-; cbn; f_equal; eapply IH; [exact LS|exact Q] end.
Qed.
Lemma post_ok tm target variant m sp ins fs os es index vs :
  Forall (fun f => wants_error (has_target target) f = true -> m_good f) fs -> length os = length fs ->
  (forall t, target = Some t -> length t = length fs) ->
  unnamed_post fs tm target variant m sp ins (map o2s os) es index = Ok vs <->
  es = [] /\ all3 (slot_value tm target) 0 fs os vs.
Proof.
  intros G L LT. unfold unnamed_post. rewrite containers_map by auto.
  set (sl := map (fun fo => after_container tm (fst fo) (o2s (snd fo))) (combine fs os)).
  assert (LS : length sl = length fs) by (unfold sl; rewrite map_length, combine_length; lia).
  assert (SN : forall j f o, nth_error fs j = Some f -> nth_error os j = Some o -> nth_error sl j = Some (after_container tm f (o2s o))).
  { unfold sl. clear -L. revert os L. induction fs as [|f0 fs IH]; intros [|o0 os] L [|j] f o N1 N2; try discriminate; cbn in *.
    - congruence.
    - apply IH; auto. }
  split.
  - destruct (unnamed_missing tm (has_target target) variant m sp ins fs sl es index 0 0) as [[sl2 es2]| |] eqn:U; try discriminate. cbn [rbind].
    unfold post_finish. destruct (field_sets fs sl2 es2) as [sl1 es1] eqn:FS. destruct es1; [|discriminate]. cbn [check rbind].
    intro R. assert (L2 : length sl2 = length fs).
    { exact (um_len _ _ _ _ _ _ _ _ _ _ _ _ _ _ LS U). }
    destruct (proj1 (sets_ok fs sl2 es2 sl1 0 L2) FS) as [-> FS']. clear FS. rename FS' into FS.
    destruct (proj1 (um_ok _ _ _ _ _ _ _ _ _ _ _ _ _ G LS) U) as [-> U']. clear U. rename U' into U. split; auto.
    assert (L1 : length sl1 = length fs) by (apply all3_nth in FS; lia).
    apply ret_ok in R; [|intros t E; rewrite L1; auto].
    apply all3_nth in U. apply all3_nth in FS. apply all3_nth in R. apply all3_nth. destruct U as [_ [_ U]]. destruct FS as [_ [_ FS]]. destruct R as [_ [L3 R]]. split; [auto|]. split; [lia|].
    intros j f o v N1 N2 N3. specialize (SN j f o N1 N2).
    destruct (nth_error sl2 j) as [st2|] eqn:E2; [|assert (j < length fs) by (apply nth_error_Some; congruence); apply nth_error_None in E2; lia].
    destruct (nth_error sl1 j) as [st1|] eqn:E1; [|assert (j < length fs) by (apply nth_error_Some; congruence); apply nth_error_None in E1; lia].
    exists st2, st1. cbn [Nat.add] in *. split; [eapply (U j f _ st2); eauto|]. split; [eapply (FS j f st2 st1); eauto|eapply (R j st1 st1 v); eauto].
  - intros [-> H]. 
    assert (X : exists sl2 sl1, all3 (fun _ => m_out (has_target target)) 0 fs sl sl2 /\
       all3 (fun _ f st st1 => set_field f st [] = (st1, [])) 0 fs sl2 sl1 /\ all3 (fun i _ st v => value_of target i st v) 0 sl1 sl1 vs).
    { unfold sl. clear -H. revert H. generalize 0. induction 1 as [i|i f o v fs os vs [st2 [st1 [A [B D]]]] H [sl2 [sl1 [X1 [X2 X3]]]]].
      - exists [], []. repeat split; constructor.
      - exists (st2 :: sl2), (st1 :: sl1). cbn [combine map fst snd]. split; [constructor; auto|]. split; constructor; auto. }
    destruct X as [sl2 [sl1 [X1 [X2 X3]]]].
    rewrite (proj2 (um_ok tm (has_target target) variant m sp ins fs sl [] index 0 0 sl2 G LS) (conj eq_refl X1)). cbn [rbind]. unfold post_finish.
    assert (L2 : length sl2 = length fs) by (apply all3_nth in X1; lia).
    assert (L1 : length sl1 = length fs) by (apply all3_nth in X2; lia).
    rewrite (proj2 (sets_ok fs sl2 [] sl1 0 L2) (conj eq_refl X2)). cbn [check rbind].
    apply ret_ok; [intros t E; rewrite L1; auto|auto].
Qed.

(** errors already collected make the result an error *)
Lemma um_es tm vt variant m sp ins : forall fs sl es index a b sl2,
  Forall (fun f => wants_error vt f = true -> m_good f) fs ->
  unnamed_missing tm vt variant m sp ins fs sl es index a b = Ok (sl2, []) -> es = [].
Proof.
  induction fs as [|f fs IH]; intros sl es index a b sl2 G U; cbn [unnamed_missing] in U; [injection U; auto|].
  destruct sl as [|st sl]; [injection U; auto|]. inversion G as [|? ? GF G']; subst.
  assert (NX : forall (st' : fstatus V) es' index' a' b', match unnamed_missing tm vt variant m sp ins fs sl es' index' a' b' with
    | Ok (sl2, es2) => Ok (st' :: sl2, es2) | Err e => Err e | Bad b => Bad b end = Ok (sl2, []) -> es' = []).
  { intros st' es' i' a' b' H. destruct (unnamed_missing tm vt variant m sp ins fs sl es' i' a' b') as [[sl3 es3]| |] eqn:Q; try discriminate.
    injection H as _ ->. eapply IH; eauto. }
  destruct (wants_error vt f && fs_is_none st) eqn:W; [|eapply NX; exact U].
  apply andb_true_iff in W as [W1 _]. destruct (GF W1) as [d [K _]]. rewrite K in U.
  match type of U with match d_missing ?d ?n ?s with _ => _ end = _ => destruct (d_missing d n s) as [w|e|x] end; [eapply NX; exact U| |discriminate].
  apply NX in U. unfold push_syn in U. apply app_eq_nil in U. apply U.
Qed.
Lemma sets_es : forall (fs : list field) sl es sl1, field_sets fs sl es = (sl1, []) -> es = [].
Proof.
  induction fs as [|f fs IH]; intros sl es sl1 H; cbn [field_sets] in H; [now injection H|]. destruct sl as [|st sl]; [now injection H|].
  assert (SF : set_field f st es = (fst (set_field f st []), es ++ snd (set_field f st []))) by apply run_transforms_es.
  rewrite SF in H. destruct (field_sets fs sl (es ++ snd (set_field f st []))) as [sl2 es2] eqn:Q. injection H as _ ->. apply IH in Q. apply app_eq_nil in Q. apply Q.
Qed.
Lemma post_es tm target variant m sp ins fs sl es index vs :
  Forall (fun f => wants_error (has_target target) f = true -> m_good f) fs ->
  unnamed_post fs tm target variant m sp ins sl es index = Ok vs -> es = [].
Proof.
  intros G. unfold unnamed_post.
  destruct (unnamed_missing tm (has_target target) variant m sp ins fs (set_containers tm fs sl) es index 0 0) as [[sl2 es2]| |] eqn:U; try discriminate. cbn [rbind].
  unfold post_finish. destruct (field_sets fs sl2 es2) as [sl1 es1] eqn:FS. destruct es1; [|discriminate]. intros _.
  apply sets_es in FS. subst. eapply um_es; eauto.
Qed.

Section Body.
Variable fs : list field.
Hypothesis PL : plain fs.
Local Notation st0 := (list (fstatus V) * errors * nat)%type.
Definition sstep := @gstep V st0 (tlook fs 0) fst (fun st x => (x, snd st)).
Lemma plain_flat : existsb pflat fs = false.
Proof.
  unfold plain in PL. induction PL as [|f l H P IH]; auto. cbn [existsb]. rewrite IH by auto. rewrite orb_false_r. unfold pflat, is_flat.
  destruct (is_parsable f); auto. destruct (H eq_refl) as [d [K _]]. now rewrite K.
Qed.
Lemma s_fo c st s rest st1 s1 : c < length (filter is_parsable fs) -> sstep c st s = (Ok st1, s1) -> tuple_closure fs c st (s :: rest) = (Ok tt, st1, s1 :: rest).
Proof.
  intros _. unfold sstep, gstep, tuple_closure, tlook, fs_parse_unnamed. destruct st as [[sl es] index]. rewrite plain_flat.
  destruct (nth_error (tuple_fields fs 0) c) as [[ri f]|]; [|discriminate]. destruct (f_kind f) as [d| | | |]; try discriminate.
  destruct (d_item d Unnamed s) as [[v|e|b] s2]; intro H; try discriminate; injection H as <- <-; reflexivity.
Qed.
Lemma s_fe c st s rest : c < length (filter is_parsable fs) -> (forall st1, fst (sstep c st s) <> Ok st1) -> fst (fst (tuple_closure fs c st (s :: rest))) <> Ok tt.
Proof.
  intros LC. assert (X : exists d ri, tlook fs 0 c = Some (ri, d)).
  { rewrite <- (dicts_len fs PL) in LC. destruct (nth_error (dicts fs) c) as [d|] eqn:E; [|apply nth_error_None in E; lia].
    destruct (tlook_dicts fs PL 0 c d E) as [ri K]. exists d, ri. exact K. }
  destruct X as [d [ri K]]. unfold sstep, gstep, tuple_closure, fs_parse_unnamed. destruct st as [[sl es] index]. rewrite K. unfold tlook in K.
  destruct (nth_error (tuple_fields fs 0) c) as [[ri' f]|]; [|discriminate]. destruct (f_kind f) as [d'| | | |]; try discriminate. injection K as -> ->.
  destruct (d_item d Unnamed s) as [[v|e|b] s2]; cbn [fst]; intro H; try discriminate; exfalso; eapply H; reflexivity.
Qed.
Lemma each_eof_ok : forall l, fst (each_eof l) = Ok tt <-> Forall used_up l.
Proof.
  induction l as [|s l IH]; cbn [each_eof]; [split; auto|].
  assert (E : fst (parse_eof s) = Ok tt <-> used_up s).
  { unfold parse_eof, used_up. destruct (toks s) as [|t r] eqn:T.
    - cbn. rewrite T. split; auto.
    - destruct (is_comma t) eqn:C; cbn [toks set_toks].
      + destruct r; cbn [fst]; split; auto; intro H; [right; eauto|discriminate|]. destruct H as [H|[u [H _]]]; discriminate.
      + rewrite T. cbn [fst]. split; [discriminate|]. intros [H|[u [H1 H2]]]; [discriminate|]. injection H1 as -> ->. congruence. }
  destruct (parse_eof s) as [[[]|e|b] s1]; cbn [fst] in *.
  - destruct (each_eof l) as [r l1]. cbn [fst] in *. rewrite IH. split; [intro H; constructor; [now apply E|auto]|intro H; now inversion H].
  - split; [discriminate|]. intro H. inversion H as [|? ? H1 _]; subst. apply E in H1. discriminate.
  - split; [discriminate|]. intro H. inversion H as [|? ? H1 _]; subst. apply E in H1. discriminate.
Qed.
Lemma each_eof_after : forall l l1, each_eof l = (Ok tt, l1) -> Forall used_up l1.
Proof.
  induction l as [|s l IH]; intros l1 H; cbn [each_eof] in H; [injection H as <-; auto|].
  destruct (parse_eof s) as [[[]|e|b] s1] eqn:P; try discriminate. destruct (each_eof l) as [r l2]. injection H as -> <-. constructor; auto.
  left. unfold parse_eof in P. destruct (toks (match toks s with t :: r => if is_comma t then set_toks s r else s | [] => s end)) eqn:T; [|discriminate].
  injection P as <-. exact T.
Qed.
Lemma each_eof_bad l b : fst (each_eof l) <> Bad b.
Proof.
  induction l as [|s l IH]; cbn [each_eof]; [discriminate|]. unfold parse_eof.
  set (s1 := match toks s with t :: r => if is_comma t then set_toks s r else s | [] => s end). destruct (toks s1).
  - destruct (each_eof l). exact IH.
  - discriminate.
Qed.
Lemma place_nil l : place l [] = map (fun _ => None) l.
Proof. induction l as [|f l IH]; cbn; auto. rewrite IH. destruct (is_parsable f); auto. Qed.
Lemma positional_none l : forallb (fun f => negb (is_parsable f)) l = true -> forall os, positional l [] os <-> os = place l [].
Proof.
  induction l as [|f l IH]; intros H os; cbn [place].
  - split; [intro X; inversion X; auto|intros ->; constructor].
  - cbn [forallb] in H. apply andb_true_iff in H as [H1 H2]. apply negb_true_iff in H1. rewrite H1. split.
    + intro X. inversion X; subst; try congruence. f_equal. now apply IH.
    + intros ->. apply Po_other; auto. now apply IH.
Qed.
Lemma init_place : init_slots fs = map o2s (place fs []).
Proof. unfold init_slots. rewrite place_nil, map_map. reflexivity. Qed.
Lemma unnamed_ok tm target variant m sp index l vs :
  Forall (fun f => wants_error (has_target target) f = true -> m_good f) fs ->
  (forall t, target = Some t -> length t = length fs) ->
  (fst (unnamed_body fs tm target variant m sp index l) = Ok vs /\
   Forall used_up (snd (unnamed_body fs tm target variant m sp index l))) <->
  exists l1 os, supplies (length (filter is_parsable fs)) 0 l l1 /\ positional fs (items_of l1) os /\
    all3 (slot_value tm target) 0 fs os vs.
Proof.
  intros G LT. unfold unnamed_body. destruct (existsb is_parsable fs) eqn:EX.
  - set (n := length (filter is_parsable fs)). set (i0 := (init_slots fs, [], index) : st0).
    pose proof (tuple_loop_reads sstep n (tuple_closure fs) s_fo s_fe (gs_us _ _ _ (tlook_fine fs 0 PL)) (gs_ss _ _ _ (tlook_fine fs 0 PL))
      (gs_ks _ _ _ (tlook_fine fs 0 PL)) (S (n + length l)) 0 i0 l) as T.
    unfold parse_tuple_struct.
    assert (FP : forall ws, fill (tlook fs 0) 0 ws (init_slots fs) = map o2s (place fs ws)).
    { intro ws. apply (fill_place fs ws PL (tlook fs 0) 0 []). intro j. reflexivity. }
    assert (RA : forall l1, length (elems l1) <= n -> forall ws, rl (tlook fs 0) 0 (elems l1) ws <-> each_accepts (firstn (length (items_of l1)) (dicts fs)) (items_of l1) ws).
    { intros l1 LE ws. rewrite <- elems_items, map_length. apply rl_accepts; auto.
      - intros c ri d. apply (tlook_fine fs 0 PL).
      - intros x I. eapply elem_of; eauto.
      - rewrite firstn_length, dicts_len by auto. fold n. lia.
      - intros j d N. apply (tlook_dicts fs PL 0 j d). cbn [Nat.add].
        rewrite <- N. symmetry. assert (j < length (elems l1)).
        { assert (X : j < length (firstn (length (elems l1)) (dicts fs))) by (apply nth_error_Some; congruence). rewrite firstn_length in X. lia. }
        clear -H. revert j H. generalize (dicts fs). induction (length (elems l1)) as [|k IH]; intros ds j H; [lia|]. destruct ds; [now rewrite firstn_nil|]. destruct j; cbn; auto. apply IH. lia. }
    destruct (tuple_loop n (tuple_closure fs) (S (n + length l)) 0 i0 l) as [[r [[sl es] idx]] l'] eqn:TL. split.
    + intros [H1 H2]. assert (H2' : Forall used_up l') by (destruct r; exact H2). clear H2.
      assert (RO : exists k, r = Ok k /\ es = []).
      { destruct r as [k|e|b]; cbn [fst push_result] in H1.
        - exists k. split; auto. eapply post_es; eauto.
        - exfalso. apply post_es in H1; auto. unfold push_syn in H1. apply app_eq_nil in H1 as [_ H1]. now apply errs_of_ne in H1.
        - discriminate. }
      destruct RO as [k [-> ->]]. cbn [fst push_result] in H1.
      assert (T' := proj1 (T k (sl, [], idx) (Nat.le_0_l _) ltac:(lia)) (conj eq_refl H2')). destruct T' as [l1 [SU [P Q]]].
      destruct (g_inv (tlook fs 0) fst (fun st x => (x, snd st)) ltac:(auto) ltac:(auto) ltac:(intros [? ?]; auto) 0 i0 (elems l1) (sl, [], idx) P eq_refl) as [_ [ws [R E]]].
      cbn [fst snd i0] in E. injection E as -> ->. rewrite FP in H1. apply post_ok in H1 as [_ H1]; auto; [|apply place_len].
      exists l1, (place fs ws). split; auto. split; auto. apply positional_place; auto. exists ws. split; auto. apply RA; auto. destruct SU as [l2 [_ [LE _]]]. exact LE.
    + intros [l1 [os [SU [P H]]]]. apply positional_place in P as [ws [EA ->]]; auto. apply RA in EA; [|destruct SU as [l2 [_ [LE _]]]; exact LE].
      assert (PS := g_conv (tlook fs 0) fst (fun st x => (x, snd st)) ltac:(auto) ltac:(auto) ltac:(intros [? ?]; auto) _ _ _ EA i0 eq_refl).
      destruct (proj2 (T (length (elems l1)) (fill (tlook fs 0) 0 ws (fst (fst i0)), [], snd i0) (Nat.le_0_l _) ltac:(lia))) as [K1 K2].
      { exists l1. split; auto. }
      cbn [fst snd i0] in K1, K2. injection K1 as -> -> -> ->. cbn [fst snd push_result]. rewrite FP. split; auto. apply post_ok; auto. apply place_len.
  - assert (NP : forallb (fun f => negb (is_parsable f)) fs = true).
    { clear -EX. induction fs as [|f l IH]; auto. cbn in *. apply orb_false_iff in EX as [E1 E2]. rewrite E1. cbn. auto. }
    assert (CZ : length (filter is_parsable fs) = 0).
    { clear -NP. induction fs as [|f l IH]; auto. cbn in *. apply andb_true_iff in NP as [E1 E2]. apply negb_true_iff in E1. rewrite E1. auto. }
    rewrite CZ. destruct (each_eof l) as [[[]|e|b] l1] eqn:EE; cbn [fst snd].
    + rewrite init_place. assert (UU : Forall used_up l) by (apply each_eof_ok; now rewrite EE). split.
      * intros [H _]. apply post_ok in H as [_ H]; auto; [|apply place_len]. exists [], (place fs []). split; [|split; auto; now apply positional_none].
        exists l. cbn. refine (conj eq_refl (conj _ (conj UU _))); auto.
      * intros [l2 [os [[l3 [-> [LE _]]] [P H]]]]. assert (EN : items_of l2 = []).
        { rewrite <- elems_items. destruct (elems l2); auto. simpl in LE. lia. }
        rewrite EN in P. apply positional_none in P; auto. subst os. split; [apply post_ok; auto; apply place_len|]. eapply each_eof_after; eauto.
    + split; [intros [H _]; discriminate|]. intros [l2 [os [SU _]]]. exfalso.
      assert (UU : Forall used_up l).
      { destruct SU as [l3 [-> [LE [U _]]]]. apply Forall_app. split; auto. apply blank_ends. apply elems_none. destruct (elems l2); auto. simpl in LE. lia. }
      apply each_eof_ok in UU. rewrite EE in UU. discriminate.
    + exfalso. apply (each_eof_bad l b). now rewrite EE.
Qed.
End Body.

Lemma same_plain (fs gs : list field) : Forall2 (fun f g => is_parsable g = is_parsable f /\ f_kind g = f_kind f) fs gs ->
  (plain fs -> plain gs) /\ length (filter is_parsable gs) = length (filter is_parsable fs) /\
  (forall its os, positional gs its os <-> positional fs its os).
Proof.
  induction 1 as [|f g fs gs [E1 E2] H [IH1 [IH2 IH3]]].
  - split; auto. split; auto. intros; split; intro H; inversion H; constructor.
  - split; [|split].
    + intro P. inversion P as [|? ? A B]; subst. constructor; [rewrite E1, E2; auto|apply IH1; auto].
    + cbn [filter]. rewrite E1. destruct (is_parsable f); cbn; auto.
    + intros its os; split; intro X; inversion X; subst.
      * apply Po_item with (d := d); try congruence; auto. now apply IH3.
      * apply Po_short; [congruence|]. now apply IH3.
      * apply Po_other; [congruence|]. now apply IH3.
      * apply Po_item with (d := d); try congruence; auto. now apply IH3.
      * apply Po_short; [congruence|]. now apply IH3.
      * apply Po_other; [congruence|]. now apply IH3.
Qed.
Lemma set_some (f : field) w st1 : set_field f (FSome w) [] = (st1, []) <-> exists v, st1 = FSome v /\ transformed (f_transforms f) w v.
Proof.
  unfold set_field. assert (X : match f_default f with Some v => fs_or_else (FSome w) (fun _ => FSome v) | None => FSome w end = FSome w) by (destruct (f_default f); auto).
  cbv zeta. rewrite X. split.
  - intro H. destruct (run_transformed (f_transforms f) w) as [v [T E]]; [now rewrite H|]. rewrite E in H. injection H as <-. eauto.
  - intros [v [-> T]]. now apply transformed_run.
Qed.
Lemma value_some (t : option (list V)) i w v n : (forall l, t = Some l -> length l = n) -> i < n -> value_of t i (FSome w) v <-> v = w.
Proof.
  intros L I. unfold value_of. destruct t as [l|].
  - split; [intros [tv [_ ->]]; auto|]. intros ->. destruct (nth_error l i) as [tv|] eqn:E; [exists tv; auto|]. apply nth_error_None in E. rewrite (L l eq_refl) in E. lia.
  - split; [intro H; injection H; auto|intros ->; auto].
Qed.
Lemma slot_eff tm (s : sdef V) i f g o v :
  (forall t, s_default s = Some t -> length t = length (s_raw s)) ->
  nth_error (s_raw s) i = Some f ->
  f_default g = field_default s tm f -> f_kind g = f_kind f -> f_transforms g = f_transforms f -> f_container g = f_container f ->
  (o <> None -> is_parsable f = true) -> uniform_missing f ->
  slot_value tm (s_default s) i g o v <->
  match o with Some w => transformed (f_transforms f) w v | None => left_out s tm "" SCall i f v end.
Proof.
  intros LT N FD FK FT FC PO UM. assert (IL : i < length (s_raw s)) by (apply nth_error_Some; congruence).
  assert (SV : forall w, (exists st1, set_field g (FSome w) [] = (st1, []) /\ value_of (s_default s) i st1 v) <-> transformed (f_transforms f) w v).
  { intro w. split.
    - intros [st1 [A B]]. apply set_some in A as [u [-> T]]. rewrite (value_some _ _ _ _ _ LT IL) in B. subst. now rewrite <- FT.
    - intro T. exists (FSome v). rewrite set_some, FT. split; [eauto|]. now apply (value_some _ _ _ _ _ LT IL). }
  unfold slot_value. destruct o as [w|].
  - assert (AC : after_container tm g (o2s (Some w)) = FSome w).
    { cbn [o2s]. unfold after_container. destruct tm; auto. rewrite FC. assert (P := PO ltac:(discriminate)). unfold is_parsable in P. destruct (f_container f); auto. discriminate. }
    rewrite AC, <- SV. unfold m_out. cbn [fs_is_none]. rewrite andb_false_r. split; [intros [st2 [st1 [-> H]]]; eauto|intros [st1 H]; eauto].
  - cbn [o2s]. destruct (match tm with TAttrs _ _ => f_container f | TMeta => false end) eqn:CT.
    + destruct tm as [|pn obj]; [discriminate|]. cbn [after_container]. rewrite FC, CT. unfold m_out. cbn [fs_is_none]. rewrite andb_false_r. split.
      * intros [st2 [st1 [-> H]]]. eapply LO_container; eauto. apply SV. eauto.
      * intro H. inversion H as [pn' o' E1 E2 E3|w E1|t E1|d w E1]; subst.
        -- injection E1 as <- <-. apply SV in E3 as [st1 E3]. eauto.
        -- rewrite E1 in CT by discriminate. discriminate.
        -- rewrite E1 in CT by discriminate. discriminate.
        -- congruence.
    + assert (AC : after_container tm g FNone = FNone) by (unfold after_container; destruct tm; auto; now rewrite FC, CT).
      assert (NC : tm <> TMeta -> f_container f = false) by (destruct tm; congruence).
      assert (NC2 : forall pn obj, tm = TAttrs pn obj -> f_container f = false) by (intros pn obj ->; congruence).
      rewrite AC. unfold m_out, wants_error. cbn [fs_is_none]. rewrite andb_true_r, FD, FC, FK. unfold set_field. rewrite FD.
      destruct (field_default s tm f) as [w|] eqn:DF.
      * rewrite andb_false_r. cbn [andb]. split.
        -- intros [st2 [st1 [-> H]]]. eapply LO_default; eauto. apply SV. unfold set_field. rewrite FD. cbn [fs_or_else] in *. exists st1. exact H.
        -- intro H. inversion H as [pn' o' E1 E2 E3|w' E1 E2 E3|t E1 E2|d w' E1 E2]; subst; try congruence.
           assert (w' = w) by congruence. subst. apply SV in E3 as [st1 E3]. unfold set_field in E3. rewrite FD in E3. exists FNone, st1. auto.
      * destruct (f_container f) eqn:FCF.
        { exfalso. unfold field_default in DF. destruct (f_default f); [discriminate|]. destruct (f_skip f && negb (has_target (s_default s))); [discriminate|].
          destruct tm; [|congruence]. rewrite FCF in DF. discriminate. }
        cbn [negb andb]. destruct (s_default s) as [t|] eqn:SD.
        -- cbn [has_target negb]. split.
           ++ intros [st2 [st1 [-> [H1 H2]]]]. rewrite run_transforms_none in H1. injection H1 as <-. destruct H2 as [tv [E ->]].
              eapply LO_struct; eauto.
           ++ intro H. inversion H as [pn' o' E1 E2 E3|w' E1 E2 E3|t' E1 E2 E3 E4|d w' E1 E2 E3]; subst; try congruence.
              assert (t' = t) by congruence. subst. exists FNone, FNone. rewrite run_transforms_none. split; auto. split; auto. cbn. eauto.
        -- cbn [has_target negb]. split.
           ++ intros [st2 [st1 [[d [w [n [sp [K [D ->]]]]]] H]]]. eapply LO_missing; eauto. apply SV. exists st1. unfold set_field. rewrite FD. exact H.
           ++ intro H. inversion H as [pn' o' E1 E2 E3|w' E1 E2 E3|t' E1 E2 E3 E4|d w' E1 E2 E3 E4 E5 E6]; subst; try congruence.
              apply SV in E6 as [st1 E6]. unfold set_field in E6. rewrite FD in E6. exists (FSome w'), st1. split; auto. exists d, w', (missing_name_named tm "" f), SCall. auto.
Qed.
Lemma tuple_fields_ok (s : sdef V) tm :
  tuple_struct s -> Forall (fun f => forall d, is_parsable f = true -> f_kind f = KItem d -> fine d) (s_raw s) -> Forall uniform_missing (s_raw s) ->
  plain (s_fields tm s) /\ Forall (fun f => wants_error (has_target (s_default s)) f = true -> m_good f) (s_fields tm s) /\
  length (filter is_parsable (s_fields tm s)) = length (filter is_parsable (s_raw s)) /\
  (forall its os, positional (s_fields tm s) its os <-> positional (s_raw s) its os).
Proof.
  intros [AS [SH [NF LT]]] FI UM.
  assert (PL : plain (s_raw s)).
  { unfold plain. apply Forall_forall. intros f I P. rewrite Forall_forall in FI. specialize (FI f I).
    assert (GF := proj1 AS). rewrite Forall_forall in GF. specialize (GF f I P). rewrite SH in GF.
    assert (PF : pflat f = false).
    { unfold no_flat in NF. destruct (pflat f) eqn:E; auto. rewrite <- NF. symmetry. apply existsb_exists. eauto. }
    unfold pflat in PF. rewrite P in PF. unfold is_flat in PF. destruct (f_kind f) as [d| | | |]; try discriminate; try contradiction. eauto. }
  assert (EFF : Forall2 (fun f g => is_parsable g = is_parsable f /\ f_kind g = f_kind f) (s_raw s) (s_fields tm s)).
  { assert (L := s_fields_len tm s). assert (E := s_fields_eff tm s). revert L E. generalize (s_fields tm s) (s_raw s). clear.
    intros gs fs. revert gs. induction fs as [|f fs IH]; intros [|g gs] L E; try discriminate; constructor.
    - destruct (E 0 f eq_refl) as [g' [N [_ [K [_ [C [P1 [P2 _]]]]]]]]. cbn in N. injection N as <-. split; auto.
      unfold pitem, pflat, is_parsable, is_flat in *. rewrite K in *. destruct (f_kind f); cbn in *; rewrite ?andb_true_r, ?andb_false_r in *; congruence.
    - apply IH; [now injection L|]. intros i f' N. exact (E (S i) f' N). }
  destruct (same_plain _ _ EFF) as [P1 [P2 P3]]. specialize (P1 PL).
  assert (WE : Forall (fun f => wants_error (has_target (s_default s)) f = true -> m_good f) (s_fields tm s)).
  { apply Forall_forall. intros g I W. apply In_nth_error in I as [i N].
    assert (X : exists f, nth_error (s_raw s) i = Some f).
    { destruct (nth_error (s_raw s) i) eqn:E; eauto. apply nth_error_None in E. rewrite <- (s_fields_len tm s) in E. apply nth_error_None in E. congruence. }
    destruct X as [f NR]. destruct (s_fields_eff tm s i f NR) as [g' [N' [FD [K [_ [C _]]]]]]. assert (g' = g) by congruence. subst g'.
    assert (PF : is_parsable f = true).
    { unfold wants_error in W. apply andb_true_iff in W as [W W3]. apply andb_true_iff in W as [W1 W2]. rewrite FD in W2. rewrite C in W1.
      unfold is_parsable. rewrite W1. cbn. destruct (f_skip f) eqn:FS; auto. unfold field_default in W2. destruct (f_default f); [discriminate|]. rewrite FS, W3 in W2. discriminate. }
    assert (IN := nth_error_In _ _ NR). unfold plain in PL. rewrite Forall_forall in PL, UM. destruct (PL f IN PF) as [d [KD FN]]. exists d. split; [congruence|]. split.
    - intros d' n q w n' q' K' D. eapply (UM f IN); eauto. congruence.
    - apply (gd_missing d (fi_good d FN)). }
  auto.
Qed.
Lemma tuple_struct_ok (s : sdef V) tm m sp prefix v index l ws :
  tuple_struct s -> Forall (fun f => forall d, is_parsable f = true -> f_kind f = KItem d -> fine d) (s_raw s) -> Forall uniform_missing (s_raw s) ->
  (fst (s_body s tm m sp prefix v index l) = Ok ws /\ Forall used_up (snd (s_body s tm m sp prefix v index l))) <->
  exists l1 os vs, supplies (length (filter is_parsable (s_raw s))) 0 l l1 /\
    positional (s_raw s) (items_of l1) os /\ tuple_values s tm os vs /\ chained (s_and_thens s) vs ws.
Proof.
  intros TS FI UM. destruct (tuple_fields_ok s tm TS FI UM) as [P1 [WE [P2 P3]]]. destruct TS as [AS [SH [NF LT]]].
  assert (SB : s_body s tm m sp prefix v index l = (after_and_thens (s_and_thens s) (fst (unnamed_body (s_fields tm s) tm (s_default s) false m sp index l)),
                                                   snd (unnamed_body (s_fields tm s) tm (s_default s) false m sp index l))).
  { unfold s_body. rewrite SH. unfold p_and_thens. now destruct (unnamed_body _ _ _ _ _ _ _ l). }
  rewrite SB. cbn [fst snd].
  assert (LT' : forall t, s_default s = Some t -> length t = length (s_fields tm s)) by (intros t E; rewrite s_fields_len; auto).
  pose proof (fun vs => unnamed_ok (s_fields tm s) P1 tm (s_default s) false m sp index l vs WE LT') as X.
  assert (TV : forall os vs its, positional (s_raw s) its os -> all3 (slot_value tm (s_default s)) 0 (s_fields tm s) os vs <-> tuple_values s tm os vs).
  { intros os vs its PO. unfold tuple_values. rewrite all3_nth, s_fields_len. cbn [Nat.add].
    assert (PP : length os = length (s_raw s) /\ forall i f w, nth_error (s_raw s) i = Some f -> nth_error os i = Some (Some w) -> is_parsable f = true).
    { clear -PO. induction PO as [|f d fs seg segs v os PF K AC X [IH1 IH2]|f fs os PF X [IH1 IH2]|f fs segs os PF X [IH1 IH2]]; simpl; (split; [lia|]); intros [|i] f' w' N1 N2; try discriminate; cbn in *; eauto; congruence. }
    destruct PP as [PP1 PP2]. split.
    - intros [_ [L2 H]]. split; auto. intros i f o w N1 N2 N3. destruct (s_fields_eff tm s i f N1) as [g [N' [FD [K [T [C _]]]]]].
      apply (slot_eff tm s i f g o w LT N1 FD K T C); [|rewrite Forall_forall in UM; apply UM; eapply nth_error_In; eauto|exact (H i g o w N' N2 N3)].
      intro NN. destruct o as [u|]; [|congruence]. eauto.
    - intros [L2 H]. split; auto. split; auto. intros i g o w N1 N2 N3.
      destruct (nth_error (s_raw s) i) as [f|] eqn:NR.
      2: { apply nth_error_None in NR. rewrite <- (s_fields_len tm s) in NR. apply nth_error_None in NR. congruence. }
      destruct (s_fields_eff tm s i f NR) as [g' [N' [FD [K [T [C _]]]]]]. assert (g' = g) by congruence. subst g'.
      apply (slot_eff tm s i f g o w LT NR FD K T C); [|rewrite Forall_forall in UM; apply UM; eapply nth_error_In; eauto|exact (H i f o w NR N2 N3)].
      intro NN. destruct o as [u|]; [|congruence]. eauto. }
  rewrite after_and_thens_ok. split.
  - intros [[vs [H1 C]] H2]. destruct (proj1 (X vs) (conj H1 H2)) as [l1 [os [S1 [S2 S3]]]]. rewrite P2 in S1. apply P3 in S2.
    exists l1, os, vs. split; auto. split; auto. split; auto. eapply TV; eauto.
  - intros [l1 [os [vs [S1 [S2 [S3 C]]]]]]. rewrite <- P2 in S1. destruct (proj2 (X vs)) as [H1 H2].
    { exists l1, os. split; auto. split; [now apply P3|]. eapply TV; eauto. }
    split; auto. eauto.
Qed.
End C.
