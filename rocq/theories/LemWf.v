(** Proofs behind the "never panics, always terminates" properties. *)
From Verif Require Export SpecWf.

Lemma adv_refl s : advances s s.
Proof. exists []. reflexivity. Qed.
Lemma adv_trans a b c : advances a b -> advances b c -> advances a c.
Proof. intros [p P] [q Q]. exists (p ++ q). rewrite P, Q, app_assoc. reflexivity. Qed.
Lemma advs_refl l : Forall2 advances l l.
Proof. induction l; constructor; auto using adv_refl. Qed.
Lemma advs_trans a : forall b c, Forall2 advances a b -> Forall2 advances b c -> Forall2 advances a c.
Proof.
  induction a; intros b c H; inversion H; subst; intro K; inversion K; subst; constructor; eauto using adv_trans.
Qed.
Lemma adv_len s s' : advances s s' -> length (toks s') <= length (toks s).
Proof. intros [p P]. rewrite P, app_length. lia. Qed.
Lemma adv_set s ts : (exists p, toks s = p ++ ts) -> advances s (set_toks s ts).
Proof. auto. Qed.
#[export] Hint Resolve adv_refl adv_trans advs_refl advs_trans : adv.

Definition gp2 {A} (s : stream) (x : res A * stream) : Prop :=
  returns (fst x) /\ advances s (snd x).
Definition gm2 {A} (l : list stream) (x : res A * list stream) : Prop :=
  returns (fst x) /\ Forall2 advances l (snd x).


Lemma wb_ret {A} (a : A) : well_behaved (pret a).
Proof. intro s. simpl. auto with adv. Qed.
Lemma wbm_ret {A} (a : A) : well_behaved_m (pret a).
Proof. intro s. simpl. auto with adv. Qed.
Lemma wb_bind {A B} (p : parser A) (f : A -> parser B) :
  well_behaved p -> (forall a, well_behaved (f a)) -> well_behaved (pbind p f).
Proof.
  intros Hp Hf s. unfold pbind. specialize (Hp s). destruct (p s) as [r s1]. simpl in Hp.
  destruct Hp as [R A1]. destruct r; simpl in *; auto.
  destruct (Hf a s1). eauto with adv.
Qed.
Lemma wbm_bind {A B} (p : mparser A) (f : A -> mparser B) :
  well_behaved_m p -> (forall a, well_behaved_m (f a)) -> well_behaved_m (pbind p f).
Proof.
  intros Hp Hf s. unfold pbind. specialize (Hp s). destruct (p s) as [r s1]. simpl in Hp.
  destruct Hp as [R A1]. destruct r; simpl in *; auto.
  destruct (Hf a s1). eauto with adv.
Qed.
Lemma returns_rmap {A B} (f : A -> B) r : returns r -> returns (rmap f r).
Proof. destruct r; simpl; auto. Qed.
Lemma returns_rbind {A B} (r : res A) (f : A -> res B) :
  returns r -> (forall a, r = Ok a -> returns (f a)) -> returns (rbind r f).
Proof. destruct r; simpl; auto. Qed.
Lemma wb_map {A B} (f : A -> B) p : well_behaved p -> well_behaved (pmap f p).
Proof.
  intros H s. unfold pmap. specialize (H s). destruct (p s). simpl in *. destruct H. split; auto.
  now apply returns_rmap.
Qed.
Lemma wbm_map {A B} (f : A -> B) p : well_behaved_m p -> well_behaved_m (pmap f p).
Proof.
  intros H s. unfold pmap. specialize (H s). destruct (p s). simpl in *. destruct H. split; auto.
  now apply returns_rmap.
Qed.
Lemma returns_into {A} es (v : A) : returns (into_result es v).
Proof. destruct es; simpl; auto. Qed.
Lemma returns_check es : returns (check es).
Proof. apply returns_into. Qed.

(** *** Syn *)
Lemma punct_rest_suffix cs : forall ts r, punct_rest cs ts = Some r -> exists p, ts = p ++ r.
Proof.
  induction cs as [|c cs IH]; simpl; intros ts r H.
  - injection H as <-. exists []. reflexivity.
  - destruct ts as [|[]]; try discriminate.
    destruct (Ascii.eqb c c0 && _); [|discriminate].
    destruct (IH _ _ H) as [p P]. exists (TPunct c0 joint sp :: p). now rewrite P.
Qed.
Lemma wb_punct cs n : well_behaved (parse_punct cs n).
Proof.
  intro s. unfold parse_punct. destruct (punct_rest cs (toks s)) eqn:E; simpl; auto with adv.
  split; auto. apply adv_set. eapply punct_rest_suffix; eauto.
Qed.
Lemma wb_comma : well_behaved parse_comma.
Proof. apply wb_punct. Qed.
Lemma wb_eq : well_behaved parse_eq.
Proof. apply wb_punct. Qed.
Lemma comma_consumes s s1 : parse_comma s = (Ok tt, s1) ->
  length (toks s) = S (length (toks s1)).
Proof.
  unfold parse_comma, parse_punct. cbn [punct_rest].
  destruct (toks s) as [|[]] eqn:E; try discriminate.
  destruct (Ascii.eqb comma_c c && true); [|discriminate]. injection 1 as <-. reflexivity.
Qed.
Lemma wb_group {A} d (f : parser A) : well_behaved f -> well_behaved (with_group d f).
Proof.
  intros Hf s. unfold with_group. destruct (toks s) as [|[]] eqn:E; simpl; auto with adv.
  destruct (delim_eqb d d0); simpl; auto with adv.
  specialize (Hf (group_content ts sp (cell s))).
  destruct (f _) as [r c]. simpl in *. destruct Hf. split; auto.
  exists [TGroup d0 ts sp]. simpl. exact E.
Qed.
Lemma wb_kw k : well_behaved (parse_kw k).
Proof.
  intro s. unfold parse_kw. destruct (toks s) as [|[]] eqn:E; simpl; auto with adv.
  destruct (String.eqb s0 k); simpl; auto with adv.
  split; auto. exists [TIdent s0 sp]. exact E.
Qed.
Lemma wb_ident : well_behaved parse_any_ident.
Proof.
  intro s. unfold parse_any_ident. destruct (toks s) as [|[]] eqn:E; simpl; auto with adv.
  split; auto. exists [TIdent s0 sp]. exact E.
Qed.
Lemma lit_rest_suffix ts l sp r : lit_rest ts = Some (l, sp, r) ->
  exists p, ts = p ++ r /\ p <> [].
Proof.
  destruct ts as [|[] ts]; simpl; try discriminate.
  - destruct (String.eqb s "true"); [|destruct (String.eqb s "false"); [|discriminate]];
      injection 1 as <- <- <-; eexists [_]; (split; [reflexivity|discriminate]).
  - destruct ts as [|[] ts]; try discriminate. destruct (Ascii.eqb c "-"); [|discriminate].
    destruct l0; try discriminate; injection 1 as <- <- <-; eexists [_; _];
      (split; [reflexivity|discriminate]).
  - injection 1 as <- <- <-. eexists [_]. split; [reflexivity|discriminate].
Qed.
Lemma wb_lit {A} w (sel : plit -> option A) : well_behaved (parse_lit_as w sel).
Proof.
  intro s. unfold parse_lit_as. destruct (lit_rest (toks s)) as [[[l sp] r]|] eqn:E; simpl; auto with adv.
  destruct (lit_rest_suffix _ _ _ _ E) as [p [P _]].
  destruct (sel l); simpl; (split; auto; exists p; exact P).
Qed.
Lemma returns_parse2 {A} (f : parser A) ts : well_behaved f -> returns (parse2 f ts).
Proof.
  intro H. unfold parse2. specialize (H (root_stream ts)). destruct (f _) as [r s]. simpl in H.
  destruct r; simpl in *; [|auto|tauto]. destruct (cell s); simpl; auto. destruct (toks s); simpl; auto.
Qed.

Section W.
Context {env : Env}.

(** *** Helpers *)
Lemma wb_eof : well_behaved parse_eof.
Proof.
  intro s. unfold parse_eof. destruct (toks s) as [|t r] eqn:E.
  - rewrite E. simpl. auto with adv.
  - destruct (is_comma t).
    + simpl. destruct r; simpl; (split; [auto|exists [t]; exact E]).
    + rewrite E. simpl. auto with adv.
Qed.
Lemma wb_delimited {A} d (f : parser A) : well_behaved f -> well_behaved (parse_delimited_with d f).
Proof.
  intro H. unfold parse_delimited_with. apply wb_group. apply wb_bind; auto. intro a.
  apply wb_bind; auto using wb_eof. intros _. apply wb_ret.
Qed.
Lemma wb_single {A} (f : mparser A) : well_behaved_m f -> well_behaved (on_single f).
Proof.
  intros H s. unfold on_single. specialize (H [s]). destruct (f [s]) as [r l]. simpl in *.
  destruct H as [R F]. split; auto. inversion F; subst. simpl. auto.
Qed.
Lemma returns_empty {A} sp (f : parser A) : well_behaved f -> returns (parse_empty sp f).
Proof.
  intro H. unfold parse_empty. pose proof (returns_parse2 f [] H).
  destruct (parse2 f []); simpl in *; auto.
Qed.
Lemma wbm_first {A} m (f : mode -> parser A) :
  well_behaved (f m) -> well_behaved_m (parse_first m f).
Proof.
  intros H l. unfold parse_first. destruct l as [|s l].
  - simpl. split; auto with adv. now apply returns_empty.
  - assert (W : well_behaved (a <- f m;; parse_eof;;; pret a)).
    { apply wb_bind; auto. intro. apply wb_bind; auto using wb_eof. intros _. apply wb_ret. }
    specialize (W s). destruct ((a <- f m;; parse_eof;;; pret a) s) as [r s1]. simpl in *. destruct W. split; auto.
    constructor; auto with adv.
Qed.
Lemma wb_named_with {A} (item : mode -> parser A) inline flag sp :
  (forall m, well_behaved (item m)) -> (forall m, well_behaved_m (inline m)) ->
  (forall sp, returns (flag sp)) -> well_behaved (parse_named_with item inline flag sp).
Proof.
  intros HI HL HF s. unfold parse_named_with. destruct (peek_eq s).
  - assert (W : well_behaved (parse_eq;;; item (Named sp))) by (apply wb_bind; auto using wb_eq).
    apply W.
  - destruct (peek_group Paren s).
    + assert (W : well_behaved (parse_delimited_with Paren (on_single (inline (Named sp)))))
        by (apply wb_delimited; apply wb_single; auto).
      apply W.
    + simpl. auto with adv.
Qed.
Lemma skip_suffix ts : exists p, ts = p ++ skip_toks ts.
Proof.
  induction ts as [|t r [p P]]; simpl.
  - exists []. reflexivity.
  - destruct (is_comma t); [exists []; reflexivity|]. exists (t :: p). now rewrite P at 1.
Qed.
Lemma adv_skip s : advances s (skip_item s).
Proof. unfold skip_item. apply adv_set. apply skip_suffix. Qed.
Lemma advs_skip_all l : Forall2 advances l (skip_all l).
Proof. induction l; constructor; auto. exists (toks a). simpl. now rewrite app_nil_r. Qed.
Lemma path_segs_suffix : forall n ts, length ts <= n -> exists p, ts = p ++ snd (path_segs ts).
Proof.
  induction n; intros ts L.
  - destruct ts; simpl in L; [|lia]. exists []. reflexivity.
  - destruct ts as [|[] ts]; simpl in *; try (exists []; reflexivity).
    destruct ts as [|[] ts]; simpl; try (eexists [_]; reflexivity).
    destruct ts as [|[] ts]; simpl; try (eexists [_]; reflexivity).
    destruct (Ascii.eqb c colon_c && Ascii.eqb c0 colon_c && joint); simpl; [|eexists [_]; reflexivity].
    destruct (IHn ts) as [p P]; [simpl in L; lia|].
    destruct (path_segs ts) as [[segs tr] r']. simpl in *.
    exists (TIdent s sp :: TPunct c joint sp0 :: TPunct c0 joint0 sp1 :: p). now rewrite P.
Qed.
Lemma path_segs_nonempty ts : fst (fst (path_segs ts)) <> [] ->
  exists t p, ts = t :: p ++ snd (path_segs ts).
Proof.
  destruct ts as [|[] ts]; simpl; try congruence. intros _.
  destruct ts as [|[] ts]; simpl; try (eexists _, []; reflexivity).
  destruct ts as [|[] ts]; simpl; try (eexists _, []; reflexivity).
  destruct (Ascii.eqb c colon_c && Ascii.eqb c0 colon_c && joint); simpl; [|eexists _, []; reflexivity].
  destruct (path_segs_suffix _ ts (le_n _)) as [p P].
  destruct (path_segs ts) as [[segs tr] r']. simpl in *.
  exists (TIdent s sp), (TPunct c joint sp0 :: TPunct c0 joint0 sp1 :: p). now rewrite P.
Qed.
Lemma wb_path : well_behaved parse_any_path.
Proof.
  intro s. unfold parse_any_path.
  destruct (match punct_rest [colon_c; colon_c] (toks s) with
            | Some r => (true, r) | None => (false, toks s) end) as [lead ts0] eqn:E.
  assert (S0 : exists p, toks s = p ++ ts0).
  { destruct (punct_rest [colon_c; colon_c] (toks s)) eqn:F; injection E as <- <-.
    - eapply punct_rest_suffix; eauto.
    - exists []. reflexivity. }
  destruct (path_segs_suffix _ ts0 (le_n _)) as [p1 P1].
  destruct (path_segs ts0) as [[segs tr] r]. simpl in P1.
  assert (S1 : advances s (set_toks s r)).
  { destruct S0 as [p0 P0]. exists (p0 ++ p1). rewrite P0, P1 at 1. simpl. now rewrite app_assoc. }
  destruct segs as [|[i sp1] segs]; simpl; [auto|]. destruct tr; simpl; auto.
Qed.
(** a successful path consumes something *)
Lemma path_consumes s p s1 : parse_any_path s = (Ok p, s1) -> length (toks s1) < length (toks s).
Proof.
  unfold parse_any_path.
  destruct (match punct_rest [colon_c; colon_c] (toks s) with
            | Some r => (true, r) | None => (false, toks s) end) as [lead ts0] eqn:E.
  assert (S0 : exists p, toks s = p ++ ts0).
  { destruct (punct_rest [colon_c; colon_c] (toks s)) eqn:F; injection E as <- <-.
    - eapply punct_rest_suffix; eauto.
    - exists []. reflexivity. }
  pose proof (path_segs_nonempty ts0) as N.
  destruct (path_segs ts0) as [[segs tr] r]. simpl in N.
  destruct segs as [|[i sp1] segs]; [discriminate|]. destruct tr; [discriminate|].
  injection 1 as _ <-. simpl. destruct N as [t [q Q]]; [discriminate|].
  destruct S0 as [p0 P0]. rewrite P0, Q. rewrite !app_length. simpl. rewrite app_length. lia.
Qed.

(** *** parse_struct with an invariant on the captured state *)
Definition good_func {St} (I : St -> Prop)
           (func : string -> span -> St -> stream -> res unit * St * stream) : Prop :=
  forall p sp st s, I st ->
    returns (fst (fst (func p sp st s))) /\ I (snd (fst (func p sp st s))) /\
    advances s (snd (func p sp st s)).

Lemma struct_loop_good {St} (I : St -> Prop) func : good_func I func ->
  forall fuel st s, I st -> length (toks s) < fuel ->
    let x := struct_loop func fuel st s in
    returns (fst (fst x)) /\ I (snd (fst x)) /\ advances s (snd x).
Proof.
  intros HF. induction fuel as [|n IH]; intros st s Ist L; [lia|]. simpl.
  destruct (is_empty s); [simpl; auto with adv|].
  pose proof (wb_path s) as W. pose proof (path_consumes s) as PC.
  destruct (parse_any_path s) as [r s1]. destruct r as [p|e|b]; simpl in W; destruct W as [W1 W2].
  2: { simpl; auto. } 2: { contradiction. }
  specialize (PC _ _ eq_refl).
  pose proof (HF (path_key p) (p_span p) st s1 Ist) as F.
  destruct (func _ _ st s1) as [[r st1] s2]. simpl in F. destruct F as [F1 [F2 F3]].
  destruct r; simpl in *; [|eauto with adv|contradiction].
  destruct (is_empty s2); [simpl; eauto with adv|].
  pose proof (wb_comma s2) as C. pose proof (comma_consumes s2) as CC.
  destruct (parse_comma s2) as [r s3]. destruct r as [[]|e|b]; simpl in C; destruct C as [C1 C2];
    [|simpl; eauto with adv|contradiction].
  specialize (CC _ eq_refl). pose proof (adv_len _ _ F3) as F4.
  destruct (IH st1 s3 F2) as [J1 [J2 J3]]; [lia|]. repeat split; auto.
  eauto with adv.
Qed.

Lemma parse_struct_good {St} (I : St -> Prop) func : good_func I func ->
  forall l st, I st ->
    let x := parse_struct func st l in
    returns (fst (fst x)) /\ I (snd (fst x)) /\ Forall2 advances l (snd x).
Proof.
  intro HF. induction l as [|s l IH]; intros st Ist; cbn [parse_struct]; [simpl; auto|].
  pose proof (struct_loop_good I func HF (S (length (toks s))) st s Ist (Nat.lt_succ_diag_r _)) as L.
  cbv zeta in L. destruct (struct_loop func (S (length (toks s))) st s) as [[r st1] s1].
  cbn [fst snd] in L. destruct L as [L1 [L2 L3]].
  destruct r; cbn [returns] in L1; [|simpl; repeat split; auto with adv|contradiction].
  specialize (IH st1 L2). cbv zeta in IH. destruct (parse_struct func st1 l) as [[r st2] l1].
  simpl in *. destruct IH as [A [B C]]. repeat split; auto.
Qed.

Lemma Forall2_len {A B} (R : A -> B -> Prop) l l' : Forall2 R l l' -> length l = length l'.
Proof. induction 1; simpl; auto. Qed.

(** *** parse_tuple_struct with an invariant indexed by the counter *)
Definition good_tfunc {St} (len : nat) (I : nat -> St -> Prop)
           (func : nat -> St -> list stream -> res unit * St * list stream) : Prop :=
  forall i st s rest, i < len -> I i st ->
    returns (fst (fst (func i st (s :: rest)))) /\ I (S i) (snd (fst (func i st (s :: rest)))) /\
    Forall2 advances (s :: rest) (snd (func i st (s :: rest))).

Lemma tuple_loop_good {St} len (I : nat -> St -> Prop) func : good_tfunc len I func ->
  forall fuel counter st l, I counter st -> (len - counter) + length l < fuel ->
    let x := tuple_loop len func fuel counter st l in
    returns (fst (fst x)) /\ (exists c, I c (snd (fst x))) /\
    (forall c, fst (fst x) = Ok c -> I c (snd (fst x))) /\
    Forall2 advances l (snd x).
Proof.
  intro HF. induction fuel as [|n IH]; intros counter st l Ist L; [lia|]. cbn [tuple_loop].
  destruct l as [|s rest].
  { simpl. repeat split; eauto. intros c E. injection E as <-. auto. }
  destruct (is_empty s).
  { assert (Q := IH counter st rest Ist). simpl in L. specialize (Q ltac:(lia)).
    cbv zeta in Q. destruct (tuple_loop len func n counter st rest) as [[r st1] rest1].
    simpl in *. destruct Q as [Q1 [Q2 [Q3 Q4]]]. repeat split; auto with adv. }
  destruct (Nat.leb len counter) eqn:E.
  { simpl. repeat split; eauto with adv. intros c F. injection F as <-. auto. }
  apply Nat.leb_gt in E. pose proof (HF counter st s rest E Ist) as F.
  destruct (func counter st (s :: rest)) as [[r st1] l1]. cbn [fst snd] in F.
  destruct F as [F1 [F2 F3]]. destruct r; cbn [returns] in F1; [|simpl; repeat split; eauto; discriminate|contradiction].
  destruct l1 as [|s1 rest1]; [inversion F3|]. pose proof (Forall2_len _ _ _ F3) as FL.
  inversion F3; subst.
  destruct (negb (is_empty s1) && Nat.ltb (S counter) len).
  - pose proof (wb_comma s1) as C. destruct (parse_comma s1) as [r s2]. cbn [fst snd] in C.
    destruct C as [C1 C2]. destruct r; cbn [returns] in C1;
      [|simpl; repeat split; eauto with adv; discriminate|contradiction].
    assert (Q := IH (S counter) st1 (s2 :: rest1) F2). simpl in L, FL, Q.
    specialize (Q ltac:(lia)). destruct Q as [Q1 [Q2 [Q3 Q4]]]. repeat split; auto.
    eapply advs_trans; [|exact Q4]. constructor; eauto with adv.
  - assert (Q := IH (S counter) st1 (s1 :: rest1) F2). simpl in L, FL, Q.
    specialize (Q ltac:(lia)). destruct Q as [Q1 [Q2 [Q3 Q4]]]. repeat split; auto.
    eapply advs_trans; [|exact Q4]. constructor; eauto with adv.
Qed.
Lemma parse_tuple_good {St} len (I : nat -> St -> Prop) func : good_tfunc len I func ->
  forall st l, I 0 st ->
    let x := parse_tuple_struct len func st l in
    returns (fst (fst x)) /\ (exists c, I c (snd (fst x))) /\
    (forall c, fst (fst x) = Ok c -> I c (snd (fst x))) /\
    Forall2 advances l (snd x).
Proof. intros HF st l H. unfold parse_tuple_struct. apply tuple_loop_good; auto. lia. Qed.

(** *** comma loops *)
Definition good_step {St} (I : St -> Prop) (step : St -> stream -> res St * stream) : Prop :=
  forall st s, I st -> returns (fst (step st s)) /\
    (forall st', fst (step st s) = Ok st' -> I st') /\ advances s (snd (step st s)).
Lemma comma_loop_good {St} (I : St -> Prop) step : good_step I step ->
  forall fuel st s, I st -> length (toks s) < fuel ->
    let x := comma_loop step fuel st s in
    returns (fst x) /\ (forall st', fst x = Ok st' -> I st') /\ advances s (snd x).
Proof.
  intro HS. induction fuel as [|n IH]; intros st s Ist L; [lia|]. cbn [comma_loop].
  destruct (is_empty s). { simpl. repeat split; auto with adv. intros ? E. injection E as <-. auto. }
  pose proof (HS st s Ist) as F. destruct (step st s) as [r s1]. cbn [fst snd] in F.
  destruct F as [F1 [F2 F3]]. destruct r; cbn [returns] in F1;
    [|simpl; repeat split; auto; discriminate|contradiction].
  specialize (F2 _ eq_refl).
  destruct (is_empty s1). { simpl. repeat split; auto with adv. intros ? E. injection E as <-. auto. }
  pose proof (wb_comma s1) as C. pose proof (comma_consumes s1) as CC.
  destruct (parse_comma s1) as [r s2]. cbn [fst snd] in C.
  destruct C as [C1 C2]. destruct r as [[]| |]; cbn [returns] in C1;
    [|simpl; repeat split; eauto with adv; discriminate|contradiction].
  specialize (CC _ eq_refl). pose proof (adv_len _ _ F3).
  destruct (IH a s2 F2 ltac:(lia)) as [Q1 [Q2 Q3]]. repeat split; eauto with adv.
Qed.
Lemma comma_stream_good {St} (I : St -> Prop) step : good_step I step -> good_step I (comma_stream step).
Proof. intros H st s Ist. unfold comma_stream. apply comma_loop_good; auto. Qed.
Lemma over_streams_good {St} (I : St -> Prop) body : good_step I body ->
  forall l st, I st ->
    let x := over_streams body st l in
    returns (fst x) /\ (forall st', fst x = Ok st' -> I st') /\ Forall2 advances l (snd x).
Proof.
  intro HB. induction l as [|s l IH]; intros st Ist; cbn [over_streams].
  { simpl. repeat split; auto. intros ? E. injection E as <-. auto. }
  pose proof (HB st s Ist) as F. destruct (body st s) as [r s1]. cbn [fst snd] in F.
  destruct F as [F1 [F2 F3]]. destruct r; cbn [returns] in F1;
    [|simpl; repeat split; auto with adv; discriminate|contradiction].
  specialize (IH a (F2 _ eq_refl)). cbv zeta in IH. destruct (over_streams body a l) as [r l1].
  simpl in *. destruct IH as [A [B C]]. repeat split; auto.
Qed.
Lemma finish_good {A St} (get : St -> A) es l x :
  returns (fst x) -> Forall2 advances l (snd x) -> gm2 l (finish get es x).
Proof.
  intros R F. destruct x as [r l1]. unfold finish. split; simpl in *; auto.
  apply returns_rbind; auto. intros. apply returns_into.
Qed.
Lemma collect_good {A St} (get : St -> A) es step st :
  good_step (fun _ => True) step ->
  well_behaved_m (fun l => finish get es (over_streams (comma_stream step) st l)).
Proof.
  intros H l. destruct (over_streams_good _ _ (comma_stream_good _ _ H) l st Logic.I) as [A1 [_ B]].
  apply finish_good; auto.
Qed.

(** *** Dictionaries *)
Lemma good_item {A} (item : mode -> parser A) :
  (forall m, well_behaved (item m)) -> good_dict (dict_item item).
Proof.
  intro H. assert (L : forall m, well_behaved_m (def_inline item m)) by (intro; apply wbm_first; auto).
  split; simpl; auto; intros; unfold def_flag, def_missing, def_named; simpl; auto.
  apply wb_named_with; simpl; auto.
Qed.
Lemma good_item_flag_missing {A} (item : mode -> parser A) flag missing :
  (forall m, well_behaved (item m)) -> (forall sp, returns (flag sp)) ->
  (forall n sp, returns (missing n sp)) -> good_dict (dict_item_flag_missing item flag missing).
Proof.
  intros H F M. assert (L : forall m, well_behaved_m (def_inline item m)) by (intro; apply wbm_first; auto).
  split; simpl; auto; intros; unfold def_named; simpl; auto.
  apply wb_named_with; simpl; auto.
Qed.
Lemma good_item_flag {A} (item : mode -> parser A) flag :
  (forall m, well_behaved (item m)) -> (forall sp, returns (flag sp)) ->
  good_dict (dict_item_flag item flag).
Proof. intros. apply (good_item_flag_missing item flag def_missing); auto. simpl. auto. Qed.
Lemma good_full {A} (item : mode -> parser A) inline flag missing :
  (forall m, well_behaved (item m)) -> (forall m, well_behaved_m (inline m)) ->
  (forall sp, returns (flag sp)) ->
  (forall n sp, returns (missing n sp)) ->
  good_dict (mkDict item inline flag (def_named item inline flag) missing).
Proof.
  intros H L F M. split; simpl; auto. intros; unfold def_named. apply wb_named_with; simpl; auto.
Qed.
Lemma good_inline {A} (item : mode -> parser A) inline :
  (forall m, well_behaved (item m)) -> (forall m, well_behaved_m (inline m)) ->
  good_dict (dict_inline item inline).
Proof. intros. apply good_full; simpl; auto. Qed.
Lemma good_map {A B} (f : A -> B) d : good_dict d -> good_dict (dict_map f d).
Proof.
  intros [H1 H2 H3 H4 H5]. split; simpl; intros; auto using wb_map, wbm_map, returns_rmap.
Qed.
Lemma good_fu_map {A B} (f : A -> B) u : good_fu u -> good_fu (fu_map f u).
Proof. intros H m i. simpl. apply wbm_map, H. Qed.
Lemma good_fn_map {A B} (f : A -> B) u : good_fn u -> good_fn (fn_map f u).
Proof. intros H m p v. simpl. apply wbm_map, H. Qed.


Lemma good_int k : good_dict (int_dict k).
Proof.
  apply good_item. intros _. unfold parse_int. apply wb_bind; [apply wb_lit|].
  intros l s. destruct (int_from_str _ _ _); simpl; auto with adv.
Qed.
Lemma good_u8 : good_dict u8_dict.
Proof.
  apply good_item. intros _ s. unfold parse_u8. destruct (peek_lit sel_byte s).
  { apply wb_map. apply wb_lit. }
  destruct (peek_lit sel_int_sign s); [apply (gd_item _ (good_int k_u8) Unnamed)|simpl; auto with adv].
Qed.
Lemma good_float : good_dict float_dict.
Proof. apply good_item. intros _. apply wb_map, wb_lit. Qed.
Lemma good_bool : good_dict bool_dict.
Proof. apply good_item_flag; simpl; auto. intros _. apply wb_map, wb_lit. Qed.
Lemma good_char : good_dict char_dict.
Proof. apply good_item. intros _. apply wb_map, wb_lit. Qed.
Lemma good_string : good_dict string_dict.
Proof. apply good_item. intros _. apply wb_map, wb_lit. Qed.
Lemma good_smallstring : good_dict smallstring_dict.
Proof. apply good_item. intros _. apply wb_map, wb_lit. Qed.
Lemma good_option {A} (d : dict A) : good_dict d -> good_dict (option_dict d).
Proof.
  intro H. apply good_item_flag_missing; simpl; auto.
  - intros [sp|]; simpl; [apply wb_map, H|]. intro s. destruct (peek_kw "Some" s).
    { apply wb_bind; [apply wb_kw|]. intros _. apply wb_map, wb_delimited, wb_single, H. }
    destruct (peek_kw "None" s); [|simpl; auto with adv].
    apply wb_bind; [apply wb_kw|]. intros _. apply wb_ret.
  - intro. apply returns_rmap, H.
Qed.
Lemma good_wrapper {A} (d : dict A) : good_dict d -> good_dict (wrapper_dict d).
Proof. intro H. apply good_item_flag; intros; apply H. Qed.
Lemma good_one w ok : good_dict (one_token_dict w ok).
Proof.
  apply good_item. intros _ s. destruct (toks s) as [|t r] eqn:E; simpl; auto with adv.
  destruct (ok t); simpl; auto with adv. split; auto. exists [t]. exact E.
Qed.
Lemma good_tokentree : good_dict tokentree_dict.
Proof.
  apply good_item. intros _ s. destruct (toks s) as [|t r] eqn:E; simpl; auto with adv.
  split; auto. exists [t]. exact E.
Qed.
Lemma wb_tokenstream m : well_behaved (tokenstream_item m).
Proof.
  intro s. unfold tokenstream_item. destruct (peek_comma s); simpl; auto with adv.
  destruct (until_comma (toks s)); simpl; auto using adv_skip with adv.
Qed.
Lemma good_tokenstream : good_dict tokenstream_dict.
Proof. apply good_item_flag_missing; simpl; auto using wb_tokenstream. Qed.
Lemma until_skip ts : until_comma ts ++ skip_toks ts = ts.
Proof. induction ts; simpl; auto. destruct (is_comma a); simpl; congruence. Qed.
Lemma tokenstream_loop_good : forall fuel acc s, length (toks s) < fuel ->
  gp2 s (tokenstream_loop fuel acc s).
Proof.
  induction fuel; intros acc s L; [lia|]. cbn [tokenstream_loop].
  destruct (is_empty s); [split; simpl; auto with adv|].
  unfold tokenstream_item. destruct (peek_comma s); [split; simpl; auto with adv|].
  destruct (until_comma (toks s)) eqn:E; [split; simpl; auto with adv|].
  pose proof (until_skip (toks s)) as U. rewrite E in U. apply (f_equal (@length _)) in U.
  rewrite app_length in U. simpl in U.
  destruct (IHfuel (acc ++ t :: l) (skip_item s)) as [A B]. { simpl. lia. }
  split; auto. eauto using adv_skip with adv.
Qed.
Lemma good_tokenstream_flat : good_fu tokenstream_flat.
Proof.
  intros m i. simpl. generalize (@nil token). intros acc l. revert acc.
  induction l as [|s l IH]; intro acc; cbn [tokenstream_streams]; [simpl; auto with adv|].
  pose proof (tokenstream_loop_good (S (length (toks s))) acc s (Nat.lt_succ_diag_r _)) as G.
  destruct (tokenstream_loop _ acc s) as [r s1]. destruct G as [G1 G2]. simpl in G1, G2.
  destruct r; simpl in G1; [|simpl; auto with adv|contradiction].
  specialize (IH a). destruct (tokenstream_streams a l). simpl in *. destruct IH. auto.
Qed.
Lemma good_ident : good_dict ident_dict.
Proof. apply good_item. intros _. apply wb_ident. Qed.
Lemma good_any_path : good_dict any_path_dict.
Proof. apply good_item. intros _. apply wb_path. Qed.
Lemma good_paren_syn {A} (p : parser A) : well_behaved p -> good_dict (paren_syn_dict p).
Proof. intro H. apply good_item. intros [sp|]; auto using wb_group. Qed.
Lemma good_syn {A} (p : parser A) : well_behaved p -> good_dict (syn_dict p).
Proof. intro H. apply good_item. auto. Qed.
Lemma good_unit : good_dict unit_dict.
Proof. apply good_full; simpl; auto; intros; [apply wb_group, wb_ret|apply wbm_ret]. Qed.
Lemma good_spanned {A} (d : dict A) : good_dict d -> good_dict (spanned_dict d).
Proof.
  intros [H1 H2 H3 H4 H5]. split; simpl; auto.
  - intros m s. unfold sv_item. specialize (H1 m s). destruct (d_item d m s). simpl in *.
    destruct H1; split; auto using returns_rmap.
  - intros m l. unfold sv_inline. specialize (H2 m l). destruct (d_inline d m l). simpl in *.
    destruct H2; split; auto using returns_rmap.
  - intros. apply returns_rmap. auto.
  - intros n sp s. unfold sv_named. specialize (H4 n sp s). destruct (d_named d n sp s). simpl in *.
    destruct H4; split; auto using returns_rmap.
Qed.
Lemma wbm_sv {A} (p : mparser A) : well_behaved_m p -> well_behaved_m (sv_multi p).
Proof.
  intros H l. unfold sv_multi. specialize (H l). destruct (p l). simpl in *.
  destruct H; split; auto using returns_rmap.
Qed.
Lemma good_spanned_fu {A} (u : flat_unnamed A) : good_fu u -> good_fu (spanned_fu u).
Proof. intros H m i. apply wbm_sv, H. Qed.
Lemma good_spanned_fn {A} (u : flat_named A) : good_fn u -> good_fn (spanned_fn u).
Proof. intros H m p v. apply wbm_sv, H. Qed.
Lemma good_spanned_multi {A} (a : append_fn A) : good_multi a -> good_multi (spanned_append a).
Proof. intros H l. apply wbm_sv, H. Qed.
Lemma wbm_flag m : well_behaved_m (flag_inline m).
Proof. intro l. simpl. auto with adv. Qed.
Lemma good_flag : good_dict flag_dict.
Proof.
  split; simpl; auto using wbm_flag. { intro. apply wb_single, wbm_flag. }
  intros _ sp s. destruct (is_empty s || peek_comma s); simpl; auto with adv.
Qed.

(** *** Collections *)
Lemma wbm_vec {A} (d : dict A) : good_dict d -> well_behaved_m (vec_flat d).
Proof.
  intro H. apply collect_good. intros st s _. unfold vec_step.
  destruct (gd_item d H Unnamed s) as [H1 H2]. destruct (d_item d Unnamed s) as [[] s1]; simpl in *; auto.
  eauto using adv_skip with adv.
Qed.
Lemma good_vec {A} (d : dict A) : good_dict d -> good_dict (vec_dict d).
Proof. intro H. apply good_inline; auto using wbm_vec, wb_delimited, wb_single. Qed.
Lemma good_vec_fu {A} (d : dict A) : good_dict d -> good_fu (vec_fu d).
Proof. intros H m i. apply wbm_vec, H. Qed.
Lemma good_vec_append {A} (d : dict A) : good_dict d -> good_multi (vec_append d).
Proof.
  intros H paths l. unfold vec_append.
  assert (F : good_func (fun _ => True) (vec_append_fn d paths)).
  { intros p sp st s _. unfold vec_append_fn. destruct (mem_str p paths).
    - destruct (gd_named d H p sp s) as [H1 H2]. destruct (d_named d p sp s) as [[] s1]; simpl in *; auto.
      eauto using adv_skip with adv.
    - simpl. auto using adv_skip. }
  destruct (parse_struct_good _ _ F l ([], []) Logic.I) as [A1 [_ B]].
  destruct (parse_struct _ _ l) as [[[] st] l1]; simpl in *; auto using returns_into; contradiction.
Qed.
Lemma wbm_set {A} eqb (d : dict A) : good_dict d -> well_behaved_m (set_flat eqb d).
Proof.
  intro H. apply collect_good. intros st s _. unfold set_step.
  destruct (gd_item d H Unnamed s) as [H1 H2]. destruct (d_item d Unnamed s) as [[] s1]; simpl in *; auto.
  - destruct (set_ins eqb a (fst st)). simpl. auto.
  - eauto using adv_skip with adv.
Qed.
Lemma good_set {A} eqb (d : dict A) : good_dict d -> good_dict (set_dict eqb d).
Proof. intro H. apply good_inline; auto using wbm_set, wb_delimited, wb_single. Qed.
Lemma good_set_append {A} eqb (d : dict A) : good_dict d -> good_multi (set_append eqb d).
Proof.
  intros H paths l. unfold set_append.
  assert (F : good_func (fun _ => True) (set_append_fn eqb d paths)).
  { intros p sp st s _. unfold set_append_fn. destruct (mem_str p paths).
    - destruct (gd_named d H p sp s) as [H1 H2]. destruct (d_named d p sp s) as [[] s1]; simpl in *; auto.
      + destruct (set_ins eqb a (fst st)). simpl. auto.
      + eauto using adv_skip with adv.
    - simpl. auto using adv_skip. }
  destruct (parse_struct_good _ _ F l ([], []) Logic.I) as [A1 [_ B]].
  destruct (parse_struct _ _ l) as [[[] st] l1]; simpl in *; auto using returns_into.
Qed.
Lemma wbm_mapf {K V} eqb kstr (dk : dict K) (dv : dict V) :
  good_dict dk -> good_dict dv -> well_behaved_m (map_flat eqb kstr dk dv).
Proof.
  intros HK HV. apply collect_good. intros st s _. unfold map_step.
  destruct (gd_item dk HK Unnamed s) as [H1 H2]. destruct (d_item dk Unnamed s) as [[k| |] s1]; simpl in *; auto.
  destruct (gd_named dv HV (kstr k) (in_span s) s1) as [H3 H4].
  destruct (d_named dv (kstr k) (in_span s) s1) as [[v| |] s2]; simpl in *; auto.
  - destruct (map_ins eqb k v (fst st)). simpl. eauto with adv.
  - eauto using adv_skip with adv.
  - contradiction.
Qed.
Lemma good_mapd {K V} eqb kstr (dk : dict K) (dv : dict V) :
  good_dict dk -> good_dict dv -> good_dict (map_dict eqb kstr dk dv).
Proof. intros. apply good_inline; auto using wbm_mapf, wb_delimited, wb_single. Qed.
Lemma good_map_rest {K V} eqb kstr (dk : dict K) (dv : dict V) :
  good_dict dk -> good_dict dv -> good_multi (map_rest eqb kstr dk dv).
Proof.
  intros HK HV ex. unfold map_rest. apply collect_good. intros st s _. unfold rest_step.
  destruct (gd_item dk HK Unnamed s) as [H1 H2]. destruct (d_item dk Unnamed s) as [[k| |] s1]; simpl in *; auto.
  destruct (mem_str (kstr k) ex); [simpl; eauto using adv_skip with adv|].
  destruct (gd_named dv HV (kstr k) (in_span s) s1) as [H3 H4].
  destruct (d_named dv (kstr k) (in_span s) s1) as [[v| |] s2]; simpl in *; eauto with adv.
  - destruct (map_ins eqb k v (fst st)). simpl. eauto with adv.
Qed.

Lemma push_syn_ne es e : push_syn es e <> [].
Proof. unfold push_syn, errs_of. destruct es; discriminate. Qed.
Lemma push_ne es sp m : push es sp m <> [].
Proof. apply push_syn_ne. Qed.

Definition arr_inv {A} (c : nat) (st : arr_st A) : Prop :=
  length (ar_vals st) + ar_failed st = c /\ (0 < ar_failed st -> ar_errs st <> []).
Lemma wbm_array {A} N (d : dict A) i : good_dict d -> well_behaved_m (array_flat N d i).
Proof.
  intros H l. unfold array_flat.
  assert (F : good_tfunc N arr_inv (arr_fn N d)).
  { intros c st s rest Lc [I1 I2]. unfold arr_fn.
    destruct (gd_item d H Unnamed s) as [H1 H2].
    destruct (d_item d Unnamed s) as [[v|e|b] s1]; simpl in H1, H2.
    - assert (X : Nat.ltb (length (ar_vals st)) N = true) by (apply Nat.ltb_lt; lia).
      rewrite X. simpl. repeat split; auto with adv.
      unfold arr_inv. simpl. rewrite app_length. simpl. lia.
    - simpl. repeat split; eauto using adv_skip with adv.
      + simpl. lia.
      + intros _. apply push_syn_ne.
    - contradiction. }
  destruct (parse_tuple_good N arr_inv _ F (mkArr [] [] 0) l) as [R [_ [C B]]].
  { split; simpl; auto. lia. }
  destruct (parse_tuple_struct N (arr_fn N d) (mkArr [] [] 0) l) as [[r st] l1]. cbn [fst snd] in *.
  assert (X : forall es1, (ar_failed st = 0 \/ es1 <> []) ->
     (length (ar_vals st) + ar_failed st = N \/ es1 <> []) ->
     returns match check es1 with
             | Ok _ => if Nat.eqb (length (ar_vals st)) N then Ok (ar_vals st) else Bad Panic
             | Err e => Err e | Bad b => Bad b end).
  { intros es1 Z1 Z2. destruct es1; simpl; auto.
    assert (Nat.eqb (length (ar_vals st)) N = true) as ->; simpl; auto.
    apply Nat.eqb_eq. destruct Z1; [|congruence]. destruct Z2; [lia|congruence]. }
  destruct r as [c|e|b]; cbn [returns] in R; [| |contradiction]; (split; [|exact B]); cbn [fst].
  - destruct (C c eq_refl) as [C1 C2]. cbn [push_result].
    destruct (Nat.eqb (length (ar_vals st) + ar_failed st) N) eqn:E.
    + apply Nat.eqb_eq in E. apply X; auto. destruct (ar_failed st); auto. right. apply C2. lia.
    + apply X; right; apply push_ne.
  - cbn [push_result]. destruct (Nat.eqb (length (ar_vals st) + ar_failed st) N) eqn:E.
    + apply X; right; apply push_syn_ne.
    + apply X; right; apply push_ne.
Qed.
Lemma good_array {A} N (d : dict A) : good_dict d -> good_dict (array_dict N d).
Proof. intro H. apply good_inline; auto using wbm_array, wb_delimited, wb_single. Qed.
Lemma good_array_fu {A} N (d : dict A) : good_dict d -> good_fu (array_fu N d).
Proof. intros H m i. apply wbm_array, H. Qed.

(** slots and accumulator: a failed slot has left an error *)
Definition slots_ok {A} (sl : list (fstatus A)) (es : errors) : Prop :=
  In FParseError sl -> es <> [].
Lemma fs_unnamed_good {A} (f : mode -> parser A) es s : (forall m, well_behaved (f m)) ->
  let x := fs_parse_unnamed f es s in
  returns (fst x) /\ advances s (snd x) /\
  (forall st es', fst x = Ok (st, es') -> (exists y, es' = es ++ y) /\ (st = FParseError -> es' <> [])).
Proof.
  intro H. unfold fs_parse_unnamed. destruct (H Unnamed s) as [H1 H2].
  destruct (f Unnamed s) as [[v|e|b] s1]; simpl in *; repeat split; auto; try contradiction.
  - injection H0 as <- <-. exists []. now rewrite app_nil_r.
  - injection H0 as <- <-. discriminate.
  - eauto using adv_skip with adv.
  - injection H0 as <- <-. eexists. reflexivity.
  - injection H0 as <- <-. intros _. apply push_syn_ne.
Qed.
Lemma fs_named_good {A} n sp (f : string -> span -> parser A) st es s :
  well_behaved (f n sp) ->
  let x := fs_parse_named n sp f st es s in
  returns (fst x) /\ advances s (snd x) /\
  (forall st' es', fst x = Ok (st', es') ->
     (exists y, es' = es ++ y) /\ (st' = FParseError -> st = FParseError \/ es' <> [])).
Proof.
  intro H. unfold fs_parse_named. destruct (H s) as [H1 H2].
  assert (X : exists y, (if fs_is_none st then es
             else push es sp ("duplicate attribute for " ++ tick n)%string) = es ++ y).
  { destruct (fs_is_none st). exists []. now rewrite app_nil_r. eexists. reflexivity. }
  destruct X as [y X]. rewrite X.
  destruct (f n sp s) as [[v|e|b] s1]; simpl in *; repeat split; auto; try contradiction.
  - injection H0 as <- <-. eauto.
  - injection H0 as <- <-. destruct st; simpl in *; auto; try discriminate.
  - eauto using adv_skip with adv.
  - injection H0 as <- <-. unfold push_syn. rewrite <- app_assoc. eauto.
  - injection H0 as <- <-. intros _. right. apply push_syn_ne.
Qed.
Lemma upd_len {A} i (x : A) l : length (upd_nth i x l) = length l.
Proof. revert i. induction l; intros [|i]; simpl; auto. Qed.
Lemma upd_in {A} i (x y : A) l : In y (upd_nth i x l) -> y = x \/ In y l.
Proof. revert i. induction l; intros [|i]; simpl; intuition. destruct (IHl _ H0); auto. Qed.
Lemma app_ne {A} (a b : list A) : a <> [] -> a ++ b <> [].
Proof. destruct a; simpl; congruence. Qed.
Lemma slots_upd {A} i (st : fstatus A) sl es es' :
  slots_ok sl es -> (exists y, es' = es ++ y) -> (st = FParseError -> In FParseError sl \/ es' <> []) ->
  slots_ok (upd_nth i st sl) es'.
Proof.
  intros H [y ->] E I. apply upd_in in I. destruct I as [<-|I]; [destruct (E eq_refl)|]; auto;
    apply app_ne, H; auto.
Qed.
Lemma unwrap_all_good {A} (sl : list (fstatus A)) :
  ~ In FParseError sl -> first_none 0 sl = None -> returns (unwrap_all sl).
Proof.
  generalize 0. induction sl as [|[] sl IH]; simpl; intros; try discriminate; try tauto.
  apply returns_rmap. eapply IH; eauto.
Qed.
Lemma wbm_tuple {A} (ds : list (dict A)) : Forall good_dict ds -> well_behaved_m (tuple_flat ds).
Proof.
  intros H l. unfold tuple_flat.
  assert (F : good_tfunc (length ds) (fun _ (st : list (fstatus A) * errors) => slots_ok (fst st) (snd st)) (tup_fn ds)).
  { intros c st s rest Lc I. unfold tup_fn. destruct (nth_error ds c) as [d|] eqn:E.
    2: { apply nth_error_None in E. lia. }
    apply nth_error_In in E. rewrite Forall_forall in H. specialize (H d E).
    pose proof (fs_unnamed_good (d_item d) (snd st) s (gd_item d H)) as G. cbv zeta in G.
    destruct (fs_parse_unnamed (d_item d) (snd st) s) as [[[f es]|e|b] s1]; cbn [fst snd returns] in *;
      destruct G as [G1 [G2 G3]]; [|simpl; repeat split; auto with adv|contradiction].
    repeat split; auto with adv. destruct (G3 _ _ eq_refl) as [X Y].
    eapply slots_upd; eauto. }
  destruct (parse_tuple_good _ _ _ F (map (fun _ => FNone) ds, []) l) as [R [[c C] [_ B]]].
  { simpl. intro I. apply in_map_iff in I. destruct I as [? [? ?]]. discriminate. }
  destruct (parse_tuple_struct _ (tup_fn ds) _ l) as [[r st] l1]. cbn [fst snd] in *.
  assert (X : forall es, slots_ok (fst st) es -> gm2 l match first_none 0 (fst st) with
      | Some i => (bail (push es (inputs_span l1) (tup_len_msg (length ds) i)), l1)
      | None => (rbind (check es) (fun _ => unwrap_all (fst st)), l1) end).
  { intros es S. destruct (first_none 0 (fst st)) eqn:E; split; simpl; auto.
    - pose proof (push_ne es (inputs_span l1) (tup_len_msg (length ds) n)).
      destruct (push es _ _); simpl; auto.
    - destruct es; simpl; auto. apply unwrap_all_good; auto. intro I. apply (S I). reflexivity. }
  destruct r; cbn [returns] in R; [| |contradiction]; apply X; simpl; auto.
  intros _. apply push_syn_ne.
Qed.
Lemma good_tuple {A} (ds : list (dict A)) : Forall good_dict ds -> good_dict (tuple_dict ds).
Proof. intro H. apply good_inline; auto using wbm_tuple, wb_delimited, wb_single. Qed.
Lemma good_tuple_fu {A} (ds : list (dict A)) : Forall good_dict ds -> good_fu (tuple_fu ds).
Proof. intros H m i. apply wbm_tuple, H. Qed.

(** *** With *)
Lemma wb_from_str {A} (fs : string -> A + string) : well_behaved (from_str_item fs).
Proof.
  unfold from_str_item. apply wb_bind; [apply wb_lit|]. intros l s. destruct (fs (fst l)); simpl; auto with adv.
Qed.
Lemma wb_quoted {A} (d : dict A) m : good_dict d -> well_behaved (quoted_item d m).
Proof.
  intro H. unfold quoted_item. apply wb_bind; [apply wb_lit|]. intros l s.
  destruct (env_lex (fst l)); simpl; auto with adv.
  pose proof (returns_parse2 (d_item d m) l0 (gd_item d H m)).
  destruct (parse2 (d_item d m) l0); simpl in *; auto with adv.
Qed.
Lemma good_from_str {A} (fs : string -> A + string) : good_dict (from_str_dict fs).
Proof. apply good_item. intros _. apply wb_from_str. Qed.
Lemma good_from_str_default {A} (fs : string -> A + string) v : good_dict (from_str_default_dict fs v).
Proof. apply good_item_flag_missing; simpl; auto. intros _. apply wb_from_str. Qed.
Lemma good_quoted {A} (d : dict A) : good_dict d -> good_dict (quoted_dict d).
Proof.
  intro H. apply good_full; auto using wb_quoted; try apply H.
  intro. apply wbm_first. auto using wb_quoted.
Qed.
Lemma wb_maybe_quoted {A} (d : dict A) m : good_dict d -> well_behaved (maybe_quoted_item d m).
Proof.
  intros H s. unfold maybe_quoted_item. destruct (peek_lit sel_str s).
  apply wb_quoted, H. apply H.
Qed.
Lemma good_maybe_quoted {A} (d : dict A) : good_dict d -> good_dict (maybe_quoted_dict d).
Proof.
  intro H. apply good_full; auto using wb_maybe_quoted; try apply H.
  intro. apply wbm_first. auto using wb_maybe_quoted.
Qed.
Lemma good_with_syn {A} (p : parser A) : well_behaved p -> good_dict (with_syn_dict p).
Proof. intro H. apply good_item_flag; auto using returns_empty. Qed.
Lemma wb_syn_quoted {A} (p : parser A) : well_behaved p -> well_behaved (syn_quoted_item p).
Proof.
  intro H. unfold syn_quoted_item. apply wb_bind; [apply wb_lit|]. intros l s.
  destruct (env_lex (fst l)); simpl; auto with adv.
  pose proof (returns_parse2 p l0 H). destruct (parse2 p l0); simpl in *; auto with adv.
Qed.
Lemma good_syn_quoted {A} (p : parser A) : well_behaved p -> good_dict (syn_quoted_dict p).
Proof. intro H. apply good_item_flag; auto using returns_empty, wb_syn_quoted. Qed.
Lemma good_inner {A} (d : dict A) : good_dict d -> good_dict (inner_dict d).
Proof. intro H. apply good_item. apply H. Qed.
Lemma good_with_optional {A} (d : dict A) : good_dict d -> good_dict (with_optional_dict d).
Proof.
  intro H. pose proof (good_option _ (good_inner _ H)) as G. apply good_full; simpl; auto; apply G.
Qed.
Lemma good_with_vec {A} (d : dict A) : good_dict d -> good_dict (with_vec_dict d).
Proof.
  intro H. pose proof (good_vec _ (good_inner _ H)) as G. apply good_full; simpl; auto; apply G.
Qed.
Lemma good_with_map {K V} eqb kstr (dk : dict K) (dv : dict V) :
  good_dict dk -> good_dict dv -> good_dict (with_map_dict eqb kstr dk dv).
Proof.
  intros HK HV. pose proof (good_mapd eqb kstr _ _ (good_inner _ HK) (good_inner _ HV)) as G.
  apply good_full; simpl; auto; apply G.
Qed.
Lemma good_identity {A} (d : dict A) : good_dict d -> good_dict (identity_dict d).
Proof. intro H. apply good_full; apply H. Qed.
End W.
