(** Proofs behind the "never panics, always terminates" properties: derived code. *)
From Verif Require Export LemWf.

Definition grows (es es' : errors) : Prop := exists y, es' = es ++ y.
Lemma grows_refl es : grows es es.
Proof. exists []. now rewrite app_nil_r. Qed.
Lemma grows_trans a b c : grows a b -> grows b c -> grows a c.
Proof. intros [x ->] [y ->]. exists (x ++ y). now rewrite app_assoc. Qed.
Lemma grows_syn es e : grows es (push_syn es e).
Proof. eexists. reflexivity. Qed.
Lemma grows_push es sp m : grows es (push es sp m).
Proof. eexists. reflexivity. Qed.
Lemma grows_result {A} es (r : res A) : grows es (push_result es r).
Proof. destruct r; simpl; auto using grows_refl, grows_syn. Qed.
Lemma grows_ne es es' : grows es es' -> es <> [] -> es' <> [].
Proof. intros [y ->]. apply app_ne. Qed.
Lemma grows_nil es es' : grows es es' -> es' = [] -> es = [].
Proof. intros [y ->] H. now destruct es. Qed.
#[global] Hint Resolve grows_refl grows_syn grows_push grows_result grows_trans : gr.

Section D.
Context {env : Env} {V : Type}.
Notation slots := (list (fstatus V)).

(** every field in [P] has a value (or failed) *)
Definition filled (P : field V -> Prop) (fs : list (field V)) (sl : slots) : Prop :=
  Forall2 (fun f st => P f -> st <> FNone) fs sl.
Lemma filled_weak (P Q : field V -> Prop) fs sl : (forall f, Q f -> P f) -> filled P fs sl -> filled Q fs sl.
Proof. intros H F. induction F; constructor; auto. Qed.
Lemma filled_none (fs : list (field V)) sl : length sl = length fs -> filled (fun _ => False) fs sl.
Proof.
  revert sl. induction fs; intros [|] L; simpl in L; try discriminate; constructor; [tauto|].
  apply IHfs. lia.
Qed.
Lemma slots_init (fs : list (field V)) es : slots_ok (init_slots fs) es.
Proof. intro I. apply in_map_iff in I. destruct I as [? [? ?]]. discriminate. Qed.
Lemma slots_cons (st : fstatus V) sl es :
  (st = FParseError -> es <> []) -> slots_ok sl es -> slots_ok (st :: sl) es.
Proof. intros A B [E|I]; auto. Qed.
Lemma slots_uncons (st : fstatus V) sl es :
  slots_ok (st :: sl) es -> (st = FParseError -> es <> []) /\ slots_ok sl es.
Proof. intro H. split; intro I; apply H; simpl; auto. Qed.
Lemma slots_grow (sl : slots) es es' : grows es es' -> slots_ok sl es -> slots_ok sl es'.
Proof. intros G H I. eapply grows_ne; eauto. Qed.

(** the state between two stages of the post code *)
Definition stage (P : field V -> Prop) (fs : list (field V)) (es : errors) (x : slots * errors) : Prop :=
  grows es (snd x) /\ slots_ok (fst x) (snd x) /\ length (fst x) = length fs /\
  (snd x = [] -> filled P fs (fst x)).
Lemma stage_cons (P : field V -> Prop) f fs es es1 st x :
  grows es es1 -> (st = FParseError -> es1 <> []) -> (es1 = [] -> P f -> st <> FNone) ->
  stage P fs es1 x -> stage P (f :: fs) es (st :: fst x, snd x).
Proof.
  intros G A B [S1 [S2 [S3 S4]]]. unfold stage. simpl. split; [eauto with gr|]. split.
  { apply slots_cons; auto. intro E. eapply grows_ne; eauto. }
  split; [auto|]. intro E. constructor; [|exact (S4 E)]. apply B. eapply grows_nil; eauto.
Qed.

Lemma fork_adv l : Forall2 advances l (fork_inputs l).
Proof. induction l; constructor; auto. exists []. reflexivity. Qed.

(** *** flattened, append and rest fields *)
Lemma flat_call_good (f : field V) prefix sp allowed :
  good_field ShNamed f -> pflat f = true -> well_behaved_m (flat_call f prefix sp allowed).
Proof.
  intros G P. apply andb_prop in P. destruct P as [P1 P2]. specialize (G P1).
  unfold flat_call, is_flat, good_kind in *. destruct (f_kind f); try discriminate; try contradiction; auto.
Qed.
Lemma flat_fields_good prefix sp allowed : forall fs sl es inputs,
  Forall (good_field ShNamed) fs -> length sl = length fs -> slots_ok sl es ->
  let x := flat_fields prefix sp allowed fs sl es inputs in
  Forall2 advances inputs (snd x) /\
  exists y, fst x = Ok y /\ stage (fun f => pflat f = true) fs es y.
Proof.
  induction fs as [|f fs IH]; intros [|st sl] es inputs G L S; simpl in L; try discriminate.
  { simpl. split; auto with adv. eexists. split; [reflexivity|].
    split; [apply grows_refl|]. repeat split; simpl; auto. constructor. }
  apply slots_uncons in S. destruct S as [S1 S2]. inversion G as [|? ? Gf Gfs]; subst. cbn [flat_fields].
  assert (Y : forall st' es' ins2, grows es es' -> (st' = FParseError -> es' <> []) ->
      (pflat f = true -> st' <> FNone) -> Forall2 advances inputs ins2 ->
      let x := match flat_fields prefix sp allowed fs sl es' ins2 with
        | (Ok (sl2, es2), ins3) => (Ok (st' :: sl2, es2), ins3)
        | (Err e, ins3) => (Err e, ins3)
        | (Bad b, ins3) => (Bad b, ins3)
        end in
      Forall2 advances inputs (snd x) /\
      exists y, fst x = Ok y /\ stage (fun f => pflat f = true) (f :: fs) es y).
  { intros st' es' ins2 N1 N2 N3 A2.
    specialize (IH sl es' ins2 Gfs ltac:(lia) (slots_grow _ _ _ N1 S2)).
    cbv zeta in IH |- *. destruct (flat_fields prefix sp allowed fs sl es' ins2) as [r3 ins3].
    cbn [fst snd] in IH. destruct IH as [I1 [[sl' es''] [I2 I3]]]. subst r3. cbn [fst snd].
    split; [eapply advs_trans; eauto|]. eexists. split; [reflexivity|].
    exact (stage_cons _ f fs es es' st' _ N1 N2 (fun _ => N3) I3). }
  destruct (pflat f) eqn:PF.
  - set (ins0 := if negb (existsb pflat fs) then inputs else fork_inputs inputs).
    assert (A0 : Forall2 advances inputs ins0)
      by (unfold ins0; destruct (negb (existsb pflat fs)); auto using fork_adv with adv).
    pose proof (flat_call_good f prefix sp allowed Gf PF ins0) as W.
    destruct (flat_call f prefix sp allowed ins0) as [r ins1]. cbn [fst snd] in W.
    destruct W as [W1 W2].
    assert (A2 : Forall2 advances inputs (if negb (existsb pflat fs) then ins1 else inputs)).
    { assert (A1 : Forall2 advances inputs ins1) by exact (advs_trans _ _ _ A0 W2).
      destruct (negb (existsb pflat fs)); [exact A1|apply advs_refl]. }
    destruct r; cbn [returns] in W1; [| |contradiction]; apply Y; auto with gr; try discriminate.
    intros _. apply push_syn_ne.
  - apply Y; auto with gr adv. discriminate.
Qed.

(** *** containers *)
Definition is_attrs (tm : tmode V) : bool := match tm with TMeta => false | TAttrs _ _ => true end.
Lemma set_containers_good tm P : forall fs sl, filled P fs sl ->
  filled (fun f => P f \/ (is_attrs tm = true /\ f_container f = true)) fs (set_containers tm fs sl).
Proof.
  destruct tm as [|pn obj].
  - intros fs sl F. destruct fs; simpl; inversion F; subst; constructor; simpl.
    + intros [H|[H _]]; [auto|discriminate].
    + eapply filled_weak; [|eassumption]. simpl. intros ? [?|[? _]]; [auto|discriminate].
  - induction 1; simpl; constructor; auto.
    destruct (f_container x); intros [?|[_ ?]]; auto; discriminate.
Qed.
Lemma set_containers_in tm : forall fs (sl : slots), In FParseError (set_containers tm fs sl) -> In FParseError sl.
Proof.
  destruct tm as [|pn obj]; [destruct fs; auto|].
  induction fs as [|f fs IH]; intros [|st sl]; simpl; auto.
  destruct (f_container f); intros [H|H]; auto. discriminate.
Qed.
Lemma set_containers_len tm : forall fs (sl : slots), length (set_containers tm fs sl) = length sl.
Proof.
  destruct tm; [destruct fs; auto|].
  induction fs as [|f fs IH]; intros [|st sl]; simpl; auto.
Qed.
Lemma stage_containers tm P fs es sl es1 :
  stage P fs es (sl, es1) ->
  stage (fun f => P f \/ (is_attrs tm = true /\ f_container f = true)) fs es (set_containers tm fs sl, es1).
Proof.
  intros [A [B [C D]]]. simpl in *. repeat split; simpl; auto.
  - intro I. apply B. eapply set_containers_in; eauto.
  - now rewrite set_containers_len.
  - intro E. apply set_containers_good. auto.
Qed.

(** *** missing fields *)
Definition dflt_ok (tgt : bool) (f : field V) : Prop :=
  is_parsable f = false -> f_container f = true \/ f_default f <> None \/ tgt = true.
Lemma wants_parsable tgt f : dflt_ok tgt f -> wants_error tgt f = true -> is_parsable f = true.
Proof.
  unfold wants_error, dflt_ok. intros H W. destruct (is_parsable f); auto. exfalso.
  apply andb_prop in W. destruct W as [W W3]. apply andb_prop in W. destruct W as [W1 W2].
  destruct (f_container f); [discriminate|]. destruct (f_default f); [discriminate|].
  destruct tgt; [discriminate|]. destruct H as [?|[?|?]]; congruence.
Qed.
Lemma named_missing_good tm tgt prefix sp P : forall fs sl es,
  Forall (good_field ShNamed) fs -> Forall (dflt_ok tgt) fs -> length sl = length fs -> slots_ok sl es ->
  (es = [] -> filled P fs sl) ->
  exists y, named_missing tm tgt prefix sp fs sl es = Ok y /\
    stage (fun f => P f \/ (wants_error tgt f = true /\ is_flat f = false)) fs es y.
Proof.
  induction fs as [|f fs IH]; intros [|st sl] es G D L S F; simpl in L; try discriminate.
  { eexists. split; [reflexivity|]. split; [apply grows_refl|]. repeat split; simpl; auto. constructor. }
  apply slots_uncons in S. destruct S as [S1 S2]. inversion G as [|? ? Gf Gfs]; subst.
  inversion D as [|? ? Df Dfs]; subst. cbn [named_missing].
  assert (Y : forall st' es', grows es es' -> (st' = FParseError -> es' <> []) ->
     (es' = [] -> (P f \/ (wants_error tgt f = true /\ is_flat f = false)) -> st' <> FNone) ->
     exists y, match named_missing tm tgt prefix sp fs sl es' with
       | Ok (sl2, es2) => Ok (st' :: sl2, es2)
       | Err e => Err e | Bad b => Bad b end = Ok y /\
     stage (fun f => P f \/ (wants_error tgt f = true /\ is_flat f = false)) (f :: fs) es y).
  { intros st' es' N1 N2 N3.
    destruct (IH sl es' Gfs Dfs ltac:(lia) (slots_grow _ _ _ N1 S2)) as [[sl' es''] [I2 I3]].
    { intro E. specialize (F (grows_nil _ _ N1 E)). inversion F; auto. }
    rewrite I2. eexists. split; [reflexivity|].
    exact (stage_cons _ f fs es es' st' _ N1 N2 N3 I3). }
  assert (F0 : es = [] -> P f -> st <> FNone) by (intro E; specialize (F E); inversion F; auto).
  destruct (f_kind f) eqn:K;
    try (apply Y; auto with gr; intros E [H|[_ H]]; [auto|unfold is_flat in H; rewrite K in H; discriminate]).
  destruct (wants_error tgt f && fs_is_none st) eqn:W.
  - apply andb_prop in W. destruct W as [W N]. pose proof (Gf (wants_parsable _ _ Df W)) as GK.
    unfold good_kind in GK. rewrite K in GK.
    pose proof (gd_missing d GK (missing_name_named tm prefix f) sp) as R.
    destruct (d_missing d (missing_name_named tm prefix f) sp); cbn [returns] in R; [| |contradiction].
    + apply Y; auto with gr; discriminate.
    + apply Y; auto with gr; intros; try apply push_syn_ne. exfalso. eapply push_syn_ne; eauto.
  - apply Y; auto with gr. intros E [H|[H _]]; auto. rewrite H in W. simpl in W.
    intros ->. discriminate.
Qed.
Lemma unnamed_missing_good tm tgt variant m sp inputs P : forall fs sl es index cur extra,
  Forall (good_field ShUnnamed) fs -> Forall (dflt_ok tgt) fs -> length sl = length fs -> slots_ok sl es ->
  (es = [] -> filled P fs sl) ->
  let x := unnamed_missing tm tgt variant m sp inputs fs sl es index cur extra in
  (exists e, x = Err e) \/
  exists y, x = Ok y /\ stage (fun f => P f \/ wants_error tgt f = true) fs es y.
Proof.
  induction fs as [|f fs IH]; intros [|st sl] es index cur extra G D L S F; simpl in L; try discriminate.
  { right. eexists. split; [reflexivity|]. split; [apply grows_refl|]. repeat split; simpl; auto. constructor. }
  apply slots_uncons in S. destruct S as [S1 S2]. inversion G as [|? ? Gf Gfs]; subst.
  inversion D as [|? ? Df Dfs]; subst. cbn [unnamed_missing]. cbv zeta.
  set (cur' := if f_container f then cur else if is_flatten f then cur else S cur).
  set (extra' := if f_container f then extra
      else match f_kind f with KFlatU u => extra + fu_count0 u | _ => extra end).
  assert (Y : forall st' es' ix, grows es es' -> (st' = FParseError -> es' <> []) ->
     (es' = [] -> (P f \/ wants_error tgt f = true) -> st' <> FNone) ->
     let x := match unnamed_missing tm tgt variant m sp inputs fs sl es' ix cur' extra' with
       | Ok (sl2, es2) => Ok (st' :: sl2, es2)
       | Err e => Err e | Bad b => Bad b end in
     (exists e, x = Err e) \/ exists y, x = Ok y /\
     stage (fun f => P f \/ wants_error tgt f = true) (f :: fs) es y).
  { intros st' es' ix N1 N2 N3.
    destruct (IH sl es' ix cur' extra' Gfs Dfs ltac:(lia) (slots_grow _ _ _ N1 S2)) as [[e E]|[[sl' es''] [I2 I3]]].
    { intro E. specialize (F (grows_nil _ _ N1 E)). inversion F; auto. }
    { left. rewrite E. eauto. }
    right. rewrite I2. eexists. split; [reflexivity|].
    exact (stage_cons _ f fs es es' st' _ N1 N2 N3 I3). }
  assert (F0 : es = [] -> P f -> st <> FNone) by (intro E; specialize (F E); inversion F; auto).
  destruct (wants_error tgt f && fs_is_none st) eqn:W.
  - apply andb_prop in W. destruct W as [W N]. pose proof (Gf (wants_parsable _ _ Df W)) as GK.
    unfold good_kind in GK. destruct (f_kind f) eqn:K; try contradiction.
    + pose proof (gd_missing d GK (missing_name_unnamed tm (index + cur + extra)) (to_full_span m inputs)) as R.
      destruct (d_missing d (missing_name_unnamed tm (index + cur + extra)) (to_full_span m inputs));
        cbn [returns] in R; [| |contradiction].
      * apply Y; auto with gr; discriminate.
      * apply Y; auto with gr; intros; try apply push_syn_ne. exfalso. eapply push_syn_ne; eauto.
    + set (pe := fun s0 : stream =>
           let (r, l) := fu_parse u Unnamed index [s0] in
           (match r with
            | Ok v => Ok (FSome v, es)
            | Err e => Ok (FParseError, push_syn es e)
            | Bad b => Bad b
            end, hd s0 l)).
      assert (Q : forall s, returns (fst (pe s)) /\ advances s (snd (pe s)) /\
        (forall z, fst (pe s) = Ok z -> grows es (snd z) /\ (fst z = FParseError -> snd z <> []) /\ fst z <> FNone)).
      { intro s. unfold pe. pose proof (GK Unnamed index [s]) as W1.
        destruct (fu_parse u Unnamed index [s]) as [r l]. cbn [fst snd] in W1. destruct W1 as [W1 W2].
        inversion W2; subst. cbn [fst snd hd].
        destruct r; cbn [returns] in W1; [| |contradiction]; simpl; repeat split; auto;
          intros; try (injection H as <-); simpl; auto with gr; try discriminate.
        apply push_syn_ne. }
      assert (R : returns (parse_empty (if variant then sp else SCall) pe)).
      { apply returns_empty. intro s. destruct (Q s) as [? [? ?]]. auto. }
      assert (R2 : forall z, parse_empty (if variant then sp else SCall) pe = Ok z ->
         grows es (snd z) /\ (fst z = FParseError -> snd z <> []) /\ fst z <> FNone).
      { intros z. unfold parse_empty, parse2. destruct (Q (root_stream [])) as [_ [_ Q3]].
        destruct (pe (root_stream [])) as [[z0|e|b] s1]; cbn [fst] in Q3; try discriminate.
        destruct (cell s1); [discriminate|]. destruct (toks s1); [|discriminate].
        intro E. injection E as <-. auto. }
      destruct (parse_empty (if variant then sp else SCall) pe) as [[st' es']|e|b]; cbn [returns] in R;
        [|left; eauto|contradiction].
      destruct (R2 _ eq_refl) as [R3 [R4 R5]]. cbn [fst snd] in *. apply Y; auto.
  - apply Y; auto with gr. intros E [H|H]; auto. rewrite H in W. simpl in W.
    intros ->. discriminate.
Qed.

(** *** transforms and defaults *)
Lemma run_transforms_good : forall ts (st : fstatus V) es,
  (st = FParseError -> es <> []) ->
  let x := run_transforms ts st es in
  grows es (snd x) /\ (fst x = FParseError -> snd x <> []) /\ (st <> FNone -> fst x <> FNone).
Proof.
  induction ts as [|t ts IH]; intros st es H; [simpl; auto with gr|].
  destruct t as [g|g]; cbn [run_transforms].
  - specialize (IH (fs_map st g) es). destruct IH as [A [B C]]; [destruct st; simpl; auto; discriminate|].
    repeat split; auto. intro N. apply C. destruct st; simpl; auto; discriminate.
  - destruct st as [| |v]; [apply IH; discriminate|apply IH; auto|].
    destruct (g v).
    + destruct (IH (FSome v0) es) as [A [B C]]; [discriminate|]. repeat split; auto. intros _. apply C. discriminate.
    + destruct (IH FParseError (push_syn es s)) as [A [B C]]; [intros _; apply push_syn_ne|].
      repeat split; eauto with gr. intros _. apply C. discriminate.
Qed.
Lemma set_field_good f (st : fstatus V) es :
  (st = FParseError -> es <> []) ->
  let x := set_field f st es in
  grows es (snd x) /\ (fst x = FParseError -> snd x <> []) /\
  (st <> FNone \/ f_default f <> None -> fst x <> FNone).
Proof.
  intro H. unfold set_field. cbv zeta.
  destruct (run_transforms_good (f_transforms f)
    (match f_default f with Some v => fs_or_else st (fun _ => FSome v) | None => st end) es) as [A [B C]].
  { destruct (f_default f); auto. destruct st; simpl; auto. discriminate. }
  repeat split; auto. intro N. apply C. destruct (f_default f).
  - destruct st; simpl; congruence.
  - destruct N; congruence.
Qed.
Lemma field_sets_good P : forall fs sl es,
  length sl = length fs -> slots_ok sl es -> (es = [] -> filled P fs sl) ->
  stage (fun f => P f \/ f_default f <> None) fs es (field_sets fs sl es).
Proof.
  induction fs as [|f fs IH]; intros [|st sl] es L S F; simpl in L; try discriminate.
  { split; [apply grows_refl|]. repeat split; simpl; auto. constructor. }
  apply slots_uncons in S. destruct S as [S1 S2]. cbn [field_sets].
  destruct (set_field_good f st es S1) as [A [B C]].
  destruct (set_field f st es) as [st1 es1]. cbn [fst snd] in *.
  specialize (IH sl es1 ltac:(lia) (slots_grow _ _ _ A S2)).
  destruct (field_sets fs sl es1) as [sl2 es2].
  eapply (stage_cons _ f fs es es1 st1 (sl2, es2)); auto.
  - intros E [H|H]; apply C; auto. left. specialize (F (grows_nil _ _ A E)). inversion F; auto.
  - apply IH. intro E. specialize (F (grows_nil _ _ A E)). inversion F; auto.
Qed.
Lemma unwrap_slots_good fs (sl : slots) :
  filled (fun _ => True) fs sl -> ~ In FParseError sl -> returns (unwrap_slots sl).
Proof.
  induction 1 as [|f st fs sl H _ IH]; cbn [unwrap_slots]; [simpl; auto|]. intro N.
  destruct st as [| |v].
  - exfalso. exact (H Logic.I eq_refl).
  - exfalso. apply N. left. reflexivity.
  - apply returns_rmap. apply IH. intro I. apply N. right. exact I.
Qed.
Lemma filled_all (P : field V -> Prop) fs sl :
  filled P fs sl -> Forall P fs -> filled (fun _ => True) fs sl.
Proof. induction 1; intro T; constructor; inversion T; subst; auto. apply IHForall2; auto. Qed.
Lemma post_finish_good P target fs sl es :
  length sl = length fs -> slots_ok sl es -> (es = [] -> filled P fs sl) ->
  (target = None -> Forall (fun f => P f \/ f_default f <> None) fs) ->
  returns (post_finish target fs sl es).
Proof.
  intros L S F T. unfold post_finish. pose proof (field_sets_good P fs sl es L S F) as [A [B [C D]]].
  destruct (field_sets fs sl es) as [sl1 es1]. cbn [fst snd] in *.
  apply returns_rbind; [apply returns_check|]. intros u E. destruct es1; [|discriminate].
  unfold post_ret. destruct target; [simpl; auto|].
  eapply unwrap_slots_good; [|intro I; now apply (B I)].
  eapply filled_all; [exact (D eq_refl)|exact (T eq_refl)].
Qed.

(** what accepted schemas guarantee about the fields nobody parses *)
Definition fields_ok (tm : tmode V) (target : option (list V)) (f : field V) : Prop :=
  is_parsable f = false ->
  f_default f <> None \/ target <> None \/ (is_attrs tm = true /\ f_container f = true).
Lemma fields_dflt tm target fs : Forall (fields_ok tm target) fs -> Forall (dflt_ok (has_target target)) fs.
Proof.
  intro H. eapply Forall_impl; [|exact H]. intros f F P. destruct (F P) as [?|[?|[? ?]]]; auto.
  destruct target; [auto|congruence].
Qed.
Lemma named_post_good fs tm target allowed sp prefix sl es :
  Forall (good_field ShNamed) fs -> Forall (fields_ok tm target) fs ->
  length sl = length fs -> slots_ok sl es ->
  well_behaved_m (named_post fs tm target allowed sp prefix sl es).
Proof.
  intros G K L S inputs. unfold named_post.
  pose proof (flat_fields_good prefix sp allowed fs sl es inputs G L S) as H. cbv zeta in H.
  destruct (flat_fields prefix sp allowed fs sl es inputs) as [r ins1]. cbn [fst snd] in H.
  destruct H as [H1 [[sl1 es1] [H2 H3]]]. subst r. cbn [fst snd]. split; auto.
  pose proof (stage_containers tm _ _ _ _ _ H3) as [A1 [A2 [A3 A4]]]. cbn [fst snd] in *.
  destruct (named_missing_good tm (has_target target) prefix sp _ fs _ es1 G (fields_dflt _ _ _ K) A3 A2 A4)
    as [[sl2 es2] [M1 [B1 [B2 [B3 B4]]]]]. rewrite M1. cbn [rbind fst snd] in *.
  eapply post_finish_good; eauto. intros ->. eapply Forall_impl; [|exact K].
  intros f F. unfold fields_ok in F. unfold pflat, wants_error in *. simpl in *.
  destruct (f_default f) eqn:D; [right; discriminate|].
  destruct (is_parsable f) eqn:E.
  - left. destruct (is_flat f); auto. right. unfold is_parsable in E. destruct (f_container f); auto.
  - destruct (F eq_refl) as [?|[?|?]]; auto.
Qed.
Lemma unnamed_post_good fs tm target variant m sp inputs sl es index :
  Forall (good_field ShUnnamed) fs -> Forall (fields_ok tm target) fs ->
  length sl = length fs -> slots_ok sl es ->
  returns (unnamed_post fs tm target variant m sp inputs sl es index).
Proof.
  intros G K L S. unfold unnamed_post.
  assert (H3 : stage (fun _ => False) fs es (sl, es)).
  { split; [apply grows_refl|]. split; auto. split; auto. intros _. apply filled_none; auto. }
  pose proof (stage_containers tm _ _ _ _ _ H3) as [A1 [A2 [A3 A4]]]. cbn [fst snd] in *.
  destruct (unnamed_missing_good tm (has_target target) variant m sp inputs _ fs _ es index 0 0
              G (fields_dflt _ _ _ K) A3 A2 A4) as [[e ->]|[[sl2 es2] [M1 [B1 [B2 [B3 B4]]]]]];
    [simpl; auto|]. rewrite M1. cbn [rbind fst snd] in *.
  eapply post_finish_good; eauto. intros ->. eapply Forall_impl; [|exact K].
  intros f F. unfold fields_ok in F. unfold wants_error in *. simpl in *.
  destruct (f_default f) eqn:D; [right; discriminate|].
  destruct (is_parsable f) eqn:E.
  - left. right. unfold is_parsable in E. destruct (f_container f); auto.
  - destruct (F eq_refl) as [?|[?|?]]; auto; congruence.
Qed.

(** *** bodies *)
Lemma find_field_spec k : forall fs i j (f : field V), find_field k fs i = Some (j, f) ->
  In f fs /\ pitem f = true.
Proof.
  induction fs as [|g fs IH]; simpl; intros i j f E; [discriminate|].
  destruct (pitem g && mem_str k (f_names g)) eqn:H.
  - injection E as <- <-. apply andb_prop in H. tauto.
  - destruct (IH _ _ _ E). auto.
Qed.
Lemma check_unknown_grows p sp l es : grows es (check_unknown p sp l es).
Proof. unfold check_unknown. destruct (mem_str p l); auto with gr. Qed.
Definition slots_inv (fs : list (field V)) (st : slots * errors) : Prop :=
  length (fst st) = length fs /\ slots_ok (fst st) (snd st).
Lemma nth_in {A} i (l : list A) d : nth i l d = d \/ In (nth i l d) l.
Proof. destruct (nth_in_or_default i l d); auto. Qed.
Lemma named_closure_good fs unknown_ok allowed prefix validate :
  Forall (good_field ShNamed) fs ->
  good_func (slots_inv fs) (named_closure fs unknown_ok allowed prefix validate).
Proof.
  intros G p sp [sl es] s [I1 I2]. cbn [fst snd] in *. unfold named_closure.
  set (other := if negb unknown_ok && validate then check_unknown p sp allowed es else es).
  assert (O : grows es other) by (unfold other; destruct (negb unknown_ok && validate); auto using check_unknown_grows with gr).
  assert (X : slots_inv fs (sl, other)) by (split; simpl; eauto using slots_grow).
  destruct (strip_prefix prefix p) as [k|]; [|simpl; auto using adv_skip].
  destruct (find_field k fs 0) as [[i f]|] eqn:E; [|simpl; auto using adv_skip].
  apply find_field_spec in E. destruct E as [E1 E2]. rewrite Forall_forall in G.
  apply andb_prop in E2. destruct E2 as [E2 E3]. pose proof (G f E1 E2) as GF.
  assert (W : well_behaved (item_named f (first_name f) sp)).
  { unfold item_named, is_flat in *. destruct (f_kind f); try discriminate. apply GF. }
  pose proof (fs_named_good (first_name f) sp (item_named f) (nth i sl FNone) es s W) as F. cbv zeta in F.
  destruct (fs_parse_named (first_name f) sp (item_named f) (nth i sl FNone) es s) as [[[st es1]|e|b] s1];
    cbn [fst snd returns] in *; destruct F as [F1 [F2 F3]]; [|repeat split; auto|contradiction].
  destruct (F3 _ _ eq_refl) as [F4 F5]. split; [exact Logic.I|]. split; [|exact F2]. split; cbn [fst snd].
  - now rewrite upd_len.
  - eapply slots_upd; eauto. intro Z. destruct (F5 Z) as [Z1|Z1]; auto.
    destruct (nth_in i sl FNone) as [Z2|Z2]; [congruence|]. rewrite Z1 in Z2. auto.
Qed.
Lemma named_body_good fs tm target unknown_ok allowed sp prefix validate :
  Forall (good_field ShNamed) fs -> Forall (fields_ok tm target) fs ->
  well_behaved_m (named_body fs tm target unknown_ok allowed sp prefix validate).
Proof.
  intros G K inputs. unfold named_body.
  set (src := if existsb pflat fs then fork_inputs inputs else inputs).
  assert (A0 : Forall2 advances inputs src)
    by (unfold src; destruct (existsb pflat fs); auto using fork_adv with adv).
  assert (I0 : slots_inv fs (init_slots fs, [])).
  { split; simpl; [apply map_length|apply slots_init]. }
  pose proof (parse_struct_good _ _ (named_closure_good fs unknown_ok allowed prefix validate G) src _ I0) as H.
  cbv zeta in H.
  destruct (parse_struct (named_closure fs unknown_ok allowed prefix validate) (init_slots fs, []) src)
    as [[r [sl1 es1]] src1]. cbn [fst snd] in H. destruct H as [H1 [[H2 H3] H4]]. cbn [fst snd] in *.
  assert (A1 : Forall2 advances inputs (if existsb pflat fs then inputs else src1)).
  { pose proof (advs_trans _ _ _ A0 H4). destruct (existsb pflat fs); auto with adv. }
  set (ins1 := if existsb pflat fs then inputs else src1) in *.
  assert (N : gm2 inputs (named_post fs tm target allowed sp prefix sl1 (push_result es1 r) ins1)).
  { destruct (named_post_good fs tm target allowed sp prefix sl1 (push_result es1 r) G K H2
      (slots_grow _ _ _ (grows_result _ _) H3) ins1) as [N1 N2].
    split; auto. eapply advs_trans; eauto. }
  destruct r; cbn [returns] in H1; [exact N|exact N|contradiction].
Qed.

Lemma tuple_fields_in : forall fs i j f, In (j, f) (tuple_fields fs i) -> In f fs /\ is_parsable (V:=V) f = true.
Proof.
  induction fs as [|g fs IH]; simpl; intros i j f I; [contradiction|].
  assert (X : In (j, f) (tuple_fields fs (S i)) -> (g = f \/ In f fs) /\ is_parsable f = true).
  { intro Y. destruct (IH _ _ _ Y). auto. }
  destruct (f_kind g); auto; destruct (is_parsable g) eqn:P; auto;
    destruct I as [E|I]; auto; injection E as _ <-; auto.
Qed.
Lemma tuple_fields_len : forall fs i, Forall (good_field (V:=V) ShUnnamed) fs ->
  length (tuple_fields fs i) = length (filter is_parsable fs).
Proof.
  induction fs as [|g fs IH]; simpl; intros i G; auto. inversion G as [|? ? Gf Gs]; subst.
  specialize (IH (S i) Gs). unfold good_field, good_kind in Gf.
  destruct (is_parsable g); simpl.
  - specialize (Gf eq_refl). destruct (f_kind g); simpl; try contradiction; auto.
  - destruct (f_kind g); auto.
Qed.
Definition tslots_inv (fs : list (field V)) (_ : nat) (st : slots * errors * nat) : Prop :=
  slots_inv fs (fst st).
Lemma tuple_closure_good fs : Forall (good_field ShUnnamed) fs ->
  good_tfunc (length (filter is_parsable fs)) (tslots_inv fs) (tuple_closure fs).
Proof.
  intros G i [[sl es] index] s rest Li [I1 I2]. cbn [fst snd] in *. unfold tuple_closure.
  cbv zeta. destruct (nth_error (tuple_fields fs 0) i) as [[ri f]|] eqn:E.
  2: { apply nth_error_None in E. rewrite tuple_fields_len in E by auto. lia. }
  apply nth_error_In in E. apply tuple_fields_in in E. destruct E as [E1 E2].
  pose proof G as G'. rewrite Forall_forall in G'. pose proof (G' f E1 E2) as GF. unfold good_kind in GF.
  destruct (f_kind f); try contradiction.
  - pose proof (fs_unnamed_good (fun _ => d_item d Unnamed) es s (fun _ => gd_item d GF Unnamed)) as F.
    cbv zeta in F.
    destruct (fs_parse_unnamed (fun _ => d_item d Unnamed) es s) as [[[st es1]|e|b] s1];
      cbn [fst snd returns] in *; destruct F as [F1 [F2 F3]]; [|repeat split; simpl; auto with adv|contradiction].
    destruct (F3 _ _ eq_refl) as [F4 F5]. split; auto. split; [|auto with adv].
    split; simpl; [now rewrite upd_len|]. eapply slots_upd; eauto.
  - pose proof (GF Unnamed index (s :: rest)) as W.
    destruct (fu_parse u Unnamed index (s :: rest)) as [r ins1]. cbn [fst snd] in W. destruct W as [W1 W2].
    destruct r; cbn [returns] in W1; [| |contradiction]; cbn [fst snd]; (split; [simpl; auto|]); split.
    + split; simpl; [now rewrite upd_len|]. eapply slots_upd; eauto; [|discriminate]. apply grows_refl.
    + exact W2.
    + split; simpl; [now rewrite upd_len|]. eapply slots_upd; eauto; [apply grows_syn|].
      intros _. right. apply push_syn_ne.
    + inversion W2; subst. constructor; eauto using adv_skip with adv.
Qed.
Lemma each_eof_good : well_behaved_m each_eof.
Proof.
  intro l. induction l as [|s l IH]; cbn [each_eof]; [simpl; auto|].
  pose proof (wb_eof s) as W. destruct (parse_eof s) as [r s1]. cbn [fst snd] in W. destruct W as [W1 W2].
  destruct r; cbn [returns] in W1; [|simpl; auto with adv|contradiction].
  destruct (each_eof l). simpl in *. destruct IH. auto.
Qed.
Lemma unnamed_body_good fs tm target variant m sp index :
  Forall (good_field ShUnnamed) fs -> Forall (fields_ok tm target) fs ->
  well_behaved_m (unnamed_body fs tm target variant m sp index).
Proof.
  intros G K inputs. unfold unnamed_body.
  assert (L0 : length (init_slots fs) = length fs) by apply map_length.
  destruct (existsb is_parsable fs).
  - pose proof (parse_tuple_good _ _ _ (tuple_closure_good fs G) (init_slots fs, [], index) inputs) as H.
    cbv zeta in H. destruct H as [H1 [[c H2] [_ H4]]]. { split; simpl; auto. apply slots_init. }
    destruct (parse_tuple_struct (length (filter is_parsable fs)) (tuple_closure fs) (init_slots fs, [], index) inputs)
      as [[r [[sl1 es1] ix1]] ins1]. cbn [fst snd] in *. destruct H2 as [H2 H3]. cbn [fst snd] in *.
    assert (N : returns (unnamed_post fs tm target variant m sp ins1 sl1 (push_result es1 r) ix1)).
    { apply unnamed_post_good; auto. eapply slots_grow; eauto with gr. }
    destruct r; cbn [returns] in H1; [split; auto|split; auto|contradiction].
  - pose proof (each_eof_good inputs) as W. destruct (each_eof inputs) as [r ins1]. cbn [fst snd] in W.
    destruct W as [W1 W2]. destruct r; cbn [returns] in W1; [|simpl; auto|contradiction].
    split; auto. apply unnamed_post_good; auto. apply slots_init.
Qed.

(** *** transparent *)
Definition tgo := fix go (fs : list (field V)) (i : nat) := match fs with
                  | [] => None
                  | f :: fs' =>
                    match f_kind f with
                    | KItem d => if is_parsable f then Some (i, d) else go fs' (S i)
                    | _ => go fs' (S i)
                    end
                  end.
Lemma tgo_spec : forall fs i0 i d, tgo fs i0 = Some (i, d) -> length (filter is_parsable fs) = 1 ->
  exists a (f : field V) b, fs = a ++ f :: b /\ i = i0 + length a /\ f_kind f = KItem d /\ is_parsable f = true /\
    Forall (fun g : field V => is_parsable g = false) (a ++ b).
Proof.
  induction fs as [|g fs IH]; intros i0 i d E L; cbn [tgo] in E; [discriminate|].
  cbn [filter] in L. destruct (is_parsable g) eqn:P.
  - simpl in L. assert (Z : Forall (fun g => is_parsable g = false) fs).
    { apply Forall_forall. intros x Ix. destruct (is_parsable x) eqn:Px; auto. exfalso.
      assert (Q : In x (filter is_parsable fs)) by (apply filter_In; auto).
      destruct (filter is_parsable fs); [contradiction|discriminate]. }
    assert (Z2 : forall i0, tgo fs i0 = None).
    { clear -Z. induction Z; intro; cbn [tgo]; auto. rewrite H. destruct (f_kind x); auto. }
    destruct (f_kind g) eqn:K; try (rewrite Z2 in E; discriminate).
    injection E as <- <-. exists [], g, fs. simpl. repeat split; auto; lia.
  - assert (E' : tgo fs (S i0) = Some (i, d)) by (destruct (f_kind g); auto).
    destruct (IH _ _ _ E' L) as [a [f [b [-> [-> [A [B C]]]]]]].
    exists (g :: a), f, b. simpl. repeat split; auto; try lia. 
Qed.
Lemma transparent_spec fs i d : transparent_field fs = Some (i, d) -> length (filter is_parsable fs) = 1 ->
  exists a (f : field V) b, fs = a ++ f :: b /\ i = length a /\ f_kind f = KItem d /\ is_parsable f = true /\
    Forall (fun g : field V => is_parsable g = false) (a ++ b).
Proof. apply tgo_spec. Qed.
Lemma tgo_exists : forall (fs : list (field V)) i0, length (filter pitem fs) <> 0 -> tgo fs i0 <> None.
Proof.
  induction fs as [|g fs IH]; intros i0 L; simpl in L; [congruence|]. cbn [tgo].
  unfold pitem, is_flat in L.
  destruct (f_kind g); simpl in *; try (rewrite andb_false_r in L; apply IH; exact L).
  destruct (is_parsable g); simpl in *; [discriminate|]. apply IH. exact L.
Qed.
Lemma upd_app {A} (a : list A) x y b : upd_nth (length a) x (a ++ y :: b) = a ++ x :: b.
Proof. induction a; simpl; congruence. Qed.
Lemma run_transforms_map : forall ts (st : fstatus V) es,
  (forall t, In t ts -> match t with TMap _ => True | TAndThen _ => False end) ->
  snd (run_transforms ts st es) = es /\ (st <> FParseError -> fst (run_transforms ts st es) <> FParseError).
Proof.
  induction ts as [|t ts IH]; intros st es H; [simpl; auto|].
  pose proof (H t (or_introl eq_refl)) as Ht. destruct t as [g|]; [|contradiction]. cbn [run_transforms].
  destruct (IH (fs_map st g) es) as [A B]; [intros; apply H; simpl; auto|]. split; auto.
  intro N. apply B. destruct st; simpl; congruence.
Qed.
Lemma field_sets_map : forall fs (sl : slots) es, length sl = length fs -> Forall no_and_then fs ->
  snd (field_sets fs sl es) = es /\ (~ In FParseError sl -> ~ In FParseError (fst (field_sets fs sl es))).
Proof.
  induction fs as [|f fs IH]; intros [|st sl] es L N; simpl in L; try discriminate; [simpl; auto|].
  inversion N as [|? ? N1 N2]; subst. cbn [field_sets].
  pose proof (run_transforms_map (f_transforms f)
    (match f_default f with Some v => fs_or_else st (fun _ => FSome v) | None => st end) es N1) as [A B].
  fold (set_field f st es) in A, B. destruct (set_field f st es) as [st1 es1]. cbn [fst snd] in *. subst es1.
  destruct (IH sl es ltac:(lia) N2) as [C D]. destruct (field_sets fs sl es) as [sl2 es2].
  cbn [fst snd] in *. split; auto. intros M [E|E].
  - apply B; auto. destruct (f_default f); [|intros ->; apply M; simpl; auto].
    destruct st; simpl; try congruence. intros _. apply M. simpl. auto.
  - apply D; auto. intro. apply M. simpl. auto.
Qed.
Lemma transparent_post_good fs tm target i d v es :
  transparent_field fs = Some (i, d) -> length (filter is_parsable fs) = 1 ->
  Forall no_and_then fs -> Forall (fields_ok tm target) fs ->
  returns (fst (transparent_post fs tm target i v es)) /\
  snd (transparent_post fs tm target i v es) = es.
Proof.
  intros T L N K. destruct (transparent_spec _ _ _ T L) as [a [f [b [-> [-> [Kf [Pf C]]]]]]].
  unfold transparent_post.
  set (fs := a ++ f :: b) in *.
  set (sl := upd_nth (length a) (FSome v) (init_slots fs)).
  assert (Ls : length sl = length fs) by (unfold sl; rewrite upd_len; apply map_length).
  assert (Np : ~ In FParseError sl).
  { unfold sl. intro I. apply upd_in in I. destruct I as [I|I]; [discriminate|].
    apply (slots_init fs [] I). reflexivity. }
  assert (F0 : filled (fun g => is_parsable g = true) fs sl).
  { unfold sl, fs, init_slots. rewrite map_app. simpl.
    replace (length a) with (length (map (fun _ : field V => @FNone V) a)) by apply map_length.
    rewrite upd_app. apply Forall_app in C. destruct C as [C1 C2].
    assert (Z : forall l, Forall (fun g : field V => is_parsable g = false) l ->
      filled (fun g => is_parsable g = true) l (map (fun _ => @FNone V) l)).
    { clear. induction 1; constructor; auto. congruence. }
    apply Forall2_app; [apply Z; auto|]. constructor; [discriminate|apply Z; auto]. }
  pose proof (set_containers_good tm _ _ _ F0) as F1.
  assert (L1 : length (set_containers tm fs sl) = length fs) by now rewrite set_containers_len.
  assert (N1 : ~ In FParseError (set_containers tm fs sl)) by (intro I; apply Np; eapply set_containers_in; eauto).
  destruct (field_sets_map fs (set_containers tm fs sl) es L1 N) as [M1 M2].
  assert (M3 : stage (fun f => (is_parsable f = true \/ is_attrs tm = true /\ f_container f = true) \/ f_default f <> None)
     fs [] (field_sets fs (set_containers tm fs sl) [])).
  { apply field_sets_good; auto. intro I. contradiction. }
  destruct (field_sets_map fs (set_containers tm fs sl) [] L1 N) as [M4 M5].
  destruct M3 as [_ [_ [_ M3]]]. specialize (M3 M4). specialize (M5 N1).
  assert (EQ : fst (field_sets fs (set_containers tm fs sl) es) = fst (field_sets fs (set_containers tm fs sl) [])).
  { clear -N L1. revert L1 es. generalize (set_containers tm fs sl). generalize fs N. clear.
    induction 1 as [|f fs N1 N2 IH]; intros [|st sl] L es; simpl in L; try discriminate; auto.
    cbn [field_sets].
    pose proof (run_transforms_map (f_transforms f)
      (match f_default f with Some v => fs_or_else st (fun _ => FSome v) | None => st end) es N1) as [A _].
    pose proof (run_transforms_map (f_transforms f)
      (match f_default f with Some v => fs_or_else st (fun _ => FSome v) | None => st end) [] N1) as [B _].
    assert (Q : fst (set_field f st es) = fst (set_field f st [])).
    { unfold set_field. generalize (match f_default f with Some v => fs_or_else st (fun _ => FSome v) | None => st end).
      clear -N1. unfold no_and_then in N1. induction (f_transforms f) as [|t ts IH]; intro st; auto.
      pose proof (N1 t (or_introl eq_refl)). destruct t; [|contradiction]. cbn [run_transforms]. apply IH.
      intros; apply N1; simpl; auto. }
    fold (set_field f st es) in A. fold (set_field f st []) in B.
    destruct (set_field f st es) as [st1 es1]. destruct (set_field f st []) as [st2 es2]. cbn [fst snd] in *. subst.
    specialize (IH sl ltac:(lia) es). destruct (field_sets fs sl es), (field_sets fs sl []). simpl in *. congruence. }
  destruct (field_sets fs (set_containers tm fs sl) es) as [sl1 es1]. cbn [fst snd] in *. split; auto.
  unfold post_ret. destruct target; [simpl; auto|]. rewrite EQ.
  eapply unwrap_slots_good; [|exact M5]. eapply filled_all; [exact M3|].
  eapply Forall_impl; [|exact K]. intros g F. unfold fields_ok in F. simpl.
  destruct (is_parsable g); auto. destruct (F eq_refl) as [?|[?|?]]; auto; congruence.
Qed.

(** *** and_thens *)
Lemma run_and_thens_good {A} : forall (fs : list (A -> A + synerr)) ret es,
  (ret = None -> es <> []) ->
  let x := run_and_thens fs ret es in
  grows es (snd x) /\ (fst x = None -> snd x <> []).
Proof.
  induction fs as [|f fs IH]; intros ret es H; [simpl; auto with gr|]. cbn [run_and_thens].
  destruct ret as [v|]; [|apply IH; auto]. destruct (f v).
  - apply IH. discriminate.
  - destruct (IH None (push_syn es s)) as [A1 A2]; [intros _; apply push_syn_ne|]. split; eauto with gr.
Qed.
Lemma returns_and_thens {A} (fs : list (A -> A + synerr)) r : returns r -> returns (after_and_thens fs r).
Proof.
  intro H. unfold after_and_thens. destruct fs as [|f fs]; auto. apply returns_rbind; auto. intros v _.
  destruct (run_and_thens_good (f :: fs) (Some v) []) as [_ B]; [discriminate|].
  destruct (run_and_thens (f :: fs) (Some v) []) as [ret es]. cbn [fst snd] in *.
  apply returns_rbind; [apply returns_check|]. intros u E. destruct ret; simpl; auto.
  destruct es; [now apply B|discriminate].
Qed.
Lemma wb_and_thens {A} (fs : list (A -> A + synerr)) p : well_behaved p -> well_behaved (p_and_thens fs p).
Proof.
  intros H s. unfold p_and_thens. specialize (H s). destruct (p s). simpl in *. destruct H.
  split; auto using returns_and_thens.
Qed.
Lemma wbm_and_thens {A} (fs : list (A -> A + synerr)) p : well_behaved_m p -> well_behaved_m (p_and_thens fs p).
Proof.
  intros H s. unfold p_and_thens. specialize (H s). destruct (p s). simpl in *. destruct H.
  split; auto using returns_and_thens.
Qed.

(** *** structs *)
Lemma skip_default_kind (f : field V) : f_kind (skip_default f) = f_kind f /\
  is_parsable (skip_default f) = is_parsable f /\ f_container (skip_default f) = f_container f /\
  f_transforms (skip_default f) = f_transforms f /\ f_skip (skip_default f) = f_skip f.
Proof.
  unfold skip_default. destruct (f_default f); auto. destruct (f_skip f) eqn:E; auto.
  unfold is_parsable. simpl. rewrite E. auto.
Qed.
Lemma container_default_kind (f : field V) : f_kind (container_default f) = f_kind f /\
  is_parsable (container_default f) = is_parsable f /\
  f_transforms (container_default f) = f_transforms f.
Proof.
  unfold container_default. destruct (f_default f); auto. destruct (f_container f) eqn:E; auto.
  unfold is_parsable. simpl. rewrite E. auto.
Qed.
Lemma same_kind_good sh (f g : field V) : f_kind g = f_kind f -> is_parsable g = is_parsable f ->
  good_field sh f -> good_field sh g.
Proof. unfold good_field. intros -> ->. auto. Qed.
Lemma Forall_map {A B} (P : B -> Prop) (f : A -> B) l : Forall (fun x => P (f x)) l -> Forall P (map f l).
Proof. induction 1; simpl; auto. Qed.

(** s_fields differs from s_raw in the defaults only *)
Definition same_field (f g : field V) : Prop :=
  f_kind g = f_kind f /\ is_parsable g = is_parsable f /\ f_transforms g = f_transforms f.
Lemma s_fields_same tm (s : sdef V) : Forall2 same_field (s_raw s) (s_fields tm s).
Proof.
  assert (A : Forall2 same_field (s_raw s) (s_fields_attr s)).
  { unfold s_fields_attr. destruct (has_target (s_default s)).
    - induction (s_raw s); constructor; auto. repeat split.
    - induction (s_raw s); constructor; auto. destruct (skip_default_kind a) as [? [? [? [? ?]]]]. repeat split; auto. }
  destruct tm; simpl; auto. unfold s_fields_meta. induction A; constructor; auto.
  destruct H as [A1 [A2 A3]]. destruct (container_default_kind y) as [B1 [B2 B3]].
  unfold same_field. rewrite B1, B2, B3. auto.
Qed.
Lemma same_good sh fs gs : Forall2 same_field fs gs -> Forall (good_field sh) fs -> Forall (good_field sh) gs.
Proof.
  induction 1; intro F; constructor; inversion F; subst; auto. destruct H as [? [? ?]].
  eapply same_kind_good; eauto.
Qed.
Lemma same_count fs gs : Forall2 same_field fs gs ->
  length (filter is_parsable gs) = length (filter is_parsable fs).
Proof. induction 1; simpl; auto. destruct H as [_ [-> _]]. destruct (is_parsable x); simpl; auto. Qed.
Lemma same_transparent fs gs : Forall2 same_field fs gs -> transparent_field gs = transparent_field fs.
Proof.
  unfold transparent_field. fold tgo. generalize 0. intros n H. revert n.
  induction H; intro n; cbn [tgo]; auto. destruct H as [-> [-> _]]. now rewrite !IHForall2.
Qed.
Lemma same_no_and_then fs gs : Forall2 same_field fs gs -> Forall no_and_then fs -> Forall no_and_then gs.
Proof.
  induction 1; intro F; constructor; inversion F; subst; auto. destruct H as [_ [_ E]].
  unfold no_and_then in *. now rewrite E.
Qed.
Lemma s_fields_ok tm (s : sdef V) : Forall (fields_ok tm (s_default s)) (s_fields tm s).
Proof.
  assert (A : Forall (fun f => is_parsable f = false ->
     f_default f <> None \/ s_default s <> None \/ f_container f = true) (s_fields_attr s)).
  { unfold s_fields_attr. destruct (s_default s) eqn:D; simpl.
    - apply Forall_forall. intros f _ _. right. left. discriminate.
    - apply Forall_map. apply Forall_forall. intros f _. destruct (skip_default_kind f) as [_ [-> [-> _]]].
      unfold is_parsable, skip_default. intro P. destruct (f_default f) eqn:Df.
      + left. now rewrite Df.
      + destruct (f_container f); auto. destruct (f_skip f); [left; discriminate|discriminate]. }
  destruct tm as [|pn obj].
  - simpl. unfold s_fields_meta. apply Forall_map. eapply Forall_impl; [|exact A].
    intros f F P. destruct (container_default_kind f) as [_ [E _]]. rewrite E in P.
    destruct (F P) as [?|[?|?]]; auto.
    + left. unfold container_default. destruct (f_default f) eqn:Df; congruence.
    + left. unfold container_default. destruct (f_default f) eqn:Df; [congruence|]. rewrite H. discriminate.
  - eapply Forall_impl; [|exact A]. intros f F P. destruct (F P) as [?|[?|?]]; auto.
Qed.
Lemma s_body_good (s : sdef V) tm m sp prefix validate index : accepted_struct s ->
  well_behaved_m (s_body s tm m sp prefix validate index).
Proof.
  intros [G _]. unfold s_body. apply wbm_and_thens.
  pose proof (same_good _ _ _ (s_fields_same tm s) G) as G2.
  destruct (s_shape s) eqn:E.
  - apply named_body_good; auto using s_fields_ok.
  - apply unnamed_body_good; auto using s_fields_ok.
  - destruct tm; apply wbm_bind; auto using wbm_ret, each_eof_good. apply good_unit.
Qed.
Lemma s_inner_spec (s : sdef V) : accepted_struct s -> s_is_transparent s = true ->
  transparent_field (s_raw s) = Some (s_inner s) /\ good_dict (snd (s_inner s)).
Proof.
  intros [G T] E. specialize (T E). destruct T as [T1 T2]. unfold s_inner.
  destruct (transparent_field (s_raw s)) as [[i d]|] eqn:F.
  - split; auto. simpl. destruct (transparent_spec _ _ _ F T1) as [a [f [b [Q [-> [K [P _]]]]]]].
    rewrite Q in G. apply Forall_app in G. destruct G as [_ G]. inversion G as [|? ? Gf _]; subst.
    specialize (Gf P). unfold good_kind in Gf. now rewrite K in Gf.
  - exfalso. eapply (tgo_exists (s_raw s) 0); [|exact F]. unfold s_is_transparent in E.
    apply andb_prop in E. destruct E as [_ E]. apply Nat.eqb_eq in E. rewrite E. discriminate.
Qed.
Lemma s_transparent_post (s : sdef V) tm v : accepted_struct s -> s_is_transparent s = true ->
  returns (fst (transparent_post (s_fields tm s) tm (s_default s) (fst (s_inner s)) v [])).
Proof.
  intros G E. destruct (s_inner_spec s G E) as [F _]. destruct G as [G T]. destruct (T E) as [T1 T2].
  destruct (s_inner s) as [i d]. simpl.
  eapply transparent_post_good with (d := d); auto using s_fields_ok.
  - rewrite (same_transparent _ _ (s_fields_same tm s)). auto.
  - rewrite (same_count _ _ (s_fields_same tm s)). auto.
  - eapply same_no_and_then; eauto using s_fields_same.
Qed.
Lemma s_transparent_wb (s : sdef V) tm p : accepted_struct s -> s_is_transparent s = true -> well_behaved p ->
  well_behaved (s_transparent_with s tm p (fst (s_inner s))).
Proof.
  intros G E W. unfold s_transparent_with. apply wb_and_thens. apply wb_bind; auto.
  intros v s1. cbn [fst snd]. split; auto using s_transparent_post with adv.
Qed.
Lemma s_transparent_wbm (s : sdef V) tm p : accepted_struct s -> s_is_transparent s = true -> well_behaved_m p ->
  well_behaved_m (s_transparent_with s tm p (fst (s_inner s))).
Proof.
  intros G E W. unfold s_transparent_with. apply wbm_and_thens. apply wbm_bind; auto.
  intros v s1. cbn [fst snd]. split; auto using s_transparent_post with adv.
Qed.
Lemma good_struct_fn (s : sdef V) : accepted_struct s -> good_fn (struct_fn s).
Proof. intros G m p v l. simpl. apply s_body_good. auto. Qed.
Lemma good_struct_fu (s : sdef V) : accepted_struct s -> good_fu (struct_fu s).
Proof.
  intros G m i. unfold struct_fu. destruct (s_shape s); simpl; intro l; try apply good_struct_fn; auto.
  apply s_body_good. auto.
Qed.
Lemma good_s_inline (s : sdef V) m : accepted_struct s -> well_behaved_m (s_inline s m).
Proof.
  intros G l. unfold s_inline. destruct (s_shape s); try apply good_struct_fn; try apply good_struct_fu; auto.
  apply s_body_good. auto.
Qed.
Lemma good_struct_dict (s : sdef V) : accepted_struct s -> good_dict (struct_dict s).
Proof.
  intro G. unfold struct_dict. destruct (s_is_transparent s) eqn:E.
  - pose proof (s_inner_spec s G E) as [_ GD].
    pose proof (fun p => s_transparent_wb s TMeta p G E) as W.
    pose proof (fun p => s_transparent_wbm s TMeta p G E) as WM.
    pose proof (fun v => s_transparent_post s TMeta v G E) as P.
    destruct (s_inner s) as [i d]. cbn [fst snd] in *. apply good_full.
    + intro. apply W, GD.
    + intro. apply WM, GD.
    + intro sp. unfold s_transparent_with, p_and_thens, pbind. simpl. pose proof (gd_flag d GD sp) as F.
      destruct (d_flag d sp); simpl in *; auto using returns_and_thens.
    + intros. destruct (s_default s); simpl; auto.
  - pose proof (fun m => good_s_inline s m G) as W.
    apply good_full; auto.
    + intro m. destruct (s_shape s); auto using wb_delimited, wb_single.
    + intro sp. destruct (s_shape s); auto using returns_empty, wb_single.
      * destruct (allows_empty (s_default s) (s_fields_meta s)); auto using returns_empty, wb_single. simpl. auto.
      * apply returns_and_thens. simpl. auto.
    + intros. destruct (s_default s); simpl; auto.
Qed.
Lemma struct_attr_body_good (s : sdef V) obj spans : accepted_struct s -> well_behaved_m (struct_attr_body s obj spans).
Proof.
  intro G. unfold struct_attr_body. destruct (s_is_transparent s) eqn:E.
  - pose proof (s_inner_spec s G E) as [_ GD].
    pose proof (fun tm p => s_transparent_wbm s tm p G E) as WM.
    destruct (s_inner s) as [i d]. cbn [fst snd] in *. apply WM, GD.
  - apply s_body_good. auto.
Qed.
End D.
