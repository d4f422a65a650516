(** Lemmas about options whose values hold options. *)
From Verif Require Import LemWf LemWfD LemWfE LemSmall LemItems LemAttr.
From Verif Require Export SpecNested LemOpts LemOpts2.

Section G.
Context {env : Env} {O St A : Type}.
Variable spells : string -> span -> stream -> O -> stream -> Prop.
Variable arm : string -> span -> St -> errors -> parser (St * errors).
Variable R : list O -> St -> Prop.
Variable fine : list O -> Prop.
Variable made : bool -> span -> list O -> A.
Variable st0 : St.
Variable out : span -> St -> A.
Hypothesis AW : forall k sp st es, well_behaved (arm k sp st es).
Hypothesis AK : forall k sp st es s st' s', arm k sp st es s = (Ok (st', []), s') -> es = [].
Hypothesis AS : forall os k sp st s st' s', R os st -> arm k sp st [] s = (Ok (st', []), s') ->
  exists o, spells k sp s o s' /\ R (os ++ [o]) st'.
Hypothesis AC : forall os k sp st s o s', R os st -> spells k sp s o s' -> fine (os ++ [o]) ->
  exists st', arm k sp st [] s = (Ok (st', []), s') /\ R (os ++ [o]) st'.
Hypothesis IP : forall a b, fine (a ++ b) -> fine a.
Hypothesis R0 : R [] st0.
Hypothesis RF : forall os st, R os st -> fine os.
Hypothesis RO : forall os st sp, R os st -> out sp st = made true sp os.

Definition gen_inline (m : mode) : mparser A :=
  fun inputs =>
    let sp := to_full_span m inputs in
    (q <- read_items arm st0 [] ;;
     fun l => (rmap (fun _ => out sp (fst q)) (check (snd q)), l)) inputs.
Definition gen_dict : dict A :=
  let item := bool_or_braces (fun b sp => made b sp []) gen_inline in
  let flag := fun sp => Ok (made true sp []) in
  mkDict item gen_inline flag (def_named item gen_inline flag) def_missing.

Lemma opts_end s os c : opts_in spells s os c -> toks c = [].
Proof. induction 1; auto. Qed.

Lemma inline_iff sp s x l' : gen_inline (Named sp) [s] = (Ok x, l') <->
  exists os c, opts_in spells s os c /\ fine os /\ x = made true sp os /\ l' = [c].
Proof.
  unfold gen_inline, pbind. cbn [to_full_span named_span]. split.
  - destruct (read_items arm st0 [] [s]) as [[[st es]|e|b] l1] eqn:RD; try discriminate.
    cbn [fst snd]. intro H. destruct (check es) as [u|e|b] eqn:C; cbn [rmap] in H; try discriminate H.
    apply check_ok in C. subst es. injection H as <- <-.
    destruct (read_sound spells arm R AK AS [] _ _ _ _ _ R0 RD) as [_ [os [W HR]]]. cbn [app] in HR.
    inversion W as [|? os1 s' ? os2 ? W1 W2]; subst. inversion W2; subst. rewrite app_nil_r in HR.
    exists os1, s'. split; auto. split; [eauto|]. split; [|reflexivity]. apply RO. exact HR.
  - intros [os [c [W [F [-> ->]]]]].
    assert (Ws : opts_in_all spells [s] (os ++ []) [c]) by (constructor; [exact W|constructor]). rewrite app_nil_r in Ws.
    destruct (read_complete spells arm R fine AW AC IP [] _ _ _ _ R0 Ws F) as [st [RD HR]]. cbn [app] in HR.
    rewrite RD. cbn [fst snd check rmap]. unfold check. cbn. now rewrite (RO _ _ _ HR).
Qed.

Lemma delim_iff d sp s ts gsp r x s' : toks s = TGroup d ts gsp :: r ->
  parse_delimited_with d (on_single (gen_inline (Named sp))) s = (Ok x, s') <->
  exists os c, opts_in spells (mkStream ts (SClose gsp) (cell s)) os c /\ fine os /\ x = made true sp os /\
    s' = mkStream r (scope s) (cell c).
Proof.
  intro E. rewrite (delimited_case env A _ d s ts gsp r E). unfold on_single.
  set (s1 := mkStream ts (SClose gsp) (cell s)).
  destruct (gen_inline (Named sp) [s1]) as [[a|e|b] l] eqn:G.
  - apply inline_iff in G as [os [c [W [F [-> ->]]]]]. cbn [hd].
    pose proof (opts_end _ _ _ W) as T.
    destruct (parse_eof_cases env c) as [[_ ->]|[N _]]; [|exfalso; apply N; now left].
    unfold drop_cell. cbn [cell toks]. replace (match cell c with Some x => Some x | None => None end) with (cell c) by (now destruct (cell c)).
    split.
    + intro H. injection H as <- <-. exists os, c. auto.
    + intros [os' [c' [W' [F' [-> ->]]]]].
      assert (G' : gen_inline (Named sp) [s1] = (Ok (made true sp os'), [c'])) by (apply inline_iff; exists os', c'; auto).
      assert (G : gen_inline (Named sp) [s1] = (Ok (made true sp os), [c])) by (apply inline_iff; exists os, c; auto).
      rewrite G in G'. injection G' as -> ->. reflexivity.
  - split; [discriminate|]. intros [os [c [W [F [-> ->]]]]].
    assert (X : gen_inline (Named sp) [s1] = (Ok (made true sp os), [c])) by (apply inline_iff; exists os, c; auto). rewrite G in X. discriminate X.
  - split; [discriminate|]. intros [os [c [W [F [-> ->]]]]].
    assert (X : gen_inline (Named sp) [s1] = (Ok (made true sp os), [c])) by (apply inline_iff; exists os, c; auto). rewrite G in X. discriminate X.
Qed.

Lemma named_iff nm sp s x s' : d_named gen_dict nm sp s = (Ok x, s') <-> value_written spells fine made sp s x s'.
Proof.
  cbn [gen_dict d_named]. unfold def_named.
  pose proof (l_try_parse_named s) as T. destruct (try_parse_named s).
  - destruct T as [j [esp [r T]]]. rewrite (named_eq_case _ _ _ _ _ _ _ _ _ _ T). unfold bool_or_braces, peek_lit.
    set (s1 := mkStream r (scope s) (cell s)).
    destruct (lit_rest (toks s1)) as [[[l lsp] r1]|] eqn:L.
    + destruct (sel_bool l) as [b|] eqn:SB.
      * destruct l as [|b']; [discriminate SB|]. cbn in SB. injection SB as ->.
        assert (E : exists bsp, toks s1 = TIdent (bool_word b) bsp :: r1 /\ lsp = bsp).
        { cbn [toks s1] in *. destruct r as [|[i isp|c j2 psp|l2 lsp2|d2 ts2 gsp2] r2]; cbn [lit_rest] in L; try discriminate L.
          - destruct (String.eqb_spec i "true") as [->|]; [injection L as <- <- <-; now exists isp|].
            destruct (String.eqb_spec i "false") as [->|]; [injection L as <- <- <-; now exists isp|discriminate L].
          - destruct r2 as [|[] r3]; try discriminate L. destruct (Ascii.eqb c "-"); [|discriminate L]. destruct l; discriminate L. }
        destruct E as [bsp [E ->]]. cbn [toks s1] in E. subst r.
        unfold pmap, parse_lit_as. cbn [toks s1] in L |- *. rewrite L. cbn [sel_bool rmap fst snd].
        split.
        -- intro H. injection H as <- <-. apply (VW_bool spells fine made sp s j esp b bsp r1). exact T.
        -- intro H. inversion H as [N1 N2|j' esp' b' bsp' r' T'|j' esp' ts gsp r' os c T' W F|ts gsp r' os c T' W F]; subst.
           ++ now apply N1 in T.
           ++ rewrite T in T'. injection T' as <- <- B <- <-.
              replace b' with b by (destruct b, b'; try reflexivity; discriminate B). reflexivity.
           ++ rewrite T in T'. discriminate T'.
           ++ rewrite T in T'. discriminate T'.
      * assert (NB : forall d ts gsp r2, toks s1 <> TGroup d ts gsp :: r2).
        { intros d ts gsp r2 X. rewrite X in L. discriminate L. }
        assert (PG : peek_group Brace s1 = false).
        { unfold peek_group. destruct (toks s1) as [|[] r2]; try reflexivity. exfalso. eapply NB. reflexivity. }
        rewrite PG. split; [discriminate|].
        intro H. inversion H as [N1 N2|j' esp' b' bsp' r' T'|j' esp' ts gsp r' os c T' W F|ts gsp r' os c T' W F]; subst.
        ++ now apply N1 in T.
        ++ rewrite T in T'. injection T' as <- <- ->. cbn [toks s1] in L. destruct b'; cbn in L; injection L as <- <- <-; discriminate SB.
        ++ rewrite T in T'. injection T' as <- <- ->. now destruct (NB Brace ts gsp r').
        ++ rewrite T in T'. discriminate T'.
    + destruct (peek_group Brace s1) eqn:PG.
      * assert (E : exists ts gsp r2, toks s1 = TGroup Brace ts gsp :: r2).
        { unfold peek_group in PG. destruct (toks s1) as [|[i isp|c j2 psp|l2 lsp2|d2 ts2 gsp2] r2]; try discriminate PG. destruct d2; try discriminate PG. eauto. }
        destruct E as [ts [gsp [r2 E]]]. rewrite (delim_iff Brace sp s1 ts gsp r2 x s' E). cbn [cell scope s1]. cbn [toks s1] in E. subst r.
        split.
        -- intros [os [c [W [F [-> ->]]]]]. eapply VW_braces; eauto.
        -- intro H. inversion H as [N1 N2|j' esp' b' bsp' r' T'|j' esp' ts' gsp' r' os c T' W F|ts' gsp' r' os c T' W F]; subst.
           ++ now apply N1 in T.
           ++ rewrite T in T'. discriminate T'.
           ++ rewrite T in T'. injection T' as <- <- <- <- <-. exists os, c. auto.
           ++ rewrite T in T'. discriminate T'.
      * split; [discriminate|].
        intro H. inversion H as [N1 N2|j' esp' b' bsp' r' T'|j' esp' ts' gsp' r' os c T' W F|ts' gsp' r' os c T' W F]; subst.
        ++ now apply N1 in T.
        ++ rewrite T in T'. injection T' as <- <- ->. cbn [toks s1] in L. destruct b'; discriminate L.
        ++ rewrite T in T'. injection T' as <- <- ->. discriminate PG.
        ++ rewrite T in T'. discriminate T'.
  - destruct T as [ts [gsp [r T]]]. rewrite (named_paren_case _ _ _ _ _ _ _ _ _ _ T). rewrite (delim_iff Paren sp s ts gsp r x s' T).
    split.
    + intros [os [c [W [F [-> ->]]]]]. eapply VW_parens; eauto.
    + intro H. inversion H as [N1 N2|j' esp' b' bsp' r' T'|j' esp' ts' gsp' r' os c T' W F|ts' gsp' r' os c T' W F]; subst.
      * now apply N2 in T.
      * rewrite T in T'. discriminate T'.
      * rewrite T in T'. discriminate T'.
      * rewrite T in T'. injection T' as <- <- <-. exists os, c. auto.
  - destruct T as [N1 N2]. rewrite (named_flag_case _ _ _ _ _ _ _ N1 N2). split.
    + intro H. injection H as <- <-. now apply VW_alone.
    + intro H. inversion H as [M1 M2|j' esp' b' bsp' r' T'|j' esp' ts' gsp' r' os c T' W F|ts' gsp' r' os c T' W F]; subst.
      * reflexivity.
      * now apply N1 in T'.
      * now apply N1 in T'.
      * now apply N2 in T'.
Qed.
End G.

Section V.
Context {env : Env}.

(** *** flatten *)
Definition rep_prefix (l : list path) (st : fstatus path) : Prop := once l /\ st = status l.
Lemma l_flatten nm sp s x s' : d_named flatten_dict nm sp s = (Ok x, s') <->
  value_written spells_prefix SpecOpts.once made_flatten sp s x s'.
Proof.
  apply (named_iff spells_prefix flatten_arm rep_prefix SpecOpts.once made_flatten FNone
           (fun sp st => mkFlatten sp true (fs_into_option st))).
  - intros k p st es. unfold flatten_arm. destruct (String.eqb k "prefix"); [apply wb_slot; intros; apply (gd_named _ good_any_path)|apply wb_refuse].
  - intros k p st es s0 st' s0' H. unfold flatten_arm in H. destruct (String.eqb k "prefix").
    + now apply slot_inv in H as [H _].
    + unfold refuse in H. injection H as _ H _. apply push_syn_nil in H. contradiction.
  - intros os k p st s0 st' s0' [I ->] H. unfold flatten_arm in H. destruct (String.eqb_spec k "prefix") as [->|].
    + apply slot_sound in H as [-> [a [D ->]]]. exists a. split; [now constructor|]. split; [apply once_one|reflexivity].
    + unfold refuse in H. injection H as _ H _. apply push_syn_nil in H. contradiction.
  - intros os k p st s0 o s0' [_ ->] SP I. destruct SP as [y s0' -> D]. unfold flatten_arm. cbn [String.eqb Ascii.eqb Bool.eqb].
    destruct (slot_ok "prefix" p (d_named any_path_dict) os (fun v => v) s0 _ _ I D) as [-> ->]. eexists. split; [reflexivity|]. split; [apply once_one|reflexivity].
  - intros a b. apply once_app.
  - split; [unfold SpecOpts.once; cbn; lia|reflexivity].
  - now intros os st [I _].
  - intros os st p [_ ->]. unfold made_flatten. now rewrite status_option.
Qed.

(** *** container *)
Variable sy : synlib.
Hypothesis SY : good_syn_lib sy.
Definition rep_c (l : list copt) (st : cst) : Prop := fine_c l /\ st = mkCst (status (lifetimes l)) (status (ctypes l)).
Ltac cnorm := unfold lifetimes, ctypes in *; rewrite ?flat_map_app in *; cbn [flat_map] in *; rewrite ?app_nil_r in *.
Lemma l_container nm sp s x s' : d_named (container_dict sy) nm sp s = (Ok x, s') <->
  value_written (spells_c sy) fine_c made_container sp s x s'.
Proof.
  destruct SY as [S1 [S2 [S3 S4]]].
  apply (named_iff (spells_c sy) (container_arm sy) rep_c fine_c made_container (mkCst FNone FNone)
           (fun sp t => mkContainer sp true (fs_into_option (c_lifetime t)) (fs_into_option (c_ty t)))).
  - intros k p st es. unfold container_arm.
    repeat match goal with |- well_behaved (if ?b then _ else _) => destruct b end;
      try apply wb_refuse; apply wb_slot; intros; apply gd_named, good_syn; auto.
  - intros k p st es s0 st' s0' H. unfold container_arm in H.
    repeat match type of H with context [if ?b then _ else _] => destruct b end; try (now apply slot_inv in H as [H _]).
    unfold refuse in H. injection H as _ H _. apply push_syn_nil in H. contradiction.
  - intros os k p st s0 st' s0' [[I1 I2] ->] H. unfold container_arm in H. cbn [c_lifetime c_ty] in H.
    destruct (String.eqb_spec k "lifetime") as [->|]; [|destruct (String.eqb_spec k "ty") as [->|]].
    + apply slot_sound in H as [L [a [D ->]]]. exists (CLifetime a). split; [now constructor|]. unfold rep_c, fine_c. cnorm. rewrite L in *.
      split; [split; [apply once_one|assumption]|reflexivity].
    + apply slot_sound in H as [L [a [D ->]]]. exists (CTy a). split; [now constructor|]. unfold rep_c, fine_c. cnorm. rewrite L in *.
      split; [split; [assumption|apply once_one]|reflexivity].
    + unfold refuse in H. injection H as _ H _. apply push_syn_nil in H. contradiction.
  - intros os k p st s0 o s0' [_ ->] SP I. pose proof I as [I1 I2]. unfold container_arm.
    destruct SP as [y s0' -> D|y s0' -> D]; cbn [String.eqb Ascii.eqb Bool.eqb c_lifetime c_ty]; unfold rep_c, fine_c in *; cnorm.
    + match goal with |- context [slot ?nm ?sp ?p (status ?l) ?set [] ?s] => destruct (slot_ok nm sp p l set s _ _ I1 D) as [L E] end.
      rewrite E. eexists. split; [reflexivity|]. split; [exact I|]. rewrite L. reflexivity.
    + match goal with |- context [slot ?nm ?sp ?p (status ?l) ?set [] ?s] => destruct (slot_ok nm sp p l set s _ _ I2 D) as [L E] end.
      rewrite E. eexists. split; [reflexivity|]. split; [exact I|]. rewrite L. reflexivity.
  - intros a b [I1 I2]. unfold fine_c. cnorm. split; eapply once_app; eassumption.
  - split; [split; unfold SpecOpts.once; cbn; lia|reflexivity].
  - now intros os st [I _].
  - intros os st p [_ ->]. unfold made_container. cbn [c_lifetime c_ty]. now rewrite !status_option.
Qed.

(** *** transparent *)
Definition rep_t (l : list (twhich * bool)) (st : tst) : Prop :=
  fine_t l /\ st = mkTst (status (for_trait WFlattenNamed l)) (status (for_trait WFlattenUnnamed l)) (status (for_trait WAppend l)) (status (for_trait WRest l)).
Lemma for_app w a b : for_trait w (a ++ b) = for_trait w a ++ for_trait w b.
Proof. unfold for_trait. now rewrite filter_app, map_app. Qed.
Lemma for_one w v b : for_trait w [(v, b)] = if same_which w v then [b] else [].
Proof. unfold for_trait. cbn. now destruct (same_which w v). Qed.
Lemma l_transparent nm sp s x s' : d_named transparent_dict nm sp s = (Ok x, s') <->
  value_written spells_t fine_t made_transparent sp s x s'.
Proof.
  apply (named_iff spells_t transparent_arm rep_t fine_t made_transparent (mkTst FNone FNone FNone FNone)
           (fun sp t => mkTransparent sp true (fs_into_option (t_fn t)) (fs_into_option (t_fu t)) (fs_into_option (t_append t)) (fs_into_option (t_rest t)))).
  - intros k p st es. unfold transparent_arm.
    repeat match goal with |- well_behaved (if ?b then _ else _) => destruct b end;
      try apply wb_refuse; apply wb_slot; intros; apply (gd_named _ good_bool).
  - intros k p st es s0 st' s0' H. unfold transparent_arm in H.
    repeat match type of H with context [if ?b then _ else _] => destruct b end; try (now apply slot_inv in H as [H _]).
    unfold refuse in H. injection H as _ H _. apply push_syn_nil in H. contradiction.
  - intros os k p st s0 st' s0' [I ->] H. unfold transparent_arm in H. cbn [t_fn t_fu t_append t_rest] in H.
    assert (X : exists w, k = which_name w /\ for_trait w os = [] /\ exists b, d_named bool_dict k p s0 = (Ok b, s0') /\
      st' = mkTst (if same_which WFlattenNamed w then FSome b else status (for_trait WFlattenNamed os))
                  (if same_which WFlattenUnnamed w then FSome b else status (for_trait WFlattenUnnamed os))
                  (if same_which WAppend w then FSome b else status (for_trait WAppend os))
                  (if same_which WRest w then FSome b else status (for_trait WRest os))).
    { destruct (String.eqb_spec k "flatten_named") as [->|]; [exists WFlattenNamed|].
      { apply slot_sound in H as [L [a [D ->]]]. split; [reflexivity|]. split; [exact L|]. exists a. now split. }
      destruct (String.eqb_spec k "flatten_unnamed") as [->|]; [exists WFlattenUnnamed|].
      { apply slot_sound in H as [L [a [D ->]]]. split; [reflexivity|]. split; [exact L|]. exists a. now split. }
      destruct (String.eqb_spec k "append") as [->|]; [exists WAppend|].
      { apply slot_sound in H as [L [a [D ->]]]. split; [reflexivity|]. split; [exact L|]. exists a. now split. }
      destruct (String.eqb_spec k "rest") as [->|]; [exists WRest|].
      { apply slot_sound in H as [L [a [D ->]]]. split; [reflexivity|]. split; [exact L|]. exists a. now split. }
      unfold refuse in H. injection H as _ H _. apply push_syn_nil in H. contradiction. }
    destruct X as [w [E [L [b [D ->]]]]]. exists (w, b). split; [now constructor|]. split.
    + intro v. rewrite for_app, for_one. destruct (same_which v w) eqn:SW; [|rewrite app_nil_r; apply I].
      replace v with w by (destruct v, w; try reflexivity; discriminate SW). rewrite L. apply once_one.
    + rewrite !for_app, !for_one. destruct w; cbn [same_which]; rewrite ?app_nil_r, L; reflexivity.
  - intros os k p st s0 o s0' [_ ->] SP I. destruct SP as [w b s0' -> D].
    assert (L : for_trait w os = []).
    { specialize (I w). rewrite for_app, for_one in I. replace (same_which w w) with true in I by (now destruct w). now apply once_two in I. }
    assert (OB : forall v, SpecOpts.once (for_trait v os)) by (intro v; specialize (I v); rewrite for_app in I; eapply once_app; exact I).
    unfold transparent_arm. cbn [t_fn t_fu t_append t_rest].
    assert (O1 : SpecOpts.once (for_trait w os ++ [b])) by (rewrite L; apply once_one).
    unfold rep_t. rewrite !for_app, !for_one.
    destruct w; cbn [which_name String.eqb Ascii.eqb Bool.eqb same_which] in *; rewrite ?app_nil_r;
      (match goal with |- context [slot ?nm ?sp ?p (status ?l) ?set [] ?s] => destruct (slot_ok nm sp p l set s _ _ O1 D) as [_ E] end);
      rewrite E; eexists; (split; [reflexivity|]); (split; [exact I|]); rewrite L; reflexivity.
  - intros a b I w. specialize (I w). rewrite for_app in I. eapply once_app; exact I.
  - split; [intro w; unfold SpecOpts.once; cbn; lia|reflexivity].
  - now intros os st [I _].
  - intros os st p [_ ->]. unfold made_transparent. cbn [t_fn t_fu t_append t_rest]. now rewrite !status_option.
Qed.

(** *** default *)
Lemma l_default nm sp s x s' : d_named default_dict nm sp s = (Ok x, s') <-> default_written sp s x s'.
Proof.
  cbn [default_dict dict_item_flag d_named]. unfold def_named.
  pose proof (l_try_parse_named s) as T. destruct (try_parse_named s).
  - destruct T as [j [esp [r T]]]. rewrite (named_eq_case _ _ _ _ _ _ _ _ _ _ T). cbn. split.
    + intro H. injection H as <- <-. now apply (DW_eq sp s j esp r).
    + intro H. inversion H as [N1 N2|j' esp' r' T'|ts' gsp' r' T']; subst.
      * now apply N1 in T.
      * rewrite T in T'. now injection T' as <- <- <-.
      * rewrite T in T'. discriminate T'.
  - destruct T as [ts [gsp [r T]]]. rewrite (named_paren_case _ _ _ _ _ _ _ _ _ _ T).
    rewrite (delimited_case env _ _ Paren s ts gsp r T). cbn. unfold drop_cell. cbn. split.
    + intro H. injection H as <- <-. replace (match cell s with Some x => Some x | None => None end) with (cell s) by (now destruct (cell s)).
      now apply (DW_parens sp s ts gsp r).
    + intro H. inversion H as [N1 N2|j' esp' r' T'|ts' gsp' r' T']; subst.
      * now apply N2 in T.
      * rewrite T in T'. discriminate T'.
      * rewrite T in T'. injection T' as <- <- <-. now destruct (cell s).
  - destruct T as [N1 N2]. rewrite (named_flag_case _ _ _ _ _ _ _ N1 N2). split.
    + intro H. injection H as <- <-. now apply DW_alone.
    + intro H. inversion H as [M1 M2|j' esp' r' T'|ts' gsp' r' T']; subst.
      * reflexivity.
      * now apply N1 in T'.
      * now apply N2 in T'.
Qed.
End V.
