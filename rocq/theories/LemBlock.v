(** Blocks of items, and the loop of parse_tuple_struct over one stream. *)
From Verif Require Import LemTuple LemItems.
From Verif Require Export LemColl2 SpecBlock.

Lemma comma_ends t r : comma_tok t -> ends (t :: r).
Proof. intro C. right. exists t, r. auto. Qed.
Lemma follows_ends more tl : follows more tl -> ends tl.
Proof. destruct more; [intros [t [r [-> [C _]]]]; now apply comma_ends|]. intros [->|[t [-> C]]]; [now left|now apply comma_ends]. Qed.
Lemma some_items_ne l : some_items l = true <-> l <> [].
Proof. destruct l; cbn; split; congruence. Qed.
Lemma not_end seg tl : seg <> [] -> no_comma seg -> ~ ends (seg ++ tl).
Proof. destruct seg as [|t seg]; [tauto|]. intros _ N [H|[x [r [H C]]]]; [discriminate|]. injection H as -> _. inversion N; subst. tauto. Qed.

Lemma block_inv seg blk more ts tl : block (seg :: blk) more ts tl ->
  seg <> [] /\ no_comma seg /\
  ((blk = [] /\ ts = seg ++ tl /\ follows more tl) \/
   (blk <> [] /\ exists t ts', ts = seg ++ t :: ts' /\ comma_tok t /\ block blk more ts' tl)).
Proof. intro H. inversion H; subst; split; auto; split; auto. right. split; eauto. Qed.
Lemma block_ne blk more ts tl : blk <> [] -> block blk more ts tl -> ts <> [] /\ ~ ends ts.
Proof.
  intros NE H. destruct blk as [|seg blk]; [tauto|]. apply block_inv in H as [N [NC [[_ [-> _]]|[_ [t [ts' [-> _]]]]]]]; (split; [|now apply not_end]); destruct seg; try tauto; discriminate.
Qed.
Lemma block_tail blk more ts tl : block blk more ts tl -> (blk <> [] \/ more = false) -> follows more tl.
Proof. intros H. induction H as [|seg more tl N NC F|seg blk more t ts tl N NC C NB B IH]; intro D; auto. now left. Qed.
Lemma block_app b1 : forall b2 more ts tl, b1 <> [] -> b2 <> [] -> block (b1 ++ b2) more ts tl ->
  exists t ts', block b1 true ts (t :: ts') /\ comma_tok t /\ block b2 more ts' tl.
Proof.
  induction b1 as [|seg b1 IH]; intros b2 more ts tl N1 N2 H; [tauto|]. cbn [app] in H. apply block_inv in H as [N [NC [[E _]|[_ [t [ts' [-> [C B]]]]]]]].
  - apply app_eq_nil in E as [_ E]. tauto.
  - destruct b1 as [|seg2 b1].
    + exists t, ts'. cbn [app] in B. split; auto. constructor; auto. cbn. exists t, ts'. split; auto. split; auto. now apply block_ne in B.
    + destruct (IH b2 more ts' tl ltac:(discriminate) N2 B) as [t2 [ts2 [B1 [C2 B2]]]]. exists t2, ts2. split; auto. constructor; auto. discriminate.
Qed.
Lemma listed_ne segs ts : listed segs ts -> segs <> [] -> ~ In [] segs -> exists seg segs' tl, segs = seg :: segs' /\ ts = seg ++ tl /\ seg <> [] /\ no_comma seg /\ ends tl /\
  ((segs' = [] /\ (tl = [] \/ exists t, tl = [t] /\ comma_tok t)) \/ (segs' <> [] /\ exists t ts', tl = t :: ts' /\ comma_tok t /\ ts' <> [] /\ listed segs' ts')).
Proof.
  intros H N B. inversion H as [|seg N1 N2|seg t N2 C|seg l t ts' N2 C N3 L]; subst; try tauto.
  - exists ts, [], []. rewrite app_nil_r. exact (conj eq_refl (conj eq_refl (conj N1 (conj N2 (conj (or_introl eq_refl) (or_introl (conj eq_refl (or_introl eq_refl)))))))).
  - exists seg, [], [t]. split; auto. split; auto. split; [intros ->; apply B; now left|]. split; auto. split; [now apply comma_ends|]. left. split; auto. right. eauto.
  - exists seg, l, (t :: ts'). split; auto. split; auto. split; [intros ->; apply B; now left|]. split; auto. split; [now apply comma_ends|]. right. split; auto. exists t, ts'. split; auto. split; auto. split; auto.
    intros ->. inversion L; subst; try tauto. destruct seg0; discriminate. destruct seg0; discriminate.
Qed.
Lemma listed_block b1 : forall rest ts, b1 <> [] -> listed (b1 ++ rest) ts -> ~ In [] (b1 ++ rest) ->
  exists tl, block b1 (some_items rest) ts tl /\ (rest <> [] -> exists t ts', tl = t :: ts' /\ comma_tok t /\ listed rest ts').
Proof.
  induction b1 as [|seg b1 IH]; intros rest ts N L B; [tauto|]. cbn [app] in *.
  destruct (listed_ne _ _ L ltac:(discriminate) B) as [seg' [segs' [tl [E [-> [NE [NC [EN D]]]]]]]]. injection E as <- <-.
  destruct b1 as [|seg2 b1].
  - cbn [app] in D. exists tl. split.
    + constructor; auto. destruct D as [[-> D]|[D [t [ts' [-> [C [NT L']]]]]]]; [exact D|]. rewrite (proj2 (some_items_ne rest) D). cbn. eauto.
    + intro R. destruct D as [[D _]|[_ [t [ts' [-> [C [_ L']]]]]]]; [tauto|]. eauto.
  - destruct D as [[D _]|[_ [t [ts' [-> [C [_ L']]]]]]]; [discriminate|].
    destruct (IH rest ts' ltac:(discriminate) L') as [tl2 [B2 X]]. { intro I. apply B. now right. }
    exists tl2. split; auto. constructor; auto. discriminate.
Qed.
Lemma block_listed blk ts tl : block blk false ts tl -> listed blk ts /\ ~ In [] blk.
Proof.
  remember false as m. induction 1 as [|seg more tl N NC F|seg blk more t ts tl N NC C NB B IH]; subst.
  - split; [constructor|tauto].
  - split; [|intros [H|[]]; auto]. destruct F as [->|[t [-> C]]]; [rewrite app_nil_r; now constructor|now constructor].
  - destruct (IH eq_refl) as [L I]. split; [now constructor|]. intros [H|H]; auto.
Qed.
Lemma listed_whole segs ts : listed segs ts -> ~ In [] segs -> exists tl, block segs false ts tl.
Proof.
  intros L B. destruct segs as [|seg segs]; [inversion L; exists []; constructor|].
  destruct (listed_block (seg :: segs) [] ts) as [tl [H _]]; rewrite ?app_nil_r; auto; [discriminate|]. eauto.
Qed.

Lemma follows_used s : used_up s <-> follows false (toks s).
Proof.
  unfold used_up, follows. split; (intros [H|[t [H1 H2]]]; [now left|right; exists t; split; auto; now apply comma_tok_is]).
Qed.

(** *** The loop over one stream *)
Section L.
Context {env : Env} {St W : Type}.
Variables (len : nat) (func : nat -> St -> list stream -> res unit * St * list stream).
(** slot [c] takes the block; the state afterwards; no errors so far *)
Variables (T : nat -> list (list token) -> bool -> W -> Prop) (upd : nat -> W -> St -> St) (clean : St -> Prop) (inv : nat -> St -> Prop).
Hypothesis INV : forall c v st, inv c st -> inv (S c) (upd c v st).
Hypothesis FW : forall c st s segs st1 l, c < len -> listed segs (toks s) -> ~ In [] segs -> segs <> [] ->
  func c st [s] = (Ok tt, st1, l) -> clean st1 ->
  clean st /\ exists s1, l = [s1] /\
    (ends (toks s1) -> exists blk rest v, segs = blk ++ rest /\ blk <> [] /\ T c blk (some_items rest) v /\ st1 = upd c v st).
Hypothesis DIRTY : forall c st l r st1 l1, func c st l = (r, st1, l1) -> clean st1 -> clean st.
Hypothesis CL : forall c v st, clean st -> clean (upd c v st).
Hypothesis BW : forall c st blk more v ts tl sc cl, inv c st -> c < len -> blk <> [] -> T c blk more v -> clean st -> block blk more ts tl ->
  exists s1, func c st [mkStream ts sc cl] = (Ok tt, upd c v st, [s1]) /\ (if more then toks s1 = tl else used_up s1).

Inductive chain (more : bool) : nat -> list (list token) -> list W -> Prop :=
| Ch_end c : (more = true -> len <= c) -> chain more c [] []
| Ch_cons c blk rest v vs : c < len -> blk <> [] -> T c blk (more || some_items rest) v -> chain more (S c) rest vs -> chain more c (blk ++ rest) (v :: vs).
Fixpoint upds (c : nat) (vs : list W) (st : St) : St :=
  match vs with [] => st | v :: vs' => upds (S c) vs' (upd c v st) end.

Lemma loop_dirty : forall fuel c st l r st1 l1, tuple_loop len func fuel c st l = (r, st1, l1) -> clean st1 -> clean st.
Proof.
  induction fuel as [|n IH]; intros c st l r st1 l1 H C; cbn [tuple_loop] in H; [congruence|].
  destruct l as [|s rest]; [congruence|]. destruct (is_empty s).
  - destruct (tuple_loop len func n c st rest) as [[r2 st2] l2] eqn:E. injection H as <- <- <-. eapply IH; eauto.
  - destruct (Nat.leb len c); [congruence|]. destruct (func c st (s :: rest)) as [[[u|e|b] st2] l2] eqn:F; try (injection H as <- <- <-; eapply DIRTY; eauto).
    apply (DIRTY _ _ _ _ _ _ F). destruct l2 as [|s1 l2]; [congruence|].
    destruct (negb (is_empty s1) && Nat.ltb (S c) len).
    + destruct (parse_comma s1) as [[u2|e|b] s2]; try congruence. eapply IH; eauto.
    + eapply IH; eauto.
Qed.
Lemma comma_inv s s2 : parse_comma s = (Ok tt, s2) -> exists t r, toks s = t :: r /\ comma_tok t /\ s2 = set_toks s r.
Proof.
  intro H. destruct (toks s) as [|t r] eqn:E; [unfold parse_comma, parse_punct in H; rewrite E in H; discriminate H|].
  destruct (is_comma t) eqn:C.
  - rewrite (parse_comma_ok s t r E C) in H. injection H as <-. exists t, r. split; auto. split; auto. now apply comma_tok_is.
  - destruct (parse_comma_not s t r E C) as [e X]. rewrite X in H. discriminate H.
Qed.
Lemma loop_forward : forall fuel c st s segs n st' l', inv c st -> c <= len -> listed segs (toks s) -> ~ In [] segs ->
  tuple_loop len func fuel c st [s] = (Ok n, st', l') -> clean st' ->
  clean st /\ exists s', l' = [s'] /\ (segs = [] -> s' = s) /\
    (ends (toks s') -> exists blk rest vs, segs = blk ++ rest /\ (segs <> [] -> blk <> []) /\ chain (some_items rest) c blk vs /\ n = c + length vs /\ st' = upds c vs st).
Proof.
  induction fuel as [|k IH]; intros c st s segs n st' l' IN CL0 L NB H C; [discriminate|]. cbn [tuple_loop] in H. destruct (is_empty s) eqn:EM.
  - assert (TS : toks s = []) by (unfold is_empty in EM; destruct (toks s); [auto|discriminate]).
    assert (SG : segs = []). { rewrite TS in L. inversion L; subst; auto; try congruence; destruct seg; discriminate. }
    subst segs. destruct k as [|k]; cbn [tuple_loop] in H; [discriminate H|]. injection H as <- <- <-. split; auto. exists s. split; auto. split; auto. intros _.
    exists [], [], []. split; auto. split; [tauto|]. cbn [upds length]. split; [constructor; discriminate|]. split; [lia|auto].
  - assert (SG : segs <> []). { intros ->. unfold is_empty in EM. destruct (toks s) eqn:E0; [discriminate EM|]. inversion L. }
    assert (NE : ~ ends (toks s)). { destruct (listed_ne _ _ L SG NB) as [seg [segs' [tl [_ [-> [N [NC _]]]]]]]. now apply not_end. }
    destruct (Nat.leb len c) eqn:LC.
    { injection H as <- <- <-. split; auto. exists s. split; auto. split; [tauto|]. tauto. }
    apply Nat.leb_gt in LC. destruct (func c st [s]) as [[[[]|e|b] st1] l1] eqn:F; try discriminate.
    assert (C1 : clean st1).
    { destruct l1 as [|s1 l1]; [discriminate|]. destruct (negb (is_empty s1) && Nat.ltb (S c) len).
      - destruct (parse_comma s1) as [[u2|e|b] s2]; try discriminate. eapply loop_dirty; eauto.
      - eapply loop_dirty; eauto. }
    destruct (FW c st s segs st1 l1 LC L NB SG F C1) as [C0 [s1 [-> X]]]. split; auto.
    destruct (is_empty s1) eqn:E1.
    + (* the stream is used up *)
      cbn [negb andb] in H. assert (T1 : toks s1 = []) by (unfold is_empty in E1; destruct (toks s1); [auto|discriminate]).
      destruct k as [|k0]; cbn [tuple_loop] in H; [discriminate H|]. rewrite E1 in H. destruct k0 as [|k0]; cbn [tuple_loop] in H; [discriminate H|]. injection H as <- <- <-. exists s1. split; auto. split; [tauto|]. intro EN. destruct (X EN) as [blk [rest [v [-> [NB1 [TT ->]]]]]].
      (* nothing can be left *)
      assert (rest = []).
      { destruct (listed_block _ _ _ NB1 L NB) as [tl [B X2]]. destruct rest as [|r rest]; auto. exfalso. cbn [some_items] in *.
        destruct (BW c st blk true v (toks s) tl (scope s) (cell s) IN LC NB1 TT C0 B) as [s2 [F2 T2]]. destruct s as [sts ssc sc]. cbn [toks scope cell] in *. rewrite F2 in F. injection F as <-.
        destruct (X2 ltac:(discriminate)) as [t [ts' [-> _]]]. congruence. }
      subst rest. exists (blk ++ []), [], [v]. split; [now rewrite !app_nil_r|]. split; [intros _ Z; apply app_eq_nil in Z; tauto|]. split; [constructor; auto; constructor; discriminate|]. cbn [length upds]. split; [lia|auto].
    + cbn [negb andb] in H. destruct (Nat.ltb (S c) len) eqn:LL.
      * destruct (parse_comma s1) as [[[]|e|b] s2] eqn:PC; try discriminate. apply comma_inv in PC as [t [r [T1 [CT ->]]]].
        assert (EN : ends (toks s1)) by (rewrite T1; now apply comma_ends).
        destruct (X EN) as [blk [rest [v [-> [NB1 [TT ->]]]]]].
        destruct (listed_block _ _ _ NB1 L NB) as [tl [B X2]].
        destruct (BW c st blk _ v (toks s) tl (scope s) (cell s) IN LC NB1 TT C0 B) as [s3 [F2 T2]]. destruct s as [sts ssc sc]. cbn [toks scope cell] in *. rewrite F2 in F. injection F as <-.
        assert (LR : listed rest (toks (set_toks s3 r))).
        { cbn [set_toks toks]. destruct rest as [|r0 rest].
          - cbn [some_items] in T2. destruct T2 as [T2|[t2 [T2 _]]]; [congruence|]. rewrite T1 in T2. injection T2 as _ ->. constructor.
          - destruct (X2 ltac:(discriminate)) as [t2 [ts' [-> [_ LT]]]]. cbn [some_items] in T2. rewrite T1 in T2. injection T2 as _ ->. exact LT. }
        assert (NR : ~ In [] rest) by (intro I; apply NB; apply in_or_app; now right).
        destruct (IH (S c) (upd c v st) (set_toks s3 r) rest n st' l' (INV c v st IN) ltac:(lia) LR NR H C) as [_ [s' [-> [E2 Y]]]].
        exists s'. split; auto. split; [intro Z; apply app_eq_nil in Z; tauto|]. intro EN'. destruct (Y EN') as [b2 [r2 [vs [-> [NB2 [CH [-> ->]]]]]]].
        exists (blk ++ b2), r2, (v :: vs). split; [now rewrite app_assoc|]. split; [intros _ Z; apply app_eq_nil in Z; tauto|]. split; [|cbn [length upds]; split; [lia|auto]].
        constructor; auto. destruct r2 as [|x r2]; cbn [some_items] in *; [now rewrite app_nil_r in TT|]. cbn [orb]. destruct b2; exact TT.
      * (* the last slot *)
        apply Nat.ltb_ge in LL. destruct k as [|k]; [discriminate|]. cbn [tuple_loop] in H. rewrite E1 in H. assert (LE : Nat.leb len (S c) = true) by (apply Nat.leb_le; lia).
        rewrite LE in H. injection H as <- <- <-. exists s1. split; auto. split; [tauto|]. intro EN. destruct (X EN) as [blk [rest [v [-> [NB1 [TT ->]]]]]].
        exists blk, rest, [v]. split; auto. split; auto. split; [|cbn [length upds]; split; [lia|auto]]. rewrite <- (app_nil_r blk). constructor; auto.
        -- cbn [some_items]. now rewrite orb_false_r.
        -- constructor. lia.
Qed.
Lemma loop_backward more : forall c blk vs, chain more c blk vs -> forall fuel st ts tl sc cl, inv c st -> (blk <> [] \/ more = false) -> block blk more ts tl -> clean st ->
  S (len - c) < fuel -> c <= len ->
  exists s', tuple_loop len func fuel c st [mkStream ts sc cl] = (Ok (c + length vs), upds c vs st, [s']) /\ (if more then toks s' = tl else used_up s') /\ (blk = [] -> s' = mkStream ts sc cl).
Proof.
  induction 1 as [c D|c blk rest v vs LC NB1 TT CH IH]; intros fuel st ts tl sc cl IN D2 B C FU LE.
  - destruct D2 as [D2| ->]; [tauto|]. inversion B; subst. destruct fuel as [|[|k]]; try lia. cbn [tuple_loop is_empty toks]. exists (mkStream [] sc cl). cbn [length upds]. rewrite Nat.add_0_r. split; auto. split; auto. now left. 
  - destruct fuel as [|k]; [lia|]. cbn [tuple_loop].
    assert (BB : exists tl1, block blk (more || some_items rest) ts tl1 /\
       ((rest = [] /\ tl1 = tl) \/ (rest <> [] /\ exists t ts', tl1 = t :: ts' /\ comma_tok t /\ block rest more ts' tl))).
    { destruct rest as [|r0 rest].
      - exists tl. rewrite app_nil_r in B. cbn [some_items]. rewrite orb_false_r. split; auto.
      - destruct (block_app blk (r0 :: rest) more ts tl NB1 ltac:(discriminate) B) as [t [ts' [B1 [CT B2]]]]. exists (t :: ts'). cbn [some_items]. rewrite orb_true_r. split; auto. right. split; [discriminate|]. eauto. }
    destruct BB as [tl1 [B1 X]]. assert (TN : ts <> []) by (now apply block_ne in B1).
    destruct ts as [|t0 ts0]; [tauto|]. cbn [is_empty toks]. assert (LF : Nat.leb len c = false) by (apply Nat.leb_gt; lia). rewrite LF.
    destruct (BW c st blk _ v (t0 :: ts0) tl1 sc cl IN LC NB1 TT C B1) as [s1 [F T1]]. rewrite F.
    assert (BE : blk ++ rest = [] -> forall s', s' = mkStream (t0 :: ts0) sc cl) by (intro Z; apply app_eq_nil in Z; tauto).
    destruct X as [[-> ->]|[NR [t [ts' [-> [CT B2]]]]]].
    + (* no more blocks *)
      cbn [some_items] in *. rewrite orb_false_r in *. assert (D3 : vs = [] /\ (more = true -> len <= S c)).
      { inversion CH; subst; auto. match goal with Z : _ ++ _ = [] |- _ => apply app_eq_nil in Z as [Z1 Z2]; subst end. cbn [app] in *. congruence. }
      destruct D3 as [-> D3].
      cbn [upds length].
      assert (FIN : forall s2, toks s2 = [] -> exists s', tuple_loop len func k (S c) (upd c v st) [s2] = (Ok (c + 1), upd c v st, [s']) /\ s' = s2).
      { intros s2 T2. destruct k as [|[|k]]; try lia. cbn [tuple_loop]. unfold is_empty. rewrite T2. exists s2. split; auto. do 2 f_equal. f_equal. lia. }
      destruct (is_empty s1) eqn:E1.
      * cbn [negb andb]. assert (T2 : toks s1 = []) by (unfold is_empty in E1; destruct (toks s1); [auto|discriminate]).
        destruct more. { apply block_tail in B1; [|now left]. destruct B1 as [x [y [-> _]]]. congruence. }
        destruct (FIN s1 T2) as [s' [-> ->]]. exists s1. split; auto.
      * cbn [negb andb]. destruct (Nat.ltb (S c) len) eqn:LL.
        -- destruct more. { apply Nat.ltb_lt in LL. specialize (D3 eq_refl). lia. }
           destruct T1 as [T1|[t [T1 CT]]]. { unfold is_empty in E1. rewrite T1 in E1. discriminate. }
           rewrite (parse_comma_ok s1 t [] T1 CT). destruct (FIN (set_toks s1 []) eq_refl) as [s' [-> ->]]. exists (set_toks s1 []). split; auto. split; auto. now left.
        -- apply Nat.ltb_ge in LL. destruct k as [|k]; [lia|]. cbn [tuple_loop]. rewrite E1. assert (LT : Nat.leb len (S c) = true) by (apply Nat.leb_le; lia). rewrite LT.
           exists s1. split; auto. do 2 f_equal. f_equal. lia.
    + assert (SM : some_items rest = true) by (now apply some_items_ne). rewrite SM, orb_true_r in T1.
      assert (E1 : is_empty s1 = false) by (unfold is_empty; now rewrite T1). rewrite E1. cbn [negb andb].
      assert (LL : S c < len). { inversion CH; subst; [tauto|lia]. }
      rewrite (proj2 (Nat.ltb_lt _ _) LL). rewrite (parse_comma_ok s1 t ts' T1 (proj1 (comma_tok_is t) CT)).
      destruct (IH k (upd c v st) ts' tl (scope s1) (cell s1) (INV c v st IN) (or_introl NR) B2 (CL c v st C) ltac:(lia) ltac:(lia)) as [s' [E [U _]]].
      exists s'. unfold set_toks. rewrite E. cbn [length upds]. split; [do 2 f_equal; f_equal; lia|]. split; auto.
Qed.
End L.
