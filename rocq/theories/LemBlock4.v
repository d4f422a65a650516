(** Tuple structs with flattened fields: the derived parsers. *)
From Verif Require Import LemAppend LemTuple LemItems LemSplit LemTStruct LemWfD.
From Verif Require Export LemBlock3.

Section S.
Context {env : Env} {V : Type}.
Local Notation field := (field V).
Lemma same_slotted (fs gs : list field) : Forall2 (fun f g => is_parsable g = is_parsable f /\ f_kind g = f_kind f) fs gs ->
  (slotted fs -> slotted gs) /\ (forall more its os, spread more gs its os <-> spread more fs its os).
Proof.
  induction 1 as [|f g fs gs [E1 E2] H [IH1 IH2]].
  - split; auto. intros; split; intro H; inversion H; constructor.
  - split.
    + intro P. inversion P as [|? ? A B]; subst. constructor; [rewrite E1, E2; auto|apply IH1; auto].
    + intros more its os; split; intro X; inversion X; subst.
      1,5: eapply Sp_item; try congruence; eauto; try (now apply IH2); congruence.
      1,4: eapply Sp_flat; try congruence; eauto; try (now apply IH2); congruence.
      1,3: apply Sp_short; [congruence|auto|now apply IH2].
      all: apply Sp_other; [congruence|now apply IH2].
Qed.
Lemma slot_eff2 tm (s : sdef V) i f g o v :
  (forall t, s_default s = Some t -> length t = length (s_raw s)) ->
  nth_error (s_raw s) i = Some f ->
  f_default g = field_default s tm f -> f_kind g = f_kind f -> f_transforms g = f_transforms f -> f_container g = f_container f ->
  (o <> None -> is_parsable f = true) -> uniform_missing f ->
  slot_value2 tm (s_default s) i g o v <->
  match o with
  | Some w => transformed (f_transforms f) w v
  | None => left_out s tm "" SCall i f v \/
        exists u w, f_container f = false /\ field_default s tm f = None /\ s_default s = None /\
          f_kind f = KFlatU u /\ absent u w /\ transformed (f_transforms f) w v
  end.
Proof.
  intros LT N FD FK FT FC PO UM. pose proof (slot_eff tm s i f g o v LT N FD FK FT FC PO UM) as SE.
  assert (SP : slot_value2 tm (s_default s) i g o v <-> slot_value tm (s_default s) i g o v \/
     (wants_error (has_target (s_default s)) g && fs_is_none (after_container tm g (o2s o)) = true /\
      exists u w st1, f_kind g = KFlatU u /\ absent u w /\ set_field g (FSome w) [] = (st1, []) /\ value_of (s_default s) i st1 v)).
  { unfold slot_value2, slot_value, m_out2, flat_absent. split.
    - intros [st2 [st1 [[M|[W [u [w [K [AB ->]]]]]] [A B]]]]; [left; eauto|right; split; auto; exists u, w, st1; auto].
    - intros [[st2 [st1 [M R]]]|[W [u [w [st1 [K [AB [A B]]]]]]]]; [exists st2, st1; auto|]. exists (FSome w), st1. split; auto. right. split; auto. exists u, w. auto. }
  rewrite SP, SE. destruct o as [w|].
  - split; [|auto]. intros [H|[W _]]; auto. exfalso. cbn [o2s] in W. apply andb_true_iff in W as [_ W]. unfold after_container in W. destruct tm; [|destruct (f_container g)]; discriminate.
  - cbn [o2s]. split; intros [H|H]; auto; right.
    + destruct H as [W [u [w [st1 [K [AB [A B]]]]]]]. apply andb_true_iff in W as [W1 W2]. unfold wants_error in W1. apply andb_true_iff in W1 as [W1 W3]. apply andb_true_iff in W1 as [W0 W1].
      apply negb_true_iff in W0. apply negb_true_iff in W3. rewrite FC in W0. rewrite FD in W1. exists u, w. split; auto. split; [destruct (field_default s tm f); [discriminate|auto]|].
      split; [destruct (s_default s); [discriminate|auto]|]. split; [congruence|]. split; auto.
      apply set_some in A as [v' [-> T]]. unfold value_of in B. destruct (s_default s); [discriminate|]. injection B as <-. now rewrite <- FT.
    + destruct H as [u [w [C [D [S [K [AB T]]]]]]]. split.
      * unfold wants_error. rewrite FC, C, FD, D, S. cbn. unfold after_container. destruct tm; [reflexivity|]. now rewrite FC, C.
      * exists u, w, (FSome v). split; [congruence|]. split; auto. split; [apply set_some; exists v; rewrite FT; auto|]. unfold value_of. now rewrite S.
Qed.
Section One.
Variables (s : sdef V) (tm : tmode V).
Hypothesis TS : any_tuple_struct s.
Hypothesis FI : fine_items s.
Hypothesis BI : flat_items_ok s.
Hypothesis UM : Forall uniform_missing (s_raw s).
Lemma eff2 : Forall2 (fun f g => is_parsable g = is_parsable f /\ f_kind g = f_kind f) (s_raw s) (s_fields tm s).
Proof.
  assert (L := s_fields_len tm s). assert (E := s_fields_eff tm s). revert L E. generalize (s_fields tm s) (s_raw s). clear.
  intros gs fs. revert gs. induction fs as [|f fs IH]; intros [|g gs] L E; try discriminate; constructor.
  - destruct (E 0 f eq_refl) as [g' [N [_ [K [_ [C [P1 [P2 P3]]]]]]]]. cbn in N. injection N as <-. split; auto.
    unfold pitem, pflat, is_parsable, is_flat in *. rewrite K in *. destruct (f_kind f); cbn in *; rewrite ?andb_true_r, ?andb_false_r in *; congruence.
  - apply IH; [now injection L|]. intros i f' N. exact (E (S i) f' N).
Qed.
Lemma raw_slotted : slotted (s_raw s).
Proof.
  destruct TS as [AS [SH _]]. unfold slotted. apply Forall_forall. intros f I P. pose proof FI as F1. unfold fine_items in F1. rewrite Forall_forall in F1. specialize (F1 f I).
  pose proof BI as B1. unfold flat_items_ok in B1. rewrite Forall_forall in B1. specialize (B1 f I).
  assert (GF := proj1 AS). rewrite Forall_forall in GF. specialize (GF f I P). rewrite SH in GF.
  destruct (f_kind f) as [d| |u| |]; try contradiction; [left|right]; eauto.
Qed.
Lemma eff_slotted : slotted (s_fields tm s).
Proof. apply (proj1 (same_slotted _ _ eff2)). exact raw_slotted. Qed.
Lemma eff_good : Forall (fun f => wants_error (has_target (s_default s)) f = true -> m_good2 f) (s_fields tm s).
Proof.
  apply Forall_forall. intros g I W. apply In_nth_error in I as [i N].
  assert (X : exists f, nth_error (s_raw s) i = Some f).
  { destruct (nth_error (s_raw s) i) eqn:E; eauto. apply nth_error_None in E. rewrite <- (s_fields_len tm s) in E. apply nth_error_None in E. congruence. }
  destruct X as [f NR]. destruct (s_fields_eff tm s i f NR) as [g' [N' [FD [K [_ [C _]]]]]]. assert (g' = g) by congruence. subst g'.
  assert (PF : is_parsable f = true).
  { unfold wants_error in W. apply andb_true_iff in W as [W W3]. apply andb_true_iff in W as [W1 W2]. rewrite FD in W2. rewrite C in W1.
    unfold is_parsable. rewrite W1. cbn. destruct (f_skip f) eqn:FS; auto. unfold field_default in W2. destruct (f_default f); [discriminate|]. rewrite FS, W3 in W2. discriminate. }
  assert (IN := nth_error_In _ _ NR). pose proof raw_slotted as PL. unfold slotted in PL. pose proof UM as U1. rewrite Forall_forall in PL, U1.
  destruct (PL f IN PF) as [[d [KD FN]]|[u [KU B]]]; [left|right; exists u; split; [congruence|auto]].
  exists d. split; [congruence|]. split.
  - intros d' n q w n' q' K' D. eapply (U1 f IN); eauto. congruence.
  - apply (gd_missing d (fi_good d FN)).
Qed.
Lemma spread_parsed more fs its os : spread more fs its os -> length os = length fs /\ forall i (f : field) w, nth_error fs i = Some f -> nth_error os i = Some (Some w) -> is_parsable f = true.
Proof.
  induction 1 as [|f d fs seg segs v os PF K AC X [IH1 IH2]|f u fs blk segs v os PF K NE TK X [IH1 IH2]|f fs os PF M X [IH1 IH2]|f fs segs os PF X [IH1 IH2]]; simpl; (split; [lia|]); intros [|i] f' w' N1 N2; try discriminate; cbn in *; eauto; congruence.
Qed.
Lemma eff_values more its os vs : spread more (s_raw s) its os -> all3 (slot_value2 tm (s_default s)) 0 (s_fields tm s) os vs <-> spread_values s tm os vs.
Proof.
  intro PO. destruct (spread_parsed _ _ _ _ PO) as [PP1 PP2]. unfold spread_values. rewrite all3_nth, s_fields_len. cbn [Nat.add]. pose proof (proj2 (proj2 TS)) as LT. pose proof UM as U1. rewrite Forall_forall in U1. split.
  - intros [_ [L2 H]]. split; auto. intros i f o w N1 N2 N3. destruct (s_fields_eff tm s i f N1) as [g [N' [FD [K [T [C _]]]]]].
    apply (slot_eff2 tm s i f g o w LT N1 FD K T C); [|apply U1; eapply nth_error_In; eauto|exact (H i g o w N' N2 N3)].
    intro NN. destruct o as [u|]; [|congruence]. eauto.
  - intros [L2 H]. split; auto. split; auto. intros i g o w N1 N2 N3.
    destruct (nth_error (s_raw s) i) as [f|] eqn:NR.
    2: { apply nth_error_None in NR. rewrite <- (s_fields_len tm s) in NR. apply nth_error_None in NR. congruence. }
    destruct (s_fields_eff tm s i f NR) as [g' [N' [FD [K [T [C _]]]]]]. assert (g' = g) by congruence. subst g'.
    apply (slot_eff2 tm s i f g o w LT NR FD K T C); [|apply U1; eapply nth_error_In; eauto|exact (H i f o w NR N2 N3)].
    intro NN. destruct o as [u|]; [|congruence]. eauto.
Qed.
Definition reads (more : bool) (blk : list (list token)) (ws : list V) : Prop :=
  exists os vs, spread more (s_raw s) blk os /\ spread_values s tm os vs /\ chained (s_and_thens s) vs ws.
Lemma sbody_eq m sp prefix v index l : s_body s tm m sp prefix v index l =
  (after_and_thens (s_and_thens s) (fst (unnamed_body (s_fields tm s) tm (s_default s) false m sp index l)),
   snd (unnamed_body (s_fields tm s) tm (s_default s) false m sp index l)).
Proof. unfold s_body. rewrite (proj1 (proj2 TS)). unfold p_and_thens. now destruct (unnamed_body _ _ _ _ _ _ _ l). Qed.
Lemma eff_lt t : s_default s = Some t -> length t = length (s_fields tm s).
Proof. intro E. rewrite s_fields_len. now apply TS. Qed.
Lemma sbody_fw m sp prefix v index ts sc c segs ws l : listed segs ts -> ~ In [] segs -> s_body s tm m sp prefix v index [mkStream ts sc c] = (Ok ws, l) ->
  exists s', l = [s'] /\ (segs = [] -> s' = mkStream ts sc c) /\
    (ends (toks s') -> exists blk rest, segs = blk ++ rest /\ (segs <> [] -> blk <> []) /\ reads (some_items rest) blk ws).
Proof.
  intros L NB H. rewrite sbody_eq in H. injection H as H <-. apply after_and_thens_ok in H as [vs [H C]].
  destruct (unnamed_body (s_fields tm s) tm (s_default s) false m sp index [mkStream ts sc c]) as [r l] eqn:E. cbn [fst snd] in *. subst r.
  destruct (body_fw _ eff_slotted tm (s_default s) false m sp eff_good eff_lt index ts sc c segs vs l L NB E) as [s' [-> [ES X]]].
  exists s'. split; auto. split; auto. intro EN. destruct (X EN) as [blk [rest [os [-> [NB1 [SP A]]]]]]. exists blk, rest. split; auto. split; auto.
  apply (proj2 (same_slotted _ _ eff2)) in SP. exists os, vs. split; auto. split; auto. eapply eff_values; eauto.
Qed.
Lemma sbody_bw m sp prefix v index blk more ts tl sc c ws : reads more blk ws -> (blk <> [] \/ more = false) -> block blk more ts tl ->
  exists s', s_body s tm m sp prefix v index [mkStream ts sc c] = (Ok ws, [s']) /\ (if more then toks s' = tl else used_up s') /\ (blk = [] -> s' = mkStream ts sc c).
Proof.
  intros [os [vs [SP [SV C]]]] D B. assert (A := proj2 (eff_values _ _ _ _ SP) SV). apply (proj2 (same_slotted _ _ eff2)) in SP.
  destruct (body_bw _ eff_slotted tm (s_default s) false m sp eff_good eff_lt index blk more ts tl sc c os vs SP A D B) as [s' [E R]].
  exists s'. split; auto. rewrite sbody_eq, E. cbn [fst snd]. f_equal. apply after_and_thens_ok. eauto.
Qed.
Lemma sbody_whole m sp prefix v index ts sc c segs ws : listed segs ts -> ~ In [] segs ->
  whole (s_body s tm m sp prefix v index) [mkStream ts sc c] ws <-> reads false segs ws.
Proof.
  intros L NB. destruct (listed_whole segs ts L NB) as [tl B]. unfold whole. split.
  - intros [H1 H2]. destruct (s_body s tm m sp prefix v index [mkStream ts sc c]) as [r l] eqn:E. cbn [fst snd] in *. subst r.
    destruct (sbody_fw m sp prefix v index ts sc c segs ws l L NB E) as [s' [-> [_ X]]]. inversion H2 as [|? ? U _]; subst.
    destruct (X (follows_ends _ _ (proj1 (follows_used s') U))) as [blk [rest [-> [NB1 R]]]].
    destruct rest as [|g rest]; [now rewrite app_nil_r|]. exfalso.
    assert (NBK : blk <> []). { apply NB1. intro Z. apply app_eq_nil in Z as [_ Z]. discriminate. }
    destruct (listed_block blk (g :: rest) ts NBK L NB) as [tl1 [B1 X1]]. cbn [some_items] in *.
    destruct (sbody_bw m sp prefix v index blk true ts tl1 sc c ws R (or_introl NBK) B1) as [s2 [E2 [T2 _]]]. rewrite E2 in E. injection E as <-.
    destruct (X1 ltac:(discriminate)) as [t [ts' [-> [CT L']]]]. destruct U as [U|[t2 [U _]]]; [congruence|]. rewrite T2 in U. injection U as <- ->. assert (NB2 : ~ In [] (g :: rest)) by (intro Z; apply NB; apply in_or_app; now right).
    destruct (listed_ne _ _ L' ltac:(discriminate) NB2) as [sg [sgs [tl2 [_ [Z [NZ _]]]]]]. symmetry in Z. apply app_eq_nil in Z as [Z _]. congruence.
  - intro R. destruct (sbody_bw m sp prefix v index segs false ts tl sc c ws R (or_intror eq_refl) B) as [s' [E [U _]]]. rewrite E. split; [reflexivity|]. cbn [snd]. constructor; auto.
Qed.
End One.

Lemma struct_takes (s : sdef V) blk more ws : any_tuple_struct s -> fine_items s -> flat_items_ok s -> Forall uniform_missing (s_raw s) ->
  reads s TMeta more blk ws -> (blk <> [] \/ more = false) -> takes (struct_fu s) blk more ws.
Proof.
  intros TS FI BI UM R D i ts tl sc c B. unfold struct_fu. rewrite (proj1 (proj2 TS)). cbn [fu_parse].
  destruct (sbody_bw s TMeta TS FI BI UM Unnamed SCall "" false i blk more ts tl sc c ws R D B) as [s' [E [U _]]]. eauto.
Qed.
Lemma struct_absent (s : sdef V) ws : any_tuple_struct s -> fine_items s -> flat_items_ok s -> Forall uniform_missing (s_raw s) ->
  absent (struct_fu s) ws <-> reads s TMeta false [] ws.
Proof.
  intros TS FI BI UM. unfold absent, struct_fu. rewrite (proj1 (proj2 TS)). cbn [fu_parse]. split.
  - intro H. apply (sbody_whole s TMeta TS FI BI UM Unnamed SCall "" false 0 [] SCall None [] ws Li_none ltac:(tauto)). unfold whole. rewrite H. split; auto. constructor; auto. now left.
  - intros R i sc. destruct (sbody_bw s TMeta TS FI BI UM Unnamed SCall "" false i [] false [] [] sc None ws R (or_intror eq_refl) Bk_none) as [s' [E [_ Z]]]. now rewrite (Z eq_refl) in E.
Qed.
Lemma struct_by_items (s : sdef V) : any_tuple_struct s -> fine_items s -> flat_items_ok s -> Forall uniform_missing (s_raw s) -> by_items (struct_fu s).
Proof.
  intros TS FI BI UM. split; [|split].
  - intros i ts sc c segs v l L NB NE H. unfold struct_fu in H. rewrite (proj1 (proj2 TS)) in H. cbn [fu_parse] in H.
    destruct (sbody_fw s TMeta TS FI BI UM _ _ _ _ _ ts sc c segs v l L NB H) as [s' [-> [_ X]]]. exists s'. split; auto. intro EN.
    destruct (X EN) as [blk [rest [E [NB1 R]]]]. exists blk, rest. split; auto. split; auto. apply struct_takes; auto.
  - intros i sc v l H. apply struct_absent; auto. unfold struct_fu in H. rewrite (proj1 (proj2 TS)) in H. cbn [fu_parse] in H.
    destruct (sbody_fw s TMeta TS FI BI UM _ _ _ _ _ [] sc None [] v l Li_none ltac:(tauto) H) as [s' [-> [ES X]]]. rewrite (ES eq_refl) in X.
    destruct (X (or_introl eq_refl)) as [blk [rest [E [_ R]]]]. symmetry in E. apply app_eq_nil in E as [-> ->]. exact R.
  - intros i sc. unfold struct_fu. rewrite (proj1 (proj2 TS)). cbn [fu_parse]. rewrite sbody_eq by auto. cbn [snd].
    unfold unnamed_body. destruct (existsb is_parsable (s_fields TMeta s)); [|reflexivity].
    unfold parse_tuple_struct. cbn [length]. rewrite Nat.add_comm. reflexivity.
Qed.
Lemma l_block_run (s : sdef V) tm p st segs ws : tuple_run s tm p -> any_tuple_struct s -> fine_items s -> flat_items_ok s -> Forall uniform_missing (s_raw s) ->
  listed segs (toks st) -> ~ In [] segs ->
  whole p [st] ws <-> exists os vs, spread false (s_raw s) segs os /\ spread_values s tm os vs /\ chained (s_and_thens s) vs ws.
Proof.
  intros R TS FI BI UM L NB. destruct (tuple_run_body s tm p R (proj1 (proj2 TS))) as [m [sp [prefix [v [index E]]]]]. destruct st as [ts sc c].
  unfold whole. rewrite E. exact (sbody_whole s tm TS FI BI UM m sp prefix v index ts sc c segs ws L NB).
Qed.
Lemma l_block_group (s : sdef V) m st segs ws : any_tuple_struct s -> fine_items s -> flat_items_ok s -> Forall uniform_missing (s_raw s) -> s_is_transparent s = false ->
  group_of Paren st segs -> ~ In [] segs ->
  fst (d_item (struct_dict s) m st) = Ok ws <-> exists os vs, spread false (s_raw s) segs os /\ spread_values s TMeta os vs /\ chained (s_and_thens s) vs ws.
Proof.
  intros TS FI BI UM NT [ts [gsp [rest [T L]]]] NB.
  assert (X : fst (d_item (struct_dict s) m st) = Ok ws <-> whole (s_inline s m) [mkStream ts (SClose gsp) (cell st)] ws).
  { unfold struct_dict. rewrite NT, (proj1 (proj2 TS)). cbn [d_item]. rewrite delimited_ok by (apply good_s_inline; apply TS). split.
    - intros [ts' [gsp' [rest' [T' H]]]]. rewrite T in T'. injection T' as <- <- <-. exact H.
    - intro H. exists ts, gsp, rest. auto. }
  rewrite X. unfold s_inline. rewrite (proj1 (proj2 TS)). unfold struct_fu. rewrite (proj1 (proj2 TS)). cbn [fu_parse].
  exact (sbody_whole s TMeta TS FI BI UM m SCall "" false 0 ts (SClose gsp) (cell st) segs ws L NB).
Qed.

(** *** what the types take *)
Lemma takes_block {A} (u : flat_unnamed A) (P : bool -> list (list token) -> A -> Prop) blk more v ts tl :
  (forall i ts sc c segs w l, listed segs ts -> ~ In [] segs -> segs <> [] -> fu_parse u Unnamed i [mkStream ts sc c] = (Ok w, l) ->
     exists s', l = [s'] /\ (ends (toks s') -> exists b rest, segs = b ++ rest /\ b <> [] /\ P (some_items rest) b w /\ takes u b (some_items rest) w)) ->
  blk <> [] -> block blk more ts tl -> takes u blk more v -> P more blk v.
Proof.
  intros FW NE B TK.
  (* one more item after the block, if there are more *)
  assert (X : exists ts' tl' rest, block blk more ts' tl' /\ listed (blk ++ rest) ts' /\ ~ In [] (blk ++ rest) /\
     if more then exists t x, tl' = t :: x /\ rest = [x] /\ x <> [] /\ no_comma x else rest = []).
  { destruct more.
    - assert (Y : exists t x, comma_tok t /\ x <> [] /\ no_comma x).
      { assert (F := block_tail _ _ _ _ B (or_introl NE)). destruct F as [t [r [_ [C _]]]]. destruct blk as [|x blk]; [tauto|]. exists t, x. split; auto. apply block_inv in B. tauto. }
      destruct Y as [t [x [C [NX NCX]]]].
      assert (Z : exists ts', block blk true ts' (t :: x) /\ listed (blk ++ [x]) ts' /\ ~ In [] (blk ++ [x])).
      { clear TK FW v. revert ts tl B NE. induction blk as [|seg blk IH]; intros ts tl B NE; [tauto|]. apply block_inv in B as [NS [NC D]].
        assert (NIL : forall b, ~ In [] b -> ~ In [] (seg :: b)) by (intros b I [J|J]; [now apply NS|now apply I]).
        destruct D as [[-> _]|[NB [t0 [ts0 [_ [C0 B0]]]]]].
        - exists (seg ++ t :: x). split; [constructor; auto; cbn; exists t, x; auto|]. split; [apply Li_more; auto; [discriminate|constructor; auto]|]. cbn [app]. apply NIL. intros [J|[]]. auto.
        - destruct (IH ts0 tl B0 NB) as [ts1 [B1 [L1 I1]]]. exists (seg ++ t0 :: ts1). split; [constructor; auto|]. split; [cbn [app]; apply Li_more; auto; destruct blk; discriminate|]. cbn [app]. now apply NIL. }
      destruct Z as [ts' [B1 [L1 I1]]]. exists ts', (t :: x), [x]. split; auto. split; auto. split; auto. exists t, x. auto.
    - apply block_listed in B as LB. exists ts, tl, []. rewrite app_nil_r. destruct LB. auto. }
  destruct X as [ts' [tl' [rest [B' [L [NB SI]]]]]]. destruct (TK 0 ts' tl' SCall None B') as [s1 [E U]].
  assert (EN : ends (toks s1)).
  { destruct more; [rewrite U; apply (follows_ends true); apply (block_tail _ _ _ _ B'); now left|]. apply (follows_ends false). now apply follows_used. }
  destruct (FW 0 ts' SCall None (blk ++ rest) v [s1] L NB ltac:(destruct blk; [tauto|discriminate]) E) as [s2 [ES Y]]. injection ES as <-.
  destruct (Y EN) as [b [r [EQ [NBK [HP TB]]]]].
  (* the two blocks are the same: what is left tells how many items were taken *)
  rewrite EQ in L, NB. destruct (listed_block b r ts' NBK L NB) as [tb [B2 R2]]. destruct (TB 0 ts' tb SCall None B2) as [s3 [E3 U3]]. rewrite E3 in E. injection E as ->.
  assert (NR : ~ In [] r) by (intro Z; apply NB; apply in_or_app; now right).
  destruct more.
  - destruct SI as [t [x [-> [-> [NX NCX]]]]]. destruct r as [|r0 r]; cbn [some_items] in *.
    + exfalso. destruct U3 as [U3|[t2 [U3 _]]]; rewrite U in U3; [discriminate|]. injection U3 as _ Z. auto.
    + destruct (R2 ltac:(discriminate)) as [t2 [ts0 [-> [C2 L2]]]]. rewrite U3 in U. injection U as -> ->.
      destruct (listed_ne _ _ L2 ltac:(discriminate) NR) as [sg [sgs [tl2 [ER [EX [_ [_ [_ [[-> _]|[_ [t3 [ts3 [-> [C3 _]]]]]]]]]]]]]].
      * injection ER as -> ->. apply app_inj_tail in EQ as [-> _]. exact HP.
      * exfalso. subst x. unfold no_comma in NCX. apply Forall_app in NCX as [_ NCX]. inversion NCX; subst. tauto.
  - subst rest. rewrite app_nil_r in EQ. destruct r as [|r0 r]; [rewrite app_nil_r in EQ; subst blk; exact HP|]. exfalso. cbn [some_items] in U3.
    destruct (R2 ltac:(discriminate)) as [t2 [ts0 [-> [C2 L2]]]]. destruct (listed_ne _ _ L2 ltac:(discriminate) NR) as [sg [sgs [tl2 [ER [-> [NS _]]]]]].
    destruct U as [U|[t3 [U _]]]; rewrite U3 in U; [discriminate|]. injection U as _ Z. apply app_eq_nil in Z as [Z _]. auto.
Qed.
Lemma l_array_block {A} N (d : dict A) blk more ts tl vs : fine d -> blk <> [] -> block blk more ts tl ->
  takes (array_fu N d) blk more vs <-> length blk = N /\ Forall2 (accepts (d_item d Unnamed)) blk vs.
Proof.
  intros F NE B. split; [|intros [LN H]; apply array_takes; auto].
  apply (takes_block (array_fu N d) (fun _ b w => length b = N /\ Forall2 (accepts (d_item d Unnamed)) b w) blk more vs ts tl); auto.
  intros i ts' sc c segs w l L NB NS H. destruct (array_fw N d F i ts' sc c segs w l L NB H) as [s' [-> [_ X]]]. exists s'. split; auto. intro EN.
  destruct (X EN) as [b [rest [E [NB1 [LN HF]]]]]. exists b, rest. split; auto. split; auto. split; auto. apply array_takes; auto.
Qed.
Lemma l_tuple_block {A} (ds : list (dict A)) blk more ts tl vs : Forall fine ds -> blk <> [] -> block blk more ts tl ->
  takes (tuple_fu ds) blk more vs <-> each_accepts ds blk vs.
Proof.
  intros F NE B. split; [|intro H; apply tuple_takes; auto].
  apply (takes_block (tuple_fu ds) (fun _ b w => each_accepts ds b w) blk more vs ts tl); auto.
  intros i ts' sc c segs w l L NB NS H. destruct (tuple_fw ds F ts' sc c segs w l L NB H) as [s' [-> [_ X]]]. exists s'. split; auto. intro EN.
  destruct (X EN) as [b [rest [E [NB1 HF]]]]. exists b, rest. split; auto. split; auto. split; auto. apply tuple_takes; auto.
Qed.
Lemma l_vec_block {A} (d : dict A) blk more ts tl vs : fine d -> blk <> [] -> block blk more ts tl ->
  takes (vec_fu d) blk more vs <-> more = false /\ Forall2 (accepts (d_item d Unnamed)) blk vs.
Proof.
  intros F NE B. split; [|intros [-> H]; apply vec_takes; auto].
  apply (takes_block (vec_fu d) (fun m b w => m = false /\ Forall2 (accepts (d_item d Unnamed)) b w) blk more vs ts tl); auto.
  intros i ts' sc c segs w l L NB NS H. cbn [vec_fu fu_parse] in H. destruct (vec_end d _ _ _ H) as [s' [-> [T K]]]. exists s'. split; auto. intros _.
  assert (HF : Forall2 (accepts (d_item d Unnamed)) segs w) by (apply (vec_run d F ts' sc c segs w L); exists s'; auto).
  exists segs, []. split; [now rewrite app_nil_r|]. split; auto. split; auto. apply vec_takes; auto.
Qed.
Lemma l_struct_block (s : sdef V) blk more ts tl ws : any_tuple_struct s -> fine_items s -> flat_items_ok s -> Forall uniform_missing (s_raw s) -> blk <> [] -> block blk more ts tl ->
  takes (struct_fu s) blk more ws <-> exists os vs, spread more (s_raw s) blk os /\ spread_values s TMeta os vs /\ chained (s_and_thens s) vs ws.
Proof.
  intros TS FI BI UM NE B. split; [|intro H; apply struct_takes; auto].
  apply (takes_block (struct_fu s) (fun m b w => reads s TMeta m b w) blk more ws ts tl); auto.
  intros i ts' sc c segs w l L NB NS H. unfold struct_fu in H. rewrite (proj1 (proj2 TS)) in H. cbn [fu_parse] in H.
  destruct (sbody_fw s TMeta TS FI BI UM _ _ _ _ _ ts' sc c segs w l L NB H) as [s' [-> [_ X]]]. exists s'. split; auto. intro EN.
  destruct (X EN) as [b [rest [E [NB1 R]]]]. exists b, rest. split; auto. split; auto. split; auto. apply struct_takes; auto.
Qed.
Lemma l_absent_array {A} N (d : dict A) vs : fine d -> absent (array_fu N d) vs <-> N = 0 /\ vs = [].
Proof.
  intro F. split.
  - intro H. destruct (array_fw N d F 0 [] SCall None [] vs _ Li_none ltac:(tauto) (H 0 SCall)) as [s' [ES [_ X]]]. injection ES as <-.
    destruct (X (or_introl eq_refl)) as [b [rest [E [_ [LN HF]]]]]. symmetry in E. apply app_eq_nil in E as [-> ->]. cbn in LN. split; auto. now inversion HF.
  - intros [-> ->] i sc. destruct (array_bw 0 d i [] false [] [] sc None [] eq_refl ltac:(constructor) (or_intror eq_refl) Bk_none) as [s' [E [_ Z]]]. now rewrite (Z eq_refl) in E.
Qed.
Lemma l_absent_tuple {A} (ds : list (dict A)) vs : Forall fine ds -> absent (tuple_fu ds) vs <-> ds = [] /\ vs = [].
Proof.
  intro F. split.
  - intro H. destruct (tuple_fw ds F [] SCall None [] vs _ Li_none ltac:(tauto) (H 0 SCall)) as [s' [ES [_ X]]]. injection ES as <-.
    destruct (X (or_introl eq_refl)) as [b [rest [E [_ HF]]]]. symmetry in E. apply app_eq_nil in E as [-> ->]. inversion HF; auto.
  - intros [-> ->] i sc. destruct (tuple_bw (A := A) [] [] false [] [] sc None [] ltac:(constructor) (or_intror eq_refl) Bk_none) as [s' [E [_ Z]]]. now rewrite (Z eq_refl) in E.
Qed.
Lemma l_absent_vec {A} (d : dict A) vs : absent (vec_fu d) vs <-> vs = [].
Proof.
  split.
  - intro H. specialize (H 0 SCall). cbn in H. congruence.
  - intros ->. intros i sc. reflexivity.
Qed.
Lemma l_all_by_items {A} N (d : dict A) ds (s : sdef V) : fine d -> Forall fine ds -> any_tuple_struct s -> fine_items s -> flat_items_ok s -> Forall uniform_missing (s_raw s) ->
  by_items (array_fu N d) /\ by_items (tuple_fu (A := A) ds) /\ by_items (vec_fu d) /\ by_items (struct_fu s) /\
  forall {B C} (g : B -> C) u, by_items u -> by_items (fu_map g u).
Proof.
  intros FD FDS TS FI BI UM. split; [now apply array_by_items|]. split; [now apply tuple_by_items|]. split; [now apply vec_by_items|]. split; [now apply struct_by_items|].
  intros B C g u. apply map_by_items.
Qed.
End S.
