(** Attribute parsing: parse_struct_attr_tokens *)
From Verif Require Export SpecAttr LemMore3.

Section A.
Context {env : Env} {R : Type}.
Variable func : list (string * span) -> mparser R.
Hypothesis WF : forall paths, well_behaved_m (func paths).

Definition root_ends (after : list token) : Prop := after = [] \/ exists c, after = [c] /\ is_comma c = true.
Lemma eof_ends after sc c : root_ends after -> parse_eof (mkStream after sc c) = (Ok tt, mkStream [] sc c).
Proof. intros [->|[t [-> C]]]; unfold parse_eof; cbn [toks]; [reflexivity|]. rewrite C. reflexivity. Qed.
Lemma close_clean (r : res R) after : root_ends after -> returns r -> close_root r (mkStream after SCall None) = r.
Proof.
  intros E H. unfold close_root. destruct r as [v|e|b]; [| |destruct H]; rewrite (eof_ends _ _ _ E); cbn [cell toks push_result]; auto.
  destruct e. reflexivity.
Qed.
Lemma close_any (r : res R) after c : root_ends after -> returns r ->
  close_root r (mkStream after SCall c) = match c with None => r | Some sp => Err (err1 sp unexpected_token) end.
Proof.
  intros E H. destruct c; [|now apply close_clean]. unfold close_root. destruct r as [v|e|b]; [| |destruct H]; rewrite (eof_ends _ _ _ E); reflexivity.
Qed.
Lemma close_ok (r : res R) root v : close_root r root = Ok v -> r = Ok v /\ cell root = None /\ root_ends (toks root).
Proof.
  unfold close_root. destruct r as [w|e|b]; [| |discriminate].
  - assert (C : forall re root1, parse_eof root = (re, root1) -> cell root1 = cell root /\ (toks root1 = [] -> root_ends (toks root))).
    { intros re root1. unfold parse_eof, root_ends. destruct (toks root) as [|t r] eqn:T.
      - rewrite T. intro H. injection H as <- <-. auto.
      - destruct (is_comma t) eqn:C; cbn [toks set_toks]; [|rewrite T].
        + destruct r; intro H; injection H as <- <-; cbn; (split; [auto|]); intro X; try discriminate; right; eauto.
        + intro H. injection H as <- <-. rewrite T. split; [auto|]. intro X; discriminate X. }
    destruct (parse_eof root) as [re root1] eqn:P. destruct (C _ _ eq_refl) as [C1 C2]. rewrite C1. destruct (cell root) eqn:CR; [discriminate|].
    destruct (toks root1) eqn:T; [|discriminate]. destruct re as [[]|e|b]; cbn [push_result].
    + intro H. cbn in H. auto.
    + destruct e. discriminate.
    + intro H. cbn in H. auto.
  - destruct (parse_eof root) as [re root1]. destruct (cell root1); [discriminate|]. destruct (toks root1); [|discriminate].
    destruct e as [h t]. destruct re as [u|[h2 t2]|b]; discriminate.
Qed.
Lemma each_eof_cells : forall l l1, each_eof l = (Ok tt, l1) -> map cell l1 = map cell l /\ Forall (fun s => toks s = []) l1.
Proof.
  induction l as [|s l IH]; intros l1 H; cbn [each_eof] in H; [injection H as <-; auto|].
  destruct (parse_eof s) as [[[]|e|b] s1] eqn:P; try discriminate. destruct (each_eof l) as [r l2] eqn:E. injection H as -> <-. destruct (IH _ eq_refl) as [H1 H2].
  unfold parse_eof in P. assert (Q : cell s1 = cell s /\ toks s1 = []).
  { destruct (toks s) as [|t r] eqn:T; [|destruct (is_comma t)]; cbn [toks set_toks] in P.
    - rewrite T in P. injection P as <-. auto.
    - destruct r; [|discriminate]. injection P as <-. auto.
    - rewrite T in P. discriminate. }
  cbn [map]. split; [f_equal; [apply Q|auto]|constructor; [apply Q|auto]].
Qed.
Lemma dropped_cells l : Forall (fun s => toks s = []) l -> map cell (map dropped l) = map cell l.
Proof. induction 1 as [|s l H1 H IH]; cbn; auto. rewrite IH. unfold drop_cell. rewrite H1. now destruct (cell s). Qed.
Lemma pair_fst {A B} (a a' : A) (b b' : B) : (a, b) = (a', b') -> a = a'.
Proof. congruence. Qed.
Lemma names_cons ts n sp (l : list item) : attr_names ((ts, n, sp) :: l) = (n, sp) :: attr_names l.
Proof. reflexivity. Qed.
Definition item_cell (B : list stream) (k : nat) : option span :=
  match nth_error B k with Some s => cell s | None => None end.

(** well formed attributes: what is returned *)
Lemma next_wf : forall l cs, Forall2 attr_content l cs -> forall bufs paths,
  let (r, b1) := func (paths ++ attr_names l) (bufs ++ cs) in
  let final := match r with
    | Ok v => let (re, b2) := each_eof b1 in (rbind re (fun _ => Ok v), map dropped b2)
    | _ => (r, map dropped b1) end in
  snd (parse_next l bufs paths func) = snd final /\
  (fst (parse_next l bufs paths func) = fst final \/
   (exists i it sp, nth_error l i = Some it /\ fst (fst it) <> [] /\ item_cell (snd final) (length bufs + i) = Some sp)) /\
  ((forall i it, nth_error l i = Some it -> fst (fst it) <> [] -> item_cell (snd final) (length bufs + i) = None) ->
   fst (parse_next l bufs paths func) = fst final) /\
  (fst (parse_next l bufs paths func) = fst final \/ exists sp, fst (parse_next l bufs paths func) = Err (err1 sp unexpected_token)).
Proof.
  intros l cs H. induction H as [|it c l cs AC H IH]; intros bufs paths.
  - cbn [attr_names map parse_next]. rewrite !app_nil_r. destruct (func paths bufs) as [r b1]. cbv zeta.
    destruct r as [v|e|b]; [destruct (each_eof b1) as [re b2]|..]; cbn [fst snd]; auto.
  - destruct it as [[ts n] sp]. rewrite names_cons.
    assert (STEP : forall root_after, (ts = [] /\ root_after = [] \/ (exists content gsp, ts = TGroup Paren content gsp :: root_after /\ c = mkStream content (SClose gsp) None)) -> root_ends root_after ->
      (ts = [] -> c = mkStream [] SCall None) ->
      parse_next (@cons item (ts, n, sp) l) bufs paths func =
      (let (r, bufs1) := parse_next l (bufs ++ [c]) (paths ++ [(n, sp)]) func in
       (close_root r (mkStream root_after SCall (match ts with [] => None | _ => item_cell bufs1 (length bufs) end)), bufs1))).
    { intros ra [[-> ->]|[content [gsp [-> ->]]]] RE CE; cbn [parse_next].
      - rewrite (CE eq_refl). unfold fork, root_stream. cbn [toks scope]. destruct (parse_next l (bufs ++ [mkStream [] SCall None]) (paths ++ [(n, sp)]) func). reflexivity.
      - unfold group_content. destruct (parse_next l (bufs ++ [mkStream content (SClose gsp) None]) (paths ++ [(n, sp)]) func). reflexivity. }
    assert (ST : exists ra, root_ends ra /\ parse_next (@cons item (ts, n, sp) l) bufs paths func =
      (let (r, bufs1) := parse_next l (bufs ++ [c]) (paths ++ [(n, sp)]) func in
       (close_root r (mkStream ra SCall (match ts with [] => None | _ => item_cell bufs1 (length bufs) end)), bufs1))).
    { inversion AC; subst.
      - exists []. split; [now left|]. apply STEP; auto. now left.
      - exists []. split; [now left|]. apply STEP; [right; eauto|now left|discriminate].
      - exists [c0]. split; [right; eauto|]. apply STEP; [right; eauto|right; eauto|discriminate]. }
    destruct ST as [ra [RE ->]]. clear STEP. specialize (IH (bufs ++ [c]) (paths ++ [(n, sp)])).
    rewrite <- !app_assoc in IH. cbn [app] in IH. pose proof (parse_next_good func WF l (bufs ++ [c]) (paths ++ [(n, sp)])) as RT.
    destruct (func (paths ++ (n, sp) :: attr_names l) (bufs ++ c :: cs)) as [r b1]. cbv zeta in *.
    set (final := match r with Ok v => let (re, b2) := each_eof b1 in (rbind re (fun _ => Ok v), map dropped b2) | _ => (r, map dropped b1) end) in *. clearbody final.
    destruct (parse_next l (bufs ++ [c]) (paths ++ [(n, sp)]) func) as [r1 B]. cbn [fst snd] in *. destruct IH as [-> [I1 [I2 I3]]].
    rewrite (close_any _ _ _ RE RT).
    assert (SH : forall i, length (bufs ++ [c]) + i = length bufs + S i) by (intro; rewrite app_length; cbn; lia).
    split; auto. split; [|split].
    + destruct (match ts with [] => None | _ :: _ => item_cell (snd final) (length bufs) end) as [csp|] eqn:Q.
      * right. exists 0, (ts, n, sp), csp. destruct ts; [discriminate|]. rewrite Nat.add_0_r. repeat split; auto. discriminate.
      * destruct I1 as [I1|[i [it [s2 [N [E X]]]]]]; auto. right. exists (S i), it, s2. rewrite <- SH. auto.
    + intro HC. assert (Q : match ts with [] => None | _ :: _ => item_cell (snd final) (length bufs) end = None).
      { destruct ts; auto. specialize (HC 0 _ eq_refl). rewrite Nat.add_0_r in HC. apply HC. discriminate. }
      rewrite Q. apply I2. intros i it N E. rewrite SH. apply (HC (S i) it N E).
    + destruct (match ts with [] => None | _ :: _ => item_cell (snd final) (length bufs) end) as [csp|]; eauto.
Qed.
(** only well formed attributes are accepted *)
Lemma next_ok : forall l bufs paths v B, parse_next l bufs paths func = (Ok v, B) ->
  exists cs, Forall2 attr_content l cs /\ fst (func (paths ++ attr_names l) (bufs ++ cs)) = Ok v /\
    forall i it, nth_error l i = Some it -> fst (fst it) <> [] -> item_cell B (length bufs + i) = None.
Proof.
  induction l as [|[[ts n] sp] l IH]; intros bufs paths v B H; cbn [parse_next] in H.
  - exists []. split; [constructor|]. cbn [attr_names map]. rewrite !app_nil_r. split; [|intros [|i] it N; discriminate].
    destruct (func paths bufs) as [r b1]. destruct r as [w|e|b]; [|discriminate..]. destruct (each_eof b1) as [[[]|e|b] b2]; try discriminate.
    injection H as <- _. reflexivity.
  - assert (SH : forall c i, length (bufs ++ [c]) + i = length bufs + S i) by (intros; rewrite app_length; cbn; lia).
    destruct ts as [|t after].
    + destruct (parse_next l (bufs ++ [fork (root_stream [])]) (paths ++ [(n, sp)]) func) as [r B1] eqn:P. injection H as H <-.
      apply close_ok in H as [-> _]. destruct (IH _ _ _ _ P) as [cs [F [V C]]]. exists (mkStream [] SCall None :: cs). split; [constructor; auto; constructor|].
      rewrite names_cons. rewrite <- !app_assoc in V. split; [exact V|]. intros [|i] it N E; [injection N as <-; now destruct E|]. rewrite <- (SH (fork (root_stream []))). eauto.
    + destruct t as [| | |d content gsp]; try (apply pair_fst in H; apply close_ok in H as [H _]; discriminate H).
      destruct d; try (apply pair_fst in H; apply close_ok in H as [H _]; discriminate H).
      destruct (parse_next l (bufs ++ [group_content content gsp None]) (paths ++ [(n, sp)]) func) as [r B1] eqn:P. injection H as H <-.
      apply close_ok in H as [-> [CE RE]]. cbn [cell toks] in CE, RE. destruct (IH _ _ _ _ P) as [cs [F [V C]]]. exists (mkStream content (SClose gsp) None :: cs).
      split. { constructor; auto. destruct RE as [->|[c [-> IC]]]; now constructor. }
      rewrite names_cons. rewrite <- !app_assoc in V. split; [exact V|]. intros [|i] it N E.
      * rewrite Nat.add_0_r. unfold item_cell. exact CE.
      * rewrite <- (SH (group_content content gsp None)). eauto.
Qed.
Lemma cells_nth l1 l2 k : map cell l1 = map cell l2 -> item_cell l1 k = item_cell l2 k.
Proof.
  intro H. assert (N : nth_error (map cell l1) k = nth_error (map cell l2) k) by congruence. rewrite !nth_map in N. unfold item_cell.
  destruct (nth_error l1 k), (nth_error l2 k); cbn in N; congruence.
Qed.
Lemma f2_nth {A B} (P : A -> B -> Prop) : forall la lb, Forall2 P la lb <->
  length la = length lb /\ forall i a b, nth_error la i = Some a -> nth_error lb i = Some b -> P a b.
Proof.
  split.
  - induction 1 as [|a b la lb H X [IH1 IH2]]; [split; auto; intros [|i]; discriminate|]. split; [cbn; lia|]. intros [|i] x y N1 N2; cbn in *; [congruence|eauto].
  - revert lb. induction la as [|a la IH]; intros [|b lb] [L H]; try discriminate; constructor; [apply (H 0); auto|]. apply IH. split; [now injection L|]. intros i. apply (H (S i)).
Qed.
Lemma adv_len l1 l2 : Forall2 advances l1 l2 -> length l2 = length l1.
Proof. induction 1; cbn; auto. Qed.
Lemma l_attributes_ok : forall l v,
  parse_struct_attr_tokens l func = Ok v <->
  exists cs, Forall2 attr_content l cs /\ fst (func (attr_names l) cs) = Ok v /\
    Forall2 all_parsed l (snd (func (attr_names l) cs)).
Proof.
  intros l v. unfold parse_struct_attr_tokens. split.
  - intro H. destruct (parse_next l [] [] func) as [r B] eqn:P. cbn [fst] in H. subst r.
    destruct (next_ok _ _ _ _ _ P) as [cs [F [V C]]]. cbn [app length Nat.add] in *. exists cs. split; auto. split; auto.
    pose proof (next_wf l cs F [] []) as NW. cbn [app length Nat.add] in NW. rewrite P in NW. pose proof (proj2 (WF (attr_names l) cs)) as AD.
    destruct (func (attr_names l) cs) as [r b1]. cbn [fst snd] in *. subst r. cbv zeta in NW. destruct NW as [E1 [_ [E2 E3]]].
    destruct (each_eof b1) as [re b2] eqn:EE. cbn [fst snd] in *.
    assert (E4 : Ok v = rbind re (fun _ => Ok v)).
    { destruct E3 as [E3|[sp E3]]; [auto|discriminate]. }
    destruct re as [[]|e|b]; try discriminate. destruct (each_eof_cells _ _ EE) as [C1 C2].
    assert (UU : Forall used_up b1) by (apply each_eof_ok; now rewrite EE).
    apply f2_nth. split. { rewrite (adv_len _ _ AD). clear -F. induction F; cbn; auto. }
    intros i it s N1 N2. split; [rewrite Forall_forall in UU; apply UU; eapply nth_error_In; eauto|].
    destruct (fst (fst it)) eqn:T; [now left|]. right. specialize (C i it N1 ltac:(congruence)). rewrite E1 in C.
    rewrite (cells_nth _ b1) in C by (rewrite dropped_cells; auto). unfold item_cell in C. now rewrite N2 in C.
  - intros [cs [F [V AP]]]. pose proof (next_wf l cs F [] []) as NW. cbn [app length Nat.add] in NW.
    destruct (func (attr_names l) cs) as [r b1]. cbn [fst snd] in *. subst r. cbv zeta in NW. destruct NW as [_ [_ [E2 _]]].
    assert (UU : Forall used_up b1) by (clear -AP; induction AP as [|a b la lb [H _] X IH]; constructor; auto).
    apply each_eof_ok in UU. destruct (each_eof b1) as [re b2] eqn:EE. cbn [fst snd] in *. subst re. rewrite E2; auto.
    intros i it N NE. destruct (each_eof_cells _ _ EE) as [C1 C2]. rewrite (cells_nth _ b1) by (rewrite dropped_cells; auto).
    unfold item_cell. destruct (nth_error b1 i) as [s|] eqn:N2; auto. apply f2_nth in AP as [_ AP]. destruct (AP i it s N N2) as [_ [Q|Q]]; [contradiction|auto].
Qed.
Lemma l_attributes_err : forall l cs e, Forall2 attr_content l cs ->
  fst (func (attr_names l) cs) = Err e -> Forall parsed_up (snd (func (attr_names l) cs)) ->
  parse_struct_attr_tokens l func = Err e.
Proof.
  intros l cs e F V PU. unfold parse_struct_attr_tokens. pose proof (next_wf l cs F [] []) as NW. cbn [app length Nat.add] in NW.
  destruct (func (attr_names l) cs) as [r b1]. cbn [fst snd] in *. subst r. cbv zeta in NW. destruct NW as [_ [_ [E2 _]]]. cbn [fst snd] in E2. apply E2.
  intros i it N NE. rewrite (cells_nth _ b1).
  - unfold item_cell. destruct (nth_error b1 i) as [s|] eqn:N2; auto. rewrite Forall_forall in PU. apply PU. eapply nth_error_In; eauto.
  - apply dropped_cells. eapply Forall_impl; [|exact PU]. intros s [H _]. exact H.
Qed.
Lemma l_attributes_lost : forall l cs e, Forall2 attr_content l cs ->
  fst (func (attr_names l) cs) = Err e ->
  parse_struct_attr_tokens l func = Err e \/ exists sp, parse_struct_attr_tokens l func = Err (err1 sp unexpected_token).
Proof.
  intros l cs e F V. unfold parse_struct_attr_tokens. pose proof (next_wf l cs F [] []) as NW. cbn [app length Nat.add] in NW.
  destruct (func (attr_names l) cs) as [r b1]. cbn [fst snd] in *. subst r. cbv zeta in NW. destruct NW as [_ [_ [_ E3]]]. exact E3.
Qed.
End A.

(** the same for functions that may panic *)
Section W.
Context {env : Env} {R : Type}.
Variable func : list (string * span) -> mparser R.
Hypothesis ADV : forall paths l, Forall2 advances l (snd (func paths l)).
Definition no_value {A} (r : res A) : Prop := forall v, r <> Ok v.
Definition tame (paths : list (string * span)) (l : list stream) : res R * list stream :=
  let (r, l1) := func paths l in (match r with Bad _ => Err (err1 SCall "") | _ => r end, l1).
Lemma tame_wf paths : well_behaved_m (tame paths).
Proof. intro l. specialize (ADV paths l). unfold tame. destruct (func paths l) as [[v|e|b] l1]; cbn in *; auto. Qed.
Lemma close_same (r1 r2 : res R) root : r1 = r2 \/ no_value r1 /\ no_value r2 ->
  close_root r1 root = close_root r2 root \/ no_value (close_root r1 root) /\ no_value (close_root r2 root).
Proof.
  intros [->|[N1 N2]]; auto. right. split; intros v H; apply close_ok in H as [H _]; [exact (N1 _ H)|exact (N2 _ H)].
Qed.
Lemma next_same : forall l bufs paths,
  snd (parse_next l bufs paths func) = snd (parse_next l bufs paths tame) /\
  (fst (parse_next l bufs paths func) = fst (parse_next l bufs paths tame) \/
   no_value (fst (parse_next l bufs paths func)) /\ no_value (fst (parse_next l bufs paths tame))).
Proof.
  induction l as [|[[ts n] sp] l IH]; intros bufs paths; cbn [parse_next].
  - unfold tame. destruct (func paths bufs) as [[v|e|b] b1]; [destruct (each_eof b1); cbn; auto|cbn; auto|].
    cbn. split; auto. right. split; intros v H; discriminate H.
  - destruct ts as [|t ts].
    + specialize (IH (bufs ++ [fork (root_stream [])]) (paths ++ [(n, sp)])).
      destruct (parse_next l (bufs ++ [fork (root_stream [])]) (paths ++ [(n, sp)]) func) as [r1 b1].
      destruct (parse_next l (bufs ++ [fork (root_stream [])]) (paths ++ [(n, sp)]) tame) as [r2 b2]. cbn [fst snd] in *. destruct IH as [-> I]. split; auto. now apply close_same.
    + destruct t as [| | |d content gsp]; auto. destruct d; auto.
      specialize (IH (bufs ++ [group_content content gsp None]) (paths ++ [(n, sp)])).
      destruct (parse_next l (bufs ++ [group_content content gsp None]) (paths ++ [(n, sp)]) func) as [r1 b1].
      destruct (parse_next l (bufs ++ [group_content content gsp None]) (paths ++ [(n, sp)]) tame) as [r2 b2]. cbn [fst snd] in *. destruct IH as [-> I]. split; auto. now apply close_same.
Qed.
Lemma l_attributes_ok_weak : forall l v,
  parse_struct_attr_tokens l func = Ok v <->
  exists cs, Forall2 attr_content l cs /\ fst (func (attr_names l) cs) = Ok v /\
    Forall2 all_parsed l (snd (func (attr_names l) cs)).
Proof.
  intros l v. assert (E : parse_struct_attr_tokens l func = Ok v <-> parse_struct_attr_tokens l tame = Ok v).
  { unfold parse_struct_attr_tokens. destruct (next_same l [] []) as [_ [->|[N1 N2]]]; [tauto|]. split; intro H; [elim (N1 _ H)|elim (N2 _ H)]. }
  rewrite E, (l_attributes_ok tame tame_wf).
  assert (Q : forall cs, snd (tame (attr_names l) cs) = snd (func (attr_names l) cs) /\ (fst (tame (attr_names l) cs) = Ok v <-> fst (func (attr_names l) cs) = Ok v)).
  { intro cs. unfold tame. destruct (func (attr_names l) cs) as [[x|e|b] l1]; cbn; split; auto; try tauto. split; discriminate. }
  split; intros [cs [F [V AP]]]; exists cs; destruct (Q cs) as [Q1 Q2]; rewrite Q1 in *; tauto.
Qed.
End W.
