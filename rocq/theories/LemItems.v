(** Items, and the keys read from them. *)
From Verif Require Export LemWalk.

Lemma comma_true t : is_comma t = true <-> comma_tok t.
Proof. apply is_comma_spec. Qed.
Lemma comma_false t : is_comma t = false <-> ~ comma_tok t.
Proof. rewrite <- is_comma_spec. now destruct (is_comma t). Qed.
Lemma ends_cons t r : ends (t :: r) <-> is_comma t = true.
Proof.
  unfold ends, starts_comma. split.
  - intros [H|[t' [r' [H C]]]]; [discriminate|]. injection H as <- <-. now apply comma_true.
  - intro H. right. exists t, r. split; auto. now apply comma_true.
Qed.
Lemma ends_nil : ends [].
Proof. now left. Qed.
#[global] Hint Resolve ends_nil : core.
Lemma nc_app a b : no_comma (a ++ b) <-> no_comma a /\ no_comma b.
Proof. apply Forall_app. Qed.
Lemma nc_cons t r : no_comma (t :: r) <-> is_comma t = false /\ no_comma r.
Proof. unfold no_comma. rewrite Forall_cons_iff, comma_false. reflexivity. Qed.

Lemma pieces_cons t r : pieces (t :: r) =
  if is_comma t then ([], t :: r) :: pieces r
  else match pieces r with (s, tl) :: l => (t :: s, tl) :: l | [] => [([t], [])] end.
Proof. reflexivity. Qed.
Lemma pieces_nil ts : pieces ts = [] <-> ts = [].
Proof.
  destruct ts as [|t r]; [simpl; tauto|]. rewrite pieces_cons. split; [|discriminate].
  destruct (is_comma t); [discriminate|]. destruct (pieces r) as [|[s tl] l]; discriminate.
Qed.
Lemma pieces_app seg tl : no_comma seg -> ends tl -> seg ++ tl <> [] ->
  pieces (seg ++ tl) = (seg, tl) :: match tl with [] => [] | _ :: r => pieces r end.
Proof.
  induction seg as [|t seg IH]; intros N E Z.
  - simpl. destruct tl as [|c r]; [now destruct Z|]. apply ends_cons in E. rewrite pieces_cons, E. reflexivity.
  - apply nc_cons in N as [N1 N2]. cbn [app]. rewrite pieces_cons, N1.
    destruct (seg ++ tl) eqn:S.
    + simpl. apply app_eq_nil in S as [-> ->]. reflexivity.
    + rewrite <- S in *. rewrite IH by (auto; rewrite S; discriminate). reflexivity.
Qed.
Lemma cut_item ts : exists seg tl, ts = seg ++ tl /\ no_comma seg /\ ends tl.
Proof.
  induction ts as [|t r [seg [tl [E [N H]]]]].
  - exists [], []. repeat split; auto. constructor.
  - destruct (is_comma t) eqn:C.
    + exists [], (t :: r). repeat split; [constructor|now apply ends_cons].
    + exists (t :: seg), tl. repeat split; [now rewrite E|now apply nc_cons|auto].
Qed.

Lemma skip_toks_app seg tl : no_comma seg -> ends tl -> skip_toks (seg ++ tl) = tl.
Proof.
  induction seg as [|t seg IH]; intros N E; simpl.
  - destruct tl as [|c r]; [reflexivity|]. apply ends_cons in E. simpl. now rewrite E.
  - apply nc_cons in N as [N1 N2]. rewrite N1. auto.
Qed.
Lemma stays_cut {A} (p : parser A) seg tl sc c : stays p -> no_comma seg -> ends tl ->
  exists seg', toks (snd (p (mkStream (seg ++ tl) sc c))) = seg' ++ tl /\
               exists pre, seg = pre ++ seg'.
Proof.
  intros H N E. destruct (H (mkStream (seg ++ tl) sc c)) as [pre [P Q]]. cbn [toks] in P.
  set (r := toks (snd _)) in *. clearbody r.
  revert pre P Q. induction seg as [|t seg IH]; intros pre P Q.
  - simpl in P. exists []. simpl. split; [|now exists []].
    destruct pre as [|x pre]; [now rewrite P|]. subst tl. apply ends_cons in E.
    apply nc_cons in Q. destruct Q. congruence.
  - apply nc_cons in N as [N1 N2]. destruct pre as [|x pre].
    + simpl in P. exists (t :: seg). split; [now rewrite <- P|]. now exists [].
    + simpl in P. injection P as -> P. apply nc_cons in Q as [_ Q].
      destruct (IH N2 pre P Q) as [seg' [R [pre' S]]]. exists seg'. split; auto.
      exists (x :: pre'). now rewrite S.
Qed.
Lemma stays_skip : stays (fun s => (Ok tt, skip_item s)).
Proof.
  intro s. cbn [snd]. destruct (cut_item (toks s)) as [seg [tl [E [N H]]]].
  exists seg. split; auto. unfold skip_item. cbn [toks set_toks].
  rewrite E at 2. rewrite skip_toks_app; auto.
Qed.

(** *** keys *)
Lemma not_colon_comma c : Ascii.eqb c comma_c = true -> Ascii.eqb c colon_c = false.
Proof. intro H. apply Ascii.eqb_eq in H. subst. reflexivity. Qed.
Lemma path_segs_app : forall n seg tl, length seg <= n -> ends tl ->
  path_segs (seg ++ tl) =
  match path_segs seg with (segs, tr, r) => (segs, tr, r ++ tl) end.
Proof.
  induction n; intros seg tl L E.
  - destruct seg; [|simpl in L; lia]. simpl. destruct tl as [|t r]; [reflexivity|].
    apply ends_cons in E. destruct t; try discriminate. reflexivity.
  - destruct seg as [|t seg].
    + simpl. destruct tl as [|t r]; [reflexivity|]. apply ends_cons in E. destruct t; try discriminate. reflexivity.
    + destruct t; try reflexivity. destruct seg as [|t2 seg].
      * simpl. destruct tl as [|t2 r]; [reflexivity|]. apply ends_cons in E.
        destruct t2; try discriminate. simpl in E. destruct r as [|t3 r]; [reflexivity|].
        destruct t3; try reflexivity. rewrite (not_colon_comma _ E). reflexivity.
      * destruct t2; try reflexivity. destruct seg as [|t3 seg].
        -- simpl. destruct tl as [|t3 r]; [reflexivity|]. apply ends_cons in E.
           destruct t3; try discriminate. simpl in E. rewrite (not_colon_comma _ E).
           rewrite andb_false_r. reflexivity.
        -- destruct t3; try reflexivity. simpl.
           destruct (Ascii.eqb c colon_c && Ascii.eqb c0 colon_c && joint); [|reflexivity].
           rewrite (IHn seg tl) by (auto; simpl in L; lia).
           destruct (path_segs seg) as [[segs tr] r]. reflexivity.
Qed.
Lemma colon2_app seg tl : ends tl ->
  punct_rest [colon_c; colon_c] (seg ++ tl) =
  match punct_rest [colon_c; colon_c] seg with Some r => Some (r ++ tl) | None => None end.
Proof.
  intro E. assert (C : forall t r, ends (t :: r) -> forall c j sp, t = TPunct c j sp -> Ascii.eqb colon_c c = false).
  { intros t r H c j sp ->. apply ends_cons in H. cbn [is_comma] in H. rewrite Ascii.eqb_sym. now apply not_colon_comma. }
  destruct seg as [|t seg].
  - cbn [app punct_rest]. destruct tl as [|t r]; [reflexivity|]. destruct t; try reflexivity.
    rewrite (C _ _ E _ _ _ eq_refl). reflexivity.
  - destruct t; try reflexivity. cbn [app punct_rest].
    destruct (Ascii.eqb colon_c c && joint); [|reflexivity].
    destruct seg as [|t2 seg].
    + cbn [app punct_rest]. destruct tl as [|t r]; [reflexivity|]. destruct t; try reflexivity.
      rewrite (C _ _ E _ _ _ eq_refl). reflexivity.
    + destruct t2; try reflexivity. cbn [app]. destruct (Ascii.eqb colon_c c0 && true); reflexivity.
Qed.
Section K.
Context {env : Env}.
Lemma path_item seg tl sc c : ends tl ->
  match parse_any_path (root_stream seg) with
  | (Ok p, s1) => parse_any_path (mkStream (seg ++ tl) sc c) = (Ok p, mkStream (toks s1 ++ tl) sc c)
  | _ => exists e s2, parse_any_path (mkStream (seg ++ tl) sc c) = (Err e, s2)
  end.
Proof.
  intro E. unfold parse_any_path. cbn [toks root_stream]. rewrite (colon2_app seg tl E).
  assert (S : in_span (mkStream (seg ++ tl) sc c) = in_span (root_stream seg) \/ seg = []).
  { destruct seg; [now right|left; reflexivity]. }
  destruct (punct_rest [colon_c; colon_c] seg) as [r0|] eqn:P.
  - rewrite (path_segs_app _ r0 tl (le_n _) E). destruct (path_segs r0) as [[segs tr] r].
    destruct segs as [|[i sp1] segs]; [eexists _, _; reflexivity|].
    destruct tr; [eexists _, _; reflexivity|].
    destruct S as [S| ->]; [|discriminate]. rewrite S. reflexivity.
  - rewrite (path_segs_app _ seg tl (le_n _) E). destruct (path_segs seg) as [[segs tr] r].
    destruct segs as [|[i sp1] segs]; [eexists _, _; reflexivity|].
    destruct tr; [eexists _, _; reflexivity|]. reflexivity.
Qed.
Lemma key_suffix seg k sp body : item_key seg = Some (k, sp, body) -> exists pre, seg = pre ++ body.
Proof.
  unfold item_key. pose proof (wb_path (root_stream seg)) as W.
  destruct (parse_any_path (root_stream seg)) as [[p|e|b] s]; try discriminate.
  injection 1 as <- <- <-. destruct W as [_ [pre W]]. exists pre. exact W.
Qed.

Lemma parse_comma_cons s t r : toks s = t :: r -> is_comma t = true -> parse_comma s = (Ok tt, set_toks s r).
Proof.
  intros T C. destruct t; try discriminate. simpl in C. apply Ascii.eqb_eq in C. subst c.
  unfold parse_comma, parse_punct. rewrite T. cbn [punct_rest]. rewrite Ascii.eqb_refl. reflexivity.
Qed.
Lemma parse_comma_not s t r : toks s = t :: r -> is_comma t = false ->
  exists e, parse_comma s = (Err e, s).
Proof.
  intros T C. unfold parse_comma, parse_punct. rewrite T. cbn [punct_rest].
  destruct t; try (eexists; reflexivity). simpl in C. rewrite Ascii.eqb_sym, C. eexists. reflexivity.
Qed.

Variable eat : entry -> stream.
Definition eat_stays : Prop := forall en, exists pre, toks (en_at en) = pre ++ toks (eat en) /\ no_comma pre.

Lemma eat_cut : eat_stays -> forall en body tl, toks (en_at en) = body ++ tl -> no_comma body -> ends tl ->
  exists left, toks (eat en) = left ++ tl /\ no_comma left.
Proof.
  intros H en body tl T N E.
  destruct (stays_cut (fun s => (Ok tt, mkStream (toks (eat (mkEntry (en_key en) (en_span en) s))) (scope s) (cell s)))
              body tl (scope (en_at en)) (cell (en_at en))) as [seg' [P [pre Q]]]; auto.
  - intro s. cbn [snd toks]. exact (H (mkEntry (en_key en) (en_span en) s)).
  - cbn [snd toks] in P. assert (X : mkEntry (en_key en) (en_span en) (mkStream (body ++ tl) (scope (en_at en)) (cell (en_at en))) = en).
    { destruct en as [k sp [ts sc c]]. cbn in *. now rewrite T. }
    rewrite X in P. exists seg'. split; auto. rewrite Q in N. apply nc_app in N. tauto.
Qed.

(** one stream: the keys read are those of the first items; without an early stop all
    items are read.  Second part: reading does not stop if every item has a key and is
    eaten up. *)
Lemma walk_items : eat_stays -> forall fuel s, length (toks s) < fuel ->
  exists ps1 ps2, pieces (toks s) = ps1 ++ ps2 /\ Forall2 reads ps1 (fst (fst (walk fuel eat s))) /\
                  (snd (fst (walk fuel eat s)) = None -> ps2 = [] /\ toks (snd (walk fuel eat s)) = []).
Proof.
  intro H. induction fuel as [|n IH]; intros s L; [lia|]. cbn [walk].
  destruct (is_empty s) eqn:Z.
  { unfold is_empty in Z. destruct (toks s) eqn:T; [|discriminate].
    exists [], []. cbn. repeat split; auto. }
  assert (TS : toks s <> []) by (unfold is_empty in Z; destruct (toks s); discriminate).
  destruct (cut_item (toks s)) as [seg [tl [T [N E]]]].
  pose proof (path_item seg tl (scope s) (cell s) E) as P.
  assert (Q : mkStream (seg ++ tl) (scope s) (cell s) = s) by (destruct s; cbn in *; now rewrite T).
  rewrite Q in P. pose proof (pieces_app seg tl N E) as PA. rewrite <- T in PA. specialize (PA TS).
  destruct (parse_any_path (root_stream seg)) as [[p|e0|b0] s1] eqn:PR.
  2,3: destruct P as [e [s2 P]]; rewrite P; exists [], (pieces (toks s)); cbn; repeat split; auto; discriminate.
  rewrite P. cbv zeta. set (en := mkEntry (path_key p) (p_span p) (mkStream (toks s1 ++ tl) (scope s) (cell s))).
  assert (IK : item_key seg = Some (path_key p, p_span p, toks s1)) by (unfold item_key; now rewrite PR).
  assert (RD : reads (seg, tl) en) by (exists (toks s1); split; auto).
  assert (NB : no_comma (toks s1)).
  { destruct (key_suffix _ _ _ _ IK) as [pre K]. rewrite K in N. apply nc_app in N. tauto. }
  destruct (eat_cut H en (toks s1) tl eq_refl NB E) as [lft [EC NL]].
  assert (TL : length tl <= length (toks s)) by (rewrite T, app_length; lia).
  destruct (is_empty (eat en)) eqn:Z2.
  { unfold is_empty in Z2. rewrite EC in Z2. destruct (lft ++ tl) eqn:X; [|discriminate].
    apply app_eq_nil in X as [-> ->].
    exists [(seg, [])], []. rewrite PA. cbn. repeat split; auto. }
  assert (NE : lft ++ tl <> []) by (unfold is_empty in Z2; rewrite EC in Z2; destruct (lft ++ tl); discriminate).
  destruct lft as [|t lft].
  - cbn [app] in EC, NE. destruct tl as [|t r]; [congruence|]. apply ends_cons in E as C.
    rewrite (parse_comma_cons _ _ _ EC C).
    destruct (IH (set_toks (eat en) r)) as [ps1 [ps2 [I1 [I2 I3]]]]. { cbn [toks set_toks]. cbn in TL. lia. }
    destruct (walk n eat (set_toks (eat en) r)) as [[l stop] s4]. cbn [fst snd toks set_toks] in *.
    exists ((seg, t :: r) :: ps1), ps2. rewrite PA. cbn [app]. repeat split; [now rewrite I1|constructor; auto|tauto|tauto].
  - cbn [app] in EC. apply nc_cons in NL as [C _].
    destruct (parse_comma_not _ _ _ EC C) as [e PE]. rewrite PE.
    exists [(seg, tl)], (match tl with [] => [] | _ :: r => pieces r end). rewrite PA. cbn.
    repeat split; auto; discriminate.
Qed.

Definition eaten (pc : list token * list token) : Prop :=
  (exists x, item_key (fst pc) = Some x) /\ forall en, reads pc en -> toks (eat en) = snd pc.
Lemma walk_complete : eat_stays -> forall fuel s, length (toks s) < fuel ->
  Forall eaten (pieces (toks s)) ->
  Forall2 reads (pieces (toks s)) (fst (fst (walk fuel eat s))) /\
  snd (fst (walk fuel eat s)) = None.
Proof.
  intro H. induction fuel as [|n IH]; intros s L G; [lia|]. cbn [walk].
  destruct (is_empty s) eqn:Z.
  { unfold is_empty in Z. destruct (toks s) eqn:T; [|discriminate]. cbn. auto. }
  assert (TS : toks s <> []) by (unfold is_empty in Z; destruct (toks s); discriminate).
  destruct (cut_item (toks s)) as [seg [tl [T [N E]]]].
  pose proof (path_item seg tl (scope s) (cell s) E) as P.
  assert (Q : mkStream (seg ++ tl) (scope s) (cell s) = s) by (destruct s; cbn in *; now rewrite T).
  rewrite Q in P. pose proof (pieces_app seg tl N E) as PA. rewrite <- T in PA. specialize (PA TS).
  rewrite PA in G. inversion G as [|? ? G1 G2]; subst. destruct G1 as [[x KX] EX]. cbn [fst snd] in KX, EX.
  destruct (parse_any_path (root_stream seg)) as [[p|e0|b0] s1] eqn:PR;
    [|unfold item_key in KX; rewrite PR in KX; discriminate..].
  rewrite P. cbv zeta. set (en := mkEntry (path_key p) (p_span p) (mkStream (toks s1 ++ tl) (scope s) (cell s))).
  assert (IK : item_key seg = Some (path_key p, p_span p, toks s1)) by (unfold item_key; now rewrite PR).
  assert (RD : reads (seg, tl) en) by (exists (toks s1); split; auto).
  specialize (EX en RD). rewrite PA.
  assert (TL : length tl <= length (toks s)) by (rewrite T, app_length; lia).
  unfold is_empty. rewrite EX. destruct tl as [|t r].
  - cbn. repeat constructor. exact RD.
  - apply ends_cons in E as C. rewrite (parse_comma_cons _ _ _ EX C).
    destruct (IH (set_toks (eat en) r)) as [I1 I2]. { cbn [toks set_toks]. cbn in TL. lia. } { exact G2. }
    destruct (walk n eat (set_toks (eat en) r)) as [[l stop] s4]. cbn [fst snd toks set_toks] in *.
    split; auto.
Qed.

Lemma walks_items : eat_stays -> forall l,
  exists ps1 ps2, all_pieces l = ps1 ++ ps2 /\ Forall2 reads ps1 (fst (fst (walks eat l))) /\
                  (snd (fst (walks eat l)) = None -> ps2 = []).
Proof.
  intro H. induction l as [|s l IH]; cbn [walks all_pieces flat_map].
  { exists [], []. cbn. auto. }
  destruct (walk_items H (S (length (toks s))) s (Nat.lt_succ_diag_r _)) as [p1 [p2 [P [F D]]]].
  unfold walk1. destruct (walk (S (length (toks s))) eat s) as [[es stop] s1]. cbn [fst snd] in *.
  destruct stop as [e|].
  - cbn [fst snd]. exists p1, (p2 ++ all_pieces l). rewrite P, <- app_assoc. repeat split; auto. discriminate.
  - destruct (D eq_refl) as [-> _]. destruct IH as [q1 [q2 [I1 [I2 I3]]]].
    destruct (walks eat l) as [[es2 stop] l1]. cbn [fst snd] in *. exists (p1 ++ q1), q2.
    fold (all_pieces l). rewrite P, I1, app_nil_r, app_assoc. repeat split; auto using Forall2_app.
Qed.
Lemma walks_complete : eat_stays -> forall l, Forall eaten (all_pieces l) ->
  Forall2 reads (all_pieces l) (fst (fst (walks eat l))) /\ snd (fst (walks eat l)) = None.
Proof.
  intro H. induction l as [|s l IH]; intro G; cbn [walks all_pieces flat_map]. { cbn. auto. }
  cbn [all_pieces flat_map] in G. apply Forall_app in G as [G1 G2].
  destruct (walk_complete H (S (length (toks s))) s (Nat.lt_succ_diag_r _) G1) as [F ST].
  unfold walk1. destruct (walk (S (length (toks s))) eat s) as [[es stop] s1]. cbn [fst snd] in *. subst stop.
  destruct (IH G2) as [I1 I2]. destruct (walks eat l) as [[es2 stop] l1]. cbn [fst snd] in *.
  split; auto. apply Forall2_app; auto.
Qed.
Lemma reads_keys ps l : Forall2 reads ps l -> forall qs,
  map (fun en => (en_key en, en_span en)) l =
  flat_map (fun pc => match item_key (fst pc) with Some (k, sp, _) => [(k, sp)] | None => [] end) ps
  /\ (forall en, In en l ->
     In (en_key en, en_span en)
        (flat_map (fun pc => match item_key (fst pc) with Some (k, sp, _) => [(k, sp)] | None => [] end) (ps ++ qs))).
Proof.
  induction 1 as [|pc en ps l R F IH]; intro qs.
  - cbn. split; [reflexivity|intros ? []].
  - destruct R as [body [K T]]. destruct (IH qs) as [I1 I2]. cbn [map flat_map app]. rewrite K, I1. split; [reflexivity|].
    intros en' [<-|I]; [now left|]. right. now apply I2.
Qed.
End K.
