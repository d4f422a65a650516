(** Proofs for PropsStop.v. *)
From Verif Require Export SpecStop.
From Verif Require Import LemRun LemLocal.
Local Open Scope string_scope.
Local Open Scope list_scope.

(** *** Items without a key *)
Section P.
Context {env : Env}.
Lemma at_next_error sc c ts msg e : at_next sc msg ts e -> error_at (mkStream ts sc c) msg = mkSyn e [].
Proof. intros []; reflexivity. Qed.
Lemma at_next_ex sc msg ts : exists e, at_next sc msg ts e.
Proof. destruct ts; eexists; constructor. Qed.
Lemma segs_none ts : no_ident ts -> path_segs ts = ([], false, ts).
Proof. intro N. destruct ts as [|[i sp| | |] ts]; try reflexivity. destruct (N i sp ts eq_refl). Qed.
Lemma segs_none_inv ts tr r : path_segs ts = ([], tr, r) -> no_ident ts /\ tr = false /\ r = ts.
Proof.
  destruct ts as [|[i sp| | |] ts]; intro H; try (injection H as <- <-; split; [intros a b q X; discriminate X|auto]).
  exfalso. cbn [path_segs] in H. destruct ts as [|[|c1 j1 s1| |] ts]; try discriminate H.
  destruct ts as [|[|c2 j2 s2| |] ts]; try discriminate H.
  destruct (_ && _); [|discriminate H]. destruct (path_segs ts) as [[a b] q]. discriminate H.
Qed.
Lemma segs_dangling l pt : path_toks l pt -> forall a j b ts, no_ident ts ->
  path_segs (pt ++ TPunct colon_c true a :: TPunct colon_c j b :: ts) = (l, true, ts).
Proof.
  induction 1 as [i sp|i sp s1 s2 j2 l ts0 P IH]; intros a j b ts N.
  - cbn [app path_segs]. change (Ascii.eqb colon_c colon_c) with true. cbn [andb]. now rewrite segs_none.
  - cbn [app path_segs]. change (Ascii.eqb colon_c colon_c) with true. cbn [andb]. rewrite IH by auto.
    destruct P; reflexivity.
Qed.
Lemma segs_dangling_inv : forall n ts l r, length ts <= n -> path_segs ts = (l, true, r) ->
  exists pt a j b, path_toks l pt /\ ts = pt ++ TPunct colon_c true a :: TPunct colon_c j b :: r /\ no_ident r.
Proof.
  induction n as [|n IH]; intros ts l r L H. { destruct ts; [discriminate H|cbn in L; lia]. }
  destruct ts as [|[i sp| | |] ts]; try discriminate H. cbn [path_segs] in H.
  destruct ts as [|[|c1 j1 s1| |] ts]; try discriminate H. destruct ts as [|[|c2 j2 s2| |] ts]; try discriminate H.
  destruct (Ascii.eqb c1 colon_c && Ascii.eqb c2 colon_c && j1) eqn:E; [|discriminate H].
  apply andb_true_iff in E as [E ->]. apply andb_true_iff in E as [E1 E2]. apply Ascii.eqb_eq in E1, E2. subst c1 c2.
  destruct (path_segs ts) as [[segs tr] r'] eqn:Q. destruct segs as [|x segs].
  - injection H as <- <-. apply segs_none_inv in Q as [N [_ ->]]. exists [TIdent i sp], s1, j2, s2. split; [constructor|]. auto.
  - injection H as <- -> <-. destruct (IH ts (x :: segs) r') as [pt [a [j [b [P [-> N]]]]]]; [cbn in L; lia|auto|].
    exists (TIdent i sp :: TPunct colon_c true s1 :: TPunct colon_c j2 s2 :: pt), a, j, b. split; [now constructor|]. auto.
Qed.
Lemma colons_cases ts :
  (exists a j b r, ts = TPunct colon_c true a :: TPunct colon_c j b :: r /\ punct_rest [colon_c; colon_c] ts = Some r) \/
  (~ starts_sep ts /\ punct_rest [colon_c; colon_c] ts = None).
Proof.
  destruct (punct_rest [colon_c; colon_c] ts) as [r|] eqn:P.
  - left. destruct ts as [|[|c1 j1 a| |] ts]; try discriminate P. cbn [punct_rest] in P.
    destruct (Ascii.eqb colon_c c1 && j1) eqn:E1; [|discriminate P]. apply andb_true_iff in E1 as [E1 ->]. apply Ascii.eqb_eq in E1. subst c1.
    destruct ts as [|[|c2 j2 b| |] ts]; try discriminate P.
    destruct (Ascii.eqb colon_c c2 && true) eqn:E2; [|discriminate P]. apply andb_true_iff in E2 as [E2 _]. apply Ascii.eqb_eq in E2. subst c2.
    injection P as ->. eauto 6.
  - right. split; auto. intros (a & b & c & r & ->). discriminate P.
Qed.
Lemma no_key_error sc c ts e : no_key sc ts e -> exists s', parse_any_path (mkStream ts sc c) = (Err (mkSyn e []), s').
Proof.
  intro H. unfold parse_any_path. cbn [toks].
  assert (G : forall (lead : bool) ts0 segs tr r, path_segs ts0 = (segs, tr, r) ->
     (segs = [] /\ at_next sc "expected path" r e) \/ (segs <> [] /\ tr = true /\ at_next sc "expected path segment" r e) ->
     exists s', (let '(segs, tr, r) := path_segs ts0 in
       let s1 := set_toks (mkStream ts sc c) r in
       match segs with
       | [] => (Err (error_at s1 "expected path"), s1)
       | (_, sp1) :: _ =>
         if tr then (Err (error_at s1 "expected path segment"), s1)
         else
           let first := if lead then in_span (mkStream ts sc c) else sp1 in
           let lastsp := snd (last segs ("", sp1)) in
           let psp := match segs, lead with
                      | [_], false => first
                      | _, _ => join_or first lastsp first
                      end in
           (Ok (mkPath lead (map fst segs) psp), s1)
       end) = (Err (mkSyn e []), s')).
  { intros lead ts0 segs tr r Q D. rewrite Q. unfold set_toks. cbn [scope cell]. destruct D as [[-> A]|[N [-> A]]].
    - rewrite (at_next_error _ _ _ _ _ A). eauto.
    - destruct segs as [|[i1 sp1] segs]; [now destruct N|]. rewrite (at_next_error _ _ _ _ _ A). eauto. }
  destruct H as [lead ts e Le NS NI A|lead l pt a j b ts e Le P NI A].
  - destruct Le as [|a j b].
    + cbn [app]. destruct (colons_cases ts) as [(a & j & b & r & E & _)|[_ ->]]; [exfalso; apply (NS eq_refl); rewrite E; unfold starts_sep; eauto|].
      exact (G false ts _ _ _ (segs_none ts NI) (or_introl (conj eq_refl A))).
    + cbn [app punct_rest]. change (Ascii.eqb colon_c colon_c) with true. cbn [andb].
      exact (G true ts _ _ _ (segs_none ts NI) (or_introl (conj eq_refl A))).
  - assert (NE : l <> []) by (destruct P; discriminate).
    destruct Le as [|a' j' b'].
    + cbn [app]. destruct (colons_cases (pt ++ TPunct colon_c true a :: TPunct colon_c j b :: ts)) as [(? & ? & ? & ? & E & _)|[_ ->]]; [destruct P; discriminate E|].
      exact (G false _ _ _ _ (segs_dangling l pt P a j b ts NI) (or_intror (conj NE (conj eq_refl A)))).
    + cbn [app punct_rest]. change (Ascii.eqb colon_c colon_c) with true. cbn [andb].
      exact (G true _ _ _ _ (segs_dangling l pt P a j b ts NI) (or_intror (conj NE (conj eq_refl A)))).
Qed.
Lemma error_no_key sc c ts e s' : parse_any_path (mkStream ts sc c) = (Err e, s') -> exists x, no_key sc ts x.
Proof.
  unfold parse_any_path. cbn [toks].
  assert (G : forall lead ts0 (tr : bool) segs r, leading lead -> (lead = [] -> ~ starts_sep ts0) -> path_segs ts0 = (segs, tr, r) ->
    segs = [] \/ tr = true -> exists x, no_key sc (lead ++ ts0) x).
  { intros lead ts0 tr segs r Le NS Q [-> | ->].
    - apply segs_none_inv in Q as [NI _]. destruct (at_next_ex sc "expected path" ts0) as [x A]. exists x. now constructor.
    - destruct (segs_dangling_inv _ _ _ _ (le_n _) Q) as (pt & a & j & b & P & -> & NI).
      destruct (at_next_ex sc "expected path segment" r) as [x A]. exists x. eapply NK_dangling; eauto. }
  destruct (colons_cases ts) as [(a & j & b & r & E & ->)|[NS ->]].
  - destruct (path_segs r) as [[segs tr] r'] eqn:Q. intro H. subst ts. change (_ :: _ :: r) with ([TPunct colon_c true a; TPunct colon_c j b] ++ r).
    eapply G; eauto; [constructor|discriminate|]. destruct segs as [|[i1 sp1] segs]; auto. destruct tr; auto. discriminate H.
  - destruct (path_segs ts) as [[segs tr] r'] eqn:Q. intro H. change ts with ([] ++ ts).
    eapply G; eauto; [constructor|]. destruct segs as [|[i1 sp1] segs]; auto. destruct tr; auto. discriminate H.
Qed.
Lemma key_or_not seg tl sc : ends tl -> (exists x, item_key seg = Some x) \/ (exists e, no_key sc (seg ++ tl) e).
Proof.
  intro E. unfold item_key. pose proof (path_item seg tl sc None E) as P.
  destruct (parse_any_path (root_stream seg)) as [[p|e|b] s1]; [eauto| |]; right; destruct P as [e' [s2 P]]; eapply error_no_key; eauto.
Qed.

(** *** Walking up to the item that ends the reading *)
Variable eat : entry -> stream.
Definition eat_keeps : Prop := forall en, scope (eat en) = scope (en_at en).
(** the item ends the reading with error [e]; whether its key is read *)
Definition ending (sc : span) (pc : list token * list token) (own : bool) (e : err) : Prop :=
  if own
  then (exists x, item_key (fst pc) = Some x) /\
       forall en, reads pc en -> parse_comma (eat en) = (Err (mkSyn e []), eat en) /\ toks (eat en) <> []
  else no_key sc (fst pc ++ snd pc) e.
Lemma walk_ending : eat_keeps -> forall fuel s, length (toks s) < fuel ->
  forall ps1 pc ps2 own e, pieces (toks s) = ps1 ++ pc :: ps2 -> Forall (eaten eat) ps1 ->
  ending (scope s) pc own e ->
  Forall2 reads (ps1 ++ if own then [pc] else []) (fst (fst (walk fuel eat s))) /\
  snd (fst (walk fuel eat s)) = Some (mkSyn e []).
Proof.
  intro K. induction fuel as [|n IH]; intros s L ps1 pc ps2 own e PS G EN; [lia|]. cbn [walk].
  destruct (is_empty s) eqn:Z.
  { unfold is_empty in Z. destruct (toks s) eqn:T; [|discriminate]. destruct ps1; discriminate PS. }
  assert (TS : toks s <> []) by (unfold is_empty in Z; destruct (toks s); discriminate).
  destruct (cut_item (toks s)) as [seg [tl [T [N E]]]].
  pose proof (path_item seg tl (scope s) (cell s) E) as P.
  assert (Q : mkStream (seg ++ tl) (scope s) (cell s) = s) by (destruct s; cbn in *; now rewrite T).
  rewrite Q in P. pose proof (pieces_app seg tl N E) as PA. rewrite <- T in PA. specialize (PA TS).
  assert (RD : forall p s1, parse_any_path (root_stream seg) = (Ok p, s1) ->
     reads (seg, tl) (mkEntry (path_key p) (p_span p) (mkStream (toks s1 ++ tl) (scope s) (cell s)))).
  { intros p s1 PR. exists (toks s1). unfold item_key. cbn [fst]. rewrite PR. auto. }
  destruct ps1 as [|pc1 ps1].
  - cbn [app] in PS. rewrite PA in PS. injection PS as <- _. cbn [app]. destruct own; cbn [ending fst snd] in EN.
    + destruct EN as [[x KX] EN]. destruct (parse_any_path (root_stream seg)) as [[p|e0|b0] s1] eqn:PR;
        [|unfold item_key in KX; rewrite PR in KX; discriminate..].
      rewrite P. cbv zeta. specialize (RD p s1 eq_refl). destruct (EN _ RD) as [EC NE].
      unfold is_empty. destruct (toks (eat _)) as [|t0 r0] eqn:TE; [now destruct NE|]. rewrite EC. cbn [fst snd]. split; auto.
    + destruct (no_key_error _ (cell s) _ _ EN) as [s' PE]. rewrite Q in PE. rewrite PE. cbn. auto.
  - cbn [app] in PS. rewrite PA in PS. injection PS as EQ PS. subst pc1. inversion G as [|? ? G1 G2]; subst. destruct G1 as [[x KX] EX]. cbn [fst snd] in KX, EX.
    destruct (parse_any_path (root_stream seg)) as [[p|e0|b0] s1] eqn:PR;
      [|unfold item_key in KX; rewrite PR in KX; discriminate..].
    rewrite P. cbv zeta. specialize (RD p s1 eq_refl). set (en := mkEntry _ _ _) in *. specialize (EX en RD).
    assert (TL : length tl <= length (toks s)) by (rewrite T, app_length; lia).
    unfold is_empty. rewrite EX. destruct tl as [|t r].
    { destruct ps1; discriminate PS. }
    apply ends_cons in E as C. rewrite (parse_comma_cons _ _ _ EX C).
    destruct (IH (set_toks (eat en) r)) with (ps1 := ps1) (pc := pc) (ps2 := ps2) (own := own) (e := e) as [I1 I2]; auto.
    { cbn [toks set_toks]. cbn in TL. lia. }
    { cbn [scope set_toks]. rewrite K. exact EN. }
    destruct (walk n eat (set_toks (eat en) r)) as [[l stop] s4]. cbn [fst snd app] in *.
    split; auto.
Qed.
Lemma walks_ending : eat_stays eat -> eat_keeps -> forall ins1 s ins2 ps1 pc ps2 own e,
  pieces (toks s) = ps1 ++ pc :: ps2 -> Forall (eaten eat) (all_pieces ins1 ++ ps1) ->
  ending (scope s) pc own e ->
  Forall2 reads (all_pieces ins1 ++ ps1 ++ if own then [pc] else []) (fst (fst (walks eat (ins1 ++ s :: ins2)))) /\
  snd (fst (walks eat (ins1 ++ s :: ins2))) = Some (mkSyn e []).
Proof.
  intros H K. induction ins1 as [|s0 ins1 IH]; intros s ins2 ps1 pc ps2 own e PS G EN; cbn [app walks all_pieces flat_map].
  - cbn [app all_pieces flat_map] in G. unfold walk1.
    destruct (walk_ending K (S (length (toks s))) s (Nat.lt_succ_diag_r _) ps1 pc ps2 own e PS G EN) as [A B].
    destruct (walk (S (length (toks s))) eat s) as [[es stop] s1]. cbn [fst snd] in *. subst stop. cbn. auto.
  - cbn [all_pieces flat_map] in G. rewrite <- app_assoc in G. apply Forall_app in G as [G1 G2].
    destruct (walk_complete eat H (S (length (toks s0))) s0 (Nat.lt_succ_diag_r _) G1) as [F ST].
    unfold walk1. destruct (walk (S (length (toks s0))) eat s0) as [[es stop] s1]. cbn [fst snd] in *. subst stop.
    destruct (IH s ins2 ps1 pc ps2 own e PS G2 EN) as [I1 I2].
    destruct (walks eat (ins1 ++ s :: ins2)) as [[es2 stop] l1]. cbn [fst snd] in *. split; auto.
    rewrite <- app_assoc. apply Forall2_app; auto.
Qed.

(** *** Where the items end *)
Lemma walk_scope : eat_keeps -> forall fuel s, Forall (fun en => scope (en_at en) = scope s) (fst (fst (walk fuel eat s))).
Proof.
  intro K. induction fuel as [|n IH]; intro s; cbn [walk]; [constructor|]. destruct (is_empty s); [constructor|].
  assert (PS : scope (snd (parse_any_path s)) = scope s).
  { unfold parse_any_path. destruct (punct_rest _ _); match goal with |- context [path_segs ?x] => destruct (path_segs x) as [[[|[? ?] ?] []] ?] end; reflexivity. }
  destruct (parse_any_path s) as [[p|e|b] s1]; cbn [snd] in PS; try constructor. cbv zeta. set (en := mkEntry _ _ s1).
  assert (E1 : scope (en_at en) = scope s) by exact PS.
  destruct (is_empty (eat en)); [constructor; auto|].
  assert (PC : scope (snd (parse_comma (eat en))) = scope s).
  { unfold parse_comma, parse_punct. destruct (punct_rest _ _); cbn [snd set_toks scope]; rewrite K; exact E1. }
  destruct (parse_comma (eat en)) as [[[]|e|b] s3]; cbn [snd] in PC; try (constructor; auto).
  specialize (IH s3). destruct (walk n eat s3) as [[l stop] s4]. cbn [fst] in *. constructor; auto. now rewrite PC in IH.
Qed.
Lemma walks_place : eat_stays eat -> eat_keeps -> forall inputs, in_place inputs (fst (fst (walks eat inputs))).
Proof.
  intros H K. induction inputs as [|s ins IH]; [reflexivity|]. cbn [walks]. unfold walk1.
  pose proof (walk_scope K (S (length (toks s))) s) as SC.
  destruct (walk_items eat H (S (length (toks s))) s (Nat.lt_succ_diag_r _)) as [ps1 [ps2 [PS [F ST]]]].
  destruct (walk (S (length (toks s))) eat s) as [[es stop] s1]. cbn [fst snd] in *.
  assert (L : length ps1 = length es) by (clear - F; induction F; cbn; congruence).
  assert (M : map (fun en => scope (en_at en)) es = map (fun _ => scope s) ps1).
  { clear - SC L. revert ps1 L. induction SC as [|en es E SC IH]; intros [|p ps1] L; try discriminate; auto. cbn [map]. rewrite E. f_equal. apply IH. now injection L. }
  unfold in_place. cbn [flat_map]. destruct stop as [x|].
  - cbn [fst]. rewrite PS, map_app, <- app_assoc, <- L, <- (map_length (fun _ => scope s) ps1), firstn_app, Nat.sub_diag, firstn_all, firstn_O, app_nil_r. exact M.
  - destruct (ST eq_refl) as [-> _]. rewrite app_nil_r in PS. unfold in_place in IH. destruct (walks eat ins) as [[es2 stop2] ins1]. cbn [fst] in *.
    rewrite map_app, app_length, PS, <- L, <- (map_length (fun _ => scope s) ps1), firstn_app_2, M, IH. reflexivity.
Qed.
Lemma in_place_fork inputs l : in_place (fork_inputs inputs) l <-> in_place inputs l.
Proof. unfold in_place, fork_inputs. rewrite flat_map_concat_map, map_map, <- flat_map_concat_map. reflexivity. Qed.
End P.

Section N.
Context {env : Env} {V : Type}.
Lemma eat_named_keeps (s : sdef V) tm prefix v : Forall keeps_field (s_raw s) ->
  eat_keeps (eat_named (struct_reader s tm prefix v)).
Proof.
  intros KF en. unfold eat_named. destruct (owner_in _ (en_key en)) as [[i f]|] eqn:O; [|reflexivity].
  apply owner_named in O as [O1 [O2 _]]. rewrite Forall_forall in KF.
  pose proof (KF f (nth_error_In _ _ O1) O2 (first_name f) (en_span en) (en_at en)) as K.
  destruct (item_named f (first_name f) (en_span en) (en_at en)) as [[w|e|b] s1]; cbn [snd] in K; auto.
Qed.
Lemma sound_all (s : sdef V) tm prefix v l : named_struct s -> Forall stays_field (s_raw s) ->
  Forall (fun pc => no_comma (fst pc) /\ ends (snd pc)) l ->
  Forall (sound_item (struct_reader s tm prefix v)) (map fst l) ->
  Forall (eaten (eat_named (struct_reader s tm prefix v))) l.
Proof.
  intros NS SF SH S. rewrite Forall_map in S. induction S as [|pc l H S IH]; constructor; inversion SH; subst; auto.
  apply sound_eaten; tauto.
Qed.
Lemma source_split (R : reader V) ins1 s ins2 : exists ins1' s' ins2',
  source R (ins1 ++ s :: ins2) = ins1' ++ s' :: ins2' /\ toks s' = toks s /\ scope s' = scope s /\ all_pieces ins1' = all_pieces ins1.
Proof.
  unfold source. destruct (existsb pflat (r_fields R)).
  - exists (fork_inputs ins1), (fork s), (fork_inputs ins2). split; [unfold fork_inputs; now rewrite map_app|]. split; [reflexivity|]. split; [reflexivity|]. apply fork_pieces.
  - exists ins1, s, ins2. auto.
Qed.
Lemma left_over_ending (s : sdef V) tm prefix v seg tl k ksp body i f t rest sc :
  no_comma seg -> ends tl -> Forall stays_field (s_raw s) ->
  item_key seg = Some (k, ksp, body) -> owner_in (struct_reader s tm prefix v) k = Some (i, f) ->
  leaves (item_named f (first_name f) ksp) body (t :: rest) ->
  ending (eat_named (struct_reader s tm prefix v)) sc (seg, tl) true (mkErr (tok_open_span t) "expected `,`").
Proof.
  intros NC E SF IK O [w LV]. cbn [ending fst]. split; [eauto|]. intros en [body' [IK' T]]. cbn [fst snd] in IK', T.
  rewrite IK in IK'. injection IK' as EK ES <-. unfold eat_named. rewrite <- EK, O, <- ES.
  destruct (en_at en) as [ts sc' c] eqn:EA. cbn [toks] in T. subst ts.
  destruct (LV tl sc' c E) as [A1 A2].
  assert (CT : is_comma t = false).
  { apply owner_named in O as [O1 [O2 _]]. rewrite Forall_forall in SF. pose proof (SF f (nth_error_In _ _ O1) O2 (first_name f) ksp) as ST.
    assert (NB : no_comma body) by (eapply key_no_comma; eauto).
    destruct (stays_cut _ body tl sc' c ST NB E) as [seg' [A3 [pre A4]]]. rewrite A2 in A3. apply app_inv_tail in A3. subst seg'.
    subst body. apply nc_app in NB as [_ NB]. now apply nc_cons in NB. }
  destruct (item_named f (first_name f) ksp (mkStream (body ++ tl) sc' c)) as [r s1]. cbn [fst snd] in *. subst r.
  cbn [app] in A2. split; [|rewrite A2; discriminate].
  unfold parse_comma, parse_punct, in_span. rewrite A2. cbn [punct_rest].
  destruct t; try reflexivity. cbn [is_comma] in CT. rewrite Ascii.eqb_sym, CT. reflexivity.
Qed.
Lemma reading_reads (s : sdef V) tm prefix v inputs pcs stop : named_struct s ->
  Forall stays_field (s_raw s) -> Forall keeps_field (s_raw s) ->
  let R := struct_reader s tm prefix v in
  reading R inputs pcs stop ->
  Forall2 reads pcs (entries R inputs) /\ match stopped R inputs with Some e => errs_of e | None => [] end = stop.
Proof.
  intros NS SF KF R H. destruct H as [S|ins1 s0 ins2 ps1 seg tl ps2 e E PS S NK|ins1 s0 ins2 ps1 seg tl ps2 k ksp body i f t rest E PS S IK O LV].
  - destruct (sound_reads s tm prefix v inputs NS SF S) as [A B]. split; auto. unfold R. now rewrite B.
  - unfold entries, stopped. subst inputs. destruct (source_split R ins1 s0 ins2) as (ins1' & s' & ins2' & -> & TS & SC & AP).
    destruct (walks_ending (eat_named R) (struct_eat_stays s tm prefix v NS SF) (eat_named_keeps s tm prefix v KF)
               ins1' s' ins2' ps1 (seg, tl) ps2 false e) as [A B].
    + now rewrite TS.
    + rewrite AP. apply sound_all; auto. apply Forall_app. split; [apply all_pieces_shape|].
      pose proof (all_pieces_shape [s0]) as SH. cbn [all_pieces flat_map] in SH. rewrite app_nil_r, PS in SH. now apply Forall_app in SH as [SH _].
    + rewrite SC. exact NK.
    + rewrite AP, app_nil_r in A. rewrite B. split; auto.
  - unfold entries, stopped. subst inputs. destruct (source_split R ins1 s0 ins2) as (ins1' & s' & ins2' & -> & TS & SC & AP).
    pose proof (all_pieces_shape [s0]) as SH. cbn [all_pieces flat_map] in SH. rewrite app_nil_r, PS in SH. apply Forall_app in SH as [SH1 SH2].
    inversion SH2 as [|? ? [H1 H2] _]; subst. cbn [fst snd] in H1, H2.
    destruct (walks_ending (eat_named R) (struct_eat_stays s tm prefix v NS SF) (eat_named_keeps s tm prefix v KF)
               ins1' s' ins2' ps1 (seg, tl) ps2 true (mkErr (tok_open_span t) "expected `,`")) as [A B].
    + now rewrite TS.
    + rewrite AP. apply sound_all; auto. apply Forall_app. split; [apply all_pieces_shape|auto].
    + eapply left_over_ending; eauto.
    + rewrite AP in A. rewrite B. split; auto.
Qed.

Lemma entries_place (s : sdef V) tm prefix v inputs : named_struct s ->
  Forall stays_field (s_raw s) -> Forall keeps_field (s_raw s) -> in_place inputs (entries (struct_reader s tm prefix v) inputs).
Proof.
  intros NS SF KF. unfold entries. pose proof (walks_place _ (struct_eat_stays s tm prefix v NS SF) (eat_named_keeps s tm prefix v KF)) as W.
  unfold source. destruct (existsb pflat _); [apply in_place_fork|]; apply W.
Qed.
(** *** Every input has a reading *)
Lemma sound_or_not (s : sdef V) tm prefix v sc pc : Forall local_field (s_raw s) -> no_comma (fst pc) -> ends (snd pc) ->
  let R := struct_reader s tm prefix v in
  sound_item R (fst pc) \/ (exists e, no_key sc (fst pc ++ snd pc) e) \/
  (exists k ksp body i f t rest, item_key (fst pc) = Some (k, ksp, body) /\ owner_in R k = Some (i, f) /\
     leaves (item_named f (first_name f) ksp) body (t :: rest)).
Proof.
  intros LF NC E R. destruct (key_or_not (fst pc) (snd pc) sc E) as [[[[k ksp] body] IK]|NK]; [|auto].
  destruct (owner_in R k) as [[i f]|] eqn:O.
  2:{ left. exists k, ksp, body. split; auto. intros i f X. congruence. }
  pose proof (owner_named _ _ _ _ _ _ _ O) as [O1 [O2 _]]. rewrite Forall_forall in LF.
  destruct (LF f (nth_error_In _ _ O1) O2 (first_name f) ksp) as [_ LC].
  assert (NB : no_comma body) by (eapply key_no_comma; eauto).
  destruct (LC body NB) as [[w [rest A]]|RJ].
  - destruct rest as [|t rest].
    + left. exists k, ksp, body. split; auto. intros j g X. assert (X' : (j, g) = (i, f)) by congruence. injection X' as -> ->. left. exists w. exact A.
    + right. right. exists k, ksp, body, i, f, t, rest. split; auto. split; auto. exists w. exact A.
  - left. exists k, ksp, body. split; auto. intros j g X. assert (X' : (j, g) = (i, f)) by congruence. injection X' as -> ->. right. exact RJ.
Qed.
Lemma first_not (s : sdef V) tm prefix v sc l : Forall local_field (s_raw s) ->
  Forall (fun pc => no_comma (fst pc) /\ ends (snd pc)) l ->
  let R := struct_reader s tm prefix v in
  Forall (sound_item R) (map fst l) \/
  exists ps1 pc ps2, l = ps1 ++ pc :: ps2 /\ Forall (sound_item R) (map fst ps1) /\
    ((exists e, no_key sc (fst pc ++ snd pc) e) \/
     (exists k ksp body i f t rest, item_key (fst pc) = Some (k, ksp, body) /\ owner_in R k = Some (i, f) /\
        leaves (item_named f (first_name f) ksp) body (t :: rest))).
Proof.
  intros LF SH R. induction l as [|pc l IH]; [left; constructor|]. inversion SH as [|? ? [H1 H2] H3]; subst.
  destruct (sound_or_not s tm prefix v sc pc LF H1 H2) as [S|D].
  - destruct (IH H3) as [A|(ps1 & pc' & ps2 & -> & A & B)].
    + left. cbn [map]. now constructor.
    + right. exists (pc :: ps1), pc', ps2. split; auto. split; auto. cbn [map]. now constructor.
  - right. exists [], pc, l. split; auto. split; [constructor|]. exact D.
Qed.
Lemma l_reading (s : sdef V) tm prefix v inputs : Forall local_field (s_raw s) ->
  exists pcs stop, reading (struct_reader s tm prefix v) inputs pcs stop.
Proof.
  intro LF. set (R := struct_reader s tm prefix v).
  assert (X : forall ins2 ins1, Forall (sound_item R) (map fst (all_pieces ins1)) ->
    exists pcs stop, reading R (ins1 ++ ins2) pcs stop).
  { induction ins2 as [|s0 ins2 IH]; intros ins1 S.
    - rewrite app_nil_r. eexists _, _. apply Rd_all. exact S.
    - pose proof (all_pieces_shape [s0]) as SH. cbn [all_pieces flat_map] in SH. rewrite app_nil_r in SH.
      destruct (first_not s tm prefix v (scope s0) (pieces (toks s0)) LF SH) as [A|(ps1 & [seg tl] & ps2 & E & A & B)].
      + replace (ins1 ++ s0 :: ins2) with ((ins1 ++ [s0]) ++ ins2) by (rewrite <- app_assoc; reflexivity).
        apply IH. unfold all_pieces. rewrite flat_map_app, map_app. apply Forall_app. split; auto. cbn [flat_map]. rewrite app_nil_r. exact A.
      + cbn [fst snd] in B. destruct B as [[e B]|(k & ksp & body & i & f & t & rest & B1 & B2 & B3)]; eexists _, _.
        * eapply Rd_no_key; eauto. rewrite map_app. apply Forall_app. auto.
        * eapply Rd_left_over; eauto. rewrite map_app. apply Forall_app. auto. }
  exact (X inputs [] (Forall_nil _)).
Qed.

(** *** The errors *)
Lemma chain_result {A} (gs : list (A -> A + synerr)) v :
  (exists w, chained gs v w /\ after_and_thens gs (Ok v) = Ok w) \/
  (exists e, chain_fails gs v e /\ after_and_thens gs (Ok v) = Err e).
Proof.
  assert (X : forall (gs : list (A -> A + synerr)) (v : A), (exists w, chained gs v w /\ run_and_thens gs (Some v) [] = (Some w, [])) \/
    (exists e, chain_fails gs v e /\ run_and_thens gs (Some v) [] = (None, errs_of e))).
  { clear. induction gs as [|g gs IH]; intro v; cbn [run_and_thens].
    - left. exists v. split; [constructor|reflexivity].
    - destruct (g v) as [u|e] eqn:G.
      + destruct (IH u) as [[w [C E]]|[e [C E]]]; rewrite E; [left; exists w; split; [econstructor; eauto|reflexivity]|right; exists e; split; [eapply CF_later; eauto|reflexivity]].
      + right. exists e. split; [now constructor|]. apply run_and_thens_none. }
  destruct gs as [|g gs]; [left; exists v; split; [constructor|reflexivity]|]. unfold after_and_thens. cbn [rbind].
  destruct (X (g :: gs) v) as [[w [C E]]|[[hd tl] [C E]]]; rewrite E; [left|right]; cbn [rbind check errs_of se_hd se_tl]; eauto.
Qed.
Lemma field_flat (s : sdef V) tm prefix v sp inputs l i f g :
  nth_error (s_raw s) i = Some f -> nth_error (s_fields tm s) i = Some g -> pflat f = true ->
  let R := struct_reader s tm prefix v in
  opt_errors (missing_out R tm (s_default s) sp g (before_sets R tm sp inputs l i g)) = [] /\
  (match f_kind f with KItem _ => False | _ => True end) /\
  snd (final R tm (s_default s) sp inputs l i g) =
    match match child R sp inputs i f with Ok v => Some v | _ => None end with
    | Some v => failing (f_transforms f) v
    | None => []
    end /\
  opt_errors (flat_out R sp inputs i g) = match child R sp inputs i f with Err e => errs_of e | _ => [] end.
Proof.
  intros Nf Ng PF R.
  assert (g = f).
  { assert (is_parsable f = true) by (unfold pflat in PF; now apply andb_true_iff in PF).
    pose proof (s_fields_nth tm s i f Nf H). congruence. }
  subst g. assert (NC : f_container f = false).
  { unfold pflat, is_parsable in PF. destruct (f_container f); auto. }
  assert (NK : match f_kind f with KItem _ => False | _ => True end).
  { unfold pflat, is_flat in PF. destruct (f_kind f); auto. rewrite andb_false_r in PF. discriminate. }
  assert (MO : forall st, missing_out R tm (s_default s) sp f st = None) by (intro st; unfold missing_out; destruct (f_kind f); auto; contradiction).
  split; [now rewrite MO|]. split; [auto|].
  unfold final, after_missing. rewrite MO. unfold before_sets, after_container, after_flat, flat_out. rewrite PF, NC.
  change (fst (flat_call f (r_prefix R) sp (r_allowed R) (flat_in R inputs i))) with (child R sp inputs i f).
  assert (TF : forall x, snd (run_transforms (f_transforms f) (FSome x) []) = failing (f_transforms f) x).
  { intro x. destruct (run_transforms_failing (f_transforms f) x []) as [st ->]. reflexivity. }
  assert (TP : snd (run_transforms (f_transforms f) (FParseError (A := V)) []) = []) by (apply LemRun.run_transforms_none; discriminate).
  split; [|destruct (child R sp inputs i f); reflexivity].
  unfold set_field. destruct tm, (child R sp inputs i f), (f_default f); cbn [fs_or_else fs_is_none]; auto.
Qed.
Lemma flat_same tm (s : sdef V) i f g : nth_error (s_raw s) i = Some f -> nth_error (s_fields tm s) i = Some g -> pflat g = pflat f.
Proof.
  intros Nf Ng. destruct (s_fields_eff tm s i f Nf) as [g' [Ng' [E1 [E2 [E3 [E4 [E5 [E6 E7]]]]]]]]. congruence.
Qed.
Lemma unwrap_no_err (sl : list (fstatus V)) e : unwrap_slots sl <> Err e.
Proof.
  induction sl as [|st sl IH]; cbn [unwrap_slots]; [discriminate|]. destruct st; try discriminate.
  destruct (unwrap_slots sl); cbn [rmap]; congruence.
Qed.
Lemma errors_split (s : sdef V) tm prefix v sp inputs :
  let R := struct_reader s tm prefix v in
  let l := entries R inputs in
  struct_errors s tm prefix v sp inputs =
  entries_errors R [] l ++ match stopped R inputs with Some e => errs_of e | None => [] end ++
  child_errors s R sp inputs ++ absent_errors s tm prefix sp R l ++ and_then_errors s tm prefix sp R l inputs.
Proof.
  intros R l. unfold struct_errors. fold R. fold l. unfold all_errors. f_equal. f_equal.
  unfold child_errors, absent_errors, and_then_errors. f_equal; [|f_equal].
  - apply flat_mapi_two; [apply s_fields_len|]. intros j g f Ng Nf. pose proof (flat_same tm s j f g Nf Ng) as FS.
    destruct (pflat f) eqn:PF.
    + apply (field_flat s tm prefix v sp inputs l j f g Nf Ng PF).
    + unfold flat_out. now rewrite FS.
  - apply flat_mapi_two; [apply s_fields_len|]. intros j g f Ng Nf. destruct (pflat f) eqn:PF.
    + destruct (field_flat s tm prefix v sp inputs l j f g Nf Ng PF) as [A [B _]]. fold R in A. rewrite A.
      destruct (f_container f), (field_default s tm f), (s_default s), (f_kind f); auto; contradiction.
    + apply (LemRun.field_exact s tm prefix v sp inputs l j f g PF Nf Ng).
  - apply flat_mapi_two; [apply s_fields_len|]. intros j g f Ng Nf. destruct (pflat f) eqn:PF.
    + apply (field_flat s tm prefix v sp inputs l j f g Nf Ng PF).
    + apply (LemRun.field_exact s tm prefix v sp inputs l j f g PF Nf Ng).
Qed.
Lemma l_all_errors (s : sdef V) tm prefix v sp inputs r pcs stop :
  parse_run s tm prefix v sp inputs r -> named_struct s ->
  Forall stays_field (s_raw s) -> Forall keeps_field (s_raw s) ->
  let R := struct_reader s tm prefix v in
  reading R inputs pcs stop ->
  exists l, Forall2 reads pcs l /\ in_place inputs l /\
    match entries_errors R [] l ++ stop ++ child_errors s R sp inputs ++
          absent_errors s tm prefix sp R l ++ and_then_errors s tm prefix sp R l inputs with
    | [] => exists vs, (Forall local_field (s_raw s) -> parses_to R tm (s_default s) sp inputs (items_of inputs) vs) /\
                      ((exists ws, chained (s_and_thens s) vs ws /\ r = Ok ws) \/
                       (exists e, chain_fails (s_and_thens s) vs e /\ r = Err e))
    | x :: xs => r = Err (mkSyn x xs)
    end.
Proof.
  intros R1 NS SF KF R RD. destruct (run_body _ _ _ _ _ _ _ R1) as [m1 ->]; [apply NS|].
  destruct (reading_reads s tm prefix v inputs pcs stop NS SF KF RD) as [A B]. fold R in A, B. exists (entries R inputs). split; auto. split; [now apply entries_place|].
  pose proof (struct_exact s tm m1 sp prefix v inputs NS) as X. cbv zeta in X. fold R in X.
  pose proof (errors_split s tm prefix v sp inputs) as E. cbv zeta in E. fold R in E. rewrite B in E. rewrite <- E.
  rewrite X. destruct (struct_errors s tm prefix v sp inputs) as [|x xs] eqn:SE; auto.
  pose proof (proj1 (s_body_good s tm m1 sp prefix v 0 (proj1 NS) inputs)) as G. rewrite X in G.
  assert (PR : exists vs, post_ret (s_default s) (mapi (fun i f => fst (final R tm (s_default s) sp inputs (entries R inputs) i f)) 0 (s_fields tm s)) = Ok vs).
  { unfold post_ret in *. destruct (s_default s); [eauto|]. destruct (unwrap_slots _) as [vs|e|b] eqn:U; [eauto|destruct (unwrap_no_err _ _ U)|].
    exfalso. destruct (s_and_thens s); exact G. }
  destruct PR as [vs PR]. rewrite PR. exists vs. split.
  { intro LF. set (s0 := mkStruct (s_shape s) (s_raw s) (s_default s) (s_transparent s) (s_unknown_ok s) [] (s_attributes s)).
    assert (NS0 : named_struct s0) by exact NS. pose proof (struct_exact s0 tm m1 sp prefix v inputs NS0) as X0. cbv zeta in X0.
    change (struct_errors s0 tm prefix v sp inputs) with (struct_errors s tm prefix v sp inputs) in X0. rewrite SE in X0.
    change (struct_reader s0 tm prefix v) with R in X0. change (s_fields tm s0) with (s_fields tm s) in X0. cbn [s0 s_default s_and_thens] in X0. rewrite PR in X0.
    cbn [after_and_thens] in X0. apply (struct_text s0 tm m1 sp prefix v inputs vs NS0 LF) in X0 as [ws [W C]]. inversion C; subst. exact W. }
  destruct (chain_result (s_and_thens s) vs) as [[w [C Q]]|[e [C Q]]]; rewrite Q; eauto.
Qed.
Lemma reading_keys (s : sdef V) tm prefix v inputs pcs stop : named_struct s ->
  Forall stays_field (s_raw s) -> Forall keeps_field (s_raw s) ->
  reading (struct_reader s tm prefix v) inputs pcs stop ->
  keys_read (struct_reader s tm prefix v) inputs =
  flat_map (fun pc => match item_key (fst pc) with Some (k, sp, _) => [(k, sp)] | None => [] end) pcs.
Proof.
  intros NS SF KF RD. destruct (reading_reads s tm prefix v inputs pcs stop NS SF KF RD) as [A _].
  exact (proj1 (reads_keys _ _ A [])).
Qed.
Lemma l_dup_read (s : sdef V) tm prefix v sp inputs r pcs stop i f a seg1 tl1 b seg2 tl2 c k1 sp1 body1 k2 sp2 body2 :
  parse_run s tm prefix v sp inputs r -> named_struct s -> distinct_names s ->
  Forall stays_field (s_raw s) -> Forall keeps_field (s_raw s) ->
  nth_error (s_raw s) i = Some f -> pitem f = true ->
  reading (struct_reader s tm prefix v) inputs pcs stop ->
  pcs = a ++ (seg1, tl1) :: b ++ (seg2, tl2) :: c ->
  item_key seg1 = Some (k1, sp1, body1) -> named_by prefix f k1 ->
  item_key seg2 = Some (k2, sp2, body2) -> named_by prefix f k2 ->
  exists e, r = Err e /\ In (mkErr sp2 ("duplicate attribute for `" ++ first_name f ++ "`")%string) (errs_of e).
Proof.
  intros R1 NS DN SF KF N P RD E K1 N1 K2 N2. destruct (run_body _ _ _ _ _ _ _ R1) as [m1 ->]; [apply NS|].
  pose proof (reading_keys s tm prefix v inputs pcs stop NS SF KF RD) as K. subst pcs.
  rewrite flat_map_app in K. cbn [flat_map fst] in K. rewrite flat_map_app in K. cbn [flat_map fst] in K. rewrite K1, K2 in K. cbn [app] in K.
  exact (dup_reported s tm m1 sp prefix v inputs i f k1 sp1 k2 sp2 _ _ _ NS DN N P N1 N2 K).
Qed.
Lemma l_unknown_read (s : sdef V) tm sp inputs r pcs stop seg tl k ksp body :
  parse_run s tm "" true sp inputs r -> named_struct s ->
  Forall stays_field (s_raw s) -> Forall keeps_field (s_raw s) -> s_unknown_ok s = false ->
  reading (struct_reader s tm "" true) inputs pcs stop -> In (seg, tl) pcs ->
  item_key seg = Some (k, ksp, body) -> ~ In k (fn_names (struct_fn s)) ->
  exists e x, r = Err e /\ In x (errs_of e) /\ e_span x = ksp /\ unknown_msg k (e_msg x).
Proof.
  intros R1 NS SF KF U RD I IK NI. destruct (run_body _ _ _ _ _ _ _ R1) as [m1 ->]; [apply NS|].
  apply (unknown_reported s tm m1 sp inputs k ksp NS U); auto.
  rewrite (reading_keys s tm "" true inputs pcs stop NS SF KF RD). apply in_flat_map. exists (seg, tl). split; auto. cbn [fst]. rewrite IK. now left.
Qed.
End N.
