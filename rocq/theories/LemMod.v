(** The `with` modules. *)
From Verif Require Import LemSmall LemWf LemMore LemLocalD LemStructP LemColl3 LemColl2 LemMap LemAppend LemSplit LemPrim.
From Verif Require Export SpecMod.

Section M.
Context {env : Env}.

(** *** after a name *)
Lemma delimited_rest {A} dl (f : parser A) s ts gsp r : toks s = TGroup dl ts gsp :: r ->
  forall v s', parse_delimited_with dl f s = (Ok v, s') -> toks s' = r.
Proof.
  intros T v s'. rewrite (delimited_case env A f dl s ts gsp r T). destruct (f (mkStream ts (SClose gsp) (cell s))) as [[x|e|b] c]; try discriminate.
  destruct (parse_eof c) as [[[]|e|b] c2]; try discriminate. intro H. injection H as _ <-. reflexivity.
Qed.
Lemma named_follows {A} (item : mode -> parser A) inline (flag : span -> res A) (bare : A -> Prop) sp s v r :
  (forall m, well_behaved_m (inline m)) -> (forall x, flag sp = Ok x <-> bare x) ->
  (exists s', parse_named_with item inline flag sp s = (Ok v, s') /\ toks s' = r) <->
  follows_name (item (Named sp)) (fun c => whole (inline (Named sp)) [c]) bare s v r.
Proof.
  intros W FL. pose proof (l_try_parse_named s) as T. destruct (try_parse_named s).
  - destruct T as [j [esp [rest T]]]. rewrite (named_eq_case _ _ _ _ _ _ _ _ _ _ T). split.
    + intros [s' [H <-]]. now apply FN_equals with j esp rest.
    + intro H. inversion H as [j' esp' r' s' T' X EQ|ts gsp r' T' X EQ|B N1 N2 EQ]; rewrite T in *; try discriminate.
      * injection T' as _ _ ->. eauto.
      * exfalso. eapply N1. reflexivity.
  - destruct T as [ts [gsp [rest T]]]. rewrite (named_paren_case _ _ _ _ _ _ _ _ _ _ T). split.
    + intros [s' [H E]]. rewrite (delimited_rest _ _ _ _ _ _ T _ _ H) in E. subst r. apply FN_parens with ts gsp; auto.
      destruct (proj1 (delimited_ok Paren (inline (Named sp)) s v (W _))) as [ts' [gsp' [r' [T' X]]]]; [now rewrite H|].
      rewrite T in T'. injection T' as <- <- <-. exact X.
    + intro H. inversion H as [j' esp' r' s' T' X EQ|ts' gsp' r' T' X EQ|B N1 N2 EQ]; rewrite T in *; try discriminate.
      * injection T' as <- <- <-. pose proof (proj2 (delimited_ok Paren (inline (Named sp)) s v (W _))) as D.
        destruct (parse_delimited_with Paren (on_single (inline (Named sp))) s) as [r0 s'] eqn:Q. cbn [fst] in D.
        rewrite D in Q by eauto 6. exists s'. split; [now rewrite D by eauto 6|]. exact (delimited_rest _ _ _ _ _ _ T _ _ Q).
      * exfalso. eapply N2. reflexivity.
  - destruct T as [N1 N2]. rewrite (named_flag_case _ _ _ _ _ _ _ N1 N2). split.
    + intros [s' [H <-]]. injection H as H <-. apply FL in H. now apply FN_bare.
    + intro H. inversion H as [j' esp' r' s' T' X EQ|ts' gsp' r' T' X EQ|B _ _ EQ].
      * now apply N1 in T'.
      * now apply N2 in T'.
      * apply FL in B. rewrite B. eauto.
Qed.
Lemma empty_ok {A} (p : parser A) sp v : parse_empty sp p = Ok v <-> parse2 p [] = Ok v.
Proof. unfold parse_empty. destruct (parse2 p []); split; intro H; try discriminate; auto. Qed.
Lemma l_module_named A d bare gone : with_module A d bare gone -> forall n sp s v r,
  (exists s', d_named d n sp s = (Ok v, s') /\ toks s' = r) <->
  follows_name (d_item d (Named sp)) (fun c => whole (d_inline d (Named sp)) [c]) (bare sp) s v r.
Proof.
  intros M n sp s v r.
  assert (ND : d_named d n sp s = parse_named_with (d_item d) (d_inline d) (d_flag d) sp s) by (destruct M; reflexivity).
  assert (FL : forall x, d_flag d sp = Ok x <-> bare sp x).
  { intro x. destruct M; cbn; try (split; intro HH; [injection HH as <-; reflexivity|subst; reflexivity]); try reflexivity; apply empty_ok. }
  assert (G : good_dict d).
  { destruct M; [apply good_with_optional|apply good_with_vec|apply good_with_map|apply good_identity|apply good_quoted|apply good_maybe_quoted|apply good_with_syn|apply good_syn_quoted]; auto. }
  rewrite <- (named_follows (d_item d) (d_inline d) (d_flag d) (bare sp) sp s v r (fun m => gd_inline d G m) FL). now rewrite ND.
Qed.
Lemma l_module_missing A d bare gone : with_module A d bare gone -> forall n sp v, d_missing d n sp = Ok v <-> gone n sp v.
Proof.
  intros M n sp v. destruct M; cbn; try (split; intro HH; [injection HH as <-; reflexivity|subst; reflexivity]); try reflexivity;
  (split; [discriminate|tauto]).
Qed.

(** *** values that follow a name, as text *)
Lemma accepts_spelled {A} (d : dict A) n sp body v : standard d -> good_dict d ->
  accepts (d_named d n sp) body v <-> spelled d sp body v.
Proof.
  intros ST G. split; [|now apply spelled_accepts]. intro H.
  assert (X : forall tl sc c, ends tl -> follows_name (d_item d (Named sp)) (fun c => whole (d_inline d (Named sp)) [c]) (fun x => d_flag d sp = Ok x) (mkStream (body ++ tl) sc c) v tl).
  { intros tl sc c E. destruct (H tl sc c E) as [H1 H2]. rewrite ST in H1, H2. unfold def_named in H1, H2.
    apply (named_follows (d_item d) (d_inline d) (d_flag d)); [apply (gd_inline d G)|reflexivity|].
    destruct (parse_named_with (d_item d) (d_inline d) (d_flag d) sp (mkStream (body ++ tl) sc c)) as [r s']. cbn [fst snd] in *. subst. eauto. }
  assert (E0 : ends []) by (now left). pose proof (X [] SCall None E0) as X0. rewrite app_nil_r in X0.
  inversion X0 as [j esp r s' T Q EQ|ts gsp r T Q EQ|B N1 N2 EQ]; cbn [toks] in *.
  - subst body. apply S_equals. intros tl sc c E. specialize (X tl sc c E). inversion X as [j' esp' r' s'' T' Q' EQ'|ts gsp r' T' Q' EQ'|B N1 N2 EQ']; cbn [toks app] in *.
    + injection T' as _ _ <-. cbn [scope cell] in Q'. now rewrite Q'.
    + discriminate T'.
    + exfalso. eapply N1. reflexivity.
  - subst body. apply S_paren. intro c. specialize (X [] SCall c E0). cbn [app] in X.
    inversion X as [j' esp' r' s'' T' Q' EQ'|ts' gsp' r' T' Q' EQ'|B N1 N2 EQ']; cbn [toks app] in *; try discriminate T'; try (exfalso; eapply N2; reflexivity).
    injection T' as <- <-. destruct Q' as [Q1 Q2]. cbn [cell] in Q1, Q2. pose proof (proj2 (gd_inline d G (Named sp) [mkStream ts (SClose gsp) c])) as L.
    destruct (d_inline d (Named sp) [mkStream ts (SClose gsp) c]) as [r0 l]. cbn [fst snd] in *. inversion L as [|? s1 ? l' _ L']; subst. inversion L'; subst.
    exists s1. split; auto. inversion Q2 as [|? ? U _]; subst. destruct U as [U|[t [U C]]]; [now left|]. right. exists t. split; auto. now apply is_comma_spec.
  - subst body. now apply S_flag.
Qed.
Lemma mod_spelled {A} (d : dict A) sp body v : spelled (inner_dict d) sp body v <-> mod_value (d_item d) sp v body.
Proof.
  split.
  - intro H. inversion H as [j esp payload w AC|payload gsp w AC|w F]; subst; [now apply MV_equals| |discriminate F].
    apply MV_parens. intro c. destruct (AC c) as [rest [Q U]]. cbn [d_inline inner_dict dict_item] in Q. unfold def_inline, parse_first, pbind, pret in Q.
    set (s := mkStream payload (SClose gsp) c) in *. destruct (d_item d (Named sp) s) as [[x|e|b] s1] eqn:I; try discriminate Q.
    destruct (parse_eof_cases env s1) as [[Y1 Y2]|[_ [e [c2 Y]]]]; [|rewrite Y in Q; discriminate Q]. rewrite Y2 in Q. injection Q as <- _.
    exists s1. split; auto. destruct Y1 as [Y|[t [Y C]]]; [now left|]. right. exists t. split; auto. now apply is_comma_spec.
  - intro H. destruct H as [j esp payload AC|payload gsp AC]; [now apply S_equals|]. apply S_paren. intro c. destruct (AC c) as [s1 [Q U]].
    cbn [d_inline inner_dict dict_item]. unfold def_inline, parse_first, pbind, pret. rewrite Q.
    destruct (parse_eof_cases env s1) as [[Y1 Y2]|[N _]].
    + rewrite Y2. eexists. split; [reflexivity|]. now left.
    + exfalso. apply N. destruct U as [U|[t [U C]]]; [now left|]. right. exists t. split; auto. now apply is_comma_spec.
Qed.
Lemma mod_accepts {A} (d : dict A) n sp body v : fine d -> accepts (d_named (inner_dict d) n sp) body v <-> mod_value (d_item d) sp v body.
Proof. intro F. pose proof (fine_inner d F) as FI. rewrite <- mod_spelled. apply accepts_spelled; apply FI. Qed.

(** *** entries of maps *)
Lemma entry_text {K A} (kstr : K -> string) (dk : dict K) (dv : dict A) t r k v : fine dk -> fine dv -> no_comma (t :: r) ->
  accepts (map_entry kstr dk dv) (t :: r) (k, v) <->
  exists body, key_of dk (t :: r) k body /\ accepts (d_named dv (kstr k) (tok_open_span t)) body v.
Proof.
  intros FK FV N. assert (E0 : ends []) by (now left).
  assert (U : forall n sp s sc c, scope s = sc -> fst (d_named dv n sp s) = fst (d_named dv n sp (mkStream (toks s) sc c)) /\
              toks (snd (d_named dv n sp s)) = toks (snd (d_named dv n sp (mkStream (toks s) sc c)))).
  { intros n sp s sc c <-. destruct (ud_named dv (fi_unaware dv FV) n sp s (mkStream (toks s) (scope s) c)) as [U1 U2]; [destruct s; reflexivity|].
    split; auto. apply (f_equal toks) in U2. exact U2. }
  split.
  - intro H. destruct (proj2 (fi_item dk FK Unnamed) (t :: r) N) as [[k' [body G]]|G].
    2: { exfalso. destruct (G [] SCall None E0) as [e G1]. destruct (H [] SCall None E0) as [H1 _]. unfold map_entry, pbind in H1.
         destruct (d_item dk Unnamed (mkStream ((t :: r) ++ []) SCall None)) as [r0 s1]. cbn [fst] in G1. subst r0. discriminate H1. }
    assert (X : k' = k /\ forall tl sc c, ends tl -> fst (d_named dv (kstr k') (tok_open_span t) (mkStream (body ++ tl) sc c)) = Ok v /\
                  toks (snd (d_named dv (kstr k') (tok_open_span t) (mkStream (body ++ tl) sc c))) = tl).
    { assert (Y : forall tl sc c, ends tl -> k' = k /\ fst (d_named dv (kstr k') (tok_open_span t) (mkStream (body ++ tl) sc c)) = Ok v /\
                  toks (snd (d_named dv (kstr k') (tok_open_span t) (mkStream (body ++ tl) sc c))) = tl).
      { intros tl sc c E. destruct (G tl sc c E) as [G1 G2]. destruct (H tl sc c E) as [H1 H2].
        pose proof (fi_keeps dk FK Unnamed (mkStream ((t :: r) ++ tl) sc c)) as KP. unfold map_entry, pbind in H1, H2.
        destruct (d_item dk Unnamed (mkStream ((t :: r) ++ tl) sc c)) as [r0 s1]. cbn [fst snd] in *. subst r0.
        change (in_span (mkStream ((t :: r) ++ tl) sc c)) with (tok_open_span t) in H1, H2.
        destruct (U (kstr k') (tok_open_span t) s1 sc c KP) as [U1 U2]. rewrite G2 in U1, U2. rewrite <- U1, <- U2.
        destruct (d_named dv (kstr k') (tok_open_span t) s1) as [[w|e|b] s2]; try discriminate H1. cbn in *. injection H1 as -> ->. auto. }
      split; [exact (proj1 (Y [] SCall None E0))|]. intros tl sc c E. exact (proj2 (Y tl sc c E)). }
    destruct X as [-> X]. exists body. split; [exact G|exact X].
  - intros [body [G X]] tl sc c E. destruct (G tl sc c E) as [G1 G2]. destruct (X tl sc c E) as [X1 X2].
    pose proof (fi_keeps dk FK Unnamed (mkStream ((t :: r) ++ tl) sc c)) as KP. unfold map_entry, pbind.
    change (in_span (mkStream ((t :: r) ++ tl) sc c)) with (tok_open_span t).
    destruct (d_item dk Unnamed (mkStream ((t :: r) ++ tl) sc c)) as [r0 s1]. cbn [fst snd] in *. subst r0.
    destruct (U (kstr k) (tok_open_span t) s1 sc c KP) as [U1 U2]. rewrite G2 in U1, U2. rewrite X1 in U1. rewrite X2 in U2.
    destruct (d_named dv (kstr k) (tok_open_span t) s1) as [r1 s2]. cbn [fst snd] in *. subst r1. cbn. auto.
Qed.
Lemma entry_mod {K A} (kstr : K -> string) (dk : dict K) (dv : dict A) seg kv : fine dk -> fine dv -> nonempty_keys dk -> no_comma seg ->
  accepts (map_entry kstr (inner_dict dk) (inner_dict dv)) seg kv <-> mod_entry dk dv seg kv.
Proof.
  intros FK FV NE N. destruct kv as [k v]. destruct seg as [|t r].
  - split.
    + intro H. exfalso. destruct (H [] SCall None (or_introl eq_refl)) as [H1 _]. destruct (NE [] SCall None (or_introl eq_refl)) as [e X].
      unfold map_entry, pbind in H1. cbn [app] in H1. cbn [inner_dict dict_item d_item] in H1. destruct (d_item dk Unnamed (mkStream [] SCall None)) as [r0 s1]. cbn [fst] in X. subst. discriminate.
    + intros [t [r [body [H _]]]]. discriminate H.
  - rewrite entry_text; auto using fine_inner. split.
    + intros [body [KO AC]]. apply mod_accepts in AC; auto. exists t, r, body. auto.
    + intros [t' [r' [body [E [KO MV]]]]]. injection E as <- <-. exists body. split; auto. now apply mod_accepts.
Qed.
Lemma forall2_iff {B C} (P Q : B -> C -> Prop) l l' : (forall x y, In x l -> (P x y <-> Q x y)) -> Forall2 P l l' <-> Forall2 Q l l'.
Proof.
  intro H. split; intro F; (induction F as [|x y l l' X F IH]; constructor; [apply H; cbn; auto|apply IH; intros a b I; apply H; now right]).
Qed.

Lemma l_mod_map K A eqb (kstr : K -> string) (dk : dict K) (dv : dict A) p inputs segs kvs : fine dk -> fine dv -> nonempty_keys dk ->
  mod_map_parser eqb kstr dk dv p -> hold inputs segs ->
  fst (p inputs) = Ok kvs <-> Forall2 (mod_entry dk dv) segs kvs /\ all_different eqb (map fst kvs).
Proof.
  intros FK FV NE M H. assert (MP : map_parser eqb kstr (inner_dict dk) (inner_dict dv) p) by (destruct M; [exact (MP_inline _ _ _ _ m)|exact (MP_flat _ _ _ _ m i)]).
  rewrite (l_map _ _ _ _ _ _ _ _ _ _ (fine_inner dk FK) (fine_inner dv FV) NE MP H).
  rewrite (forall2_iff _ (mod_entry dk dv) segs kvs); [reflexivity|]. intros seg kv I. apply entry_mod; auto. rewrite <- (hold_items _ _ H) in I. eapply items_no_comma; eauto.
Qed.
Lemma l_mod_map_braces K A eqb (kstr : K -> string) (dk : dict K) (dv : dict A) m s kvs : fine dk -> fine dv -> nonempty_keys dk ->
  fst (d_item (with_map_dict eqb kstr dk dv) m s) = Ok kvs <->
  exists segs, group_of Brace s segs /\ Forall2 (mod_entry dk dv) segs kvs /\ all_different eqb (map fst kvs).
Proof.
  intros FK FV NE. pose proof (l_map_group _ _ eqb kstr _ _ m s kvs (fine_inner dk FK) (fine_inner dv FV) NE) as L.
  change (d_item (with_map_dict eqb kstr dk dv) m s) with (d_item (map_dict eqb kstr (inner_dict dk) (inner_dict dv)) m s). rewrite L.
  assert (N : forall segs, group_of Brace s segs -> forall seg, In seg segs -> no_comma seg).
  { intros segs G seg I. apply group_items in G as [ts [gsp [rest [_ <-]]]]. apply (items_no_comma [mkStream ts SCall None]). cbn. now rewrite app_nil_r. }
  split; intros [segs [G [F AD]]]; exists segs; (split; [exact G|split; [|exact AD]]);
    eapply forall2_iff; [|exact F| |exact F]; intros seg kv I; [symmetry|]; apply entry_mod; eauto.
Qed.
Lemma l_mod_rest K A eqb (kstr : K -> string) (dk : dict K) (dv : dict A) ex l kvs : fine dk -> fine dv -> nonempty_keys dk ->
  fst (with_map_rest eqb kstr dk dv ex l) = Ok kvs <->
  exists sel, selected kstr dk ex (items_of l) sel /\ Forall2 (mod_entry dk dv) sel kvs /\ all_different eqb (map fst kvs).
Proof.
  intros FK FV NE. unfold with_map_rest. rewrite (rest_ok eqb kstr (inner_dict dk) (inner_dict dv) (fine_inner dk FK) (fine_inner dv FV) ex l kvs NE).
  assert (SE : forall its sel, selected kstr (inner_dict dk) ex its sel <-> selected kstr dk ex its sel).
  { intros its sel. split; intro S; induction S; [constructor|eapply Sel_skip; eauto|eapply Sel_take; eauto|constructor|eapply Sel_skip; eauto|eapply Sel_take; eauto]. }
  assert (SI : forall its sel, selected kstr dk ex its sel -> forall x, In x sel -> In x its).
  { intros its sel S. induction S; intros x I; auto; [right; auto|]. destruct I as [<-|I]; [now left|right; auto]. }
  split; intros [sel [S [F AD]]]; exists sel; (split; [now apply SE|split; [|exact AD]]);
    eapply forall2_iff; [|exact F| |exact F]; intros seg kv I; [symmetry|]; apply entry_mod; auto; apply (items_no_comma l); eapply SI; eauto; now apply SE.
Qed.
Lemma l_mod_vec A (d : dict A) p inputs segs vs : fine d -> mod_vec_parser d p -> hold inputs segs ->
  fst (p inputs) = Ok vs <-> Forall2 (accepts (d_item d Unnamed)) segs vs.
Proof.
  intros F M H. assert (VP : vec_parser (inner_dict d) p) by (destruct M; [exact (VP_inline _ m)|exact (VP_flat _ m i)]).
  exact (l_vec _ _ _ _ _ _ (fine_inner d F) VP H).
Qed.
Lemma l_mod_vec_brackets A (d : dict A) m s vs : fine d ->
  fst (d_item (with_vec_dict d) m s) = Ok vs <->
  exists segs, group_of Bracket s segs /\ Forall2 (accepts (d_item d Unnamed)) segs vs.
Proof. intro F. exact (l_vec_group _ _ m s vs (fine_inner d F)). Qed.
Lemma l_mod_append A (d : dict A) names l vs : fine d ->
  fst (with_vec_append d names l) = Ok vs <-> mod_appended (d_item d) names (items_of l) vs.
Proof.
  intro F. unfold with_vec_append. rewrite (vec_append_ok (inner_dict d) (fine_inner d F) names l vs).
  split; intro H; induction H; [constructor|eapply MA_mine; eauto; eapply mod_accepts; eauto|eapply MA_other; eauto|constructor|eapply Ap_mine; eauto; eapply mod_accepts; eauto|eapply Ap_other; eauto].
Qed.
Lemma l_mod_optional_named A (d : dict A) sp s : fst (d_item (with_optional_dict d) (Named sp) s) = rmap Some (fst (d_item d (Named sp) s)) /\
  snd (d_item (with_optional_dict d) (Named sp) s) = snd (d_item d (Named sp) s).
Proof. cbn. unfold pmap. destruct (d_item d (Named sp) s); auto. Qed.
Lemma whole_only {A} (item : mode -> parser A) m c v : whole (def_inline item m) [c] v <-> only (item m) c v.
Proof.
  unfold whole, only. unfold def_inline, parse_first, pbind, pret.
  destruct (item m c) as [[x|e|b] s1]; [|split; [intros [H _]; discriminate|intros [s' [H _]]; discriminate]..].
  destruct (parse_eof_cases env s1) as [[Y1 Y2]|[N [e [c2 Y]]]].
  - rewrite Y2. cbn. split.
    + intros [H _]. injection H as <-. exists s1. split; auto. destruct Y1 as [Y|[t [Y C]]]; [now left|]. right. exists t. split; auto. now apply is_comma_spec.
    + intros [s' [H _]]. injection H as <- _. split; auto. constructor; auto. now left.
  - rewrite Y. cbn. split; [intros [H _]; discriminate|]. intros [s' [H U]]. injection H as <- <-. exfalso. apply N.
    destruct U as [U|[t [U C]]]; [now left|]. right. exists t. split; auto. now apply is_comma_spec.
Qed.
Lemma l_mod_optional A (d : dict A) s o : good_dict d ->
  fst (d_item (with_optional_dict d) Unnamed s) = Ok o <->
  (o = None /\ exists sp r, toks s = TIdent "None" sp :: r) \/
  (exists v sp ts gsp r, o = Some v /\ toks s = TIdent "Some" sp :: TGroup Paren ts gsp :: r /\
     only (d_item d Unnamed) (mkStream ts (SClose gsp) (cell s)) v).
Proof.
  intro G. pose proof (l_option_unnamed A (inner_dict d) s o (good_inner d G)) as L.
  change (d_item (with_optional_dict d) Unnamed s) with (d_item (option_dict (inner_dict d)) Unnamed s). rewrite L.
  pose proof (whole_only (d_item d) Unnamed) as X.
  split; (intros [H|[v [sp [ts [gsp [r [E [T W]]]]]]]]; [left; exact H|right; exists v, sp, ts, gsp, r; split; [exact E|split; [exact T|now apply X]]]).
Qed.
(** *** Box, Rc, Cell, RefCell, Cow *)
Lemma follows_iff {A} (item : parser A) (c1 c2 : stream -> A -> Prop) bare s v r : (forall c x, c1 c x <-> c2 c x) ->
  follows_name item c1 bare s v r <-> follows_name item c2 bare s v r.
Proof.
  intro H. split; intro F; destruct F as [j esp r s' T Q|ts gsp r T Q|B N1 N2]; econstructor; eauto; now apply H.
Qed.
Lemma l_wrapper_named A (d : dict A) n sp s v r : good_dict d ->
  (exists s', d_named (wrapper_dict d) n sp s = (Ok v, s') /\ toks s' = r) <->
  follows_name (d_item d (Named sp)) (only (d_item d (Named sp))) (fun x => d_flag d sp = Ok x) s v r.
Proof.
  intro G. pose proof (good_wrapper d G) as GW.
  rewrite <- (follows_iff _ _ _ _ _ _ _ (whole_only (d_item d) (Named sp))).
  apply (named_follows (d_item d) (def_inline (d_item d)) (d_flag d)); [|reflexivity]. exact (gd_inline _ GW).
Qed.
Lemma l_wrapper_same A (d : dict A) n sp s : standard d -> (forall m l, d_inline d m l = def_inline (d_item d) m l) ->
  d_named (wrapper_dict d) n sp s = d_named d n sp s.
Proof.
  intros ST IN. rewrite (ST n sp s). cbn [d_named wrapper_dict dict_item_flag]. unfold def_named, parse_named_with.
  destruct (peek_eq s); auto. destruct (peek_group Paren s); auto. unfold parse_delimited_with, with_group.
  destruct (toks s) as [|[] ts]; auto. destruct (delim_eqb Paren d0); auto. unfold pbind, on_single. now rewrite IN.
Qed.
Lemma l_wrapper_outside A (d : dict A) n sp s : standard d -> (forall ts gsp rest, toks s <> TGroup Paren ts gsp :: rest) ->
  d_named (wrapper_dict d) n sp s = d_named d n sp s.
Proof.
  intros ST NP. rewrite (ST n sp s). cbn [d_named wrapper_dict dict_item_flag]. unfold def_named, parse_named_with.
  destruct (peek_eq s); auto. destruct (peek_group Paren s) eqn:G; auto. exfalso. unfold peek_group in G.
  destruct (toks s) as [|[] ts]; try discriminate. destruct d0; try discriminate. now apply (NP ts0 sp0 ts).
Qed.
Lemma l_wrapper_item A (d : dict A) m sp : d_item (wrapper_dict d) m = d_item d m /\ d_flag (wrapper_dict d) sp = d_flag d sp.
Proof. split; reflexivity. Qed.
Lemma l_wrapper_missing A (d : dict A) n sp : exists e, d_missing (wrapper_dict d) n sp = Err e.
Proof. cbn. unfold def_missing. eauto. Qed.

(** *** TokenStream, () *)
Lemma until_skip ts : ts = until_comma ts ++ skip_toks ts /\ no_comma (until_comma ts) /\ ends (skip_toks ts).
Proof.
  induction ts as [|t r [IH1 [IH2 IH3]]]; [repeat split; [constructor|now left]|].
  cbn [until_comma skip_toks]. destruct (is_comma t) eqn:C.
  - split; [reflexivity|split; [constructor|]]. now apply ends_cons.
  - split; [cbn [app]; now f_equal|split; auto]. constructor; auto. now apply comma_false.
Qed.
Lemma until_unique a b c d : no_comma a -> no_comma c -> ends b -> ends d -> a ++ b = c ++ d -> a = c /\ b = d.
Proof.
  revert c. induction a as [|x a IH]; intros [|y c] NA NC EB ED H; cbn in H; auto.
  - subst b. apply ends_cons, comma_true in EB. inversion NC; contradiction.
  - subst d. apply ends_cons, comma_true in ED. inversion NA; contradiction.
  - injection H as -> H. inversion NA; inversion NC; subst. destruct (IH c) as [-> ->]; auto.
Qed.
Lemma l_tokens_item m s ts s' : d_item tokenstream_dict m s = (Ok ts, s') <->
  ts <> [] /\ no_comma ts /\ toks s = ts ++ toks s' /\ ends (toks s') /\ scope s' = scope s /\ cell s' = cell s.
Proof.
  cbn [d_item tokenstream_dict dict_item_flag_missing]. unfold tokenstream_item. destruct (until_skip (toks s)) as [E [N X]]. split.
  - destruct (peek_comma s); [discriminate|]. destruct (until_comma (toks s)) as [|t r] eqn:U; [discriminate|].
    try rewrite U in E; try rewrite U in N. intro H. injection H as <- <-. cbn [toks scope cell skip_item set_toks]. split; [discriminate|]. auto.
  - intros [NE [NC [T [EN [SC CE]]]]].
    assert (P : peek_comma s = false).
    { destruct ts as [|t ts]; [congruence|]. inversion NC as [|? ? C _]; subst. unfold peek_comma, peek_punct. rewrite T. cbn [app punct_rest].
      destruct t as [|c j psp| |]; auto. apply comma_false in C. cbn in C. unfold comma_c in *. rewrite Ascii.eqb_sym, C. reflexivity. }
    rewrite P. destruct (until_unique ts (toks s') (until_comma (toks s)) (skip_toks (toks s))) as [U1 U2]; auto; [now rewrite <- T|].
    rewrite <- U1. destruct ts as [|t ts]; [congruence|]. f_equal. apply stream_eq; cbn; auto.
Qed.
Lemma is_nc ts : no_comma ts \/ ~ no_comma ts.
Proof.
  induction ts as [|t r [IH|IH]]; [left; constructor| |right; intro H; inversion H; contradiction].
  destruct (is_comma t) eqn:C; [right; intro H; inversion H as [|? ? X _]; apply X; now apply comma_true|left; constructor; auto; now apply comma_false].
Qed.
Lemma until_all ts : no_comma ts -> until_comma ts = ts /\ skip_toks ts = [].
Proof.
  induction 1 as [|t r C _ [IH1 IH2]]; auto. apply comma_false in C. cbn [until_comma skip_toks]. rewrite C. now rewrite IH1.
Qed.
Lemma peek_comma_cons t r sc c : peek_comma (mkStream (t :: r) sc c) = is_comma t.
Proof.
  unfold peek_comma, peek_punct. cbn [toks punct_rest]. destruct t as [|c0 j psp| |]; auto. cbn [is_comma]. rewrite Ascii.eqb_sym.
  destruct (Ascii.eqb c0 comma_c); reflexivity.
Qed.
Lemma tokens_loop_ok acc s : no_comma (toks s) -> tokenstream_loop (S (length (toks s))) acc s = (Ok (acc ++ toks s), set_toks s []).
Proof.
  intro N. destruct s as [[|t r] sc c]; cbn [toks] in *; cbn [tokenstream_loop is_empty toks length].
  - unfold is_empty. cbn. now rewrite app_nil_r.
  - unfold is_empty. cbn [toks]. unfold tokenstream_item. rewrite peek_comma_cons. destruct (until_all (t :: r) N) as [U1 U2].
    inversion N as [|? ? C N']; subst. apply comma_false in C. rewrite C. cbn [toks]. rewrite U1. unfold skip_item. cbn [toks]. rewrite U2. reflexivity.
Qed.
Lemma tokens_loop_bad fuel : forall acc s, ~ no_comma (toks s) -> forall ts s', tokenstream_loop fuel acc s <> (Ok ts, s').
Proof.
  induction fuel as [|n IH]; intros acc s N ts s'; cbn [tokenstream_loop]; [discriminate|]. destruct (is_empty s) eqn:E.
  - exfalso. apply N. unfold is_empty in E. destruct (toks s); [constructor|discriminate].
  - destruct (tokenstream_item Unnamed s) as [[t|e|b] s1] eqn:Q; try discriminate. apply IH. intro N1. apply N.
    apply (l_tokens_item Unnamed s t s1) in Q as [_ [NC [T [EN _]]]]. rewrite T. apply nc_app. split; auto.
Qed.
Lemma l_tokens_flat m i inputs ts : fst (fu_parse tokenstream_flat m i inputs) = Ok ts <->
  Forall (fun s => no_comma (toks s)) inputs /\ ts = concat (map toks inputs).
Proof.
  cbn [fu_parse tokenstream_flat]. enough (X : forall acc, fst (tokenstream_streams acc inputs) = Ok ts <->
    Forall (fun s => no_comma (toks s)) inputs /\ ts = acc ++ concat (map toks inputs)) by apply X.
  induction inputs as [|s l IH]; intro acc; cbn [tokenstream_streams map concat].
  - rewrite app_nil_r. cbn. split; [intro H; injection H as ->; auto|intros [_ ->]; auto].
  - destruct (is_nc (toks s)) as [N|N].
    + rewrite tokens_loop_ok by auto. pose proof (IH (acc ++ toks s)) as I. destruct (tokenstream_streams (acc ++ toks s) l) as [r l1]. cbn [fst] in *. rewrite I, <- app_assoc.
      split; intros [H ->]; split; auto. now inversion H.
    + destruct (tokenstream_loop (S (length (toks s))) acc s) as [[a|e|b] s1] eqn:Q; [exfalso; eapply tokens_loop_bad; eauto| |];
        (cbn; split; [discriminate|]; intros [H _]; inversion H; contradiction).
Qed.
Lemma l_tokens_flag sp n : d_flag tokenstream_dict sp = Ok [] /\ d_missing tokenstream_dict n sp = Ok [].
Proof. split; reflexivity. Qed.
Lemma l_tokens_named n sp s v r : (exists s', d_named tokenstream_dict n sp s = (Ok v, s') /\ toks s' = r) <->
  follows_name (d_item tokenstream_dict (Named sp)) (only (d_item tokenstream_dict (Named sp))) (eq []) s v r.
Proof.
  rewrite <- (follows_iff _ _ _ _ _ _ _ (whole_only (d_item tokenstream_dict) (Named sp))).
  apply (named_follows (d_item tokenstream_dict) (def_inline (d_item tokenstream_dict)) (d_flag tokenstream_dict)); [exact (gd_inline _ good_tokenstream)|].
  intro x. cbn. split; [intro H; now injection H|intros <-; reflexivity].
Qed.
Lemma l_unit_item m s : fst (d_item unit_dict m s) = Ok tt <-> exists ts gsp r, toks s = TGroup Paren ts gsp :: r.
Proof.
  cbn. unfold unit_item, with_group, pret. destruct (toks s) as [|[| | |dl ts gsp] r]; cbn; try (split; [discriminate|intros [? [? [? H]]]; discriminate]).
  destruct dl; cbn; (split; [discriminate|intros [? [? [? H]]]; discriminate]) || (split; eauto).
Qed.
Lemma l_unit_named n sp s r : (exists s', d_named unit_dict n sp s = (Ok tt, s') /\ toks s' = r) <->
  follows_name (d_item unit_dict (Named sp)) (fun c _ => used_up c) (eq tt) s tt r.
Proof.
  assert (W : forall c x, whole (fun l : list stream => (Ok tt, l)) [c] x <-> used_up c).
  { intros c []. unfold whole. cbn. split; [intros [_ H]; now inversion H|auto]. }
  rewrite <- (follows_iff _ (fun c => whole (d_inline unit_dict (Named sp)) [c]) _ _ _ _ _ W).
  apply (named_follows (d_item unit_dict) (d_inline unit_dict) (d_flag unit_dict)); [exact (gd_inline _ good_unit)|].
  intros []. cbn. tauto.
Qed.
Lemma l_smallstring m s v s' : d_item smallstring_dict m s = (Ok v, s') <->
  exists x sp, toks s = TLit (LStr x) sp :: toks s' /\ v = env_show (TLit (LStr x) sp) /\ scope s' = scope s /\ cell s' = cell s.
Proof.
  cbn [d_item smallstring_dict dict_item]. unfold pmap, parse_lit_str, parse_lit_as. split.
  - destruct s as [ts sc c]. cbn [toks]. intro H.
    destruct ts as [|[i isp|ch j psp|l lsp|dl gts gsp] r]; cbn [lit_rest] in H; try (now cbn in H).
    + destruct (String.eqb i "true"); [now cbn in H|]. destruct (String.eqb i "false"); now cbn in H.
    + destruct r as [|[| |l2 lsp2|] r2]; try (now cbn in H). destruct (Ascii.eqb ch "-"); [|now cbn in H].
      destruct l2; now cbn in H.
    + destruct l; try (now cbn in H). cbn in H. injection H as <- <-. exists s, lsp. cbn. auto.
  - intros [x [sp [T [-> [E F]]]]]. rewrite T. cbn. destruct s as [ts sc c], s' as [ts' sc' c']. cbn in *. now subst.
Qed.
Lemma string_lit m s x sp r : toks s = TLit (LStr x) sp :: r -> fst (d_item string_dict m s) = Ok x.
Proof. intro T. cbn [d_item string_dict dict_item]. unfold pmap, parse_lit_str, parse_lit_as. rewrite T. reflexivity. Qed.
Lemma l_small_never m s v w :
  (forall x sp, String.length x < String.length (env_show (TLit (LStr x) sp))) ->
  fst (d_item smallstring_dict m s) = Ok v -> fst (d_item string_dict m s) = Ok w -> v <> w.
Proof.
  intros Q H K. destruct (d_item smallstring_dict m s) as [r s1] eqn:E. cbn in H. subst r.
  apply l_smallstring in E. destruct E as [x [sp [T [-> _]]]]. rewrite (string_lit m s x sp _ T) in K. injection K as <-.
  intro X. pose proof (Q x sp) as L. rewrite X in L. lia.
Qed.

(** *** syn types *)
Lemma l_syn_named A (p : parser A) n sp s v r : well_behaved p ->
  (exists s', d_named (syn_dict p) n sp s = (Ok v, s') /\ toks s' = r) <-> follows_name p (only p) no_value s v r.
Proof.
  intro W. pose proof (good_syn p W) as G. rewrite <- (follows_iff _ _ _ _ _ _ _ (whole_only (fun _ => p) (Named sp))).
  apply (named_follows (fun _ => p) (def_inline (fun _ => p)) def_flag); [exact (gd_inline _ G)|]. intro x. split; [discriminate|intros []].
Qed.
Lemma l_syn_missing A (p : parser A) n sp : (exists e, d_missing (syn_dict p) n sp = Err e) /\ exists e, d_missing (paren_syn_dict p) n sp = Err e.
Proof. split; eexists; reflexivity. Qed.
Lemma l_paren_list A (p : parser A) : d_item (paren_syn_dict p) Unnamed = p.
Proof. reflexivity. Qed.
Lemma l_paren_item A (p : parser A) sp s v r :
  (exists s', d_item (paren_syn_dict p) (Named sp) s = (Ok v, s') /\ toks s' = r) <->
  exists ts gsp c, toks s = TGroup Paren ts gsp :: r /\ p (mkStream ts (SClose gsp) (cell s)) = (Ok v, c).
Proof.
  cbn [d_item paren_syn_dict dict_item]. unfold with_group. split.
  - intros [s' [H E]]. destruct (toks s) as [|[| | |[] ts gsp] rest]; try discriminate H. cbn in H. unfold group_content in H.
    destruct (p (mkStream ts (SClose gsp) (cell s))) as [x c] eqn:Q. injection H as -> <-. cbn in E. subst. eauto.
  - intros [ts [gsp [c [T Q]]]]. rewrite T. cbn. unfold group_content. rewrite Q. eauto.
Qed.
Lemma l_paren_named A (p : parser A) n sp s v r : well_behaved p ->
  (exists s', d_named (paren_syn_dict p) n sp s = (Ok v, s') /\ toks s' = r) <->
  follows_name (d_item (paren_syn_dict p) (Named sp)) (only (d_item (paren_syn_dict p) (Named sp))) no_value s v r.
Proof.
  intro W. pose proof (good_paren_syn p W) as G. set (it := d_item (paren_syn_dict p)).
  rewrite <- (follows_iff _ _ _ _ _ _ _ (whole_only it (Named sp))).
  apply (named_follows it (def_inline it) def_flag); [exact (gd_inline _ G)|]. intro x. split; [discriminate|intros []].
Qed.
Lemma l_paren_whole A (p : parser A) sp ts v : parse2 (d_item (paren_syn_dict p) (Named sp)) ts = Ok v <->
  exists b gsp c, ts = [TGroup Paren b gsp] /\ p (mkStream b (SClose gsp) None) = (Ok v, c) /\ toks c = [] /\ cell c = None.
Proof.
  unfold parse2, root_stream. cbn [d_item paren_syn_dict dict_item]. unfold with_group. cbn [toks]. split.
  - destruct ts as [|[| | |[] b gsp] rest]; try discriminate. cbn. unfold group_content.
    destruct (p (mkStream b (SClose gsp) None)) as [x c] eqn:Q. destruct x as [x|e|e]; try discriminate. unfold drop_cell.
    destruct (cell c) eqn:C; try discriminate. destruct (toks c) eqn:T; try discriminate. destruct rest; try discriminate.
    intro H. injection H as ->. exists b, gsp, c. auto.
  - intros [b [gsp [c [-> [Q [T C]]]]]]. cbn. unfold group_content. rewrite Q. unfold drop_cell. now rewrite T, C.
Qed.
End M.
