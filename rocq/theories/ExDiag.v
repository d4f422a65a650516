(** Concrete sources for the examples of PropsDiag.v; their entries are found by a function. *)
From Verif Require Import LemWf LemItems LemSmall WfMore.
From Verif Require Export LemDiag8 ExOpts ExAttr.

Section C.
Context {env : Env} {O : Type}.
Variable G : grammar O.
Definition lookup {B} (k : string) (l : list (string * B)) : option (string * B) := find (fun p => String.eqb k (fst p)) l.
Definition entry_at (k : string) (sp : span) (s : stream) : option (aentry O * stream) :=
  match lookup k (gr_barred G) with
  | Some (_, msg) => Some (Barred k sp msg, if listed_in k (gr_loose G) then s else skip_item s)
  | None =>
    match lookup k (gr_keys G) with
    | Some (_, p) => match p k sp s with
                     | (Ok o, s') => Some (Good k sp o, s')
                     | (Err e, s1) => Some (Wrong k sp e, skip_item s1)
                     | _ => None
                     end
    | None => Some (Strange k sp, skip_item s)
    end
  end.
Fixpoint entries_at (fuel : nat) (s : stream) : option (list (aentry O) * stream) :=
  match fuel with
  | 0 => None
  | S fuel =>
    match toks s with
    | [] => Some ([], s)
    | _ =>
      match parse_any_path s with
      | (Ok p, s1) =>
        match entry_at (path_key p) (p_span p) s1 with
        | Some (x, s2) =>
          match toks s2 with
          | [] => Some ([x], s2)
          | TPunct c j sp :: r =>
            if Ascii.eqb c "," then
              match entries_at fuel (set_toks s2 r) with
              | Some (xs, s3) => Some (x :: xs, s3)
              | None => None
              end
            else None
          | _ => None
          end
        | None => None
        end
      | _ => None
      end
    end
  end.
Fixpoint contents_of (l : list item) : option (list stream) :=
  match l with
  | [] => Some []
  | ([], _, _) :: l' => option_map (cons (mkStream [] SCall None)) (contents_of l')
  | ([TGroup Paren content gsp], _, _) :: l' => option_map (cons (mkStream content (SClose gsp) None)) (contents_of l')
  | _ => None
  end.
Fixpoint entries_all (cs : list stream) : option (list (aentry O) * list stream) :=
  match cs with
  | [] => Some ([], [])
  | s :: cs' =>
    match entries_at 50 s, entries_all cs' with
    | Some (xs, s'), Some (ys, l) => Some (xs ++ ys, s' :: l)
    | _, _ => None
    end
  end.
Definition up (s : stream) : bool := match toks s, cell s with [], None => true | _, _ => false end.
Definition entries_for (l : list attr) : option (list (aentry O)) :=
  match contents_of (deluxe_items l) with
  | Some cs => match entries_all cs with
               | Some (xs, cs') => if forallb up cs' then Some xs else None
               | None => None
               end
  | None => None
  end.
Lemma look_some {B} k (l : list (string * B)) k' p : lookup k l = Some (k', p) -> In (k, p) l.
Proof. intro H. apply find_some in H as [I E]. apply String.eqb_eq in E. cbn in E. now subst. Qed.
Lemma look_none {B} k (l : list (string * B)) : lookup k l = None -> listed_in k (map fst l) = false.
Proof.
  intro H. destruct (listed_in k (map fst l)) eqn:E; auto. apply lin_in in E. apply in_map_iff in E as [[k' p] [E I]]. cbn in E. subst k'.
  pose proof (find_none _ _ H _ I) as N. cbn in N. now rewrite String.eqb_refl in N.
Qed.
Lemma skip_comma s : to_comma s (skip_item s).
Proof.
  destruct (skip_toks_spec (toks s)) as [pre [T [N E]]]. exists pre. unfold skip_item. cbn [toks set_toks]. auto.
Qed.
Lemma entry_at_ok k sp s x s' : entry_at k sp s = Some (x, s') -> entry_rest G k sp s x s'.
Proof.
  unfold entry_at. destruct (lookup k (gr_barred G)) as [[k' msg]|] eqn:B.
  - intro H. injection H as <- <-. constructor; [eapply look_some; eauto|]. destruct (listed_in k (gr_loose G)); auto. apply skip_comma.
  - apply look_none in B. destruct (lookup k (gr_keys G)) as [[k' p]|] eqn:K.
    + apply look_some in K. destruct (p k sp s) as [[o|e|b] s1] eqn:P; intro H; try discriminate H; injection H as <- <-.
      * eapply T_good; eauto.
      * eapply T_wrong; eauto. apply skip_comma.
    + apply look_none in K. intro H. injection H as <- <-. apply T_strange; auto. apply skip_comma.
Qed.
Lemma entries_at_ok : forall fuel s xs s', entries_at fuel s = Some (xs, s') -> entries_in G s xs s'.
Proof.
  induction fuel as [|fuel IH]; intros s xs s' H; [discriminate H|]. cbn [entries_at] in H.
  destruct (toks s) as [|t r0] eqn:T; [injection H as <- <-; now constructor|].
  destruct (parse_any_path s) as [[p|e|b] s1] eqn:P; try discriminate H.
  destruct (entry_at (path_key p) (p_span p) s1) as [[x s2]|] eqn:E; try discriminate H. apply entry_at_ok in E.
  assert (AK : at_key s (path_key p) (p_span p) s1) by (exists p; auto).
  assert (NE : toks s <> []) by congruence.
  destruct (toks s2) as [|[|c j csp| |] r] eqn:T2; try discriminate H.
  - injection H as <- <-. eapply N_last; eauto.
  - destruct (Ascii.eqb c ",") eqn:C; [|discriminate H]. apply Ascii.eqb_eq in C. subst c.
    destruct (entries_at fuel (set_toks s2 r)) as [[ys s3]|] eqn:R; [|discriminate H]. injection H as <- <-.
    eapply SpecDiag.N_more; eauto. eexists; eexists; reflexivity.
Qed.
Lemma entries_all_ok : forall cs xs cs', entries_all cs = Some (xs, cs') -> entries_in_all G cs xs cs'.
Proof.
  induction cs as [|s cs IH]; intros xs cs' H; cbn [entries_all] in H; [injection H as <- <-; constructor|].
  destruct (entries_at 50 s) as [[ys s']|] eqn:E; [|discriminate H]. apply entries_at_ok in E.
  destruct (entries_all cs) as [[zs l]|]; [|discriminate H]. injection H as <- <-. constructor; auto.
Qed.
Lemma contents_ok : forall l cs, contents_of l = Some cs -> Forall2 attr_content l cs.
Proof.
  induction l as [|[[ts n] sp] l IH]; intros cs H; cbn [contents_of] in H; [injection H as <-; constructor|].
  destruct ts as [|[| | |d content gsp] [|? ?]]; try discriminate H.
  - destruct (contents_of l); [|discriminate H]. injection H as <-. constructor; auto. constructor.
  - destruct d; try discriminate H. destruct (contents_of l); [|discriminate H]. injection H as <-. constructor; auto. constructor.
  - destruct d; discriminate H.
Qed.
Lemma entries_for_ok l xs : entries_for l = Some xs -> has_entries G l xs.
Proof.
  unfold entries_for. destruct (contents_of (deluxe_items l)) as [cs|] eqn:C; [|discriminate]. apply contents_ok in C.
  destruct (entries_all cs) as [[ys cs']|] eqn:E; [|discriminate]. apply entries_all_ok in E. destruct (forallb up cs') eqn:U; [|discriminate].
  intro H. injection H as <-. exists cs, cs'. split; auto. split; auto. apply Forall_forall. intros s I.
  rewrite forallb_forall in U. specialize (U s I). unfold up in U. unfold parsed_up. destruct (toks s); [|discriminate U]. destruct (cell s); [discriminate U|auto].
Qed.
Lemma use_entries {B} l (f : list (aentry O) -> B) b : option_map f (entries_for l) = Some b -> exists xs, has_entries G l xs /\ f xs = b.
Proof. destruct (entries_for l) as [xs|] eqn:E; [|discriminate]. cbn. intro H. injection H as <-. exists xs. split; auto. now apply entries_for_ok. Qed.
End C.

(** #[deluxe(skip, skip, rename = 1, append)] #[deluxe(rest, colour = 2, alias = a, alias = b, alias = b)] a *)
Definition x_bad : src_field := mkSrcField (Some ("a", SCall)) [da "skip, skip, rename = 1, append"; da "rest, colour = 2, alias = a, alias = b, alias = b"] [].
Local Existing Instance lexer_env.
Lemma x_bad_entries : exists xs, has_entries (grammar_f xsy x_bad) (sf_attrs x_bad) xs /\
  map e_msg (problems_f xsy x_bad xs) =
  ["duplicate attribute for `container`"; "expected ident"; "unknown field `colour`"; "cannot alias field to its own name";
   "duplicate alias for `b`"; "only one of `flatten`, `append`, `rest` is allowed"; "only one of `flatten`, `append`, `rest` is allowed"].
Proof. apply use_entries. vm_compute. reflexivity. Qed.

Fixpoint fields_for (fs : list src_field) : option (list sfield * list err) :=
  match fs with
  | [] => Some ([], [])
  | f :: fs' =>
    match fields_for fs' with
    | Some (gs, es) =>
      match read_field xsy f with
      | Ok g => Some (g :: gs, es)
      | _ => match entries_for (grammar_f xsy f) (sf_attrs f) with
             | Some xs => match problems_f xsy f xs with [] => None | _ => Some (gs, problems_f xsy f xs ++ es) end
             | None => None
             end
      end
    | None => None
    end
  end.
Lemma fields_for_ok : forall fs gs es, fields_for fs = Some (gs, es) -> fields_read xsy fs gs es.
Proof.
  induction fs as [|f fs IH]; intros gs es H; cbn [fields_for] in H; [injection H as <- <-; constructor|].
  destruct (fields_for fs) as [[gs' es']|]; [|discriminate H]. specialize (IH _ _ eq_refl).
  assert (BAD : match entries_for (grammar_f xsy f) (sf_attrs f) with
     | Some xs => match problems_f xsy f xs with [] => None | _ => Some (gs', problems_f xsy f xs ++ es') end
     | None => None
     end = Some (gs, es) -> fields_read xsy (f :: fs) gs es).
  { clear H. destruct (entries_for (grammar_f xsy f) (sf_attrs f)) as [xs|] eqn:E; [|discriminate]. apply entries_for_ok in E.
    destruct (problems_f xsy f xs) as [|e l] eqn:P; [discriminate|]. intro H. injection H as <- <-.
    replace (e :: l ++ es') with (problems_f xsy f xs ++ es') by (now rewrite P). apply FR_not; auto. congruence. }
  destruct (read_field xsy f) as [g|e|b] eqn:R; auto.
  injection H as <- <-. constructor; auto. now apply read_means.
Qed.
(** #[deluxe(crate = k, crate = l, transparent)] struct { #[deluxe(flatten, append)] a,
    #[deluxe(alias = c)] b, c, #[deluxe(container)] d, #[deluxe(container)] e } *)
Definition x_bads : src_struct :=
  mkSrcStruct ShNamed [nf "a" "flatten, append"; nf "b" "alias = c"; nf "c" ""; nf "d" "container"; nf "e" "container"] (at_ "crate = k, crate = l, transparent").
Lemma x_bads_entries : exists gs fes xs, fields_read xsy (ss_fields x_bads) gs fes /\
  has_entries (grammar_s xsy (ss_shape x_bads) gs) (ss_attrs x_bads) xs /\
  map e_msg (problems_s xsy (ss_shape x_bads) gs fes xs) =
  ["only one of `flatten`, `append`, `rest` is allowed"; "only one of `flatten`, `append`, `rest` is allowed";
   "duplicate attribute for `crate`"; "`transparent` struct must have only one parseable field";
   "duplicate field name for `c`"; "Duplicate `container` field"].
Proof.
  assert (X : match fields_for (ss_fields x_bads) with
              | Some (gs, fes) => option_map (fun xs => map e_msg (problems_s xsy (ss_shape x_bads) gs fes xs)) (entries_for (grammar_s xsy (ss_shape x_bads) gs) (ss_attrs x_bads))
              | None => None end = Some ["only one of `flatten`, `append`, `rest` is allowed"; "only one of `flatten`, `append`, `rest` is allowed";
   "duplicate attribute for `crate`"; "`transparent` struct must have only one parseable field";
   "duplicate field name for `c`"; "Duplicate `container` field"]) by (vm_compute; reflexivity).
  destruct (fields_for (ss_fields x_bads)) as [[gs fes]|] eqn:F; [|discriminate X]. apply fields_for_ok in F.
  apply use_entries in X as [xs [H E]]. exists gs, fes, xs. auto.
Qed.
(** #[deluxe(flatten, rename = w, colour)] V(#[deluxe(default)] a, b) *)
Definition x_badv : src_variant := sv "V" ShUnnamed [tf "default"; tf ""] "flatten, rename = w, colour".
Lemma x_badv_entries : snake_ok x_badv /\ exists gs fes xs, fields_read xsy (sv_fields x_badv) gs fes /\
  has_entries (grammar_v x_badv gs) (sv_attrs x_badv) xs /\
  map e_msg (problems_v x_badv gs fes xs) =
  ["unknown field `colour`"; "only one of `flatten`, `rename` is allowed"; "only one of `flatten`, `rename` is allowed";
   "`default` fields can only be at the end of a tuple variant"].
Proof.
  split; [apply snake_ok_text; reflexivity|].
  assert (X : match fields_for (sv_fields x_badv) with
              | Some (gs, fes) => option_map (fun xs => map e_msg (problems_v x_badv gs fes xs)) (entries_for (grammar_v x_badv gs) (sv_attrs x_badv))
              | None => None end = Some ["unknown field `colour`"; "only one of `flatten`, `rename` is allowed"; "only one of `flatten`, `rename` is allowed";
   "`default` fields can only be at the end of a tuple variant"]) by (vm_compute; reflexivity).
  destruct (fields_for (sv_fields x_badv)) as [[gs fes]|] eqn:F; [|discriminate X]. apply fields_for_ok in F.
  apply use_entries in X as [xs [H E]]. exists gs, fes, xs. auto.
Qed.
(** #[deluxe(default = 1)] enum { #[deluxe(rename = b)] A, B, #[deluxe(flatten)] C(c),
    #[deluxe(skip, skip)] D, #[deluxe(flatten)] E { #[deluxe(default)] x } } *)
Definition x_bade : src_enum :=
  mkSrcEnum [sv "A" ShUnit [] "rename = b"; sv "B" ShUnit [] ""; sv "C" ShUnnamed [tf ""] "flatten"; sv "D" ShUnit [] "skip, skip";
             sv "E" ShNamed [nf "x" "default"] "flatten"] (at_ "default = 1").
Fixpoint variants_for (vs : list src_variant) : option (list svariant * list err) :=
  match vs with
  | [] => Some ([], [])
  | v :: vs' =>
    match variants_for vs' with
    | Some (hs, es) =>
      match read_variant xsy v with
      | Ok h => Some (h :: hs, es)
      | _ => match fields_for (sv_fields v) with
             | Some (gs, fes) =>
               match entries_for (grammar_v v gs) (sv_attrs v) with
               | Some xs => if ident_text (snake_case (unraw (fst (sv_ident v)))) then
                              match problems_v v gs fes xs with [] => None | _ => Some (hs, problems_v v gs fes xs ++ es) end
                            else None
               | None => None
               end
             | None => None
             end
      end
    | None => None
    end
  end.
Lemma variants_for_ok : forall vs hs es, variants_for vs = Some (hs, es) -> variants_read xsy vs hs es.
Proof.
  induction vs as [|v vs IH]; intros hs es H; cbn [variants_for] in H; [injection H as <- <-; constructor|].
  destruct (variants_for vs) as [[hs' es']|]; [|discriminate H]. specialize (IH _ _ eq_refl).
  assert (BAD : match fields_for (sv_fields v) with
             | Some (gs, fes) =>
               match entries_for (grammar_v v gs) (sv_attrs v) with
               | Some xs => if ident_text (snake_case (unraw (fst (sv_ident v)))) then
                              match problems_v v gs fes xs with [] => None | _ => Some (hs', problems_v v gs fes xs ++ es') end
                            else None
               | None => None
               end
             | None => None
             end = Some (hs, es) -> variants_read xsy (v :: vs) hs es).
  { clear H. destruct (fields_for (sv_fields v)) as [[gs fes]|] eqn:F; [|discriminate]. apply fields_for_ok in F.
    destruct (entries_for (grammar_v v gs) (sv_attrs v)) as [xs|] eqn:E; [|discriminate]. apply entries_for_ok in E.
    destruct (ident_text (snake_case (unraw (fst (sv_ident v))))) eqn:T; [|discriminate]. apply snake_ok_text in T.
    destruct (problems_v v gs fes xs) as [|e l] eqn:P; [discriminate|]. intro H. injection H as <- <-.
    replace (e :: l ++ es') with (problems_v v gs fes xs ++ es') by (now rewrite P). apply VR_not; auto. congruence. }
  destruct (read_variant xsy v) as [h|e|b] eqn:R; auto.
  injection H as <- <-. constructor; auto. now apply (l_variant_ok xsy xsy_good).
Qed.
Definition bade_view (hs : list svariant) : list (bool * shape * list bool) :=
  map (fun h => (b_true (h_flatten h), sv_shape (h_src h), map (fun f => match g_default f with Some _ => true | None => false end) (h_fields h))) hs.
Lemma x_bade_entries : written_enum x_bade /\ exists hs ves xs fes des,
  variants_read xsy (se_variants x_bade) hs ves /\ has_entries (grammar_e xsy) (se_attrs x_bade) xs /\
  flatten_faults hs [] hs fes /\ default_fault hs xs des /\
  map e_msg (judged (grammar_e xsy) xs ++ ves ++ with_before tag_faults [] hs ++ fes ++ des) =
  ["duplicate attribute for `skip`"; "duplicate variant name for `b`"; "only enum variants with named fields can have `flatten`";
   "`default` cannot be used when a flattened variant has no unique field"].
Proof.
  split; [repeat constructor; try exact I; discriminate|].
  assert (X : option_map (fun q => (bade_view (fst q), map e_msg (snd q), map e_msg (with_before tag_faults [] (fst q)))) (variants_for (se_variants x_bade)) =
    Some ([(false, ShUnit, []); (false, ShUnit, []); (true, ShUnnamed, [false]); (true, ShNamed, [true])], ["duplicate attribute for `skip`"], ["duplicate variant name for `b`"])) by (vm_compute; reflexivity).
  destruct (variants_for (se_variants x_bade)) as [[hs ves]|] eqn:F; [|discriminate X]. apply variants_for_ok in F.
  cbn [option_map fst snd] in X. injection X as V E1 E2.
  assert (Y : exists xs, has_entries (grammar_e xsy) (se_attrs x_bade) xs /\
    (map e_msg (judged (grammar_e xsy) xs), opt_some (first_value "default" (fun o => match o with EDefault x => Some x | _ => None end) xs)) = ([], true)).
  { apply use_entries. vm_compute. reflexivity. }
  destruct Y as [xs [H Y]]. injection Y as J D.
  destruct hs as [|h1 [|h2 [|h3 [|h4 [|]]]]]; try discriminate V. cbn in V. injection V as A1 A2 A3 B1 B2 B3 C1 C2 C3 D1 D2 D3.
  assert (NR : ~ some_required h4).
  { intros [f [If RQ]]. destruct (h_fields h4) as [|g [|]]; try discriminate D3. destruct If as [<-|[]]. cbn in D3. destruct RQ as [_ [_ RQ]]. rewrite RQ in D3. discriminate D3. }
  destruct (first_value "default" (fun o => match o with EDefault x => Some x | _ => None end) xs) as [d|] eqn:FV; [|discriminate D].
  eexists [h1; h2; h3; h4], ves, xs, _, _. split; [exact F|]. split; [exact H|]. split; [|split].
  - econstructor; [apply FF_tagged; exact A1|]. econstructor; [apply FF_tagged; exact B1|].
    econstructor; [apply FF_shape; [exact C1|rewrite C2; discriminate]|]. econstructor; [|constructor].
    apply FF_fine; auto.
    + intros w _ _ [S _]. exact (NR S).
    + intros w [<-|[<-|[<-|[]]]] FL SH; unfold flattened in FL; congruence.
  - apply (DF_unused _ _ d h4); auto. right. right. right. now left.
  - rewrite !map_app, J, E1, E2. reflexivity.
Qed.
(** the value of flatten(prefix = a, prefix = b, x) *)
Lemma x_inline : exists xs l', entries_in_all grammar_flatten [mkStream (tk "prefix = a, prefix = b, x") SCall None] xs l' /\
  map e_msg (judged grammar_flatten xs) = ["duplicate attribute for `prefix`"; "unknown field `x`"].
Proof.
  assert (X : option_map (fun q => map e_msg (judged grammar_flatten (fst q))) (entries_all grammar_flatten [mkStream (tk "prefix = a, prefix = b, x") SCall None]) =
    Some ["duplicate attribute for `prefix`"; "unknown field `x`"]) by (vm_compute; reflexivity).
  destruct (entries_all _ _) as [[xs l']|] eqn:E; [|discriminate X]. exists xs, l'. split; [now apply entries_all_ok|]. cbn [option_map fst] in X. injection X as X. exact X.
Qed.
Lemma x_inline_c : exists xs l', entries_in_all (grammar_container xsy) [mkStream (tk "ty = a, lifetime = b, ty") SCall None] xs l' /\
  map e_msg (judged (grammar_container xsy) xs) = ["expected lifetime"; "duplicate attribute for `ty`"; "unexpected flag, expected `=` or parentheses"].
Proof.
  assert (X : option_map (fun q => map e_msg (judged (grammar_container xsy) (fst q))) (entries_all (grammar_container xsy) [mkStream (tk "ty = a, lifetime = b, ty") SCall None]) =
    Some ["expected lifetime"; "duplicate attribute for `ty`"; "unexpected flag, expected `=` or parentheses"]) by (vm_compute; reflexivity).
  destruct (entries_all _ _) as [[xs l']|] eqn:E; [|discriminate X]. exists xs, l'. split; [now apply entries_all_ok|]. cbn [option_map fst] in X. injection X as X. exact X.
Qed.
Lemma x_inline_t : exists xs l', entries_in_all grammar_transparent [mkStream (tk "rest = 1, append, append = false") SCall None] xs l' /\
  map e_msg (judged grammar_transparent xs) = ["expected boolean literal"; "duplicate attribute for `append`"].
Proof.
  assert (X : option_map (fun q => map e_msg (judged grammar_transparent (fst q))) (entries_all grammar_transparent [mkStream (tk "rest = 1, append, append = false") SCall None]) =
    Some ["expected boolean literal"; "duplicate attribute for `append`"]) by (vm_compute; reflexivity).
  destruct (entries_all _ _) as [[xs l']|] eqn:E; [|discriminate X]. exists xs, l'. split; [now apply entries_all_ok|]. cbn [option_map fst] in X. injection X as X. exact X.
Qed.
Lemma x_lost : let env := lexer_env in accepted_struct xal /\
  (forall txt, Forall2 attr_content (xitems txt) (xcs txt)) /\
  (let body := struct_attr_body xal (VI 0) (attr_names (xitems "a = true, b = 1")) in
   first_left (xitems "a = true, b = 1") (snd (body (xcs "a = true, b = 1"))) = None) /\
  (let body := struct_attr_body xal (VI 0) (attr_names (xitems "a = true, u(1)")) in
   (exists e, fst (body (xcs "a = true, u(1)")) = Err e) /\
   exists sp, first_left (xitems "a = true, u(1)") (snd (body (xcs "a = true, u(1)"))) = Some sp).
Proof.
  cbv zeta. split; [exact xal_ok|]. split; [exact xcontents|]. split; [vm_compute; reflexivity|]. split; eexists; vm_compute; reflexivity.
Qed.

(** `a = 1, f = (2)` with a field f: (): the `2` is left over *)
Lemma x_parse2_left : exists v s, d_inline (struct_dict (named [it "a" i32; it "f" un])) (Named SCall) [root_stream (tk "a = 1, f = (2)")] = (Ok v, [s]) /\
  left_at s <> None.
Proof. eexists _, _. split; [vm_compute; reflexivity|]. vm_compute. discriminate. Qed.
