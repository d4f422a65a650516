(** The exact result of the code generated for named fields. *)
From Verif Require Export LemWalk LemWfD.

Lemma mapi_ext {A B} (g h : nat -> A -> B) l : forall i,
  (forall j a, nth_error l j = Some a -> g (i + j) a = h (i + j) a) -> mapi g i l = mapi h i l.
Proof.
  induction l as [|a l IH]; intros i H; simpl; [reflexivity|]. f_equal.
  - specialize (H 0 a eq_refl). now rewrite Nat.add_0_r in H.
  - apply IH. intros j b E. specialize (H (S j) b E). now rewrite Nat.add_succ_r in H.
Qed.
Lemma mapi_nth {A B} (g : nat -> A -> B) l : forall i j,
  nth_error (mapi g i l) j = option_map (g (i + j)) (nth_error l j).
Proof.
  induction l as [|a l IH]; intros i j; destruct j; simpl; auto; [now rewrite Nat.add_0_r|].
  rewrite IH. now rewrite Nat.add_succ_r.
Qed.
Lemma list_ext {A} (l l' : list A) : (forall j, nth_error l j = nth_error l' j) -> l = l'.
Proof.
  revert l'. induction l as [|a l IH]; intros [|b l'] H; auto.
  - specialize (H 0). discriminate.
  - specialize (H 0). discriminate.
  - f_equal; [specialize (H 0); simpl in H; congruence|]. apply IH. intro j. exact (H (S j)).
Qed.
Lemma upd_nth_nth {A} (l : list A) : forall i x j,
  nth_error (upd_nth i x l) j = if Nat.eqb i j then option_map (fun _ => x) (nth_error l j) else nth_error l j.
Proof.
  induction l as [|a l IH]; intros [|i] x [|j]; simpl; auto.
  now destruct (Nat.eqb i j).
Qed.
Lemma find_app {A} (p : A -> bool) l l' :
  find p (l ++ l') = match find p l with Some x => Some x | None => find p l' end.
Proof. induction l; simpl; auto. destruct (p a); auto. Qed.
Lemma find_none_existsb {A} (p : A -> bool) l : existsb p l = match find p l with Some _ => true | None => false end.
Proof. induction l; simpl; auto. destruct (p a); auto. Qed.

Section N.
Context {env : Env} {V : Type}.

Lemma find_field_spec k (fs : list (field V)) : forall i0 i f, find_field k fs i0 = Some (i, f) ->
  i0 <= i /\ nth_error fs (i - i0) = Some f /\ pitem f = true /\ In k (f_names f) /\
  forall j g, j < i - i0 -> nth_error fs j = Some g -> pitem g = true -> ~ In k (f_names g).
Proof.
  induction fs as [|g fs IH]; intros i0 i f H; simpl in H; [discriminate|].
  destruct (pitem g && mem_str k (f_names g)) eqn:P.
  - injection H as <- <-. apply andb_true_iff in P as [P M]. rewrite Nat.sub_diag.
    repeat split; auto. { now apply mem_str_In. } intros j g' L. lia.
  - apply IH in H. destruct H as [L [N [P2 [M O]]]]. repeat split; auto; [lia| |].
    + replace (i - i0) with (S (i - S i0)) by lia. exact N.
    + intros j g' L' N' P'. destruct j as [|j]; simpl in N'.
      * injection N' as <-. rewrite P' in P. simpl in P. now apply mem_str_false.
      * apply (O j); auto. lia.
Qed.
Lemma find_field_none k (fs : list (field V)) : forall i0, find_field k fs i0 = None <->
  (forall g, In g fs -> pitem g = true -> ~ In k (f_names g)).
Proof.
  induction fs as [|g fs IH]; intro i0; simpl; [split; auto; intros _ ? []|].
  destruct (pitem g && mem_str k (f_names g)) eqn:P.
  - apply andb_true_iff in P as [P M]. apply mem_str_In in M. split; [discriminate|].
    intro H. destruct (H g (or_introl eq_refl) P M).
  - rewrite IH. split; intros H.
    + intros h [<-|I] Q; auto. rewrite Q in P. simpl in P. now apply mem_str_false.
    + intros h I. apply H. auto.
Qed.
Lemma owner_nth (R : reader V) key i (f : field V) : owner_in R key = Some (i, f) ->
  nth_error (r_fields R) i = Some f /\ pitem f = true.
Proof.
  unfold owner_in. destruct (strip_prefix (r_prefix R) key); [|discriminate].
  intro H. apply find_field_spec in H. rewrite Nat.sub_0_r in H. tauto.
Qed.

(** *** the closure *)
Definition fields_return (fs : list (field V)) : Prop :=
  Forall (fun f => pitem f = true -> forall n sp, well_behaved (item_named f n sp)) fs.
Definition upd_named (R : reader V) (en : entry) (st : list (fstatus V) * errors)
  : list (fstatus V) * errors :=
  let '(sl, es) := st in
  match owner_in R (en_key en) with
  | None => (sl, if r_check R then check_unknown (en_key en) (en_span en) (r_allowed R) es else es)
  | Some (i, f) =>
    let st := nth i sl FNone in
    let es1 := if fs_is_none st then es
               else push es (en_span en) ("duplicate attribute for " ++ tick (first_name f)) in
    match value_at f en with
    | Ok v => (upd_nth i (if fs_is_none st then FSome v else st) sl, es1)
    | Err e => (upd_nth i (if fs_is_none st then FParseError else st) sl, push_syn es1 e)
    | Bad _ => (sl, es)
    end
  end.
Lemma closure_walk (R : reader V) u v : fields_return (r_fields R) -> r_check R = negb u && v ->
  forall p sp st s,
  named_closure (r_fields R) u (r_allowed R) (r_prefix R) v p sp st s =
  (Ok tt, upd_named R (mkEntry p sp s) st, eat_named R (mkEntry p sp s)).
Proof.
  intros G C p sp [sl es] s. unfold named_closure, upd_named, eat_named. cbn [en_key en_span en_at].
  rewrite <- C. pose proof (owner_nth R p) as ON. unfold owner_in in *.
  destruct (strip_prefix (r_prefix R) p) as [k|]; [|reflexivity].
  destruct (find_field k (r_fields R) 0) as [[i f]|]; [|reflexivity].
  destruct (ON i f eq_refl) as [N P]. apply nth_error_In in N.
  unfold fields_return in G. rewrite Forall_forall in G.
  pose proof (G f N P (first_name f) sp s) as W.
  unfold fs_parse_named, value_at. cbn [en_key en_span en_at].
  destruct (item_named f (first_name f) sp s) as [[v0|e|b] s1]; [reflexivity..|destruct W as [[] _]].
Qed.
Lemma eat_named_adv (R : reader V) : fields_return (r_fields R) ->
  forall en, advances (en_at en) (eat_named R en).
Proof.
  intros G en. unfold eat_named. pose proof (owner_nth R (en_key en)) as ON.
  destruct (owner_in R (en_key en)) as [[i f]|]; [|apply adv_skip].
  destruct (ON i f eq_refl) as [N P]. apply nth_error_In in N.
  unfold fields_return in G. rewrite Forall_forall in G.
  pose proof (G f N P (first_name f) (en_span en) (en_at en)) as W.
  destruct (item_named f (first_name f) (en_span en) (en_at en)) as [[v0|e|b] s1]; destruct W as [_ W];
    cbn [snd] in W; eauto using adv_skip with adv.
Qed.

(** *** the fold *)
Definition slots_of (R : reader V) (l : list entry) := mapi (slot_of R l) 0 (r_fields R).
Lemma slots_of_nil (R : reader V) : slots_of R [] = init_slots (r_fields R).
Proof.
  unfold slots_of, init_slots. generalize 0. induction (r_fields R); intro i; simpl; [reflexivity|].
  f_equal. apply IHl.
Qed.
Lemma nth_slots (R : reader V) l i (f : field V) : nth_error (r_fields R) i = Some f ->
  nth i (slots_of R l) FNone = slot_of R l i f.
Proof.
  intro N. apply nth_error_nth. unfold slots_of. rewrite mapi_nth, N. reflexivity.
Qed.
Lemma slot_none (R : reader V) l i (f : field V) :
  fs_is_none (slot_of R l i f) = negb (existsb (mine R i) l).
Proof.
  rewrite find_none_existsb. unfold slot_of. destruct (find (mine R i) l); [|reflexivity].
  destruct (value_at f e); reflexivity.
Qed.
Lemma slots_step (R : reader V) b en : match owner_in R (en_key en) with
                          | None => slots_of R (b ++ [en]) = slots_of R b
                          | Some (i, f) =>
                            slots_of R (b ++ [en]) =
                            upd_nth i (if existsb (mine R i) b then slot_of R b i f
                                       else match value_at f en with Ok v => FSome v | _ => FParseError end)
                                    (slots_of R b)
                          end.
Proof.
  destruct (owner_in R (en_key en)) as [[i f]|] eqn:O.
  - apply list_ext. intro j. rewrite upd_nth_nth. unfold slots_of. rewrite !mapi_nth. cbn [Nat.add].
    destruct (owner_nth _ _ _ _ O) as [N _].
    destruct (nth_error (r_fields R) j) as [g|] eqn:Nj; cbn [option_map]; [|now destruct (Nat.eqb i j)].
    assert (M : forall j, mine R j en = Nat.eqb j i) by (intro; unfold mine; now rewrite O).
    destruct (Nat.eqb i j) eqn:E.
    + apply Nat.eqb_eq in E. subst j. rewrite N in Nj. injection Nj as <-.
      f_equal. unfold slot_of. rewrite find_app. rewrite find_none_existsb.
      destruct (find (mine R i) b); [reflexivity|]. cbn [find]. rewrite M, Nat.eqb_refl. reflexivity.
    + f_equal. unfold slot_of. rewrite find_app. destruct (find (mine R j) b); [reflexivity|].
      cbn [find]. rewrite M, Nat.eqb_sym, E. reflexivity.
  - unfold slots_of. apply mapi_ext. intros j g _. unfold slot_of. rewrite find_app.
    destruct (find (mine R (0 + j)) b); [reflexivity|]. cbn [find]. unfold mine at 1. rewrite O. reflexivity.
Qed.
Lemma fold_named (R : reader V) : fields_return (r_fields R) -> forall l b es,
  fold_entries (upd_named R) l (slots_of R b, es) =
  (slots_of R (b ++ l), es ++ entries_errors R b l).
Proof.
  intro G. induction l as [|en l IH]; intros b es.
  { simpl. now rewrite !app_nil_r. }
  cbn [fold_entries fold_left entries_errors]. unfold fold_entries in IH.
  replace (b ++ en :: l) with ((b ++ [en]) ++ l) by (now rewrite <- app_assoc).
  rewrite app_assoc. rewrite <- IH. f_equal.
  pose proof (slots_step R b en) as S. pose proof (owner_nth R (en_key en)) as ON.
  unfold upd_named, entry_errors. destruct (owner_in R (en_key en)) as [[i f]|].
  - destruct (ON i f eq_refl) as [N P]. rewrite (nth_slots R b i f N), slot_none.
    rewrite S. pose proof (nth_error_In _ _ N) as I.
    unfold fields_return in G. rewrite Forall_forall in G.
    pose proof (G f I P (first_name f) (en_span en) (en_at en)) as W. unfold value_at in *.
    destruct (item_named f (first_name f) (en_span en) (en_at en)) as [[v0|e|b0] s1]; [..|destruct W as [[] _]];
      cbn [fst]; destruct (existsb (mine R i) b); cbn [negb]; unfold push, push_syn, err1; cbn;
      rewrite ?app_nil_r, <- ?app_assoc; reflexivity.
  - rewrite S. f_equal. unfold check_unknown. destruct (r_check R); cbn [andb]; [|now rewrite app_nil_r].
    destruct (mem_str (en_key en) (r_allowed R)); cbn [negb]; [now rewrite app_nil_r|reflexivity].
Qed.

(** *** after the keys *)
Definition flats_return (R : reader V) sp : Prop :=
  forall f l, In f (r_fields R) -> pflat f = true ->
    returns (fst (flat_call f (r_prefix R) sp (r_allowed R) l)).
Lemma skipn_cons_nth {A} (l : list A) i a l' : skipn i l = a :: l' -> skipn (S i) l = l' /\ nth_error l i = Some a.
Proof.
  revert i. induction l as [|b l IH]; intros [|i] H; simpl in *; try discriminate.
  - injection H as <- <-. auto.
  - apply IH in H. destruct l; exact H.
Qed.
Lemma flat_fields_exact (R : reader V) sp inputs : flats_return R sp ->
  forall fs i ins (g : nat -> field V -> fstatus V) es, skipn i (r_fields R) = fs ->
  (existsb pflat fs = true -> ins = inputs) ->
  fst (flat_fields (r_prefix R) sp (r_allowed R) fs (mapi g i fs) es ins) =
  Ok (mapi (fun j f => after_flat R sp inputs j f (g j f)) i fs,
      es ++ flat_mapi (fun j f => opt_errors (flat_out R sp inputs j f)) i fs).
Proof.
  intro G. induction fs as [|f fs IH]; intros i ins g es K L; cbn [mapi flat_fields].
  { unfold flat_mapi. simpl. now rewrite app_nil_r. }
  destruct (skipn_cons_nth _ _ _ _ K) as [K2 N].
  assert (FO : flat_out R sp inputs i f =
    if pflat f then Some (fst (flat_call f (r_prefix R) sp (r_allowed R)
      (if existsb pflat fs then fork_inputs inputs else inputs))) else None)
    by (unfold flat_out, flat_in; now rewrite K2).
  assert (AF : after_flat R sp inputs i f (g i f) =
    match flat_out R sp inputs i f with None => g i f | Some (Ok v) => FSome v | Some _ => FParseError end)
    by reflexivity.
  unfold flat_mapi. cbn [mapi concat]. rewrite AF, FO. clear AF FO. cbn [existsb] in L.
  destruct (pflat f) eqn:P.
  - rewrite (L eq_refl).
    assert (X : (if negb (existsb pflat fs) then inputs else fork_inputs inputs) =
                (if existsb pflat fs then fork_inputs inputs else inputs)) by now destruct (existsb pflat fs).
    rewrite X. pose proof (G f (if existsb pflat fs then fork_inputs inputs else inputs) (nth_error_In _ _ N) P) as W.
    destruct (flat_call f (r_prefix R) sp (r_allowed R) (if existsb pflat fs then fork_inputs inputs else inputs))
      as [r ins1]. cbn [fst] in *.
    set (ins2 := if negb (existsb pflat fs) then ins1 else inputs).
    assert (L2 : existsb pflat fs = true -> ins2 = inputs) by (unfold ins2; intros ->; reflexivity).
    destruct r; [| |destruct W].
    + specialize (IH (S i) ins2 g es K2 L2). destruct (flat_fields _ sp _ fs _ es ins2) as [r2 ins3].
      cbn [fst] in IH. rewrite IH. cbn [fst opt_errors]. reflexivity.
    + specialize (IH (S i) ins2 g (push_syn es e) K2 L2). destruct (flat_fields _ sp _ fs _ _ ins2) as [r2 ins3].
      cbn [fst] in IH. rewrite IH. cbn [fst opt_errors]. unfold push_syn. now rewrite <- app_assoc.
  - specialize (IH (S i) ins g es K2 L). destruct (flat_fields _ sp _ fs _ es ins) as [r2 ins3].
    cbn [fst] in IH. rewrite IH. cbn [fst opt_errors]. reflexivity.
Qed.

Lemma containers_exact (tm : tmode V) : forall fs i g,
  set_containers tm fs (mapi g i fs) = mapi (fun j f => after_container tm f (g j f)) i fs.
Proof.
  unfold after_container. destruct tm; intros fs i g.
  - destruct fs; reflexivity.
  - revert i g. induction fs as [|f fs IH]; intros i g; [reflexivity|].
    cbn [mapi set_containers]. now rewrite IH.
Qed.
Definition missing_return (R : reader V) (tm : tmode V) (target : option (list V)) sp : Prop :=
  forall f d, In f (r_fields R) -> f_kind f = KItem d -> wants_error (has_target target) f = true ->
    returns (d_missing d (missing_name_named tm (r_prefix R) f) sp).
Lemma named_missing_exact (R : reader V) tm target sp : missing_return R tm target sp ->
  forall fs i (g : nat -> field V -> fstatus V) es, incl fs (r_fields R) ->
  named_missing tm (has_target target) (r_prefix R) sp fs (mapi g i fs) es =
  Ok (mapi (fun j f => after_missing R tm target sp f (g j f)) i fs,
      es ++ flat_mapi (fun j f => opt_errors (missing_out R tm target sp f (g j f))) i fs).
Proof.
  intro G. induction fs as [|f fs IH]; intros i g es I; cbn [mapi named_missing].
  { unfold flat_mapi. simpl. now rewrite app_nil_r. }
  assert (I1 : In f (r_fields R)) by (apply I; now left).
  assert (I2 : incl fs (r_fields R)) by (intros x X; apply I; now right).
  assert (AM : after_missing R tm target sp f (g i f) =
    match missing_out R tm target sp f (g i f) with Some (Ok v) => FSome v | _ => g i f end) by reflexivity.
  unfold flat_mapi. cbn [mapi concat]. rewrite AM. clear AM. unfold missing_out at 1 2.
  destruct (f_kind f) eqn:K.
  1: destruct (wants_error (has_target target) f && fs_is_none (g i f)) eqn:W.
  1: { apply andb_true_iff in W as [W _]. pose proof (G f d I1 K W) as RT.
       destruct (d_missing d (missing_name_named tm (r_prefix R) f) sp); [| |destruct RT];
       rewrite IH by auto; cbn [opt_errors]; unfold flat_mapi, push_syn; rewrite <- ?app_assoc; reflexivity. }
  all: rewrite IH by auto; reflexivity.
Qed.
Lemma run_transforms_es (ts : list (transform V)) : forall st es,
  run_transforms ts st es = (fst (run_transforms ts st []), es ++ snd (run_transforms ts st [])).
Proof.
  induction ts as [|t ts IH]; intros st es; simpl; [now rewrite app_nil_r|].
  destruct t as [g|g]; [apply IH|]. destruct st; try apply IH. destruct (g a) as [w|e]; [apply IH|].
  rewrite IH. rewrite (IH _ (push_syn [] e)). cbn [fst snd]. unfold push_syn. now rewrite <- app_assoc.
Qed.
Lemma field_sets_exact : forall (fs : list (field V)) i g es,
  field_sets fs (mapi g i fs) es =
  (mapi (fun j f => fst (set_field f (g j f) [])) i fs,
   es ++ flat_mapi (fun j f => snd (set_field f (g j f) [])) i fs).
Proof.
  induction fs as [|f fs IH]; intros i g es; cbn [mapi field_sets].
  { unfold flat_mapi. simpl. now rewrite app_nil_r. }
  unfold flat_mapi. cbn [mapi concat].
  assert (SF : set_field f (g i f) es = (fst (set_field f (g i f) []), es ++ snd (set_field f (g i f) [])))
    by apply run_transforms_es.
  rewrite SF, IH. unfold flat_mapi. rewrite <- app_assoc. reflexivity.
Qed.

(** the exact result *)
Lemma named_body_exact (R : reader V) u v tm target sp inputs :
  fields_return (r_fields R) -> flats_return R sp -> missing_return R tm target sp ->
  r_check R = negb u && v ->
  let src := if existsb pflat (r_fields R) then fork_inputs inputs else inputs in
  let '(l, stop, _) := walks (eat_named R) src in
  let ins := if existsb pflat (r_fields R) then inputs else snd (walks (eat_named R) src) in
  fst (named_body (r_fields R) tm target u (r_allowed R) sp (r_prefix R) v inputs) =
  match all_errors R tm target sp ins l stop with
  | [] => post_ret target (mapi (fun i f => fst (final R tm target sp ins l i f)) 0 (r_fields R))
  | e :: es => Err (mkSyn e es)
  end.
Proof.
  intros G1 G2 G3 C. cbv zeta. unfold named_body. cbv zeta.
  set (src := if existsb pflat (r_fields R) then fork_inputs inputs else inputs).
  rewrite (parse_struct_walk _ (upd_named R) (eat_named R)
             (closure_walk R u v G1 C) (eat_named_adv R G1)).
  rewrite <- slots_of_nil, fold_named by auto. cbn [app].
  destruct (walks (eat_named R) src) as [[l stop] src1] eqn:W. cbn [fst snd].
  set (ins := if existsb pflat (r_fields R) then inputs else src1).
  assert (X : forall A (r : res unit) (b : bad -> A) (k : A), (forall x, r <> Bad x) ->
     match r with Bad x => b x | _ => k end = k).
  { intros. destruct r; auto. destruct (H b0 eq_refl). }
  rewrite X by (destruct stop; discriminate).
  unfold named_post. unfold slots_of.
  set (es0 := push_result _ _).
  pose proof (flat_fields_exact R sp ins G2 (r_fields R) 0 ins (slot_of R l) es0 eq_refl (fun _ => eq_refl)) as FF.
  destruct (flat_fields (r_prefix R) sp (r_allowed R) (r_fields R) (mapi (slot_of R l) 0 (r_fields R)) es0 ins)
    as [rf insf]. cbn [fst] in FF. subst rf. cbn [fst].
  rewrite containers_exact. rewrite (named_missing_exact R tm target sp G3) by apply incl_refl. cbn [rbind].
  unfold post_finish. rewrite field_sets_exact.
  match goal with |- rbind (check ?a) _ = match ?b with _ => _ end => assert (Q : a = b) end.
  { unfold all_errors, es0. rewrite <- !app_assoc.
    destruct stop; cbn [stop_res push_result]; unfold push_syn; rewrite <- ?app_assoc; reflexivity. }
  rewrite Q. destruct (all_errors R tm target sp ins l stop); reflexivity.
Qed.
End N.
