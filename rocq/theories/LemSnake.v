(** Proofs about snake case (PropsSnake.v). *)
From Verif Require Export SpecSnake.
Local Open Scope list_scope.

(** *** Characters *)
Lemma upper_eq c : is_upper c = capital c. Proof. destruct c as [[] [] [] [] [] [] [] []]; reflexivity. Qed.
Lemma lower_eq c : is_lower c = small c. Proof. destruct c as [[] [] [] [] [] [] [] []]; reflexivity. Qed.
Lemma digit_eq c : is_digit c = numeral c. Proof. destruct c as [[] [] [] [] [] [] [] []]; reflexivity. Qed.
Lemma alnum_eq c : is_alnum c = alnum c.
Proof. unfold is_alnum, alnum, letter. now rewrite upper_eq, lower_eq, digit_eq. Qed.
Lemma lower_c_eq c : lower_c c = small_of c. Proof. destruct c as [[] [] [] [] [] [] [] []]; reflexivity. Qed.
Lemma capital_not_small c : capital c = true -> small c = false.
Proof. destruct c as [[] [] [] [] [] [] [] []]; vm_compute; congruence. Qed.
Lemma letter_of_capital c : capital c = true -> letter c = true. Proof. unfold letter. now intros ->. Qed.
Lemma letter_of_small c : small c = true -> letter c = true. Proof. unfold letter. intros ->. apply orb_true_r. Qed.
Lemma small_alnum c : alnum c = false -> small c = false.
Proof. unfold alnum, letter. intro H. apply orb_false_iff in H as [H _]. now apply orb_false_iff in H. Qed.

Local Arguments capital : simpl never.
Local Arguments small : simpl never.
Local Arguments numeral : simpl never.
Local Arguments small_of : simpl never.

(** *** One run of letters and digits *)
Definition tail_small (after : list ascii) : bool := match after with d :: _ => small d | [] => false end.
Definition spelt (w : list ascii) : list ascii := "_"%char :: map small_of w.
(** inside a run: no [alnum] test *)
Definition cut (before : list ascii) (c : ascii) (after : list ascii) : bool :=
  capital c && match last_letter before with Some l => small l || tail_small after | None => false end.
Fixpoint run_snake (before cs : list ascii) : list ascii :=
  match cs with
  | [] => []
  | c :: after => (if cut before c after then ["_"%char] else []) ++ [small_of c] ++ run_snake (c :: before) after
  end.
Definition letter_is (p : ascii -> bool) (before : list ascii) : Prop :=
  exists l, last_letter before = Some l /\ p l = true.
(** the state of [words] before [c], in the middle of a word *)
Definition mid (m : wmode) (before : list ascii) (cs : list ascii) : Prop :=
  match cs with
  | [] => True
  | c :: _ =>
    ~ (capital c = true /\ letter_is small before) /\
    match m with
    | WBoundary => last_letter before = None \/ small c = true
    | WLower => letter_is small before
    | WUpper => letter_is capital before
    end
  end.


Lemma words_step m cur c next cs : words m cur (c :: next :: cs) =
  let m1 := if small c then WLower else if capital c then WUpper else m in
  if match m1 with WLower => capital next | _ => false end
  then rev (c :: cur) :: words WBoundary [] (next :: cs)
  else if match m with WUpper => capital c && small next | _ => false end
  then rev cur :: words WBoundary [c] (next :: cs)
  else words m1 (c :: cur) (next :: cs).
Proof. cbn zeta. rewrite <- !lower_eq, <- !upper_eq. reflexivity. Qed.
Lemma last_small c before : small c = true -> last_letter (c :: before) = Some c.
Proof. intro S. cbn. now rewrite (letter_of_small c S). Qed.
Lemma last_capital c before : capital c = true -> last_letter (c :: before) = Some c.
Proof. intro S. cbn. now rewrite (letter_of_capital c S). Qed.
Lemma last_numeral c before : alnum c = true -> small c = false -> capital c = false -> last_letter (c :: before) = last_letter before.
Proof. intros A S U. unfold alnum, letter in A. rewrite S, U in A. cbn [orb] in A. cbn [last_letter]. unfold letter. now rewrite U, S, A. Qed.
Definition mode_after (m : wmode) (c : ascii) : wmode := if small c then WLower else if capital c then WUpper else m.
(** the mode after [c] says what the last letter is *)
Lemma mode_small m c before : alnum c = true -> mode_after m c = WLower ->
  (m = WLower -> letter_is small before) -> letter_is small (c :: before).
Proof.
  unfold mode_after. intros A E H. destruct (small c) eqn:S; [exists c; auto using last_small|]. destruct (capital c) eqn:U; [discriminate|].
  destruct (H E) as [l [L P]]. exists l. rewrite last_numeral; auto.
Qed.
Lemma mode_capital m c before : alnum c = true -> mode_after m c = WUpper ->
  (m = WUpper -> letter_is capital before) -> letter_is capital (c :: before).
Proof.
  unfold mode_after. intros A E H. destruct (small c) eqn:S; [discriminate|]. destruct (capital c) eqn:U; [exists c; auto using last_capital|].
  destruct (H E) as [l [L P]]. exists l. rewrite last_numeral; auto.
Qed.
Lemma mode_boundary m c before : alnum c = true -> mode_after m c = WBoundary ->
  m = WBoundary /\ capital c = false /\ last_letter (c :: before) = last_letter before.
Proof.
  unfold mode_after. intros A E. destruct (small c) eqn:S; [discriminate|]. destruct (capital c) eqn:U; [discriminate|]. auto using last_numeral.
Qed.
Lemma not_letters before : letter_is capital before -> letter_is small before -> False.
Proof. intros [l [E P]] [l' [E' P']]. rewrite E in E'. injection E' as <-. rewrite (capital_not_small l P) in P'. discriminate. Qed.


Lemma words_run : forall cs, Forall (fun c => alnum c = true) cs ->
  (forall m cur before, cur <> [] -> mid m before cs ->
     flat_map spelt (words m cur cs) = spelt (rev cur) ++ run_snake before cs) /\
  (forall c post before, cs = c :: post -> (last_letter before = None \/ capital c = true) ->
     flat_map spelt (words WBoundary [] cs) = spelt [c] ++ run_snake (c :: before) post).
Proof.
  induction cs as [|c cs IH]; intro A.
  { split.
    - intros m cur before NC _. cbn. destruct cur; [contradiction|]. cbn [flat_map]. now rewrite !app_nil_r.
    - intros c post before E. discriminate E. }
  pose proof (Forall_inv A) as AC. pose proof (Forall_inv_tail A) as A'. destruct (IH A') as [IH1 IH2].
  (* the mode is right in front of the next character *)
  assert (Next : forall m before next, (m = WBoundary -> last_letter before = None \/ capital c = true \/ small c = true) ->
    (m = WLower -> letter_is small before) -> (m = WUpper -> letter_is capital before) ->
    match mode_after m c with WLower => capital next | _ => false end = false ->
    mid (mode_after m c) (c :: before) (next :: cs)).
  { intros m before next B L U CA. cbn [mid]. destruct (mode_after m c) eqn:MA.
    - destruct (mode_boundary m c before AC MA) as [-> [CC E]]. rewrite E.
      assert (N : last_letter before = None).
      { destruct (B eq_refl) as [N|[N|N]]; auto; [congruence|]. unfold mode_after in MA. rewrite N in MA. discriminate. }
      split; [|auto]. intros [_ [l [X _]]]. congruence.
    - pose proof (mode_small m c before AC MA L) as LS. split; auto. intros [X _]. congruence.
    - pose proof (mode_capital m c before AC MA U) as LC. split; auto. intros [_ X]. exact (not_letters _ LC X). }
  split.
  - intros m cur before NC M. cbn [mid] in M. destruct M as [M1 M2].
    assert (R : forall x, spelt (rev (x :: cur)) = spelt (rev cur) ++ [small_of x]).
    { intro x. unfold spelt. cbn [rev]. now rewrite map_app. }
    assert (CutF : tail_small cs = false \/ m <> WUpper -> cut before c cs = false).
    { intro H. unfold cut. destruct (capital c) eqn:U; auto. cbn [andb].
      destruct (last_letter before) as [l|] eqn:L; auto. destruct (small l) eqn:S.
      - exfalso. apply M1. split; auto. exists l. auto.
      - destruct H as [->|H]; auto. destruct m; [destruct M2 as [M2|M2]; [congruence|rewrite (capital_not_small c U) in M2; discriminate]| |congruence].
        exfalso. apply M1. auto. }
    destruct cs as [|next cs].
    { cbn [words flat_map run_snake]. rewrite app_nil_r, R, CutF by auto. reflexivity. }
    rewrite words_step. cbn zeta. fold (mode_after m c).
    destruct (match mode_after m c with WLower => capital next | _ => false end) eqn:CA.
    + destruct (mode_after m c) eqn:MA; try discriminate CA.
      assert (L : letter_is small (c :: before)) by (apply (mode_small m c before AC MA); intros ->; exact M2).
      cbn [flat_map]. rewrite (IH2 next cs (c :: before) eq_refl (or_intror CA)), R.
      cbn [run_snake]. rewrite CutF by (left; cbn [tail_small]; destruct (small next) eqn:SN; auto; rewrite (capital_not_small next CA) in SN; discriminate).
      unfold cut. rewrite CA. destruct L as [l [-> SL]]. rewrite SL. cbn [andb orb app]. unfold spelt at 2. cbn [map]. now rewrite <- !app_assoc.
    + destruct (match m with WUpper => capital c && small next | _ => false end) eqn:CB.
      * destruct m; try discriminate CB. apply andb_true_iff in CB as [CC SN].
        cbn [flat_map]. rewrite (IH1 WBoundary [c] (c :: before)); [|discriminate|].
        -- cbn [run_snake]. assert (CT : cut before c (next :: cs) = true).
           { unfold cut. rewrite CC. destruct M2 as [l [-> _]]. cbn [tail_small]. now rewrite SN, orb_true_r. }
           rewrite CT. reflexivity.
        -- cbn [mid]. destruct (capital next) eqn:CN; [rewrite (capital_not_small next CN) in SN; discriminate|]. split; [intros [X _]; discriminate|auto].
      * rewrite (IH1 (mode_after m c) (c :: cur) (c :: before)); [|discriminate|].
        -- rewrite R, <- app_assoc. cbn [run_snake]. f_equal.
           replace (cut before c (next :: cs)) with false; [reflexivity|].
           symmetry. destruct m; [apply CutF; right; discriminate..|]. destruct (capital c) eqn:CC; [|unfold cut; now rewrite CC].
           apply CutF. left. exact CB.
        -- apply Next; auto; [|intros ->; exact M2..]. intros ->. destruct M2 as [M2|M2]; auto.
  - intros c0 post before E H. injection E as <- <-. destruct cs as [|next cs]; [reflexivity|].
    rewrite words_step. cbn zeta. fold (mode_after WBoundary c).
    destruct (match mode_after WBoundary c with WLower => capital next | _ => false end) eqn:CA.
    + destruct (mode_after WBoundary c) eqn:MA; try discriminate CA.
      assert (L : letter_is small (c :: before)) by (apply (mode_small WBoundary c before AC MA); discriminate).
      cbn [flat_map]. rewrite (IH2 next cs (c :: before) eq_refl (or_intror CA)).
      cbn [run_snake]. unfold cut at 1. rewrite CA. destruct L as [l [-> SL]]. rewrite SL. reflexivity.
    + rewrite (IH1 (mode_after WBoundary c) [c] (c :: before)); [reflexivity|discriminate|].
      apply Next; auto; try discriminate. intros _. destruct H; auto.
Qed.

(** *** The whole string *)
(** every word follows a `_` *)
Fixpoint snake1 (before cs : list ascii) : list ascii :=
  match cs with
  | [] => []
  | c :: after =>
    (if alnum c then (if starts_word before c after then ["_"%char] else []) ++ [small_of c] else [])
    ++ snake1 (c :: before) after
  end.
Lemma snake_started : forall cs before, existsb alnum before = true -> snake before cs = snake1 before cs.
Proof.
  induction cs as [|c cs IH]; intros before H; [reflexivity|]. cbn [snake snake1]. rewrite H. cbn [andb].
  rewrite IH; auto. cbn [existsb]. rewrite H. apply orb_true_r.
Qed.
Lemma starts_fresh before c after : existsb alnum before = false -> starts_word before c after = true.
Proof. destruct before as [|p b]; auto. cbn [existsb]. intro H. apply orb_false_iff in H as [H _]. cbn [starts_word]. now rewrite H. Qed.
Lemma snake_first : forall cs before, existsb alnum before = false -> snake before cs = tl (snake1 before cs).
Proof.
  induction cs as [|c cs IH]; intros before H; [reflexivity|]. cbn [snake snake1]. rewrite H. cbn [andb].
  destruct (alnum c) eqn:A.
  - rewrite starts_fresh by auto. cbn [app tl]. f_equal. apply snake_started. cbn [existsb]. now rewrite A.
  - cbn [app]. apply IH. cbn [existsb]. now rewrite A.
Qed.
Definition ends_run (tail : list ascii) : Prop := match tail with [] => True | x :: _ => alnum x = false end.
Lemma snake1_run : forall r before tail, Forall (fun c => alnum c = true) r -> ends_run tail ->
  match before with [] => False | p :: _ => alnum p = true end ->
  snake1 before (r ++ tail) = run_snake before r ++ snake1 (rev r ++ before) tail.
Proof.
  induction r as [|c r IH]; intros before tail A T B; [reflexivity|].
  cbn [app snake1 run_snake rev]. rewrite (Forall_inv A). rewrite (IH (c :: before) tail (Forall_inv_tail A) T (Forall_inv A)).
  replace (starts_word before c (r ++ tail)) with (cut before c r).
  - now rewrite <- !app_assoc.
  - destruct before as [|p b]; [contradiction|]. unfold starts_word, cut. rewrite B. cbn [negb orb]. destruct (last_letter (p :: b)); auto.
    destruct r as [|d r]; [|reflexivity]. cbn [app tail_small]. destruct tail as [|x tail]; auto. cbn [ends_run] in T. now rewrite (small_alnum x T).
Qed.
Lemma take_run cs : exists r tail, cs = r ++ tail /\ Forall (fun c => alnum c = true) r /\ ends_run tail.
Proof.
  induction cs as [|c cs [r [tail [-> [A T]]]]]; [exists [], []; cbn; auto|].
  destruct (alnum c) eqn:E; [exists (c :: r), tail; auto|]. exists [], (c :: r ++ tail). cbn. auto.
Qed.
Lemma runs_app : forall r cur tail, Forall (fun c => alnum c = true) r -> alnum_runs cur (r ++ tail) = alnum_runs (rev r ++ cur) tail.
Proof.
  induction r as [|c r IH]; intros cur tail A; [reflexivity|]. cbn [app alnum_runs rev]. rewrite alnum_eq, (Forall_inv A).
  rewrite IH by exact (Forall_inv_tail A). now rewrite <- app_assoc.
Qed.
Lemma run_no_letter before : ends_run before -> last_letter before = None.
Proof. destruct before as [|p b]; auto. cbn [ends_run last_letter]. unfold alnum. intro H. apply orb_false_iff in H as [-> ->]. reflexivity. Qed.
Lemma starts_run before c after : ends_run before -> starts_word before c after = true.
Proof. destruct before as [|p b]; auto. cbn [ends_run starts_word]. now intros ->. Qed.
Lemma snake_runs : forall n cs before, length cs <= n -> ends_run before ->
  flat_map spelt (flat_map (words WBoundary []) (alnum_runs [] cs)) = snake1 before cs.
Proof.
  induction n as [|n IH]; intros cs before L B.
  { destruct cs; [reflexivity|cbn in L; lia]. }
  destruct (take_run cs) as [r [tail [-> [A T]]]]. rewrite runs_app by auto. rewrite app_nil_r.
  assert (Here : flat_map spelt (words WBoundary [] r) ++ snake1 (rev r ++ before) tail = snake1 before (r ++ tail)).
  { destruct r as [|c r]; [reflexivity|].
    rewrite (proj2 (words_run (c :: r) A) c r before eq_refl) by (left; now apply run_no_letter).
    cbn [app snake1]. rewrite (Forall_inv A), starts_run by auto.
    rewrite (snake1_run r (c :: before) tail (Forall_inv_tail A) T (Forall_inv A)). cbn [rev]. now rewrite <- !app_assoc. }
  rewrite <- Here. destruct tail as [|x tail]; cbn [alnum_runs].
  - rewrite rev_involutive. cbn [flat_map snake1]. now rewrite !app_nil_r.
  - cbn [ends_run] in T. rewrite alnum_eq, T. cbn [flat_map]. rewrite rev_involutive, flat_map_app.
    f_equal. cbn [snake1]. rewrite T. cbn [app]. apply IH; auto. rewrite app_length in L. cbn in L. lia.
Qed.

Lemma string_app : forall a b, string_of_list_ascii (a ++ b) = (string_of_list_ascii a ++ string_of_list_ascii b)%string.
Proof. induction a as [|c a IH]; intro b; [reflexivity|]. cbn. now rewrite IH. Qed.
Lemma join_spelt : forall ws, join_strs "_" (map (fun w => string_of_list_ascii (map lower_c w)) ws) =
  string_of_list_ascii (tl (flat_map spelt ws)).
Proof.
  assert (E : forall w, map lower_c w = map small_of w) by (intro w; apply map_ext; intro; apply lower_c_eq).
  induction ws as [|w ws IH]; [reflexivity|]. cbn [map flat_map spelt app tl]. rewrite E. destruct ws as [|w' ws].
  - cbn. now rewrite app_nil_r.
  - cbn [map] in IH |- *. change (join_strs "_" (?a :: ?b :: ?l)) with (a ++ "_" ++ join_strs "_" (b :: l))%string.
    rewrite string_app. f_equal. rewrite IH. reflexivity.
Qed.
Theorem snake_case_form : forall s, snake_case s = snake_form s.
Proof.
  intro s. unfold snake_case, snake_form. rewrite join_spelt. f_equal.
  rewrite (snake_runs _ _ [] (le_n _) I). symmetry. now apply snake_first.
Qed.

(** *** Twice *)
Lemma small_small c : small_of (small_of c) = small_of c. Proof. destruct c as [[] [] [] [] [] [] [] []]; reflexivity. Qed.
Lemma small_not_capital c : capital (small_of c) = false. Proof. destruct c as [[] [] [] [] [] [] [] []]; reflexivity. Qed.
Lemma small_keeps c : alnum (small_of c) = alnum c. Proof. destruct c as [[] [] [] [] [] [] [] []]; reflexivity. Qed.
Lemma snake_again : forall cs before b, existsb alnum before = true -> match b with [] => False | p :: _ => alnum p = true end ->
  snake b (snake before cs) = snake before cs.
Proof.
  induction cs as [|c cs IH]; intros before b H B; [reflexivity|].
  assert (H' : existsb alnum (c :: before) = true) by (cbn [existsb]; rewrite H; apply orb_true_r).
  assert (EB : existsb alnum b = true) by (destruct b as [|p b]; [contradiction|]; cbn [existsb]; now rewrite B).
  cbn [snake]. destruct (alnum c) eqn:A; [|cbn [app]; apply IH; auto]. rewrite H. cbn [andb].
  destruct (starts_word before c cs).
  - cbn [app snake]. change (alnum "_"%char) with false. cbn [app]. rewrite small_keeps, A. cbn [existsb]. rewrite EB, orb_true_r.
    cbn [starts_word]. change (alnum "_"%char) with false. cbn [negb orb andb app]. rewrite small_small. do 2 f_equal.
    apply IH; auto. now rewrite small_keeps.
  - cbn [app snake]. rewrite small_keeps, A, EB. replace (starts_word b (small_of c) (snake (c :: before) cs)) with false.
    + cbn [andb app]. rewrite small_small. f_equal. apply IH; auto. now rewrite small_keeps.
    + destruct b as [|p b]; [contradiction|]. unfold starts_word. now rewrite B, small_not_capital.
Qed.
Lemma snake_again_first : forall cs before, existsb alnum before = false -> snake [] (snake before cs) = snake before cs.
Proof.
  induction cs as [|c cs IH]; intros before H; [reflexivity|]. cbn [snake]. rewrite H. cbn [andb]. destruct (alnum c) eqn:A.
  - cbn [app snake]. rewrite small_keeps, A. cbn [existsb andb app]. rewrite small_small. f_equal. apply snake_again.
    + cbn [existsb]. now rewrite A.
    + now rewrite small_keeps.
  - cbn [app]. apply IH. cbn [existsb]. now rewrite A.
Qed.
Lemma l_snake_stable : forall s, snake_case (snake_case s) = snake_case s.
Proof.
  intro s. rewrite !snake_case_form. unfold snake_form. rewrite list_ascii_of_string_of_list_ascii. f_equal. now apply snake_again_first.
Qed.

(** *** Identifiers *)
Definition word_char (d : ascii) : Prop := alnum d = true \/ d = "_"%char.
Lemma ident_text_eq : forall s, ident_text s = true <-> identifier s.
Proof.
  intro s. unfold ident_text, identifier. destruct s as [|c cs]; cbn [list_ascii_of_string].
  { split; [discriminate|intros [? [? [X _]]]; discriminate X]. }
  rewrite andb_true_iff, !orb_true_iff, upper_eq, lower_eq, Ascii.eqb_eq, forallb_forall.
  assert (E : forall d, is_alnum d || Ascii.eqb d "_" = true <-> alnum d = true \/ d = "_"%char).
  { intro d. now rewrite orb_true_iff, alnum_eq, Ascii.eqb_eq. }
  split.
  - intros [H F]. exists c, cs. split; auto. split.
    + unfold letter. rewrite orb_true_iff. destruct H as [[H|H]|H]; auto.
    + apply Forall_forall. intros d I. apply E. auto.
  - intros [c' [cs' [X [H F]]]]. injection X as <- <-. split.
    + unfold letter in H. rewrite orb_true_iff in H. destruct H as [[H|H]|H]; auto.
    + intros d I. apply E. rewrite Forall_forall in F. auto.
Qed.
Lemma snake_chars : forall cs before, Forall word_char (snake before cs).
Proof.
  induction cs as [|c cs IH]; intros before; [constructor|]. cbn [snake]. apply Forall_app. split; [|apply IH].
  destruct (alnum c) eqn:A; [|constructor]. apply Forall_app. split.
  - destruct (existsb alnum before && starts_word before c cs); [apply Forall_cons; [now right|apply Forall_nil]|apply Forall_nil].
  - apply Forall_cons; [left; now rewrite small_keeps|apply Forall_nil].
Qed.
Lemma snake_head : forall cs before, existsb alnum before = false ->
  (snake before cs = [] /\ Forall (fun d => alnum d = false) cs) \/
  (exists a c r t, cs = a ++ c :: r /\ Forall (fun d => alnum d = false) a /\ alnum c = true /\ snake before cs = small_of c :: t).
Proof.
  induction cs as [|c cs IH]; intros before H; [left; auto|]. cbn [snake]. rewrite H. cbn [andb]. destruct (alnum c) eqn:A.
  - right. exists [], c, cs. eexists. cbn [app]. repeat split; auto.
  - cbn [app]. destruct (IH (c :: before)) as [[E F]|[a [x [r [t [-> [F [X E]]]]]]]].
    + cbn [existsb]. now rewrite A.
    + left. auto.
    + right. exists (c :: a), x, r, t. repeat split; auto.
Qed.
Lemma small_letter c : letter (small_of c) = letter c. Proof. destruct c as [[] [] [] [] [] [] [] []]; reflexivity. Qed.
Lemma small_bar c : alnum c = true -> small_of c <> "_"%char.
Proof. intros A E. pose proof (small_keeps c) as K. rewrite E, A in K. discriminate K. Qed.
Lemma first_same (a a' : list ascii) c c' r r' : a ++ c :: r = a' ++ c' :: r' ->
  Forall (fun d => alnum d = false) a -> Forall (fun d => alnum d = false) a' -> alnum c = true -> alnum c' = true -> c = c'.
Proof.
  revert a'. induction a as [|x a IH]; intros [|x' a'] E F F' A A'; cbn [app] in E; injection E; intros.
  - auto.
  - subst. apply Forall_inv in F'. congruence.
  - subst. apply Forall_inv in F. congruence.
  - subst. eapply IH; eauto using Forall_inv_tail.
Qed.
Lemma l_snake_ident : forall s, ident_text (snake_case s) = true <-> letter_first s.
Proof.
  intro s. rewrite ident_text_eq, snake_case_form. unfold snake_form, letter_first. set (l := list_ascii_of_string s).
  destruct (snake_head l [] eq_refl) as [[E F]|[a [c [r [t [E [F [A S]]]]]]]].
  - rewrite E. split; [intros [? [? [X _]]]; discriminate X|].
    intros [b [x [z [-> [X _]]]]]. exfalso. apply Forall_app in F as [_ F]. apply Forall_inv in F.
    unfold alnum in F. rewrite X in F. discriminate F.
  - pose proof (snake_chars l []) as W. rewrite S in *. cbn [string_of_list_ascii]. split.
    + intros [c' [cs [X [[H|H] _]]]]; injection X as X1 X2; subst c'.
      * exists a, c, r. rewrite small_letter in H. auto.
      * exfalso. exact (small_bar c A H).
    + intros [a' [c' [r' [E' [L F']]]]]. assert (AL : alnum c' = true) by (unfold alnum; now rewrite L).
      rewrite E in E'. pose proof (first_same _ _ _ _ _ _ E' F F' A AL). subst c'.
      exists (small_of c), (string_of_list_ascii t). split; auto. split; [left; now rewrite small_letter|].
      rewrite list_ascii_of_string_of_list_ascii. exact (Forall_inv_tail W).
Qed.

Lemma unraw_plain : forall s, unraw s = plain_name s.
Proof.
  intro s. unfold unraw, plain_name. destruct s as [|a s]; [reflexivity|]. destruct s as [|b s].
  - destruct a as [[] [] [] [] [] [] [] []]; reflexivity.
  - destruct a as [[] [] [] [] [] [] [] []]; try reflexivity. destruct b as [[] [] [] [] [] [] [] []]; reflexivity.
Qed.
Lemma l_snake_identifier : forall s, identifier (snake_case s) <-> letter_first s.
Proof. intro s. rewrite <- ident_text_eq. apply l_snake_ident. Qed.
