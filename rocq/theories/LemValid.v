(** Lemmas for PropsValid.v: the prefix given to a validation. *)
From Verif Require Export SpecValid.
From Verif Require Import LemSmall.

Lemma present_under p attrs : present (under p attrs) = present attrs.
Proof. unfold present, under. induction attrs as [|a l IH]; cbn; [reflexivity|]. now rewrite IH. Qed.

Lemma l_valid_only : forall attrs prefix es,
  only_one attrs prefix es = only_one (under prefix attrs) "" es.
Proof.
  intros attrs prefix es. unfold only_one. rewrite present_under.
  destruct (Nat.eqb _ 2); [|reflexivity].
  assert (E : forall s,
    fold_left (fun ns (a : string * option span) => add_name ns (join_path "" (fst a)))
      (under prefix attrs) s =
    fold_left (fun ns (a : string * option span) => add_name ns (join_path prefix (fst a)))
      attrs s).
  { unfold under. induction attrs as [|a l IH]; intro s; [reflexivity|].
    cbn [map fold_left]. rewrite IH. reflexivity. }
  now rewrite E.
Qed.

Definition use_names (p : string) (attrs : list (string * option span)) : string :=
  quoted_list (map (fun b => join_path p (fst b))
    (filter (fun b => match snd b with None => true | _ => false end) attrs)).

Lemma use_names_under p attrs : use_names "" (under p attrs) = use_names p attrs.
Proof.
  unfold use_names, under. f_equal.
  induction attrs as [|[n [sp|]] l IH]; cbn [map filter snd fst];
    [reflexivity|exact IH|]. cbn [map fst]. f_equal. exact IH.
Qed.

Lemma all_dec (attrs : list (string * option span)) :
  (Forall is_present attrs \/ Forall (fun a => snd a = None) attrs) \/
  (Exists is_present attrs /\ Exists (fun a => snd a = None) attrs).
Proof.
  induction attrs as [|[n [sp|]] l IH]; [left; left; constructor| |];
    destruct IH as [[H|H]|[H1 H2]].
  - left; left. constructor; [|exact H]. now exists sp.
  - destruct l as [|b l]; [left; left; constructor; [now exists sp|constructor]|].
    right. split; [left; now exists sp|]. right. left. now inversion H.
  - right. split; now right.
  - destruct l as [|b l]; [left; right; repeat constructor|].
    right. split; [right; left; now inversion H|now left].
  - left; right. now constructor.
  - right. split; now right.
Qed.

Lemma l_valid_all : forall attrs prefix es,
  exists new new',
    all_or_none attrs prefix es = es ++ new /\
    all_or_none (under prefix attrs) "" es = es ++ new' /\
    Forall2 (same_up_to_prefix prefix attrs) new new'.
Proof.
  intros attrs prefix es.
  destruct (l_all_or_none attrs prefix es) as [A1 A2].
  destruct (l_all_or_none (under prefix attrs) "" es) as [B1 B2].
  destruct (all_dec attrs) as [H|[H1 H2]].
  - exists [], []. rewrite !app_nil_r. repeat split; [now apply A1| |constructor]. apply B1.
    unfold under. destruct H as [H|H]; [left|right]; apply Forall_map; exact H.
  - rewrite A2, B2; auto.
    2,3: unfold under; apply Exists_map; assumption.
    do 2 eexists. split; [reflexivity|]. split; [reflexivity|].
    fold (use_names prefix attrs). fold (use_names "" (under prefix attrs)).
    rewrite use_names_under. generalize (use_names prefix attrs). intro t. clear.
    assert (G : forall l, incl l attrs -> Forall2 (same_up_to_prefix prefix attrs)
      (flat_map (fun a : string * option span => match snd a with
         | Some sp => [mkErr sp (t ++ " must also be set in order to use `" ++ fst a ++ "`")%string]
         | None => [] end) l)
      (flat_map (fun a : string * option span => match snd a with
         | Some sp => [mkErr sp (t ++ " must also be set in order to use `" ++ fst a ++ "`")%string]
         | None => [] end) (under prefix l))).
    { induction l as [|[n [sp|]] l IH]; intro I; [constructor| |];
        cbn [flat_map under map snd fst app];
        [|apply IH; intros z Z; apply I; now right].
      constructor; [|apply IH; intros z Z; apply I; now right].
      split; [reflexivity|]. exists (t ++ " must also be set in order to use ")%string, n.
      split; [apply I; now left|]. cbn [e_msg]. rewrite !sapp_assoc. split; reflexivity. }
    apply G. intros z Z; exact Z.
Qed.

Definition bad_attrs : list (string * option span) := [("a", None); ("b", Some (SAt 2))].

Lemma l_valid_bad : exists attrs prefix es,
  all_or_none attrs prefix es <> all_or_none (under prefix attrs) "" es.
Proof. exists bad_attrs, "p", []. vm_compute. discriminate. Qed.
