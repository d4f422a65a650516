(** C95: a value that stands in a single attribute. *)
From Verif Require Export LemAttr2.

Section F.
Context {env : Env} {V : Type}.

(** parse_first reads the first stream and nothing else *)
Lemma first_local {A} m (f : mode -> parser A) c rest :
  parse_first m f (c :: rest) = (fst (parse_first m f [c]), snd (parse_first m f [c]) ++ rest).
Proof. unfold parse_first. destruct ((a <- f m ;; parse_eof ;;; pret a) c) as [r s1]. reflexivity. Qed.
Lemma first_one {A} m (f : mode -> parser A) c : exists c1, snd (parse_first m f [c]) = [c1].
Proof. unfold parse_first. destruct ((a <- f m ;; parse_eof ;;; pret a) c) as [r s1]. exists s1. reflexivity. Qed.

Lemma with_local (s : sdef V) tm m (f : mode -> parser V) (p : mparser V) i c rest :
  (forall l, p l = parse_first m f l) ->
  exists c1, s_transparent_with s tm p i (c :: rest) =
    (fst (s_transparent_with s tm p i [c]), c1 :: rest) /\
    snd (s_transparent_with s tm p i [c]) = [c1].
Proof.
  intro P. destruct (first_one m f c) as [c1 E]. exists c1. unfold s_transparent_with, p_and_thens, pbind.
  rewrite !P, first_local, E. destruct (parse_first m f [c]) as [[v|e|b] l]; cbn [fst snd] in *; subst l; auto.
Qed.

Lemma l_first_attribute (s : sdef V) conv a rest ws item :
  accepted_struct s -> s_is_transparent s = true ->
  (forall m l, d_inline (snd (s_inner s)) m l = parse_first m item l) ->
  derived_matches (s_attributes s) (a_path a) = true ->
  struct_parse_attributes s conv (ONode (a :: rest)) = Ok ws <->
  struct_parse_attributes s (fun _ => conv (ONode (a :: rest))) (ONode [a]) = Ok ws /\
  (forall b, In b rest -> derived_matches (s_attributes s) (a_path b) = true ->
   exists c, attr_content (attr_item b) c /\ used_up c).
Proof.
  intros A T I M. rewrite !l_struct_attributes by exact A. unfold ref_tokens. cbn [attrs filter]. rewrite M. cbn [map].
  set (l := map attr_item (filter (fun b => derived_matches (s_attributes s) (a_path b)) rest)).
  set (obj := conv (ONode (a :: rest))).
  assert (B : forall l' c cs, exists c1,
    struct_attr_body s obj (attr_names (attr_item a :: l')) (c :: cs) =
      (fst (struct_attr_body s obj (attr_names [attr_item a]) [c]), c1 :: cs) /\
    snd (struct_attr_body s obj (attr_names [attr_item a]) [c]) = [c1]).
  { intros l' c cs. unfold struct_attr_body. rewrite T. destruct (s_inner s) as [i d]. cbn [snd] in I.
    unfold attr_names, attr_path_name, first_path_name, first_span. cbn [map]. destruct (attr_item a) as [[ts n] sp].
    eapply with_local. intro. apply I. }
  assert (E : Forall (fun it => exists c, attr_content it c /\ used_up c) l <->
    forall b, In b rest -> derived_matches (s_attributes s) (a_path b) = true -> exists c, attr_content (attr_item b) c /\ used_up c).
  { unfold l. rewrite Forall_forall. split.
    - intros H b J K. apply H. apply in_map. apply filter_In. auto.
    - intros H it J. apply in_map_iff in J. destruct J as [b [<- J]]. apply filter_In in J. now apply H. }
  rewrite <- E. clear E. split.
  - intros (cs & C & R & P). inversion C as [|x c xs cs' C1 C2]; subst. destruct (B l c cs') as (c1 & Q & U).
    rewrite Q in R, P. cbn [fst snd] in R, P. inversion P as [|x c' xs cs'' P1 P2]; subst. split.
    + exists [c]. split; [constructor; [exact C1|constructor]|]. split; [exact R|]. rewrite U. constructor; [exact P1|constructor].
    + clear - C2 P2. revert P2. induction C2 as [|it c0 l0 cs0 H H0 IH]; intro P; [constructor|]. inversion P; subst.
      constructor; [|auto]. exists c0. split; [exact H|]. now destruct H4.
  - intros [(cs & C & R & P) F]. inversion C as [|x c xs cs' C1 C2]; subst. inversion C2; subst.
    assert (G : exists cs, Forall2 attr_content l cs /\ Forall2 all_parsed l cs).
    { clear - F. induction F as [|it l0 [c [H U]] F [cs [IH1 IH2]]]; [exists []; split; constructor|].
      exists (c :: cs). split; constructor; auto. split; [exact U|]. right. now inversion H. }
    destruct G as (cs & G1 & G2). exists (c :: cs). destruct (B l c cs) as (c1 & Q & U). rewrite Q. cbn [fst snd].
    rewrite U in P. inversion P; subst. split; [constructor; auto|]. split; [exact R|]. constructor; auto.
Qed.

(** without any attribute *)
Lemma l_first_none {A} m (f : mode -> parser A) e : fst (parse_first m f []) = Err e ->
  exists e0, parse2 (f m) [] = Err e0 /\ map e_msg (errs_of e) = map e_msg (errs_of e0) /\ se_tl e = se_tl e0 /\
    e_span (se_hd e) = match m with Named sp => sp | Unnamed => SCall end.
Proof.
  unfold parse_first, parse_empty. cbn [fst]. destruct (parse2 (f m) []) as [v|e0|b]; try discriminate. intro H. injection H as <-.
  exists e0. repeat split.
Qed.
End F.
