(** Concrete sources for PropsOff.v. *)
From Verif Require Export LemOff2 ExOpts.

Ltac key_at := eexists; split; [vm_compute; reflexivity|split; vm_compute; reflexivity].
Ltac opt_is c := apply c; [reflexivity|vm_compute; reflexivity].
Ltac one_opt c := eapply W_last; [discriminate|key_at|opt_is c|reflexivity].
Ltac more_opt c := eapply W_more; [discriminate|key_at|opt_is c|vm_compute; reflexivity|eexists; eexists; reflexivity|].
Ltac has_opts t := eexists; eexists; split; [constructor; [apply AC_list|constructor]|]; split;
  [econstructor; [t|constructor]|constructor; [|constructor]; split; [left; reflexivity|right; reflexivity]].

(** struct { #[deluxe(rename = b, skip = false)] a, #[deluxe(append = false)] c }
    with #[deluxe(allow_unknown_fields = false)], and without the `false` options *)
Definition x_off : src_struct :=
  mkSrcStruct ShNamed [nf "a" "rename = b, skip = false"; nf "c" "append = false"] (at_ "allow_unknown_fields = false").
Definition x_on : src_struct := mkSrcStruct ShNamed [nf "a" "rename = b"; nf "c" ""] [].
Lemma less_nil {O} (spells : string -> span -> stream -> O -> stream -> Prop) on : less spells on [] [].
Proof. exists []. split; apply no_options. Qed.
Lemma less_some {O} (spells : string -> span -> stream -> O -> stream -> Prop) (on : O -> bool) l l' os os' :
  has_options spells l os -> has_options spells l' os' -> filter on os = os' -> less spells on l l'.
Proof. intros A B E. exists os. rewrite E. auto. Qed.
Lemma x_less : less_struct xsy x_off x_on.
Proof.
  split; [reflexivity|]. split.
  - constructor; [|constructor; [|constructor]]; (split; [reflexivity|split; [reflexivity|]]).
    + eapply less_some.
      * has_opts ltac:(more_opt (SF_rename xsy); one_opt (SF_skip xsy)).
      * has_opts ltac:(one_opt (SF_rename xsy)).
      * vm_compute. reflexivity.
    + eapply less_some; [has_opts ltac:(one_opt (SF_append xsy))|apply no_options|vm_compute; reflexivity].
  - eapply less_some; [has_opts ltac:(one_opt (SS_unknown xsy))|apply no_options|vm_compute; reflexivity].
Qed.
Lemma ok_some {A} (r : res A) : is_ok_ r = true -> exists a, r = Ok a.
Proof. destruct r; intros E; try discriminate E. eauto. Qed.
Lemma x_off_ok : exists d, derive_attr_struct xsy x_off = Ok d.
Proof. apply ok_some. vm_compute. reflexivity. Qed.

(** enum { #[deluxe(flatten = false, transparent = false)] A { #[deluxe(container = false)] x },
           #[deluxe(skip = false)] B } with #[deluxe(allow_unknown_fields = false)] *)
Definition x_off_e : src_enum :=
  mkSrcEnum [sv "A" ShNamed [nf "x" "container = false"] "flatten = false, transparent = false"; sv "B" ShUnit [] "skip = false"]
            (at_ "allow_unknown_fields = false").
Definition x_on_e : src_enum := mkSrcEnum [sv "A" ShNamed [nf "x" ""] ""; sv "B" ShUnit [] ""] [].
Lemma x_less_e : less_enum xsy x_off_e x_on_e.
Proof.
  split.
  - constructor; [|constructor; [|constructor]]; (split; [reflexivity|split; [reflexivity|split]]).
    + constructor; [|constructor]. split; [reflexivity|]. split; [reflexivity|].
      eapply less_some; [has_opts ltac:(one_opt (SF_container xsy))|apply no_options|vm_compute; reflexivity].
    + eapply less_some; [has_opts ltac:(more_opt SV_flatten; one_opt SV_transparent)|apply no_options|vm_compute; reflexivity].
    + constructor.
    + eapply less_some; [has_opts ltac:(one_opt SV_skip)|apply no_options|vm_compute; reflexivity].
  - eapply less_some; [has_opts ltac:(one_opt (SE_unknown xsy))|apply no_options|vm_compute; reflexivity].
Qed.
Lemma x_off_e_ok : written_enum x_off_e /\ exists d, derive_meta_enum xsy x_off_e = Ok d.
Proof. split; [repeat constructor; discriminate|]. apply ok_some. vm_compute. reflexivity. Qed.

(** sources refused because of an option set to `false` *)
Definition r_tr : src_struct := mkSrcStruct ShNamed [nf "a" ""; nf "b" ""] (at_ "transparent = false").
Definition r_tr0 : src_struct := mkSrcStruct ShNamed [nf "a" ""; nf "b" ""] [].
Definition r_fl : src_struct := mkSrcStruct ShNamed [nf "a" "rename = b, flatten = false"] [].
Definition r_fl0 : src_struct := mkSrcStruct ShNamed [nf "a" "rename = b"] [].
Definition r_co : src_struct := mkSrcStruct ShNamed [nf "a" "container = false"; nf "b" "container = false"] [].
Definition r_un : src_struct := mkSrcStruct ShUnnamed [tf ""] (at_ "allow_unknown_fields = false").
Definition r_un0 : src_struct := mkSrcStruct ShUnnamed [tf ""] [].
Definition msgs_of {A} (r : res A) : list string := match r with Err e => map e_msg (errs_of e) | _ => [] end.
Lemma use_err {A} (r : res A) m : msgs_of r = m -> m <> [] -> exists e, r = Err e /\ map e_msg (errs_of e) = m.
Proof. destruct r as [a|e|b]; cbn; intros E N; [congruence| |congruence]. eauto. Qed.
Lemma same_field f : sf_attrs f = [] -> less_field xsy f f.
Proof. intros E. split; [reflexivity|split; [reflexivity|rewrite E; apply less_nil]]. Qed.
Lemma refused_is i i' m : less_struct xsy i i' -> is_ok_ (derive_attr_struct xsy i') = true -> msgs_of (derive_attr_struct xsy i) = m -> m <> [] ->
  refused_for xsy i m.
Proof. intros L K M N. destruct (ok_some _ K) as [d D]. destruct (use_err _ _ M N) as [e [E Q]]. exists i', d, e. auto. Qed.
Lemma ex_off_refuted : exists (env : Env) sy i1 i2 i3 i4,
  refused_for sy i1 ["`transparent` struct must have only one parseable field"] /\
  refused_for sy i2 ["only one of `flatten`, `rename` is allowed"; "only one of `flatten`, `rename` is allowed"] /\
  refused_for sy i3 ["Duplicate `container` field"] /\
  refused_for sy i4 ["`allow_unknown_fields` not allowed on tuple struct"].
Proof.
  eexists _, xsy, r_tr, r_fl, r_co, r_un. split; [|split; [|split]].
  - apply (refused_is _ r_tr0); [|vm_compute; reflexivity|vm_compute; reflexivity|discriminate].
    split; [reflexivity|]. split; [repeat constructor; now apply same_field|].
    eapply less_some; [has_opts ltac:(one_opt (SS_transparent xsy))|apply no_options|vm_compute; reflexivity].
  - apply (refused_is _ r_fl0); [|vm_compute; reflexivity|vm_compute; reflexivity|discriminate].
    split; [reflexivity|]. split; [|apply less_nil]. constructor; [|constructor]. split; [reflexivity|]. split; [reflexivity|].
    eapply less_some; [has_opts ltac:(more_opt (SF_rename xsy); one_opt (SF_flatten xsy))|has_opts ltac:(one_opt (SF_rename xsy))|vm_compute; reflexivity].
  - apply (refused_is _ r_tr0); [|vm_compute; reflexivity|vm_compute; reflexivity|discriminate].
    split; [reflexivity|]. split; [|apply less_nil].
    constructor; [|constructor; [|constructor]]; (split; [reflexivity|split; [reflexivity|]]);
      (eapply less_some; [has_opts ltac:(one_opt (SF_container xsy))|apply no_options|vm_compute; reflexivity]).
  - apply (refused_is _ r_un0); [|vm_compute; reflexivity|vm_compute; reflexivity|discriminate].
    split; [reflexivity|]. split; [repeat constructor; now apply same_field|].
    eapply less_some; [has_opts ltac:(one_opt (SS_unknown xsy))|apply no_options|vm_compute; reflexivity].
Qed.
Lemma xru_by_type : by_type xru.
Proof. intros f f' _ _. reflexivity. Qed.
