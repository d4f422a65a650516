(** Concrete attributes for the examples and counterexamples of PropsAttr.v. *)
From Verif Require Export LemAttr2 ExMore.

Definition un : dict val := dict_map (fun _ => VX "()") unit_dict.
Definition xname : path := mkPath false ["x"] SCall.
Definition xattr (txt : string) : attr := mkAttr xname (MList Paren (tk txt)) SCall.
(** struct A { a: i32, u: () } *)
Definition xa : sdef val := named [it "a" i32; it "u" un].
Lemma xa_named : named_struct xa.
Proof.
  split; [|split; [reflexivity|discriminate]]. split; [|discriminate]. cbn [s_shape s_raw named xa]. ga. apply good_map, good_unit.
Qed.

Definition xo (txt : string) : owner := ONode [mkAttr (mkPath false ["y"] SCall) (MNameValue []) SCall; xattr txt; mkAttr xname MPath SCall].
Definition xal : sdef val := mkStruct ShNamed (s_raw xa) None false false [] [["x"]].
Lemma xal_ok : accepted_struct xal.
Proof. exact (proj1 xa_named). Qed.
Definition xitems (txt : string) : list item := ref_tokens (derived_matches (s_attributes xal)) (xo txt).
Definition xcs (txt : string) : list stream := [mkStream (tk txt) (SClose SCall) None; mkStream [] SCall None].
Lemma xcontents txt : Forall2 attr_content (xitems txt) (xcs txt).
Proof. repeat constructor. Qed.
(** two errors, both reported *)
Lemma xa_reported : exists e, let body := struct_attr_body xal (VI 0) (attr_names (xitems "a = true, b = 1")) in
  fst (body (xcs "a = true, b = 1")) = Err e /\ Forall parsed_up (snd (body (xcs "a = true, b = 1"))) /\
  map e_msg (errs_of e) = ["expected integer literal"; "unknown field `b`"; "missing required field #[x(u)]"].
Proof.
  eexists. cbv zeta. split; [vm_compute; reflexivity|]. split; [|vm_compute; reflexivity].
  let x := eval vm_compute in (snd (struct_attr_body xal (VI 0) (attr_names (xitems "a = true, b = 1")) (xcs "a = true, b = 1"))) in
  change (Forall parsed_up x). repeat constructor.
Qed.
(** `#[x(a = true, u(1))]`: the bad value of `a` is not reported *)
Lemma ex_lost_errors : exists (env : Env) (s : sdef val) conv o cs e e',
  named_struct s /\
  let l := ref_tokens (derived_matches (s_attributes s)) o in
  let body := struct_attr_body s (conv o) (attr_names l) in
  Forall2 attr_content l cs /\ fst (body cs) = Err e /\ struct_parse_attributes s conv o = Err e' /\
  map e_msg (errs_of e) = ["expected integer literal"; "unexpected token `1`"] /\
  map e_msg (errs_of e') = ["unexpected token"].
Proof.
  exists lexer_env, xa, (fun _ => VI 0), (ONode [xattr "a = true, u(1)"]), [mkStream (tk "a = true, u(1)") (SClose SCall) None]. eexists _, _.
  split; [exact xa_named|]. cbv zeta. refine (conj _ (conj _ (conj _ (conj _ _)))); [repeat constructor|vm_compute; reflexivity..].
Qed.
(** `#[x { a = true }]` and `#[x = 1]` *)
Lemma ex_lost_braces : forall (env : Env) V (s : sdef V) conv p ts sp d,
  derived_matches (s_attributes s) p = true -> d <> Paren ->
  struct_parse_attributes s conv (ONode [mkAttr p (MList d ts) sp]) = Err (err1 SCall unexpected_token).
Proof.
  intros env V s conv p ts sp d M D. unfold struct_parse_attributes, ref_tokens. cbn [attrs filter a_path]. rewrite M. cbn [map attr_item attr_tokens a_meta a_path].
  unfold parse_struct_attr_tokens. cbn [parse_next]. destruct d; try contradiction; reflexivity.
Qed.

(** `#[x = (a = 1, u)]` *)
Lemma ex_equals : exists (env : Env) (s : sdef val) conv p ts gsp sp ws, named_struct s /\ derived_matches (s_attributes s) p = true /\
  struct_parse_attributes s conv (ONode [mkAttr p (MNameValue [TGroup Paren ts gsp]) sp]) = Ok ws /\ ws <> [].
Proof.
  eexists lexer_env, xal, (fun _ => VU), xname, (tk "a = 1, u"), (SAt 5), (SAt 1), _.
  split; [split; [exact xal_ok|split; [reflexivity|discriminate]]|]. split; [reflexivity|]. split; [vm_compute; reflexivity|discriminate].
Qed.

(** struct B { u: (), #[deluxe(flatten)] f: F } with struct F { a: i32 } *)
Definition xb_f : sdef val := named [it "a" i32].
Definition xb30 : sdef val := named [it "u" un; flatn "f" None (sfn xb_f)].
Lemma ex_junk : exists (env : Env) (s : sdef val) pre gsp post v, named_struct s /\
  forall junk, deluxe_parse2 (struct_dict s) (pre ++ TGroup Paren junk gsp :: post) = Ok v.
Proof.
  exists lexer_env, xb30, (tk "u ="), SCall, (tk ", a = 1"), [VX "()"; VS [VI 1]]. split.
  - split; [|split; [reflexivity|discriminate]]. split; [|discriminate]. cbn [s_shape s_raw named xb30]. ga. { apply good_map, good_unit. }
    apply good_fn_map, good_struct_fn. split; [|discriminate]. cbn [s_shape s_raw named xb_f]. ga.
  - intro junk. reflexivity.
Qed.
