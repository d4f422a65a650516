(** Examples for PropsHeader.v. *)
From Verif Require Import LemHeader ExSchema.

(** stand-in for syn: a type is one identifier, or `& ' lt ident` written as three
    identifiers, anything else is opaque *)
Definition x_ty (ts : list token) : sty :=
  match ts with
  | [TIdent i _] => SPath false false [mkSeg i ANone]
  | [TIdent r _; TIdent lt _; TIdent i _] => SRef (Some lt) false (SPath false false [mkSeg i ANone])
  | _ => SOther ts
  end.

(** struct { #[deluxe(container = false)] x: u32 } *)
Definition x_false : src_struct :=
  mkSrcStruct ShNamed [mkSrcField (Some ("x", SCall)) [da "container = false"] (tk "u32")] [].
(** struct { id: u64, #[deluxe(container)] c: &'t DeriveInput } *)
Definition x_cont : src_struct :=
  mkSrcStruct ShNamed [mkSrcField (Some ("id", SCall)) [] (tk "u64");
                       mkSrcField (Some ("c", SCall)) [da "container"] (tk "ref t DeriveInput")] [].
Definition no_containers (r : res sstruct) : bool :=
  match r with Ok d => forallb (fun f => negb (g_is_container f)) (i_fields d) | _ => false end.
Definition head_of (m : amode) (g : generics) (r : res sstruct) : res header := rbind r (struct_header x_ty m g).

Lemma l_false_refuted : exists sy ty_of i d g h,
  read_struct (env := lexer_env) sy i = Ok d /\
  (forall f, In f (i_fields d) -> g_is_container f = false) /\
  struct_header ty_of MParse g d = Ok h /\
  ~ is_param (hd_params h) (hd_ty h).
Proof.
  exists xsy, x_ty, x_false.
  assert (H : no_containers (read_struct xsy x_false) = true) by (vm_compute; reflexivity).
  assert (E : head_of MParse (mkGen [] []) (read_struct xsy x_false) =
              Ok (mkHeader [PLife "t"] [WClone (SPath false false [mkSeg "u32" ANone])] (Some "t")
                           (SPath false false [mkSeg "u32" ANone]))) by (vm_compute; reflexivity).
  destruct (read_struct xsy x_false) as [d|e|b]; try discriminate H.
  exists d, (mkGen [] []). eexists. split; [reflexivity|]. split.
  - cbn in H. rewrite forallb_forall in H. intros f I. specialize (H f I). now destruct (g_is_container f).
  - split; [exact E|]. intros [i [T [X|[]]]]. discriminate X.
Qed.

Lemma x_cont_header : exists d, read_struct xsy x_cont = Ok d /\
  struct_header x_ty MParse (mkGen [PLife "t"] []) d =
  Ok (mkHeader [PLife "t"] [] (Some "t") (SPath false false [mkSeg "DeriveInput" ANone])).
Proof.
  assert (H : is_ok_ (read_struct xsy x_cont) = true) by (vm_compute; reflexivity).
  assert (E : head_of MParse (mkGen [PLife "t"] []) (read_struct xsy x_cont) =
     Ok (mkHeader [PLife "t"] [] (Some "t") (SPath false false [mkSeg "DeriveInput" ANone]))) by (vm_compute; reflexivity).
  destruct (read_struct xsy x_cont) as [d|e|b]; try discriminate H. exists d. auto.
Qed.
Lemma x_all_header : 
  make_header MParse (mkGen [PType "T"; PLife "t"; PType "T_"] []) None =
  Ok (mkHeader [PLife "t_"; PType "T__"; PType "T"; PLife "t"; PType "T_"]
               [WAttrs (SPath false false [mkSeg "T__" ANone])] (Some "t_") (SPath false false [mkSeg "T__" ANone])).
Proof. reflexivity. Qed.
Lemma x_cont_says : forall d, read_struct xsy x_cont = Ok d -> exists f c, first_says (i_fields d) f c.
Proof.
  intros d E. assert (H : match read_struct xsy x_cont with Ok d => match map (fun f => match g_container f with Some _ => true | None => false end) (i_fields d) with [false; true] => true | _ => false end | _ => false end = true) by (vm_compute; reflexivity).
  rewrite E in H. destruct (i_fields d) as [|a [|b [|]]]; cbn in H; try discriminate H;
  destruct (g_container a) as [ca|] eqn:A; try discriminate H;
  destruct (g_container b) as [cb|] eqn:B; try discriminate H.
  exists b, cb, [a], []. repeat split; [exact B|]. intros x [<-|[]]. exact A.
Qed.
