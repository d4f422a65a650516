(** Examples for PropsNodes.v. *)
From Verif Require Import LemNodes TestKit.

(** `#[my(x = 1)] #[other] _` *)
Definition x_attrs : list attr := [al ["my"] "x = 1"; ap ["other"]].
Definition x_infer : node := NEnum FExpr "Infer" x_attrs SCall.
Definition x_call : node := NEnum FExpr "Call" x_attrs SCall.
Definition x_ncv (n : node) : val := VX "".
Definition x_nstruct : sdef val := withattrs (named [it "x" i32]) [["my"]].

Lemma l_infer_refuted : exists (n : node) l e,
  carries n l /\ l <> [] /\ node_attrs n = l /\ node_attrs_mut n = Err e.
Proof.
  destruct (l_infer x_attrs SCall) as [C [A [e E]]].
  exists (NEnum FExpr "Infer" x_attrs SCall), x_attrs, e. repeat split; try assumption. discriminate.
Qed.
Lemma l_infer_extract_refuted : exists (s : sdef val) conv (n : node) l v e,
  carries n l /\ parse_node (env := lexer_env) s conv n = Ok v /\
  extract_node (env := lexer_env) s conv n = (Err e, n).
Proof.
  exists x_nstruct, x_ncv, x_infer, x_attrs, [VI 1],
    (err1 SCall "`HasAttributes::attrs_mut` encountered unknown `syn::Expr` variant").
  split; [exact (proj1 (l_infer x_attrs SCall))|]. split; vm_compute; reflexivity.
Qed.
Lemma x_call_carries : carries x_call x_attrs /\ ~ infer_expr x_call.
Proof.
  split; [constructor; [cbn; tauto|discriminate]|]. intros [l [sp E]]. discriminate E.
Qed.
Lemma x_call_extract :
  extract_node (env := lexer_env) x_nstruct x_ncv x_call =
  (Ok [VI 1], NEnum FExpr "Call" [ap ["other"]] SCall).
Proof. vm_compute. reflexivity. Qed.
Lemma x_infer_node : syn_node x_infer.
Proof. cbn. tauto. Qed.
