(** Examples for PropsAdvert.v. *)
From Verif Require Export LemAdvert ExEnum.
Local Open Scope string_scope.
Local Open Scope list_scope.

(** `a, x = 1, x = q`: `x` is advertised but not looked at beside `a` *)
Lemma ex_enum_unseen : exists (env : Env) (e : edef val) inputs sp x n,
  enum_run e TMeta "" true sp inputs (Ok x) /\ proper_enum TMeta e /\ flat_local e /\
  e_unknown_ok e = false /\ e_default e = None /\ In n (fn_names (enum_fn e)) /\
  length (part "" [n] (items_of inputs)) = 2.
Proof.
  exists lexer_env, xf, (xin "a, x = 1, x = q"), (to_full_span Unnamed (xin "a, x = 1, x = q")), (0, []), "x".
  split. { assert (E : xrun xf "a, x = 1, x = q" = Ok (0, [])) by (vm_compute; reflexivity). pose proof (xrun_run xf "a, x = 1, x = q") as H. rewrite E in H. exact H. }
  split; [apply xf_proper|]. split; [apply xf_local|]. split; [reflexivity|]. split; [reflexivity|].
  split; [cbn; auto|vm_compute; reflexivity].
Qed.
Lemma xf_bounded : forall v, In v (e_variants xf) -> v_flatten v = true -> ~ takes_all v.
Proof.
  intros v I F [T|[f [J K]]].
  - simpl in I. destruct I as [<-|[<-|[<-|[<-|[]]]]]; discriminate.
  - simpl in I. destruct I as [<-|[<-|[<-|[<-|[]]]]]; try discriminate; simpl in J; repeat (destruct J as [<-|J]; [exact K|]); destruct J.
Qed.
