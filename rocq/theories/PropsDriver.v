(** C70: what a derive emits as a whole. *)
From Verif Require Import LemDriver ExDriver ExSchema.

(** ** C70 A derive emits the complete impl, or says why not *)

(** no errors are emitted exactly when the item is accepted and the library's crate is
    known, and then the impl is the one of the accepted schema *)
Theorem C70_clean : forall (env : Env) sy look k i im,
  derive sy look k (Ok i) = Ok (im, []) <->
  exists c p q, im = Some (q, c) /\ accepted sy k i c p /\ crate_known look p q.
Proof. exact @l_clean. Qed.
Print Assumptions C70_clean.
(** otherwise: all errors of the item and no others; in particular nothing is left out, or
    left `unreachable!()`, without an error *)
Theorem C70_reported : forall (env : Env) sy look k input im es, derive sy look k input = Ok (im, es) ->
  (forall e, input = Err e -> im = None /\ es = errs_of e) /\
  (forall s e, input = Ok (DStruct s) -> read_struct sy s = Err e -> es = errs_of e) /\
  (forall s e, input = Ok (DEnum s) -> read_enum sy s = Err e -> es = errs_of e) /\
  (forall sp, input = Ok (DUnion sp) -> im = None /\ es = [mkErr sp (union_message k)]) /\
  (forall q, im = None \/ im = Some (q, GUnreachable) -> es <> []).
Proof. exact @l_reported. Qed.
Print Assumptions C70_reported.
(** the whole output, case by case: [emits] lists the impl and the errors for an accepted
    item, an unknown crate, an item that cannot be read (with and without the crate), an enum
    whose container field lacks a default, a union, and text that is not an item *)
Theorem C70_exact : forall (env : Env) sy look k input im es,
  derive sy look k input = Ok (im, es) <-> emits sy look k input im es.
Proof. exact @l_emits. Qed.
Print Assumptions C70_exact.
(** it emits something on every item on which the front end does not panic (C57) *)
Theorem C70_emits : forall (env : Env) sy look k i, good_syn_lib sy -> derivable sy i ->
  exists im es, derive sy look k (Ok i) = Ok (im, es).
Proof. exact @l_derive_returns. Qed.
Print Assumptions C70_emits.
Example C70_ex : good_syn_lib xsy /\ derivable xsy (DStruct x_struct) /\ derivable xsy (DEnum x_enum).
Proof. exact x_derivable. Qed.
Example C70_ex_shapes :
  out_shape (derive xsy (FName "dlx") KMeta (Ok (DStruct x_struct))) = Some (Some (["dlx"], 6), []) /\
  out_shape (derive xsy FItself KParse (Ok (DStruct x_clash))) = Some (Some (["deluxe"], 0), ["duplicate field name for `b`"]) /\
  out_shape (derive xsy (FMissing "no crate") KParse (Ok (DStruct x_clash))) = Some (None, ["duplicate field name for `b`"]) /\
  out_shape (derive xsy (FMissing "no crate") KExtract (Ok (DStruct x_struct))) = Some (None, ["no crate"]) /\
  out_shape (derive xsy FItself KExtract (Ok (DUnion SCall))) = Some (None, ["union not supported with derive(ExtractAttributes)"]) /\
  out_shape (derive xsy FItself KMeta (Ok (DEnum x_cont_enum))) =
    Some (Some (["deluxe"], 1), ["derive(ParseMetaItem) requires container field to have `default`"]).
Proof. exact x_derive_shapes. Qed.
