(** Examples for PropsDriver.v. *)
From Verif Require Import LemDriver ExSchema.

(** what an output looks like from outside: the crate and the kind of code, the messages *)
Definition out_shape (r : res (option impl * errors)) : option (option (list string * nat) * list string) :=
  match r with
  | Ok (im, es) =>
    Some (option_map (fun x => (p_segs (fst x),
                       match snd x with GStruct d => length (i_fields d) | GEnum d => length (j_variants d) | GUnreachable => 0 end)) im,
          map e_msg es)
  | _ => None
  end.
(** enum { A { #[deluxe(container)] c, x } } *)
Definition x_cont_enum : src_enum := mkSrcEnum [sv "A" ShNamed [nf "c" "container"; nf "x" ""] ""] [].
Lemma x_derive_shapes :
  out_shape (derive xsy (FName "dlx") KMeta (Ok (DStruct x_struct))) = Some (Some (["dlx"], 6), []) /\
  out_shape (derive xsy FItself KParse (Ok (DStruct x_clash))) = Some (Some (["deluxe"], 0), ["duplicate field name for `b`"]) /\
  out_shape (derive xsy (FMissing "no crate") KParse (Ok (DStruct x_clash))) = Some (None, ["duplicate field name for `b`"]) /\
  out_shape (derive xsy (FMissing "no crate") KExtract (Ok (DStruct x_struct))) = Some (None, ["no crate"]) /\
  out_shape (derive xsy FItself KExtract (Ok (DUnion SCall))) = Some (None, ["union not supported with derive(ExtractAttributes)"]) /\
  out_shape (derive xsy FItself KMeta (Ok (DEnum x_cont_enum))) =
    Some (Some (["deluxe"], 1), ["derive(ParseMetaItem) requires container field to have `default`"]).
Proof. repeat split; vm_compute; reflexivity. Qed.
Lemma x_derivable : good_syn_lib xsy /\ derivable xsy (DStruct x_struct) /\ derivable xsy (DEnum x_enum).
Proof.
  split; [exact xsy_good|]. split; [exact x_struct_written|].
  split; [exact (proj1 x_enum_written)|]. split; [exact (proj2 x_enum_written)|].
  destruct x_enum_ok as [d [H [_ [_ [_ [_ [_ [T _]]]]]]]]. intros d' E. rewrite H in E. injection E as <-.
  intros [v [f [I [_ [K [J [_ R]]]]]]]. rewrite (T v f I K J) in R. discriminate R.
Qed.
