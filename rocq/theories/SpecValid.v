(** Specification of C100: the prefix given to a validation. *)
From Verif Require Export SpecSmall.

(** the attributes under their full names *)
Definition under (prefix : string) (attrs : list (string * option span))
  : list (string * option span) :=
  map (fun a => (join_path prefix (fst a), snd a)) attrs.

(** two errors at one place that differ only in the name they end with: it is the name of a given
    attribute, in the second error with the prefix *)
Definition same_up_to_prefix (prefix : string) (attrs : list (string * option span)) (e e' : err)
  : Prop :=
  e_span e = e_span e' /\
  exists text n, In (n, Some (e_span e)) attrs /\
    e_msg e = (text ++ "`" ++ n ++ "`")%string /\
    e_msg e' = (text ++ "`" ++ join_path prefix n ++ "`")%string.
