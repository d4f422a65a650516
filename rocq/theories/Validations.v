(** core/validations.rs *)
From Verif Require Export Helpers.

Section V.
(** names joined as "`a`, `b`" (19-28, 52-63); the accumulator starts empty *)
Definition add_name (names n : string) : string :=
  if is_empty_str names then tick n else (names ++ ", " ++ tick n)%string.

(** the span of every present attribute *)
Definition present (attrs : list (string * option span)) : list span :=
  flat_map (fun a => match snd a with Some sp => [sp] | None => [] end) attrs.

(** 10-33 only_one *)
Definition only_one (attrs : list (string * option span)) (prefix : string) (es : errors)
  : errors :=
  if Nat.eqb (length (firstn 2 (present attrs))) 2 then
    let names := fold_left (fun ns a => add_name ns (join_path prefix (fst a))) attrs "" in
    fold_left (fun es sp => push es sp ("only one of " ++ names ++ " is allowed")%string)
              (present attrs) es
  else es.

Definition opt_some {A} (o : option A) : bool :=
  match o with Some _ => true | None => false end.

(** 40-71 all_or_none *)
Definition all_or_none (attrs : list (string * option span)) (prefix : string) (es : errors)
  : errors :=
  let first_is_some := match attrs with a :: _ => opt_some (snd a) | [] => false end in
  if existsb (fun a => negb (Bool.eqb (opt_some (snd a)) first_is_some)) (tl attrs) then
    let names := fold_left (fun ns a => match snd a with
                                        | None => add_name ns (join_path prefix (fst a))
                                        | Some _ => ns
                                        end) attrs "" in
    fold_left (fun es a => match snd a with
                           | Some sp =>
                             push es sp (names ++ " must also be set in order to use "
                                         ++ tick (fst a))%string
                           | None => es
                           end) attrs es
  else es.
End V.
