(** C34: what is read as the path of a key. *)
From Verif Require Import LemPath Lexer SpecStruct Helpers.
Local Open Scope list_scope.

(** a path is read exactly if the stream starts with identifiers (keywords or not) separated by
    `::`, perhaps after a `::`, and no further `::` follows; it is left behind the path *)
Theorem C34_read : forall (env : Env) (s : stream) (p : path) (s' : stream),
  parse_any_path s = (Ok p, s') <->
  exists l pt, path_toks l pt /\ ~ starts_sep (toks s') /\
    p_segs p = map fst l /\ s' = set_toks s (toks s') /\
    ((p_leading p = false /\ toks s = pt ++ toks s' /\ p_span p = path_span l) \/
     (p_leading p = true /\ exists a j b,
        toks s = TPunct colon_c true a :: TPunct colon_c j b :: pt ++ toks s' /\
        p_span p = match env_join a (snd (last l (""%string, a))) with Some x => x | None => a end)).
Proof. exact @l_path_read. Qed.
Print Assumptions C34_read.
(** otherwise there is an error *)
Theorem C34_read_else : forall (env : Env) (s : stream),
  (exists p s', parse_any_path s = (Ok p, s')) \/ (exists e s', parse_any_path s = (Err e, s')).
Proof. exact @l_path_else. Qed.
Print Assumptions C34_read_else.
(** the leading `::` is not part of the key, and does not matter to [path_matches] *)
Theorem C34_leading : forall l l' segs sp,
  path_key (mkPath l segs sp) = path_key (mkPath l' segs sp) /\
  forall names, path_matches (mkPath l segs sp) names = path_matches (mkPath l' segs sp) names.
Proof. exact l_path_leading. Qed.
Print Assumptions C34_leading.

Definition key_read (t : string) : option (bool * string * nat) :=
  match parse_any_path (env := lexer_env) (root_stream (tk t)) with
  | (Ok p, s) => Some (p_leading p, path_key p, length (toks s))
  | _ => None
  end.
Example C34_ex_read :
  key_read "a::type::b = 1" = Some (false, "a::type::b", 2)%string /\
  key_read "::a(1)" = Some (true, "a", 1)%string /\
  key_read "a:b" = Some (false, "a", 2)%string /\
  key_read "a::" = None /\ key_read "a::1" = None /\ key_read "::" = None /\ key_read "1" = None.
Proof. vm_compute. repeat split. Qed.
