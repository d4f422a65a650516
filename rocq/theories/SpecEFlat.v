(** Vocabulary for the result of an enum with flattened variants on any input (PropsEFlat.v):
    which variant is chosen, in what order they are tried, and what is reported. *)
From Verif Require Export SpecEStop SpecFlat SpecOrder.
Local Open Scope string_scope.
Local Open Scope list_scope.

Section S.
Context {env : Env} {V : Type}.
Notation vdef := (vdef V).
Notation edef := (edef V).

(** [ks] is the set of the names of the field, in order *)
Definition name_set (f : field V) (ks : list string) : Prop :=
  StronglySorted str_before ks /\ forall n, In n ks <-> In n (f_names f).
(** [kss] is the set of the name sets of the required fields of the variant, in order *)
Definition required_sets (v : vdef) (kss : list (list string)) : Prop :=
  StronglySorted set_before kss /\
  forall ks, In ks kss <-> exists f, In f (v_raw v) /\ required f /\ name_set f ks.

(** *** The choice *)
(** a key among those read *)
Definition key_read (prefix n : string) (l : list entry) : Prop :=
  exists en, In en l /\ en_key en = (prefix ++ n)%string.
Definition present_in (v : vdef) (prefix : string) (l : list entry) : Prop :=
  forall f, In f (v_raw v) -> required f -> exists n, In n (f_names f) /\ key_read prefix n l.
(** The flattened variant [v], number [i], is used for the keys read: all its required fields
    are among them.  One without required fields is used only if there is no other; apart from
    that, the first one in the order of the names of the required fields, and if these are the
    same, the last one declared. *)
Definition chosen_in (e : edef) (prefix : string) (l : list entry) (i : nat) (v : vdef) : Prop :=
  flattened e i v /\ present_in v prefix l /\
  forall j w, flattened e j w -> present_in w prefix l ->
    (needs w -> needs v) /\
    (needs w \/ ~ needs v -> forall a b, required_sets v a -> required_sets w b ->
       sets_before a b \/ (a = b /\ j <= i)).

(** *** The fields of a flattened variant *)
(** they are read as those of this struct *)
Definition variant_struct (v : vdef) : sdef V :=
  mkStruct ShNamed (v_raw v) None false (v_unknown_ok v) [] [].
(** the result of reading them: as for structs, see C09 *)
Definition fields_result (v : vdef) (tm : tmode V) (prefix : string) (check : bool) (sp : span)
  (inputs : list stream) (r : res (list V)) : Prop :=
  let s := variant_struct v in
  let R := struct_reader s tm prefix check in
  exists pcs stop l, reading R inputs pcs stop /\ Forall2 reads pcs l /\ in_place inputs l /\
    match entries_errors R [] l ++ stop ++ child_errors s R sp inputs ++
          absent_errors s tm prefix sp R l ++ and_then_errors s tm prefix sp R l inputs with
    | [] => exists vs, r = Ok vs /\ parses_to R tm None sp inputs (items_of inputs) vs
    | x :: xs => r = Err (mkSyn x xs)
    end.

(** *** Keys beside a variant *)
(** where the key [prefix ++ n] was read last *)
Definition last_at (prefix n : string) (l : list entry) : option span :=
  match find (fun en => String.eqb (en_key en) (prefix ++ n)) (rev l) with
  | Some en => Some (en_span en)
  | None => None
  end.
Definition not_allowed (prefix : string) (l : list entry) (cur : string) (names : list string)
  : errors :=
  flat_map (fun n => match last_at prefix n l with
                     | Some sp => [mkErr sp ("`" ++ n ++ "` not allowed with variant `" ++ cur ++ "`")]
                     | None => []
                     end) names.
(** the names of the fields of all flattened variants, but those of number [i] *)
Definition flattened_names (e : edef) (other_than : option nat) : list string :=
  flat_mapi (fun j w => if v_flatten w && negb (match other_than with Some i => Nat.eqb j i | None => false end)
                        then all_names w else []) 0 (e_variants e).
(** next to the name [k] of a variant; only looked for if unknown keys are not *)
Definition beside_name (e : edef) (prefix : string) (validate : bool) (l : list entry) (k : string)
  : errors :=
  if existsb (fun v => v_flatten v && negb (v_skip v)) (e_variants e) &&
     negb (e_unknown_ok e) && negb validate
  then not_allowed prefix l k (filter (fun n => negb (String.eqb n k)) (flattened_names e None))
  else [].
(** next to the fields of the flattened variant [v], number [i], if it takes all keys *)
Definition beside_fields (e : edef) (prefix : string) (l : list entry) (i : nat) (v : vdef)
  (es : errors) : Prop :=
  (takes_all v /\ e_unknown_ok e = false /\ v_unknown_ok v = false ->
     es = not_allowed prefix l (v_ident v)
            (filter (fun n => negb (mem_str n (all_names v))) (flattened_names e (Some i)))) /\
  (~ (takes_all v /\ e_unknown_ok e = false /\ v_unknown_ok v = false) -> es = []).
(** keys that are none of the given names, up to the first item without a key *)
Definition not_names (names : list string) (inputs : list stream) : errors :=
  flat_map (fun x => if in_dec string_dec (fst x) names then []
                     else errs_of (unknown_error (fst x) (snd x) names))
           (keys_until (items_of inputs)).
Definition unknown_keys (e : edef) (validate : bool) (inputs : list stream) : errors :=
  if negb (e_unknown_ok e) && validate then not_names (fn_names (enum_fn e)) inputs else [].

(** *** No variant *)
(** how a variant is described: by its name, by its required fields, or else by its Rust name *)
Inductive described (prefix : string) (v : vdef) : string -> Prop :=
| De_name n l : v_flatten v = false -> v_names v = n :: l ->
    described prefix v (prefix ++ "`" ++ n ++ "`")
| De_rust_name : v_flatten v = true -> ~ needs v ->
    described prefix v (prefix ++ "fields from `" ++ v_ident v ++ "`")
| De_field ks : v_flatten v = true -> required_sets v [ks] ->
    described prefix v (in_a_list "|" (map (fun n => prefix ++ "`" ++ n ++ "`")%string ks))
| De_fields kss : v_flatten v = true -> required_sets v kss -> 1 < length kss ->
    described prefix v ("(" ++ in_a_list ", " (map (fun ks =>
      in_a_list "|" (map (fun n => prefix ++ "`" ++ n ++ "`")%string ks)) kss) ++ ")").
Definition missing_variant (e : edef) (prefix : string) (sp : span) (x : err) : Prop :=
  exists ds, Forall2 (described prefix) (filter (fun v => negb (v_skip v)) (e_variants e)) ds /\
    x = mkErr sp ("expected one of " ++ in_a_list ", " ds).

(** *** The result *)
(** for the entries [l], of which those in [ns] have a variant's name, and the error [stop] that
    ended the reading *)
Inductive enum_result (e : edef) (tm : tmode V) (prefix : string) (validate : bool) (sp : span)
  (inputs : list stream) (l : list entry) (stop : errors) : list found -> res (evalue V) -> Prop :=
| En_named x ns y r : used_value (x :: ns) = Some y ->
    concluded (e_and_thens e) (Some y)
      (found_errors prefix (x :: ns) ++ stop ++ beside_name e prefix validate l (fd_name x) ++
       unknown_keys e validate inputs) r ->
    enum_result e tm prefix validate sp inputs l stop (x :: ns) r
| En_failed x ns r : used_value (x :: ns) = None ->
    concluded (e_and_thens e) None (found_errors prefix (x :: ns) ++ stop) r ->
    enum_result e tm prefix validate sp inputs l stop (x :: ns) r
| En_stopped i v z zs : chosen_in e prefix l i v -> ~ needs v -> ~ takes_all v -> stop = z :: zs ->
    enum_result e tm prefix validate sp inputs l stop [] (Err (mkSyn z zs))
| En_unknown i v z zs x : chosen_in e prefix l i v -> ~ needs v -> ~ takes_all v -> stop = [] ->
    not_names (flat_names_of v) inputs = z :: zs -> missing_variant e prefix sp x ->
    enum_result e tm prefix validate sp inputs l stop [] (Err (mkSyn z (zs ++ [x])))
| En_flat i v check fr es r : chosen_in e prefix l i v ->
    (~ needs v -> ~ takes_all v -> stop = [] /\ not_names (flat_names_of v) inputs = []) ->
    (check = true <-> needs v /\ ~ takes_all v) ->
    fields_result v tm prefix check sp inputs fr ->
    beside_fields e prefix l i v es ->
    concluded (e_and_thens e) (match fr with Ok vs => Some (i, vs) | _ => None end)
      (stop ++ match fr with Err x => errs_of x | _ => [] end ++ es) r ->
    enum_result e tm prefix validate sp inputs l stop [] r
| En_default y r : (forall i v, flattened e i v -> ~ present_in v prefix l) ->
    e_default e = Some y -> concluded (e_and_thens e) (Some y) stop r ->
    enum_result e tm prefix validate sp inputs l stop [] r
| En_none x r : (forall i v, flattened e i v -> ~ present_in v prefix l) ->
    e_default e = None -> missing_variant e prefix sp x ->
    concluded (e_and_thens e) None (stop ++ unknown_keys e validate inputs ++ [x]) r ->
    enum_result e tm prefix validate sp inputs l stop [] r.
(** the fields of flattened variants do not change the end of the input *)
Definition flat_keeps (e : edef) : Prop :=
  forall v, In v (e_variants e) -> v_flatten v = true -> Forall keeps_field (v_raw v).
End S.
