(** Vocabulary for the result of tuple structs on any input (PropsRow.v). *)
From Verif Require Export SpecDrop SpecMore SpecRefuse.
Local Open Scope string_scope.
Local Open Scope list_scope.

Section S.
Context {env : Env} {V : Type}.
(** one run of the parser generated for [s]: what is parsed, the name it is parsed for, if any,
    and the number of its first item *)
Inductive run_at (s : sdef V) : tmode V -> mode -> nat -> mparser (list V) -> Prop :=
| RA_list m : s_is_transparent s = false -> run_at s TMeta m 0 (d_inline (struct_dict s) m)
| RA_flatten m index : run_at s TMeta m index (fu_parse (struct_fu s) m index)
| RA_attributes obj spans pn sp : s_is_transparent s = false -> about (s_attributes s) spans pn sp ->
    run_at s (TAttrs pn obj) (Named sp) 0 (struct_attr_body s obj spans).

(** the types of the items: those of the fields that are parsed, in order *)
Definition row_types (fs : list (field V)) : list (dict V) :=
  flat_map (fun f => match f_kind f with KItem d => if is_parsable f then [d] else [] | _ => [] end) fs.
(** the result of each field's item; nothing for the fields that are not parsed, and for those
    that there is no item for *)
Fixpoint row_given (fs : list (field V)) (ys : list (parser V * elem)) : list (option (res V)) :=
  match fs with
  | [] => []
  | f :: fs' =>
    match is_parsable f, ys with
    | true, (p, x) :: ys' => Some (fst (p (at_elem x))) :: row_given fs' ys'
    | _, _ => None :: row_given fs' ys
    end
  end.
(** the number of a field in messages: that of the first item, and one for each field before
    that is not a container field (flattened ones count as many as they say) *)
Definition places_of (f : field V) : nat :=
  if f_container f then 0
  else match f_kind f with
       | KFlatN _ _ => 0
       | KFlatU u => match fu_count u with Some n => n | None => 0 end
       | _ => 1
       end.
Definition number_of (index : nat) (fs : list (field V)) (i : nat) : nat :=
  index + list_sum (map places_of (firstn i fs)).
Definition numbered (tm : tmode V) (n : nat) : string :=
  match tm with
  | TAttrs (Some p) _ => (show_nat n ++ " on #[" ++ p ++ "]")%string
  | _ => show_nat n
  end.
(** what a field is before its own functions are applied: its item; the object; the default; what
    its type gives when it is missing.  Nothing: the struct's default is used. *)
Definition row_base (s : sdef V) (tm : tmode V) (index : nat) (sp : span) (os : list (option (res V)))
  (i : nat) (f : field V) : option (res V) :=
  match nth i os None, tm, f_container f with
  | Some r, _, _ => Some r
  | None, TAttrs _ obj, true => Some (Ok obj)
  | None, _, _ =>
    match field_default s tm f, s_default s, f_kind f with
    | Some w, _, _ => Some (Ok w)
    | None, None, KItem d => Some (d_missing d (numbered tm (number_of index (s_raw s) i)) sp)
    | None, _, _ => None
    end
  end.
(** the errors of the fields that there is no item for, in order of declaration *)
Definition row_lacking (s : sdef V) (tm : tmode V) (index : nat) (sp : span) (os : list (option (res V))) : list err :=
  flat_mapi (fun i f => match nth i os None, row_base s tm index sp os i f with
                        | None, Some (Err e) => errs_of e
                        | _, _ => []
                        end) 0 (s_raw s).
(** the errors of the fields' and_then functions *)
Definition row_refused (s : sdef V) (tm : tmode V) (index : nat) (sp : span) (os : list (option (res V))) : list err :=
  flat_mapi (fun i f => match row_base s tm index sp os i f with
                        | Some (Ok v) => failing (f_transforms f) v
                        | _ => []
                        end) 0 (s_raw s).
(** the values of the fields *)
Definition row_values (s : sdef V) (tm : tmode V) (index : nat) (sp : span) (os : list (option (res V))) (vs : list V) : Prop :=
  length vs = length (s_raw s) /\
  forall i f v, nth_error (s_raw s) i = Some f -> nth_error vs i = Some v ->
    match row_base s tm index sp os i f with
    | Some (Ok w) => transformed (f_transforms f) w v
    | Some _ => False
    | None => exists t, s_default s = Some t /\ nth_error t i = Some v
    end.

(** How the items of a tuple struct are read: the items read, the error that ends the reading, and
    where the streams then are.  A struct none of whose fields is parsed takes no item. *)
Inductive struct_read (s : sdef V) (inputs : list stream) : list (parser V * elem) -> list err -> span -> Prop :=
| SR_items ys stop sp : row_types (s_raw s) <> [] -> row_read (row_types (s_raw s)) inputs ys stop sp ->
    struct_read s inputs ys stop sp
| SR_none sp : row_types (s_raw s) = [] -> Forall used_up inputs -> struct_read s inputs [] [] sp.
(** a token although none of the fields is parsed *)
Inductive too_much (s : sdef V) (inputs : list stream) : token -> Prop :=
| TM ins1 st ins2 t : row_types (s_raw s) = [] -> inputs = ins1 ++ st :: ins2 -> Forall used_up ins1 ->
    left_over (toks st) t -> too_much s inputs t.
(** where a missing field is reported: at the name, or where the streams are *)
Definition reported_at (m : mode) (sp : span) : span := match m with Named q => q | Unnamed => sp end.
End S.
