(** Specifications used by the statements in PropsSmall.v.  They do not call the model's
    helper functions. *)
From Verif Require Export Attrs Validations SmallString.

(** *** C31: one operation on an accumulator, and the messages it pushes *)
Inductive eop : Type :=
| EPush (sp : span) (m : string)
| EPushCallSite (m : string)
| EPushSyn (e : synerr)
| EPushResult (r : unit + synerr)
| EExtend (l : list synerr)
| ECheck.

Definition run_eop (c : cerrors) (o : eop) : cerrors :=
  match o with
  | EPush sp m => c_push c sp m
  | EPushCallSite m => c_push_call_site c m
  | EPushSyn e => c_push_syn c e
  | EPushResult (inl u) => snd (c_push_result c (Ok u))
  | EPushResult (inr e) => snd (c_push_result (A := unit) c (Err e))
  | EExtend l => c_extend c l
  | ECheck => c
  end.

Definition pushed (o : eop) : list err :=
  match o with
  | EPush sp m => [mkErr sp m]
  | EPushCallSite m => [mkErr SCall m]
  | EPushSyn e => se_hd e :: se_tl e
  | EPushResult (inl _) => []
  | EPushResult (inr e) => se_hd e :: se_tl e
  | EExtend l => flat_map (fun e => se_hd e :: se_tl e) l
  | ECheck => []
  end.

(** *** C33: one operation on a SmallString and its effect on plain text *)
Inductive sop : Type :=
| SPush (c : string)
| SPushStr (s : string)
| SIntoOwned
| SWrite (l : list string).

Definition run_sop (s : small_string) (o : sop) : option small_string :=
  match o with
  | SPush c => ss_push s c
  | SPushStr x => ss_push_str s x
  | SIntoOwned => Some (ss_into_owned s)
  | SWrite l => ss_write_all s l
  end.
Fixpoint run_sops (s : small_string) (l : list sop) : option small_string :=
  match l with
  | [] => Some s
  | o :: l' => match run_sop s o with Some s' => run_sops s' l' | None => None end
  end.
Definition text_of_op (o : sop) : string :=
  match o with
  | SPush c => c
  | SPushStr x => x
  | SIntoOwned => ""
  | SWrite l => String.concat "" l
  end.
Inductive sstart : Type := StNew | StStr (s : string) | StString (s : string)
                        | StCow (owned : bool) (s : string).
Definition run_start (b : sstart) : option small_string :=
  match b with
  | StNew => Some ss_new
  | StStr s => Some (ss_from_str s)
  | StString s => ss_from_string s
  | StCow o s => ss_from_cow o s
  end.
Definition start_text (b : sstart) : string :=
  match b with StNew => "" | StStr s | StString s | StCow _ s => s end.

(** *** C34 *)
Fixpoint no_colon (s : string) : Prop :=
  match s with
  | EmptyString => True
  | String c s' => c <> ":"%char /\ no_colon s'
  end.
Definition ident_like (s : string) : Prop := s <> "" /\ no_colon s.

(** *** C35, C36 *)
Definition comma_tok (t : token) : Prop := exists j sp, t = TPunct "," j sp.
Definition starts_comma (ts : list token) : Prop := exists t r, ts = t :: r /\ comma_tok t.

(** *** C41, C42: quoted list "`a`, `b`" *)
Fixpoint quoted_list (l : list string) : string :=
  match l with
  | [] => ""
  | [x] => ("`" ++ x ++ "`")%string
  | x :: l' => ("`" ++ x ++ "`, " ++ quoted_list l')%string
  end.
Definition is_present (a : string * option span) : Prop := exists sp, snd a = Some sp.
Definition present_spans (l : list (string * option span)) : list span :=
  flat_map (fun a => match snd a with Some sp => [sp] | None => [] end) l.

(** *** C39: the values of an integer type *)
Definition in_range (k : intkind) (v : Z) : Prop :=
  (ik_lo k <= v <= ik_hi k)%Z /\ (ik_nonzero k = true -> v <> 0%Z).
