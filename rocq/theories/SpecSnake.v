(** Snake case, character by character. *)
From Verif Require Export Base Schema.
Local Open Scope list_scope.

Definition among (s : string) (c : ascii) : bool := existsb (Ascii.eqb c) (list_ascii_of_string s).
Definition capital : ascii -> bool := among "ABCDEFGHIJKLMNOPQRSTUVWXYZ".
Definition small : ascii -> bool := among "abcdefghijklmnopqrstuvwxyz".
Definition numeral : ascii -> bool := among "0123456789".
Definition letter (c : ascii) : bool := capital c || small c.
Definition alnum (c : ascii) : bool := letter c || numeral c.
(** the small letter of a capital *)
Fixpoint small_at (c : ascii) (us ls : string) : ascii :=
  match us, ls with
  | String u us', String l ls' => if Ascii.eqb c u then l else small_at c us' ls'
  | _, _ => c
  end.
Definition small_of (c : ascii) : ascii := small_at c "ABCDEFGHIJKLMNOPQRSTUVWXYZ" "abcdefghijklmnopqrstuvwxyz".

(** the nearest letter before, digits aside; [before] is nearest first *)
Fixpoint last_letter (before : list ascii) : option ascii :=
  match before with
  | c :: r => if letter c then Some c else if numeral c then last_letter r else None
  | [] => None
  end.
(** a new word starts at [c]: after another character than letters and digits; or at a capital,
    if the last letter was small or a small letter follows *)
Definition starts_word (before : list ascii) (c : ascii) (after : list ascii) : bool :=
  match before with
  | [] => true
  | p :: _ =>
    negb (alnum p) ||
    (capital c && match last_letter before with
                  | Some l => small l || match after with d :: _ => small d | [] => false end
                  | None => false
                  end)
  end.
(** letters and digits are kept, in small letters, and every word but the first one follows a `_` *)
Fixpoint snake (before cs : list ascii) : list ascii :=
  match cs with
  | [] => []
  | c :: after =>
    (if alnum c
     then (if existsb alnum before && starts_word before c after then ["_"%char] else []) ++ [small_of c]
     else []) ++ snake (c :: before) after
  end.
Definition snake_form (s : string) : string := string_of_list_ascii (snake [] (list_ascii_of_string s)).

(** an identifier, or a keyword *)
Definition identifier (s : string) : Prop :=
  exists c cs, s = String c cs /\ (letter c = true \/ c = "_"%char) /\
    Forall (fun d => alnum d = true \/ d = "_"%char) (list_ascii_of_string cs).
(** the first letter or digit is a letter *)
Definition letter_first (s : string) : Prop :=
  exists before c after, list_ascii_of_string s = before ++ c :: after /\ letter c = true /\
    Forall (fun d => alnum d = false) before.

(** a name without `r#` *)
Definition plain_name (s : string) : string :=
  match s with
  | String "r"%char (String "#"%char r) => r
  | _ => s
  end.
