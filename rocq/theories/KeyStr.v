(** ToKeyString: the text of a map key.  Models core/parse_meta.rs 250-266 and the impls
    below it, core/parse_helpers.rs 725-739. *)
From Verif Require Export Helpers SmallString.

(** A key, by the impl that formats it. *)
Inductive kval : Type :=
(** impls by `Display` and by `to_token_stream`: 273-281 numbers, bool, char, addresses;
    958-1063 token types; 1285-1327, 1363-1397 syn types.  [s] is what Display writes. *)
| KvText (s : string)
(** 357-366 String, 375-384 PathBuf, 393-402 OsString (keys are UTF-8 here: they come from a
    string literal) *)
| KvStr (s : string)
(** 1404-1418 syn::Path *)
| KvPath (p : gpath)
(** 1463-1472 () *)
| KvUnit
(** 444-456 Option *)
| KvOpt (o : option kval)
(** 511-522 arrays, 596-608 Vec and the like, 695-707 sets (in iteration order) *)
| KvSeq (l : list kval)
(** 817-836 maps (in iteration order) *)
| KvMap (l : list (kval * kval))
(** 1260-1275 Punctuated: each element with its punctuation as displayed, and the last
    element if it has none *)
| KvPunct (l : list (kval * string)) (last : option kval)
(** 1519-1531 tuples of 1 to 16 elements *)
| KvTuple (l : list kval)
(** 876-923 Box, Rc, Cell, RefCell; 936-945 Cow *)
| KvWrap (v : kval).

(** fmt::Formatter writing into a SmallString (small_string.rs 222-232): None = panic *)
Definition put (s : string) (o : option small_string) : option small_string :=
  match o with Some x => ss_push_str x s | None => None end.

Definition put_path (p : gpath) (o : option small_string) : option small_string :=
  (fix segs (i : nat) (p : gpath) (o : option small_string) :=
     match p with
     | [] => o
     | (ident, args) :: p' =>
       let o1 := if Nat.ltb 0 i then put "::" o else o in
       let o2 := put ident o1 in
       segs (S i) p' (match args with Some a => put a o2 | None => o2 end)
     end) 0 p o.

(** fmt_key_string, impl by impl *)
Fixpoint kv_fmt (v : kval) (o : option small_string) {struct v} : option small_string :=
  match v with
  | KvText s => put s o
  | KvStr s => put s o
  | KvPath p => put_path p o
  | KvUnit => put "()" o
  | KvOpt (Some v) => put ")" (kv_fmt v (put "Some(" o))
  | KvOpt None => put "None" o
  | KvSeq l =>
    put "]" ((fix elems (i : nat) (l : list kval) (o : option small_string) :=
      match l with
      | [] => o
      | v :: l' => elems (S i) l' (kv_fmt v (if Nat.ltb 0 i then put ", " o else o))
      end) 0 l (put "[" o))
  | KvMap l =>
    put "}" ((fix elems (i : nat) (l : list (kval * kval)) (o : option small_string) :=
      match l with
      | [] => o
      | (k, v) :: l' =>
        let o1 := if Nat.ltb 0 i then put ", " o else o in
        elems (S i) l' (kv_fmt v (put " = " (kv_fmt k o1)))
      end) 0 l (put "{" o))
  | KvPunct l last =>
    let o1 := (fix pairs (l : list (kval * string)) (o : option small_string) :=
      match l with
      | [] => o
      | (v, p) :: l' => pairs l' (put " " (put p (kv_fmt v o)))
      end) l (put "[" o) in
    put "]" (match last with Some v => kv_fmt v o1 | None => o1 end)
  | KvTuple l =>
    put ")" ((fix elems (i : nat) (l : list kval) (o : option small_string) :=
      match l with
      | [] => o
      | v :: l' => elems (S i) l' (kv_fmt v (if Nat.eqb i 0 then o else put ", " o))
      end) 0 l (put "(" o))
  | KvWrap v => kv_fmt v o
  end.

(** parse_helpers.rs 725-739 key_to_string *)
Definition key_to_string (v : kval) : option small_string := kv_fmt v (Some ss_new).

(** with_key_string: the default 262-264 and the impls that override it *)
Fixpoint with_key {R} (v : kval) (f : string -> R) : option R :=
  match v with
  | KvStr s => Some (f s)
  | KvUnit => Some (f "()")
  | KvWrap v => with_key v f
  | _ => match key_to_string v with Some s => Some (f (ss_as_str s)) | None => None end
  end.
