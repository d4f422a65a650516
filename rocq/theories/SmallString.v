(** SmallString.  Models core/small_string.rs. *)
From Verif Require Export Base.

(** 5 *)
Definition max_inline_len : nat := 56.

(** arrayvec::ArrayString<56> (dependency): a string that fits; conversion and
    try_push_str fail beyond the capacity.  Lengths are bytes. *)
Record array_string : Type := mkArr {
  arr_str : string;
  arr_fits : Nat.leb (String.length arr_str) max_inline_len = true
}.
Definition arr_from (s : string) : option array_string :=
  match Nat.leb (String.length s) max_inline_len as b
        return Nat.leb (String.length s) max_inline_len = b -> option array_string with
  | true => fun H => Some (mkArr s H)
  | false => fun _ => None
  end eq_refl.
Definition arr_try_push (a : array_string) (s : string) : option array_string :=
  arr_from (arr_str a ++ s)%string.

(** 3-11 *)
Inductive small_string : Type :=
| SsHeap (s : string)
| SsInline (a : array_string)
| SsBorrowed (s : string).

(** 19-21 new *)
Definition ss_new : small_string := SsBorrowed "".
(** 25-32 into_owned *)
Definition ss_into_owned (s : small_string) : small_string :=
  match s with
  | SsBorrowed b => match arr_from b with Some a => SsInline a | None => SsHeap b end
  | x => x
  end.
(** 36-43 as_str *)
Definition ss_as_str (s : small_string) : string :=
  match s with SsHeap h => h | SsInline a => arr_str a | SsBorrowed b => b end.
(** 50-73 push_str; None = panic (`unwrap` of a failed conversion; 62 `expect` on
    usize overflow cannot happen for real strings and is not modelled) *)
Definition ss_push_str (s : small_string) (x : string) : option small_string :=
  match s with
  | SsHeap h => Some (SsHeap (h ++ x)%string)
  | SsInline a =>
    match arr_try_push a x with
    | Some a' => Some (SsInline a')
    | None => Some (SsHeap (arr_str a ++ x)%string)
    end
  | SsBorrowed b =>
    if Nat.ltb max_inline_len (String.length b + String.length x)
    then Some (SsHeap (b ++ x)%string)
    else match arr_from b with
         | None => None
         | Some a => match arr_try_push a x with
                     | Some a' => Some (SsInline a')
                     | None => None
                     end
         end
  end.
(** 46-48 push; [c] is the UTF-8 encoding of the character *)
Definition ss_push (s : small_string) (c : string) : option small_string := ss_push_str s c.
(** 162-167 From<&str> *)
Definition ss_from_str (s : string) : small_string := SsBorrowed s.
(** 169-180 From<String>; None = panic *)
Definition ss_from_string (s : string) : option small_string :=
  if Nat.ltb max_inline_len (String.length s) then Some (SsHeap s)
  else match arr_from s with Some a => Some (SsInline a) | None => None end.
(** 182-190 From<Cow<str>>: [owned] tells the two cases apart *)
Definition ss_from_cow (owned : bool) (s : string) : option small_string :=
  if owned then ss_from_string s else Some (ss_from_str s).
(** 76-97 PartialEq *)
Definition ss_eq (a b : small_string) : bool := String.eqb (ss_as_str a) (ss_as_str b).
(** 99-125 Ord *)
Definition ss_cmp (a b : small_string) : comparison :=
  String.compare (ss_as_str a) (ss_as_str b).
(** 127-132 Hash: feeds as_str to the hasher [h] *)
Definition ss_hash {H} (h : string -> H) (s : small_string) : H := h (ss_as_str s).
(** 145-160 Debug/Display forward to the content *)
Definition ss_display (s : small_string) : string := ss_as_str s.
(** 222-232 fmt::Write: a sequence of write_str calls *)
Fixpoint ss_write_all (s : small_string) (l : list string) : option small_string :=
  match l with
  | [] => Some s
  | x :: l' => match ss_push_str s x with Some s' => ss_write_all s' l' | None => None end
  end.
