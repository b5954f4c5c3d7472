(** Model of the text helpers in include/lstk/lstk.hpp. *)
From Verif Require Import Base.

(** include/lstk/lstk.hpp:72-102, [split_on(string_view,char)].
    [acc] is the reversed text between [accum_begin] and [accum_end];
    [started] is [accum_begin > s.begin()], which becomes true exactly when a
    delimiter has been skipped; at the end with an empty accumulator and
    [started], the character before [accum_end] is the delimiter just skipped. *)
Fixpoint split_go (d : ascii) (started : bool) (acc : text) (s : text) : list text :=
  match s with
  | [] => match acc with
          | _ :: _ => [rev acc]
          | [] => if started then [[]] else []
          end
  | c :: r => if Ascii.eqb c d then rev acc :: split_go d true [] r
              else split_go d started (c :: acc) r
  end.
Definition split_on (s : text) (d : ascii) : list text := split_go d false [] s.

(** [s.find(c)] for string_view: index of first occurrence, here the split
    point itself: text before and text after the first occurrence. *)
Fixpoint find_char (s : text) (c : ascii) : option (text * text) :=
  match s with
  | [] => None
  | x :: r => if Ascii.eqb x c then Some ([], r)
              else match find_char r c with
                   | Some (a, b) => Some (x :: a, b)
                   | None => None
                   end
  end.

(** include/lstk/lstk.hpp:155-158 *)
Definition contains (s : text) (c : ascii) : bool :=
  match find_char s c with Some _ => true | None => false end.

(** include/lstk/lstk.hpp:146-153 *)
Definition split_on_first (s : text) (d : ascii) : outcome (text * text) :=
  match find_char s d with
  | Some p => Ok p
  | None => Throw LogicError
  end.

(** include/lstk/lstk.hpp:209-220, [str_replace].  The loop body appends the
    text before the next occurrence and the replacement, and drops both from
    [s]; what is left of [s] after the last occurrence is never appended.
    Fuel is the length of [s]. *)
Fixpoint str_replace_loop (fuel : nat) (s : text) (t : ascii) (r : text) (out : text) : text :=
  match fuel with
  | O => out
  | S f => match find_char s t with
           | None => out
           | Some (a, b) => str_replace_loop f b t r (out ++ a ++ r)
           end
  end.
Definition str_replace (s : text) (t : ascii) (r : text) : text :=
  if contains s t then str_replace_loop (S (length s)) s t r [] else s.

(** include/lstk/lstk.hpp:254-266, [join] over strings. *)
Fixpoint join_go (acc : text) (sep : text) (l : list text) : text :=
  match l with
  | [] => acc
  | v :: r => join_go (acc ++ sep ++ v) sep r
  end.
Definition join (l : list text) (sep : text) : text :=
  match l with
  | [] => []
  | v :: r => join_go v sep r
  end.

(** [std::isspace] in the "C" locale. *)
Definition isspace (c : ascii) : bool :=
  let n := N_of_ascii c in ((N.eqb n 32) || ((9 <=? n) && (n <=? 13)))%N.

(** include/lstk/lstk.hpp:162-166, [ltrim] *)
Fixpoint ltrim (s : text) : text :=
  match s with
  | [] => []
  | c :: r => if isspace c then ltrim r else s
  end.

(** Decimal digits. *)
Definition is_digit (c : ascii) : bool :=
  let n := N_of_ascii c in ((48 <=? n) && (n <=? 57))%N.
Definition digit_val (c : ascii) : N := (N_of_ascii c - 48)%N.
Definition digit_char (d : N) : ascii := ascii_of_N (48 + d).

(** [std::to_string] / [os <<] of an unsigned integer.  Fuel is the number of
    binary digits, an upper bound on the number of decimal digits. *)
Fixpoint dec_go (fuel : nat) (n : N) (acc : text) : text :=
  match fuel with
  | O => acc
  | S f => let acc' := digit_char (n mod 10) :: acc in
           if (n / 10 =? 0)%N then acc' else dec_go f (n / 10)%N acc'
  end.
Definition print_N (n : N) : text := dec_go (S (N.size_nat n)) n [].

(** [os <<] of a signed integer. *)
Definition print_Z (z : Z) : text :=
  if (z <? 0)%Z then "-"%char :: print_N (Z.to_N (- z)) else print_N (Z.to_N z).

(** Longest prefix of decimal digits, with the value accumulated so far and
    whether any digit was read. *)
Fixpoint read_digits (s : text) (v : N) (any : bool) : N * bool * text :=
  match s with
  | c :: r => if is_digit c then read_digits r (10 * v + digit_val c)%N true
              else (v, any, s)
  | [] => (v, any, s)
  end.

(** [std::from_chars] for [int] (32 bit), base 10: optional minus sign, digits,
    no sign or space skipping; trailing characters are left unread. *)
Inductive from_chars_result := FCValue (v : Z) | FCInvalid | FCRange.
Definition from_chars_int (s : text) : from_chars_result :=
  let '(neg, body) := match s with
                      | c :: r => if Ascii.eqb c "-" then (true, r) else (false, s)
                      | [] => (false, s)
                      end in
  let '(v, any, _) := read_digits body 0 false in
  if any then
    let z := if neg then (- Z.of_N v)%Z else Z.of_N v in
    if ((- 2 ^ 31 <=? z) && (z <? 2 ^ 31))%Z then FCValue z else FCRange
  else FCInvalid.
