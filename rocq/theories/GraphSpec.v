(** What a picture of a program's dependencies has to show, as DOT text, without
    graphs: C61. *)
From Verif Require Import Base TextModel TextSpec InstrModel InstrSpec.
Open Scope nat_scope.

Definition LF : ascii := ascii_of_N 10.

(** A character of an HTML-like DOT label. *)
Definition escaped_char (c : ascii) : text :=
  if Ascii.eqb c "&" then lit "&amp;" else if Ascii.eqb c "<" then lit "&lt;" else if Ascii.eqb c ">" then lit "&gt;" else [c].
Definition escaped (s : text) : text := flat_map escaped_char s.

(** The lines of the picture. *)
Definition number (i : nat) : text := print_N (N.of_nat i).
Definition title : text := lit "digraph DirectedGraph {".
Definition box (i : nat) (label : text) : text :=
  lit "  " ++ number i ++ lit " [shape=""plaintext"",label=<<table cellborder=""0""><tr><td><b>" ++ label ++
  lit "</b></td></tr><tr><td><font color=""darkgray"">node: " ++ number i ++ lit "</font></td></tr></table>>];".
Definition arrow (i j : nat) : text := lit "  " ++ number i ++ lit " -> " ++ number j ++ lit ";".

(** [t] is the picture of items labelled [labels], numbered from 0, with one arrow
    for each pair related by [dep] and no other, and it is read line by line. *)
Definition picture (labels : list text) (dep : nat -> nat -> Prop) (t : text) : Prop :=
  exists arrows : list (nat * nat), NoDup arrows /\ (forall i j, In (i, j) arrows <-> dep i j) /\
    let ls := title :: map (fun il => box (fst il) (snd il)) (combine (seq 0 (length labels)) labels) ++
              map (fun a => arrow (fst a) (snd a)) arrows ++ [lit "}"; []] in
    t = intercalate LF ls /\ Forall (fun l => ~ In LF l) ls.

(** The patches an instruction works on: what it names, except as a place to be
    near to, and what it is announced to be needed by. *)
Definition works_on (i : instr) (p : N) : Prop :=
  In p (clients i) \/
  match op i with
  | Init t _ _ | MagicRequest t _ | YRequest t _ _ => p = t
  | o => names o p
  end.
(** The later of two instructions has to wait for the earlier one. *)
Definition waits (prog : list instr) (i j : nat) : Prop :=
  i < j /\ exists x y p, nth_error prog i = Some x /\ nth_error prog j = Some y /\ works_on x p /\ works_on y p.
