(** Independent vocabulary for the text properties (C01, C02). *)
From Verif Require Import Base.

(** Fields separated by a delimiter. *)
Fixpoint intercalate (d : ascii) (l : list text) : text :=
  match l with
  | [] => []
  | [v] => v
  | v :: r => v ++ d :: intercalate d r
  end.

(** Every occurrence of [t] substituted by [r], everything else kept. *)
Definition substitute (s : text) (t : ascii) (r : text) : text :=
  flat_map (fun c => if Ascii.eqb c t then r else [c]) s.

Definition count_char (d : ascii) (s : text) : nat := count_occ ascii_dec s d.
