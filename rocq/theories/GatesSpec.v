(** Vocabulary for the properties about QASM gates (C03, C07-C10), stated on
    texts and on the action of gates on computational basis states. *)
From Coq Require Import QArith.
From Verif Require Import Base TextModel TextSpec GatesModel.

(** ** Written lines *)

(** A register name: no character with a meaning in the line syntax. *)
Definition plain (s : text) : Prop :=
  Forall (fun c => ~ In c (lit " ;,[]/(")) s.
Definition spaces (s : text) : Prop := Forall (fun c => c = " "%char) s.

(** An operand such as q[12], in decimal. *)
Definition operand (reg : text) (i : N) : text := reg ++ lit "[" ++ print_N i ++ lit "]".

(** ws name ' ' operands ';' tail *)
Definition line (ws name operands tail : text) : text :=
  ws ++ name ++ " "%char :: operands ++ ";"%char :: tail.

(** The annotation words of the text after the semicolon: those after the
    marker " // %", separated by commas. *)
Definition annotated (tail : text) (words : list text) : Prop :=
  (exists rest, tail = lit " // %" ++ rest /\ intercalate "," words = rest /\
                Forall (fun w => ~ In ","%char w) words /\ words <> [[]]) \/
  ((forall rest, tail <> lit " // %" ++ rest) /\ words = []).

(** The first word of a list that names a value. *)
Inductive first_named {A} (names : text -> A -> Prop) (dflt : A) : list text -> A -> Prop :=
| fn_default : first_named names dflt [] dflt
| fn_here w ws a : names w a -> first_named names dflt (w :: ws) a
| fn_later w ws a : (forall b, ~ names w b) -> first_named names dflt ws a ->
                    first_named names dflt (w :: ws) a.

Definition names_cnot_type (w : text) (t : cnot_type) : Prop :=
  w = match t with
      | ControlFirst => lit "ZXWithMBMControlFirst"
      | TargetFirst => lit "ZXWithMBMTargetFirst"
      | BellBased => lit "BellBased"
      end.
Definition names_placement (w : text) (p : placement) : Prop :=
  w = match p with
      | DedicatedCell => lit "AncillaFreePlacement"
      | NextToControl => lit "AncillaNextToControl"
      | NextToTarget => lit "AncillaNextToTarget"
      end.

Definition qasm_name (b : basic) : text :=
  lit match b with
      | GX => "x" | GY => "y" | GZ => "z" | GS => "s" | GT => "t" | GH => "h"
      | GSDg => "sdg" | GTDg => "tdg"
      end.

(** Angles as written in rz( ) and the value they denote, in units of pi. *)
Inductive angle_written : text -> bool -> N -> N -> Prop :=
| aw_unit d : (d < 2 ^ 63)%N -> angle_written (lit "pi/" ++ print_N d) false 1 d
| aw_unit_neg d : (d < 2 ^ 63)%N -> angle_written (lit "-pi/" ++ print_N d) true 1 d
| aw_frac n d : (n < 2 ^ 63)%N -> (d < 2 ^ 63)%N ->
    angle_written (print_N n ++ lit "*pi/" ++ print_N d) false n d
| aw_frac_neg n d : (n < 2 ^ 63)%N -> (d < 2 ^ 63)%N ->
    angle_written (lit "-" ++ print_N n ++ lit "*pi/" ++ print_N d) true n d
| aw_int n : (n < 2 ^ 63)%N -> angle_written (print_N n ++ lit "*pi") false n 1
| aw_int_neg n : (n < 2 ^ 63)%N -> angle_written (lit "-" ++ print_N n ++ lit "*pi") true n 1.

Definition written_angle (neg : bool) (n d : N) : Q :=
  let q := (inject_Z (Z.of_N n) / inject_Z (Z.of_N d))%Q in if neg then (- q)%Q else q.

(** ** Action on basis states *)

(** A basis state with a phase, in units of pi. *)
Record bstate := mkBS { bits : N -> bool; phase : Q }.
Definition flip (q : N) (b : N -> bool) : N -> bool :=
  fun k => if N.eqb k q then negb (b k) else b k.
Definition add_phase (p : Q) (s : bstate) : bstate := mkBS (bits s) (phase s + p).
Definition frac_value (f : fraction) : Q :=
  let q := (inject_Z (fr_num f) / inject_Z (fr_den f))%Q in if fr_neg f then (- q)%Q else q.

(** Diagonal and permutation gates map a basis state to a basis state with a
    phase; Hadamard and reset do not. *)
Definition act_basic (q : N) (b : basic) (s : bstate) : option bstate :=
  let z (p : Q) := Some (if bits s q then add_phase p s else s) in
  match b with
  | GX => Some (mkBS (flip q (bits s)) (phase s))
  | GY => Some (mkBS (flip q (bits s)) (phase s + if bits s q then - (1#2) else 1#2))
  | GZ => z 1%Q
  | GS => z (1#2)%Q
  | GSDg => z (- (1#2))%Q
  | GT => z (1#4)%Q
  | GTDg => z (- (1#4))%Q
  | GH => None
  end.
Definition act_sq (g : sq_gate) (s : bstate) : option bstate :=
  match g with
  | SBasic q b => act_basic q b s
  | SRZ q f => Some (if bits s q then add_phase (frac_value f) s else s)
  end.
Definition act (g : gate) (s : bstate) : option bstate :=
  match g with
  | GBasic q b => act_sq (SBasic q b) s
  | GRZ q f => act_sq (SRZ q f) s
  | GControlled c tg _ _ => if bits s c then act_sq tg s else Some s
  | GReset _ _ => None
  end.
Fixpoint act_all (l : list gate) (s : bstate) : option bstate :=
  match l with
  | [] => Some s
  | g :: r => match act g s with Some s' => act_all r s' | None => None end
  end.

(** Same state: equal bits, phases equal up to whole turns. *)
Definition same_state (a b : bstate) : Prop :=
  (forall k, bits a k = bits b k) /\ exists n : Z, (phase a == phase b + inject_Z (2 * n))%Q.
Definition same_result (a b : option bstate) : Prop :=
  match a, b with Some x, Some y => same_state x y | _, _ => False end.
(** The gate list acts as the gate. *)
Definition implements (l : list gate) (g : gate) : Prop :=
  forall s, same_result (act_all l s) (act g s).

(** ** Files *)
Definition newline : ascii := ascii_of_nat 10.
(** The gates among the results of reading the lines, in order. *)
Fixpoint gates_among (l : list parse_result) : list gate :=
  match l with
  | [] => []
  | PGate g :: r => g :: gates_among r
  | _ :: r => gates_among r
  end.
Fixpoint registers_among (l : list parse_result) : list (text * N) :=
  match l with
  | [] => []
  | PQreg n k :: r => (n, k) :: registers_among r
  | _ :: r => registers_among r
  end.

(** A gate with an angle. *)
Definition is_rotation (g : gate) : Prop :=
  (exists q f, g = GRZ q f) \/ (exists c q f ct pl, g = GControlled c (SRZ q f) ct pl).
