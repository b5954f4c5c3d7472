(** What gates and instructions do to the amplitudes of a state, by the textbook: C67.  States are not normalised. *)
From Verif Require Import Base PatchesModel InstrModel GatesModel LoweringModel.
Open Scope nat_scope.

(** Numbers that can be added and multiplied by a square root of i ([turn]), as the complex numbers can. *)
Record amps := mkAmps {
  amp :> Type; zero : amp; add : amp -> amp -> amp; turn : amp -> amp;
  add_comm : forall a b, add a b = add b a;
  add_assoc : forall a b c, add a (add b c) = add (add a b) c;
  add_zero : forall a, add a zero = a;
  turn_add : forall a b, turn (add a b) = add (turn a) (turn b);
  turn_zero : turn zero = zero;
  turn_minus : forall a, add a (turn (turn (turn (turn a)))) = zero }.
Arguments zero {_}. Arguments add {_} _ _. Arguments turn {_} _.

Definition basis : Type := N -> bool.
Definition set_bit (b : basis) (q : N) (v : bool) : basis := fun x => if N.eqb x q then v else b x.

Section States.
Variable M : amps.
Definition state : Type := basis -> M.
Definition turns (k : nat) (a : M) : M := Nat.iter k turn a.
Definition twice (j : nat) (a : M) : M := Nat.iter j (fun x => add x x) a.

(** diag (1, (sqrt i)^k) on [q]: k = 1 is T, 2 is S, 4 is Z, 6 the inverse of S, 7 the inverse of T. *)
Definition phase (q : N) (k : nat) (u : state) : state := fun b => turns (if b q then k else 0) (u b).
Definition flip (q : N) (u : state) : state := fun b => u (set_bit b q (negb (b q))).
Definition had (q : N) (u : state) : state := fun b => add (u (set_bit b q false)) (turns (if b q then 4 else 0) (u (set_bit b q true))).
Definition cnot (c t : N) (u : state) : state := fun b => u (set_bit b t (xorb (b t) (b c))).
Definition cz (c t : N) (u : state) : state := fun b => turns (if b c && b t then 4 else 0) (u b).
Definition ygate (q : N) (u : state) : state := fun b => turns (if b q then 2 else 6) (u (set_bit b q (negb (b q)))).

(** The gates *)
Definition meant (g : gate) (u : state) : state :=
  match g with
  | GBasic q GX => flip q u | GBasic q GY => ygate q u | GBasic q GZ => phase q 4 u | GBasic q GH => had q u
  | GBasic q GS => phase q 2 u | GBasic q GSDg => phase q 6 u | GBasic q GT => phase q 1 u | GBasic q GTDg => phase q 7 u
  | GRZ q f => phase q (if (fr_den f =? 1)%Z then 4 else if (fr_den f =? 2)%Z then 2 else 1) u
  | GControlled c (SBasic t GX) _ _ => cnot c t u
  | GControlled c (SBasic t GZ) _ _ => cz c t u
  | _ => u
  end.
Definition computes (gs : list gate) (u : state) : state := fold_left (fun u g => meant g u) gs u.

(** The instructions.  A magic state is |0> + sqrt i |1>; [z] is the outcome of a measurement (true: -1), and a measured
    patch is gone; [yes] says whether an S is carried out or, if it is made from a Y state |0> + i |1>, whether its helper
    patch is in that state (and not in |0> + |1>).  Rotations do nothing. *)
Definition carry_out (o : operation) (yes z : bool) (u : state) : option state :=
  match o with
  | SingleOp q SqX _ => Some (flip q u)
  | SingleOp q SqY _ => Some (ygate q u)
  | SingleOp q SqZ _ => Some (phase q 4 u)
  | SingleOp q SqH _ => Some (had q u)
  | SingleOp q SqS d => Some (if yes then phase q (if d then 6 else 2) u else u)
  | MagicRequest m _ => Some (phase m 1 u)
  | YRequest y _ _ => Some (if yes then phase y 2 u else u)
  | Rotate _ => Some u
  | MultiMeasure [(p, PZ); (q, PZ)] false _ => Some (fun b => if Bool.eqb (xorb (b p) (b q)) z then u b else zero)
  | Measure m PX false => Some (fun b => add (u (set_bit b m false)) (turns (if z then 4 else 0) (u (set_bit b m true))))
  | Measure m PZ false => Some (fun b => u (set_bit b m z))
  | BellCNOT c t _ _ _ _ _ _ => Some (cnot c t u)
  | _ => None
  end.
Definition measures (o : operation) : bool := match o with Measure _ _ _ | MultiMeasure _ _ _ => true | _ => false end.

(** Obeying the instructions from the [i]th on: [seen] are the outcomes so far, [outs] those to come.  Which S are
    carried out is up to a rule that knows the instructions, and the outcomes so far. *)
Fixpoint obeys (rule : nat -> list bool -> bool) (i : nat) (seen outs : list bool) (l : list instr) (u : state) : option state :=
  match l with
  | [] => Some u
  | x :: r =>
      if measures (op x) then
        match outs with
        | [] => None
        | z :: outs => match carry_out (op x) true z u with Some v => obeys rule (S i) (seen ++ [z]) outs r v | None => None end
        end
      else match carry_out (op x) (rule i seen) false u with Some v => obeys rule (S i) seen outs r v | None => None end
  end.
Definition outcomes (l : list instr) : nat := length (filter (fun x => measures (op x)) l).

(** The state is one of the qubits below [c]. *)
Definition lives (c : N) (u : state) : Prop := forall b b', (forall q, (q < c)%N -> b q = b' q) -> u b = u b'.

(** Pauli operators, X (true) and Z on qubits *)
Definition pauli_op (p : N * bool) (u : state) : state := if snd p then flip (fst p) u else phase (fst p) 4 u.
Definition paulis (l : list (N * bool)) (u : state) : state := fold_right pauli_op u l.

(** The same but for a phase and the length *)
Definition scaled (k j : nat) (u v : state) : Prop := forall b, u b = turns k (twice j (v b)).

(** The instructions [out] do what the gates [gs] say to the qubits below [c], if the S of the rule are carried out:
    whatever the outcomes, up to Pauli operators that can be told from them. *)
Definition right (c : N) (out : list instr) (gs : list gate) (rule : nat -> list bool -> bool) : Prop :=
  forall outs, length outs = outcomes out -> exists frame k j, Forall (fun p => (fst p < c)%N) frame /\
  forall psi, lives c psi -> exists psi', obeys rule 0 [] outs out psi = Some psi' /\ scaled k j psi' (paulis frame (computes gs psi)).
End States.

(** The gates that come out right, for each way to make CNOTs *)
Definition fine (cfg : lower_cfg) (g : gate) : Prop :=
  match g with
  | GBasic _ _ | GRZ _ _ => True
  | GControlled c (SBasic t b) ct _ => (b = GX \/ b = GZ) /\ c <> t /\ (ct = BellBased \/ cfg_local cfg = true)
  | _ => False
  end.
