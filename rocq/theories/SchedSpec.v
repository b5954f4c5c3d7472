(** What it means to carry out a program in an order that respects its
    dependencies, without graphs, queues or counters of predecessors.  Used for the
    DAG and the wave pipeline. *)
From Verif Require Import Base PatchesModel LayoutModel InstrModel SliceModel MarksModel ApplyModel RunModel.

(** One thing that a loop does: attempt what is left of instruction number [j] of the program, namely [x], after
    which [o] is left of it, show the slice, or give marked boundaries their types back. *)
Inductive act :=
| Try (j : nat) (x : instr) (a : applied) (o : option instr)
| Show (s : slice)
| Mend.

(** What the visitors get to see of it *)
Definition seen (l : list act) : list event :=
  flat_map (fun c => match c with
                     | Try _ x a _ => if a_error a then [] else [Applied (tried x a)]
                     | Show s => [Emitted s]
                     | Mend => []
                     end) l.

Definition put_at {B} (n : nat) (v : B) (l : list B) : list B := firstn n l ++ v :: skipn (S n) l.

Section Sched.
Variable e : env.
(** Whether two instructions must be kept in order *)
Variable conflict : instr -> instr -> bool.
(** What an instruction that was refused may become *)
Variable again : instr -> applied -> instr -> Prop.

(** What is left of [x] after the attempt [a]: after a refusal some form of it, otherwise its follow-up. *)
Definition leaves (x : instr) (a : applied) (o : option instr) : Prop :=
  if a_error a then exists y, o = Some y /\ again x a y else o = hd_error (a_follow a).

(** [scheduled prog w0 acts w p]: starting in [w0], [acts] were done and led to [w];
    [p] lists for each instruction of the program what is left to do of it: the
    instruction itself at first, then its follow-up, and nothing in the end.
    An instruction is attempted only when nothing is left of the earlier ones it
    conflicts with. *)
Inductive scheduled (prog : list instr) (w0 : world) : list act -> world -> list (option instr) -> Prop :=
| sc_start : scheduled prog w0 [] w0 (map Some prog)
| sc_try acts w p j x a o : scheduled prog w0 acts w p -> nth_error p j = Some (Some x) ->
    (forall i u v, (i < j)%nat -> nth_error prog i = Some u -> nth_error prog j = Some v -> conflict u v = true ->
       nth_error p i = Some None) ->
    try_apply e w x = Ok a -> leaves x a o ->
    scheduled prog w0 (acts ++ [Try j x a o]) (a_world a) (put_at j o p)
| sc_show acts w p s : scheduled prog w0 acts w p -> advance_slice (e_layout e) (w_slice w) = Ok s ->
    scheduled prog w0 (acts ++ [Show (w_slice w)]) (with_slice w s) p
| sc_mend acts w p s : scheduled prog w0 acts w p -> e_edpc e = true -> give_back (w_slice w) = Ok s ->
    scheduled prog w0 (acts ++ [Mend]) (with_slice w s) p.

(** Instruction number [j] may be attempted. *)
Definition ready (prog : list instr) (p : list (option instr)) (j : nat) : Prop :=
  (exists x, nth_error p j = Some (Some x)) /\
  forall i u v, (i < j)%nat -> nth_error prog i = Some u -> nth_error prog j = Some v -> conflict u v = true -> nth_error p i = Some None.

(** The attempts at instruction number [j] *)
Definition tries (j : nat) (acts : list act) : list (instr * applied) :=
  flat_map (fun c => match c with Try i x a _ => if Nat.eqb i j then [(x, a)] else [] | _ => [] end) acts.

(** The life of one instruction: attempted until it is accepted, then its
    follow-up in the same way, until there is none. *)
Inductive life (x0 : instr) : list (instr * applied) -> option instr -> Prop :=
| li_new : life x0 [] (Some x0)
| li_refused l x a y : life x0 l (Some x) -> a_error a = true -> again x a y -> life x0 (l ++ [(x, a)]) (Some y)
| li_accepted l x a : life x0 l (Some x) -> a_error a = false -> life x0 (l ++ [(x, a)]) (hd_error (a_follow a)).

(** Refusals since the last time it was accepted *)
Definition refusals (l : list (instr * applied)) : nat :=
  fold_left (fun n xa => if a_error (snd xa) then S n else O) l O.
End Sched.

(** ** The DAG pipeline *)

(** ls_instructions.hpp:299-305 decides what is kept in order *)
Definition clash (x y : instr) : bool := negb (can_commute x y).

(** A refused instruction stays as it is. *)
Definition same_again (x : instr) (a : applied) (y : instr) : Prop := y = tried x a.

Section DagEnd.
Variables (e : env) (late : nat -> bool) (prog : list instr) (w0 : world).
Notation sched := (scheduled e clash same_again prog w0).

(** Why the loop stops: nothing is left; an attempt or the advance throws (or worse); an
    instruction is refused for the 101st time; a follow-up is refused; the time is up. *)
Inductive dag_left (t : tally) : ending -> Prop :=
| dl_done acts w p : sched acts w p -> t_events t = seen acts -> Forall (fun o => o = None) p ->
    t_slices t = (1 + N.of_nat (length (emitted (seen acts))))%N ->
    N.of_nat (length (seen acts)) = (t_instrs t + N.of_nat (length (emitted (seen acts))))%N -> dag_left t Finished
| dl_attempt acts w p j x r : sched acts w p -> t_events t = seen acts -> nth_error p j = Some (Some x) ->
    (match try_apply e w x with Ok _ => False | Throw y => r = Failed y | UB u => r = Undefined u | Fuel => r = Unended end) -> dag_left t r
| dl_given_up acts w p j x a o : sched (acts ++ [Try j x a o]) w p -> t_events t = seen acts -> a_error a = true ->
    refusals (tries j (acts ++ [Try j x a o])) = 101%nat -> dag_left t (Failed RuntimeError)
| dl_followup acts w p j x a o : sched (acts ++ [Try j x a o]) w p -> t_events t = seen acts -> a_error a = true ->
    (exists y b, In (y, b) (tries j acts) /\ a_error b = false) -> dag_left t (Failed RuntimeError)
| dl_late acts w p : sched acts w p -> t_events t = seen acts -> late (length (emitted (t_events t))) = true -> dag_left t (Failed RuntimeError)
| dl_advance acts w p r : sched acts w p -> t_events t = seen acts ++ [Emitted (w_slice w)] ->
    (match advance_slice (e_layout e) (w_slice w) with Ok _ => False | Throw y => r = Failed y | UB u => r = Undefined u | Fuel => r = Unended end) ->
    dag_left t r.
End DagEnd.
