(** What a run of the wave pipeline does, without records, dependents or counts. *)
From Verif Require Import Base PatchesModel LayoutModel InstrModel SliceModel MarksModel ApplyModel RunModel SchedSpec.

(** A refused instruction stays as it is (when it was attempted out of turn) or has one wait less. *)
Definition less_again (x : instr) (a : applied) (y : instr) : Prop :=
  y = tried x a \/ (wait x <> 0%N /\ y = mkI (a_op a) (wait x - 1) (clients x)).

(** A client list is a set; no instruction concerns more than 255 patches. *)
Definition few_patches (i : instr) : Prop := NoDup (clients i) /\ (length (patch_dependencies i) <= 255)%nat.

(** What is_immediate refuses to look at *)
Definition odd_kind (i : instr) : Prop :=
  match op i with Declare _ => True | SingleOp _ SqZeroValue _ => True | _ => False end.

(** A CNOT over a distance that has found its route *)
Definition on_route (i : instr) : Prop :=
  match op i with BellCNOT _ _ _ _ (Some _) _ _ _ => True | _ => False end.

(** Not cut up before a route is found: so are all instructions when they are read. *)
Definition orderly (i : instr) : Prop := match op i with BellCNOT _ _ _ _ None (Some _) _ _ => False | _ => True end.
Definition uncut (e : env) (prog : list instr) : Prop := e_edpc e = true -> Forall orderly prog.

(** Instruction number [j] was refused the last time, and will not come again. *)
Definition lost (e : env) (p : list (option instr)) (acts : list act) (j : nat) : Prop :=
  e_edpc e = true /\ (exists x, nth_error p j = Some (Some x) /\ on_route x) /\ exists l y b, tries j acts = l ++ [(y, b)] /\ a_error b = true.

(** An attempt that gets on: accepted; refused, with less wait left; or, with EDPC, a route was found. *)
Definition moves (e : env) (x : instr) (a : applied) (o : option instr) : Prop :=
  a_error a = false \/ (exists y, o = Some y /\ (wait y < wait x)%N) \/ (e_edpc e = true /\ exists y, o = Some y /\ on_route y).

Section WaveEnd.
Variables (e : env) (late : nat -> bool) (grow : nat -> bool) (prog : list instr) (w0 : world).
Notation sched := (scheduled e clash less_again prog w0).

(** Why the loop stops: nothing is left; an attempt or the advance throws (or worse); an
    instruction of an unexpected kind comes up; an instruction is refused with no wait left; a
    follow-up is refused; the time is up; or the list of instructions was moved, when a follow-up was
    appended, while it was still being read.  With EDPC, moreover: a boundary that was marked is no longer there; and the
    loop also ends, as if everything were done, when an instruction that had found a route is refused afterwards. *)
Inductive wave_left (t : tally) : ending -> Prop :=
| wl_done acts w p : sched acts w p -> t_events t = seen acts -> Forall (fun o => o = None) p ->
    t_slices t = (1 + N.of_nat (length (emitted (seen acts))))%N ->
    N.of_nat (length (seen acts)) = (t_instrs t + N.of_nat (length (emitted (seen acts))))%N -> wave_left t Finished
| wl_attempt acts w p j x r : sched acts w p -> t_events t = seen acts -> ready clash prog p j -> nth_error p j = Some (Some x) ->
    (match try_apply e w x with Ok _ => False | Throw y => r = Failed y | UB u => r = Undefined u | Fuel => r = Unended end) -> wave_left t r
| wl_kind acts w p j x : sched acts w p -> t_events t = seen acts -> ready clash prog p j -> nth_error p j = Some (Some x) ->
    odd_kind x -> wave_left t (Failed Unreachable)
| wl_used_up acts w p j x a o : sched (acts ++ [Try j x a o]) w p -> t_events t = seen acts -> a_error a = true ->
    wait x = 0%N -> wave_left t (Failed RuntimeError)
| wl_followup acts w p j x a o : sched (acts ++ [Try j x a o]) w p -> t_events t = seen acts -> a_error a = true ->
    (exists y b, In (y, b) (tries j acts) /\ a_error b = false) -> wave_left t (Failed RuntimeError)
| wl_late acts w p : sched acts w p -> t_events t = seen acts -> late (length (emitted (t_events t))) = true -> wave_left t (Failed RuntimeError)
| wl_advance acts w p r : sched acts w p -> t_events t = seen acts ++ [Emitted (w_slice w)] ->
    (match advance_slice (e_layout e) (w_slice w) with Ok _ => False | Throw y => r = Failed y | UB u => r = Undefined u | Fuel => r = Unended end) ->
    wave_left t r
| wl_moved acts w p : sched acts w p -> t_events t = seen acts ->
    (exists j x a o, In (Try j x a o) acts /\ a_error a = false /\ a_follow a <> []) ->
    (exists m, (length prog <= m)%nat /\ grow m = true) -> wave_left t (Undefined UBDangling)
| wl_mend acts w p r : sched acts w p -> t_events t = seen acts -> e_edpc e = true ->
    (match give_back (w_slice w) with Ok _ => False | Throw y => r = Failed y | UB u => r = Undefined u | Fuel => r = Unended end) -> wave_left t r
| wl_lost acts w p j : sched acts w p -> t_events t = seen acts -> ready clash prog p j -> lost e p acts j ->
    t_slices t = (1 + N.of_nat (length (emitted (seen acts))))%N ->
    N.of_nat (length (seen acts)) = (t_instrs t + N.of_nat (length (emitted (seen acts))))%N -> wave_left t Finished.
End WaveEnd.
