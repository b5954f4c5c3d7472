(** Model of the compilation loops of src/patches/dense_patch_computation.cpp:1448-1610
    and 1640-1725: the stream and the DAG pipeline.  The wave pipeline is in
    WaveModel.

    Simplifications: the instruction stream is the list of instructions it
    delivers (reading is in ReadModel); the two visitors record what they are given
    and do not throw; the counters do not wrap at 2^64; the text of error
    messages is not modelled. *)
From Verif Require Import Base PatchesModel LayoutModel InstrModel LoweringModel DagModel SliceModel RouterModel ApplyModel.

(** What the visitors are called with, in order. *)
Inductive event :=
| Applied (i : instr)      (* instruction_visitor *)
| Emitted (s : slice).     (* slice_visitor *)

(** How a run ends.  With [graceful] a [Failed] run still returns its counters. *)
Inductive ending :=
| Finished
| Failed (x : exn)
| Undefined (u : ubkind)
| Unended.                 (* the model's own fuel ran out *)

(** The recorded events and DensePatchComputationResult, dense_patch_computation.hpp:29-39 *)
Record tally := mkT { t_events : list event; t_instrs : N; t_slices : N }.
Definition tally0 : tally := mkT [] 0 1.
Definition saw (t : tally) (e : event) : tally := mkT (t_events t ++ [e]) (t_instrs t) (t_slices t).
Definition more_instrs (t : tally) : tally := mkT (t_events t) (t_instrs t + 1) (t_slices t).
Definition more_slices (t : tally) : tally := mkT (t_events t) (t_instrs t) (t_slices t + 1).

(** Going on in some state, or stopped for good. *)
Inductive progress (A : Type) := Go (a : A) | Halt (t : tally) (e : ending).
Arguments Go {A}. Arguments Halt {A}.
Definition pbind {A B} (x : progress A) (f : A -> progress B) : progress B :=
  match x with Go a => f a | Halt t e => Halt t e end.
(** An exception, undefined behaviour or lack of fuel ends the run. *)
Definition lift {A} (t : tally) (x : outcome A) : progress A :=
  match x with Ok a => Go a | Throw y => Halt t (Failed y) | UB u => Halt t (Undefined u) | Fuel => Halt t Unended end.
Notation "'let!' x := m 'in' k" := (pbind m (fun x => k))
  (at level 200, x pattern, m at level 100, k at level 200, right associativity).
Fixpoint pfold {A B} (f : A -> B -> progress A) (l : list B) (a : A) : progress A :=
  match l with [] => Go a | b :: r => let! a' := f a b in pfold f r a' end.

Section Loops.
Variable e : env.
(** Whether the time is up when the n-th slice is visited, dense_patch_computation.cpp:1626-1643 *)
Variable late : nat -> bool.

Definition emitted (l : list event) : list slice :=
  flat_map (fun x => match x with Emitted s => [s] | Applied _ => [] end) l.
(** [slice_visitor(slice)] *)
Definition visit (t : tally) (s : slice) : progress tally :=
  if late (length (emitted (t_events t))) then Halt t (Failed RuntimeError) else Go (saw t (Emitted s)).
(** [advance_slice(slice, layout)] *)
Definition advance (t : tally) (w : world) : progress world :=
  let! s := lift t (advance_slice (e_layout e) (w_slice w)) in Go (with_slice w s).
(** The instruction as it is after an attempt: its operation is taken by reference. *)
Definition tried (i : instr) (a : applied) : instr := mkI (a_op a) (wait i) (clients i).

(** ** The stream pipeline, dense_patch_computation.cpp:1448-1500 *)

Record stream_st := mkSS { ss_world : world; ss_future : list instr; ss_rest : list instr; ss_tally : tally }.

Definition stream_init (prog : list instr) (w : world) : stream_st := mkSS w [] prog tally0.

(** The next instruction and the state without it, 1467-1473 *)
Definition take_next (st : stream_st) : option (instr * stream_st) :=
  match ss_future st, ss_rest st with
  | i :: f, r => Some (i, mkSS (ss_world st) f r (ss_tally st))
  | [], i :: r => Some (i, mkSS (ss_world st) [] r (more_instrs (ss_tally st)))
  | [], [] => None
  end.

(** One turn of the loop, or what follows it. *)
Definition stream_step (st : stream_st) : progress stream_st :=
  match take_next st with
  | None => let! t := visit (ss_tally st) (w_slice (ss_world st)) in Halt t Finished
  | Some (i, st) =>
      let t := ss_tally st in
      let! a := lift t (try_apply e (ss_world st) i) in
      let i' := tried i a in
      let t := if a_error a then t else saw t (Applied i') in
      match a_follow a with
      | _ :: _ =>
          let! t := visit t (w_slice (a_world a)) in
          let! w := advance t (a_world a) in
          Go (mkSS w (ss_future st ++ a_follow a) (ss_rest st) (more_slices t))
      | [] =>
          if negb (a_error a) then Go (mkSS (a_world a) (ss_future st) (ss_rest st) t)
          else
            let! t := visit t (w_slice (a_world a)) in
            if (wait i =? 0)%N then Halt t (Failed RuntimeError)
            else
              let! w := advance t (a_world a) in
              Go (mkSS w (mkI (a_op a) (wait i - 1) (clients i) :: ss_future st) (ss_rest st) t)
      end
  end.

(** ** The DAG pipeline, dense_patch_computation.cpp:1503-1592 *)

Record dag_st := mkDS { ds_world : world; ds_dag : dag instr; ds_attempts : list (N * N); ds_tally : tally }.

(** domain_dags.cpp:10-29 and 1516-1518 *)
Definition dag_init (prog : list instr) (w : world) : progress dag_st :=
  let! d := lift tally0 (dag_of lli_can prog) in Go (mkDS w d [] tally0).

(** [attempts_per_instruction], 1520-1526 *)
Definition attempts (st : dag_st) (l : N) : N := match alookup (ds_attempts st) l with Some n => n | None => 0%N end.
Definition more_attempts (st : dag_st) (l : N) : dag_st :=
  mkDS (ds_world st) (ds_dag st) ((l, (attempts st l + 1)%N) :: ds_attempts st) (ds_tally st).

(** [dag.at(label)] is a reference that the attempt may write through *)
Definition dag_put (d : dag instr) (l : N) (i : instr) : dag instr :=
  mkDag (d_graph d) (map (fun kv => if N.eqb (fst kv) l then (fst kv, i) else kv) (d_ins d)) (d_deps d) (d_pheads d) (d_next d).

(** 1528-1537 *)
Definition handle_followups (t : tally) (d : dag instr) (l : N) (follow : list instr) : progress (dag instr) :=
  match follow with
  | [] => lift t (pop_head d l)
  | _ => let! (h, d') := lift t (dag_expand d l follow true) in Go (make_proximate d' h)
  end.

(** 1546-1562 and 1568-1590 *)
Definition dag_attempt (proximate : bool) (st : dag_st) (l : N) : progress dag_st :=
  let t := ds_tally st in
  let! i := lift t (dag_at (ds_dag st) l) in
  let! a := lift t (try_apply e (ds_world st) i) in
  let d := dag_put (ds_dag st) l (tried i a) in
  if a_error a then
    if proximate then Halt t (Failed RuntimeError)
    else
      let st := more_attempts (mkDS (a_world a) d (ds_attempts st) t) l in
      if (100 <? attempts st l)%N then Halt t (Failed RuntimeError) else Go st
  else
    let t := saw (more_instrs t) (Applied (tried i a)) in
    let! d := handle_followups t d l (a_follow a) in
    Go (mkDS (a_world a) d (ds_attempts st) t).

(** One turn of the loop, 1540-1600 *)
Definition dag_step (st : dag_st) : progress dag_st :=
  if dag_is_empty (ds_dag st) then Halt (ds_tally st) Finished
  else
    let! st := pfold (dag_attempt true) (proximate (ds_dag st)) st in
    let! ls := lift (ds_tally st) (applicable (ds_dag st)) in
    let! st := pfold (dag_attempt false) ls st in
    let! t := visit (ds_tally st) (w_slice (ds_world st)) in
    let! w := advance t (ds_world st) in
    Go (mkDS w (ds_dag st) (ds_attempts st) (more_slices t)).
End Loops.

(** At most [n] turns of a loop. *)
Fixpoint turns {S} (step : S -> progress S) (n : nat) (s : S) : progress S :=
  match n with O => Go s | S k => let! s' := step s in turns step k s' end.
