(** How much there is to do for an instruction. *)
From Verif Require Import Base PatchesModel LayoutModel InstrModel SliceModel MarksModel ApplyModel RunModel.

(** How often an instruction and what follows it can be accepted before nothing is left: a rotation keeps its tiles busy
    for three slices after the first, an S gate is followed by a Z gate. *)
Definition toil (i : instr) : N :=
  match op i with
  | Busy _ n _ => n + 1
  | Rotate _ => 4
  | SingleOp _ SqS _ => 2
  | _ => 1
  end.
Definition all_toil (l : list instr) : N := fold_right (fun i n => toil i + n)%N 0%N l.

(** Operations over a distance.  They are accepted, and come back, as often as a slice passes without progress. *)
Definition link (i : instr) : Prop := match op i with BellInit _ _ _ _ _ _ | BellCNOT _ _ _ _ _ _ _ _ => True | _ => False end.

(** No instruction is an operation over a distance, unless such operations are rejected anyway. *)
Definition no_links (e : env) (l : list instr) : Prop := e_local e = true -> Forall (fun i => ~ link i) l.
