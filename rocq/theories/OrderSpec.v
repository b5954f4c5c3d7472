(** What the order in which a pipeline applies instructions may depend on, without
    graphs, queues or slices: C64. *)
From Verif Require Import Base InstrModel InstrSpec GraphSpec RunModel.
Open Scope nat_scope.

(** The instruction without what is filled in while it is carried out *)
Definition plan (o : operation) : operation :=
  match o with
  | MultiMeasure obs neg _ => MultiMeasure obs neg None
  | BellInit s1 s2 l1 l2 _ _ => BellInit s1 s2 l1 l2 None None
  | YRequest t n _ => YRequest t n None
  | BellCNOT c t s1 s2 _ _ _ _ => BellCNOT c t s1 s2 None None None None
  | _ => o
  end.

(** What the visitors of a run are told was applied *)
Definition told (l : list event) : list instr := flat_map (fun x => match x with Applied i => [i] | Emitted _ => [] end) l.

(** One of these, with the number of the instruction of the program it belongs to, and whether that instruction is finished by it *)
Record entry := mkEn { job : nat; step : instr; final : bool }.
Definition of_job (j : nat) (log : list entry) : list entry := filter (fun x => Nat.eqb (job x) j) log.

(** The steps [l] carry out [v]: it begins with [v] itself, works only on what [v] works on, and the last step is the one that finishes it. *)
Definition carries_out (v : instr) (l : list entry) : Prop :=
  exists first l' last, hd_error l = Some first /\ l = l' ++ [last]
    /\ plan (op (step first)) = plan (op v) /\ clients (step first) = clients v
    /\ Forall (fun x => forall p, works_on (step x) p -> works_on v p) l
    /\ Forall (fun x => final x = false) l' /\ final last = true.

(** The log accounts for the program: each instruction is carried out, nothing else is done, and of two instructions that
    work on the same patch the first one is finished before the second one begins. *)
Record accounts (prog : list instr) (log : list entry) : Prop := mkAcc {
  ac_jobs : Forall (fun x => job x < length prog) log;
  ac_done : forall j v, nth_error prog j = Some v -> carries_out v (of_job j log);
  ac_order : forall i j l1 x l2, waits prog i j -> log = l1 ++ x :: l2 -> job x = j -> of_job i l2 = [] }.

(** The numbers of the instructions in the order in which they are finished *)
Definition completed (log : list entry) : list nat := flat_map (fun x => if final x then [job x] else []) log.

(** What instructions do to a state of any kind.  [R] says which states count as the same (and, by relating them to themselves,
    which ones count at all).  Instructions are to give the same on the same, and those without a common patch may be exchanged. *)
Record lawful {D} (R : D -> D -> Prop) (mean : instr -> D -> D) : Prop := mkLaw {
  law_sym : forall d d', R d d' -> R d' d;
  law_trans : forall d d' d'', R d d' -> R d' d'' -> R d d'';
  law_same : forall x d d', R d d' -> R (mean x d) (mean x d');
  law_swap : forall x y d, R d d -> (forall p, works_on x p -> ~ works_on y p) -> R (mean x (mean y d)) (mean y (mean x d)) }.
Definition effect_of {D} (mean : instr -> D -> D) (l : list instr) (d : D) : D := fold_left (fun d x => mean x d) l d.
(** The instructions with these numbers *)
Definition pick (prog : list instr) (order : list nat) : list instr := flat_map (fun j => match nth_error prog j with Some v => [v] | None => [] end) order.
