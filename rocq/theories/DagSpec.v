(** Specifications for dependency graphs, in terms of the reported successors and
    predecessors. *)
From Coq Require Import Relations.
From Verif Require Import Base DagModel.

Definition node (g : graph) (a : N) : Prop := exists l, successors g a = Ok l.
Definition edge (g : graph) (a b : N) : Prop := exists l, successors g a = Ok l /\ In b l.
Definition back_edge (g : graph) (b a : N) : Prop := exists l, predecessors g b = Ok l /\ In a l.

(** Graphs some client can hold: results of any history of operations.  An
    operation that throws leaves the graph as it was. *)
Inductive made : graph -> Prop :=
| made_empty : made g_empty
| made_op g o g' : made g -> g_apply g o = Ok g' -> made g'.

(** "Has to come before" *)
Definition before (g : graph) : N -> N -> Prop := clos_trans N (edge g).
Definition acyclic (g : graph) : Prop := forall a, ~ before g a a.

(** [a] and [b] are neighbours in the list *)
Fixpoint follows (l : list N) (a b : N) : Prop :=
  match l with x :: ((y :: _) as r) => (a = x /\ b = y) \/ follows r a b | _ => False end.
(** [a] is somewhere before [b] in the list *)
Definition earlier (l : list N) (a b : N) : Prop := exists p q r, l = p ++ a :: q ++ b :: r.

(** The effect of each operation on nodes and edges. *)
Definition effect (o : gop) (g g' : graph) : Prop :=
  match o with
  | AddNode l => (forall x, node g' x <-> node g x \/ x = l) /\ (forall a b, edge g' a b <-> edge g a b)
  | AddEdge f t => (forall x, node g' x <-> node g x \/ x = f \/ x = t) /\
                   (forall a b, edge g' a b <-> edge g a b \/ (a = f /\ b = t))
  | RemoveEdge f t => (forall x, node g' x <-> node g x) /\
                      (forall a b, edge g' a b <-> edge g a b /\ ~ (a = f /\ b = t))
  | RemoveNode l => (forall x, node g' x <-> node g x /\ x <> l) /\
                    (forall a b, edge g' a b <-> edge g a b /\ a <> l /\ b <> l)
  | Expand t r => exists front, head r = Some front /\ let back := last r front in
      (forall x, node g' x <-> (node g x /\ x <> t) \/ In x r) /\
      (forall a b, edge g' a b <->
         (edge g a b /\ a <> t /\ b <> t) \/ follows r a b \/
         (a = back /\ b <> t /\ edge g t b) \/ (b = front /\ a <> t /\ edge g a t) \/ (a = back /\ b = front /\ edge g t t))
  end.

(** ** Scheduling a program by its dependencies, without graphs.

    The state lists, for each instruction of the program, what is left of it:
    itself at first, then the follow-ups that applying it left to do. *)
Section Machine.
  Variable A : Type.
  Variable can : A -> A -> outcome bool.
  Definition pending := list (list A).
  Definition start (prog : list A) : pending := map (fun i => [i]) prog.
  Definition finished (p : pending) : Prop := forall l, In l p -> l = [].
  (** Instruction number [j] may proceed with [x]: every earlier instruction it
      does not commute with is finished. *)
  Definition enabled (prog : list A) (p : pending) (j : nat) (x : A) (rest : list A) : Prop :=
    nth_error p j = Some (x :: rest) /\
    forall i a b l, i < j -> nth_error prog i = Some a -> nth_error prog j = Some b ->
      nth_error p i = Some l -> l <> [] -> can a b = Ok true.
  Fixpoint set_nth {B} (n : nat) (v : B) (l : list B) : list B :=
    match l, n with [], _ => [] | _ :: r, O => v :: r | x :: r, S k => x :: set_nth k v r end.
  (** Applying [x] leaves the follow-ups [fs] to do before the rest. *)
  Inductive machine_step (prog : list A) : pending -> nat -> A -> list A -> pending -> Prop :=
  | machine_step_intro p j x rest fs : enabled prog p j x rest -> machine_step prog p j x fs (set_nth j (fs ++ rest) p).
  Inductive machine_run (prog : list A) : pending -> list (nat * A * list A) -> pending -> Prop :=
  | machine_nil p : machine_run prog p [] p
  | machine_cons p j x fs p' tr p'' : machine_step prog p j x fs p' -> machine_run prog p' tr p'' ->
      machine_run prog p ((j, x, fs) :: tr) p''.
End Machine.
Arguments start {A}. Arguments finished {A}. Arguments enabled {A}. Arguments machine_step {A}. Arguments machine_run {A}.

(** ** The same through the dependency graph *)
Section Exec.
  Variable A : Type.
  (** One applicable instruction [l] is applied: it is popped, or replaced by its
      follow-ups. *)
  Inductive dag_step : dag A -> N -> A -> list A -> dag A -> Prop :=
  | dag_pop d l x d' hs : applicable d = Ok hs -> In l hs -> dag_at d l = Ok x -> pop_head d l = Ok d' ->
      dag_step d l x [] d'
  | dag_replace d l x fs prox f d' hs : applicable d = Ok hs -> In l hs -> dag_at d l = Ok x -> fs <> [] ->
      dag_expand d l fs prox = Ok (f, d') -> dag_step d l x fs d'
  | dag_mark d l x fs d' k : dag_step d l x fs d' -> dag_step d l x fs (make_proximate d' k).
  Inductive dag_run : dag A -> list (A * list A) -> dag A -> Prop :=
  | dag_nil d : dag_run d [] d
  | dag_cons d l x fs d' tr d'' : dag_step d l x fs d' -> dag_run d' tr d'' -> dag_run d ((x, fs) :: tr) d''.
End Exec.
Arguments dag_step {A}. Arguments dag_run {A}.
