(** Model of src/dag/directed_graph.cpp, include/lsqecc/dag/dependency_dag.hpp
    and src/dag/domain_dags.cpp.  Labels are unbounded (size_t in the code). *)
From Verif Require Import Base InstrModel LoweringModel.

(** directed_graph.hpp:52-56: two insertion-ordered maps to insertion-ordered sets *)
Definition adj := list (N * list N).
Record graph := mkG { g_out : adj; g_in : adj }.
Definition g_empty : graph := mkG [] [].

(** ordered_map::at *)
Definition at_map {A} (m : list (N * A)) (k : N) : outcome A :=
  match alookup m k with Some v => Ok v | None => Throw OutOfRange end.
Definition has {A} (m : list (N * A)) (k : N) : bool := match alookup m k with Some _ => true | None => false end.
(** erase(key) of a map or set *)
Definition merase {A} (m : list (N * A)) (k : N) : list (N * A) := filter (fun kv => negb (N.eqb k (fst kv))) m.
Definition serase (s : list N) (x : N) : list N := filter (fun y => negb (N.eqb x y)) s.
(** s.erase(std::find(s.begin(), s.end(), x)): erasing end() is undefined *)
Definition erase_found (s : list N) (x : N) : outcome (list N) :=
  if memN x s then Ok (serase s x) else UB UBDeref.

(** directed_graph.cpp:8-15 *)
Definition add_node (g : graph) (l : N) : graph :=
  if has (g_out g) l then g else mkG (g_out g ++ [(l, [])]) (merase (g_in g) l ++ [(l, [])]).

(** directed_graph.cpp:17-23 *)
Definition add_edge (g : graph) (from to : N) : outcome graph :=
  let g := add_node (add_node g to) from in
  do o <- at_map (g_out g) from ;;
  do i <- at_map (g_in g) to ;;
  Ok (mkG (aset (g_out g) from (oset_insert to o)) (aset (g_in g) to (oset_insert from i))).

(** directed_graph.cpp:25-35 *)
Definition remove_edge (g : graph) (from to : N) : outcome graph :=
  if negb (has (g_out g) from) then Throw RuntimeError
  else if negb (has (g_out g) to) then Throw RuntimeError
  else
    do o <- at_map (g_out g) from ;;
    do o' <- erase_found o to ;;
    do i <- at_map (g_in g) to ;;
    do i' <- erase_found i from ;;
    Ok (mkG (aset (g_out g) from o') (aset (g_in g) to i')).

(** The loops of remove_node erase the element they stand on.  Formally this
    invalidates the iterator; here it is followed through libstdc++'s deque:
    positions are addresses, [base] that of the first element, erasing an element
    of the first half moves the front forward, otherwise the back backward, and
    the end of the loop was computed before it started. *)
Fixpoint visit_erasing (fuel : nat) (base : nat) (l : list N) (it end_ : nat) : outcome (list N) :=
  if Nat.eqb it end_ then Ok []
  else match fuel with
       | O => Fuel
       | S f =>
         if Nat.ltb it base then UB UBDangling
         else match nth_error l (it - base) with
              | None => UB UBDangling
              | Some x =>
                  let i := it - base in
                  let l' := firstn i l ++ skipn (S i) l in
                  let base' := if Nat.ltb i (Nat.div2 (length l)) then S base else base in
                  do r <- visit_erasing f base' l' (S it) end_ ;; Ok (x :: r)
              end
       end.
Definition visit_all (l : list N) : outcome (list N) := visit_erasing (S (length l)) 0 l 0 (length l).

(** directed_graph.cpp:37-50 *)
Definition remove_node (g : graph) (t : N) : outcome graph :=
  if negb (has (g_out g) t) then Throw RuntimeError
  else
    do o <- at_map (g_out g) t ;;
    do tos <- visit_all o ;;
    do g <- foldM (fun g to => remove_edge g t to) tos g ;;
    do i <- at_map (g_in g) t ;;
    do froms <- visit_all i ;;
    do g <- foldM (fun g from => remove_edge g from t) froms g ;;
    Ok (mkG (merase (g_out g) t) (merase (g_in g) t)).

(** directed_graph.cpp:53-74 *)
Definition successors (g : graph) (l : N) : outcome (list N) :=
  if negb (has (g_out g) l) then Throw RuntimeError else at_map (g_out g) l.
Definition predecessors (g : graph) (l : N) : outcome (list N) :=
  if negb (has (g_out g) l) then Throw RuntimeError else at_map (g_in g) l.

(** edges between consecutive replacement nodes, directed_graph.cpp:92-93 *)
Fixpoint chain (g : graph) (l : list N) : outcome graph :=
  match l with
  | a :: ((b :: _) as r) => do g <- add_edge g a b ;; chain g r
  | _ => Ok g
  end.

(** directed_graph.cpp:76-111 *)
Definition expand (g : graph) (t : N) (repl : list N) : outcome graph :=
  if negb (has (g_out g) t) then Throw RuntimeError
  else match repl with
  | [] => Throw RuntimeError
  | front :: _ =>
    let back := last repl front in
    if existsb (has (g_out g)) repl then Throw RuntimeError
    else
      do g <- chain (add_node g front) repl ;;
      do tos <- at_map (g_out g) t ;;
      do g <- foldM (fun g to => remove_edge g t to) tos g ;;
      do g <- foldM (fun g to => add_edge g back to) tos g ;;
      do froms <- at_map (g_in g) t ;;
      do g <- foldM (fun g from => remove_edge g from t) froms g ;;
      do g <- foldM (fun g from => add_edge g from front) froms g ;;
      remove_node g t
  end.

(** directed_graph.cpp:113-122 *)
Definition heads (g : graph) : outcome (list N) :=
  foldM (fun hs kv => do i <- at_map (g_in g) (fst kv) ;;
                      Ok (match i with [] => oset_insert (fst kv) hs | _ => hs end)) (g_out g) [].
(** directed_graph.cpp:124-133 *)
Definition tails (g : graph) : outcome (list N) :=
  foldM (fun ts kv => do o <- at_map (g_out g) (fst kv) ;;
                      Ok (match o with [] => oset_insert (fst kv) ts | _ => ts end)) (g_out g) [].
(** directed_graph.cpp:135-138 *)
Definition g_is_empty (g : graph) : bool := match g_out g with [] => true | _ => false end.

(** directed_graph.cpp:141-151; the fuel bounds the recursion depth *)
Fixpoint topo_helper (fuel : nat) (g : graph) (cur : N) (st : list N * list N) : outcome (list N * list N) :=
  match fuel with
  | O => Fuel
  | S f =>
    let '(visited, order) := st in
    if memN cur visited then Ok st
    else
      do ns <- at_map (g_out g) cur ;;
      do (visited', order') <- foldM (fun st n => topo_helper f g n st) ns (oset_insert cur visited, order) ;;
      Ok (visited', order' ++ [cur])
  end.
(** directed_graph.cpp:155-162 *)
Definition topological_order (g : graph) : outcome (list N) :=
  do hs <- heads g ;;
  do (visited, order) <- foldM (fun st h => topo_helper (length (g_out g) + 1) g h st) hs ([], []) ;;
  Ok order.

(** The editing operations, for histories. *)
Inductive gop :=
| AddNode (l : N) | AddEdge (a b : N) | RemoveEdge (a b : N) | RemoveNode (l : N) | Expand (t : N) (repl : list N).
Definition g_apply (g : graph) (o : gop) : outcome graph :=
  match o with
  | AddNode l => Ok (add_node g l)
  | AddEdge a b => add_edge g a b
  | RemoveEdge a b => remove_edge g a b
  | RemoveNode l => remove_node g l
  | Expand t r => expand g t r
  end.

(** ** DependencyDag<Instruction> *)
Section Dag.
  Variable A : Type.
  (** CommutationTrait<Instruction>::can_commute *)
  Variable can : A -> A -> outcome bool.

  (** dependency_dag.hpp:178-193 *)
  Record dag := mkDag {
    d_graph : graph;
    d_ins : list (N * A);
    d_deps : list (N * N);       (* proximate_dependencies_ *)
    d_pheads : list N;           (* proximate_heads_ *)
    d_next : N                   (* current_label_ *)
  }.
  Definition dag_empty : dag := mkDag g_empty [] [] [] 0.

  (** dependency_dag.hpp:39-45; [instructions_[label] = ...] on a fresh label *)
  Definition add_isolated (d : dag) (i : A) : dag :=
    mkDag (add_node (d_graph d) (d_next d)) (merase (d_ins d) (d_next d) ++ [(d_next d, i)]) (d_deps d) (d_pheads d) (d_next d + 1)%N.

  (** dependency_dag.hpp:25-37 *)
  Definition push (d : dag) (i : A) : outcome dag :=
    let new := d_next d in
    let d := add_isolated d i in
    do order <- topological_order (d_graph d) ;;
    do g <- foldM (fun g l =>
        if N.eqb l new then Ok g
        else do a <- at_map (d_ins d) l ;;
             do b <- at_map (d_ins d) new ;;
             do c <- can a b ;;
             if c then Ok g else add_edge g l new) order (d_graph d) ;;
    Ok (mkDag g (d_ins d) (d_deps d) (d_pheads d) (d_next d)).

  (** domain_dags.cpp:10-29 *)
  Definition dag_of (l : list A) : outcome dag := foldM push l dag_empty.

  (** dependency_dag.hpp:47-66 *)
  Definition dag_is_empty (d : dag) : bool := g_is_empty (d_graph d).
  Definition applicable (d : dag) : outcome (list N) := heads (d_graph d).
  Definition proximate (d : dag) : list N := d_pheads d.
  (** dependency_dag.hpp:68-77 *)
  Definition dag_at (d : dag) (l : N) : outcome A := at_map (d_ins d) l.

  Definition pair_eqb (p q : N * N) : bool := N.eqb (fst p) (fst q) && N.eqb (snd p) (snd q).
  (** dependency_dag.hpp:79-97 *)
  Definition pop_head (d : dag) (l : N) : outcome dag :=
    do i <- at_map (d_ins d) l ;;
    do preds <- predecessors (d_graph d) l ;;
    let '(deps, ph) := fold_left (fun st p =>
        if existsb (pair_eqb (p, l)) (fst st)
        then (filter (fun e => negb (pair_eqb (p, l) e)) (fst st), oset_insert p (snd st))
        else st) preds (d_deps d, d_pheads d) in
    do g <- remove_node (d_graph d) l ;;
    Ok (mkDag g (merase (d_ins d) l) deps (serase ph l) (d_next d)).

  (** the pairs (l_i, l_i+1) *)
  Fixpoint consecutive (l : list N) : list (N * N) :=
    match l with a :: ((b :: _) as r) => (a, b) :: consecutive r | _ => [] end.
  (** new labels, dependency_dag.hpp:106-113 *)
  Definition labels_from (c : N) (n : nat) : list N := map (fun k => (c + N.of_nat k)%N) (seq 0 n).

  (** dependency_dag.hpp:100-146.  Lines 121-133 erase from (and insert into) the
      set being iterated and then use the erased element: undefined as soon as a
      pair mentions the target.  The target's instruction stays in the map. *)
  Definition dag_expand (d : dag) (t : N) (repl : list A) (prox : bool) : outcome (N * dag) :=
    match repl with
    | [] => Throw LogicError
    | _ =>
      let labels := labels_from (d_next d) (length repl) in
      let next := (d_next d + N.of_nat (length repl))%N in
      let ins := filter (fun kv => negb (memN (fst kv) labels)) (d_ins d) ++ combine labels repl in
      do g <- expand (d_graph d) t labels ;;
      let deps := if prox then fold_left (fun s e => if existsb (pair_eqb e) s then s else s ++ [e]) (consecutive labels) (d_deps d)
                  else d_deps d in
      if existsb (fun e => N.eqb (fst e) t || N.eqb (snd e) t) deps then UB UBDangling
      else
        let front := d_next d in
        let ph := if memN t (d_pheads d) then oset_insert front (serase (d_pheads d) t) else d_pheads d in
        Ok (front, mkDag g ins deps ph next)
    end.
  (** dependency_dag.hpp:148-151 *)
  Definition make_proximate (d : dag) (l : N) : dag :=
    mkDag (d_graph d) (d_ins d) (d_deps d) (oset_insert l (d_pheads d)) (d_next d).
End Dag.
Arguments mkDag {A}. Arguments d_graph {A}. Arguments d_ins {A}. Arguments d_deps {A}. Arguments d_pheads {A}. Arguments d_next {A}.
Arguments dag_empty {A}. Arguments add_isolated {A}. Arguments push {A}. Arguments dag_of {A}. Arguments dag_is_empty {A}.
Arguments applicable {A}. Arguments proximate {A}. Arguments dag_at {A}. Arguments pop_head {A}. Arguments dag_expand {A}.
Arguments make_proximate {A}.

(** CommutationTrait<LSInstruction>, ls_instructions.hpp:299-305 *)
Definition lli_can (a b : instr) : outcome bool := Ok (can_commute a b).
