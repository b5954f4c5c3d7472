(** Model of src/layout/graph_search/custom_graph_search.cpp and
    src/layout/router.cpp (the custom search and the cache; the Boost based
    search is in BoostModel). *)
From Verif Require Import Base TextModel PatchesModel LayoutModel SliceModel.
Open Scope Z_scope.

(** custom_graph_search.cpp:17-25, PredecessorData.  Vertices are indices. *)
Record pdata := mkPD { pd_dist : option nat; pd_pred : nat }.

(** The members of SliceSearchAdaptor, custom_graph_search.cpp:60-82 and 184-195,
    with its template argument [want_cycle] and the EDPC flag of the search. *)
Record query := mkQ {
  q_layout : layout; q_slice : slice;
  q_source : cell; q_target : cell; q_sop : pauli; q_top : pauli;
  q_cycle : bool; q_edpc : bool }.

Definition q_far (q : query) : cell := l_furthest (q_layout q).

(** custom_graph_search.cpp:154-157.  int32_t arithmetic converted to size_t;
    here without wrap-around. *)
Definition make_vertex (q : query) (c : cell) : nat :=
  Z.to_nat (row c * (col (q_far q) + 1) + col c).
(** custom_graph_search.cpp:89-92 *)
Definition num_vertices (q : query) : nat := S (make_vertex q (q_far q)).
(** custom_graph_search.cpp:78-81 *)
Definition simulated_source (q : query) : nat := num_vertices q.
(** custom_graph_search.cpp:160-172 *)
Definition cell_of (q : query) (v : nat) : cell :=
  if q_cycle q && (v =? simulated_source q)%nat then q_target q
  else let z := Z.of_nat v in
       let c := z mod (col (q_far q) + 1) in
       mkCell ((z - c) / (col (q_far q) + 1)) c.

(** [x && y] where evaluating the operands may throw *)
Definition andM (x y : outcome bool) : outcome bool := do b <- x ;; if b then y else Ok false.

(** custom_graph_search.cpp:110-129.  [cell_from_vertex(source_vertex_)] is the
    source cell, and likewise for the target. *)
Definition have_edge (q : query) (a b : cell) : outcome bool :=
  let s := q_slice q in
  do both <- andM (is_free s a) (is_free s b) ;;
  if both then Ok true else
  if cell_eqb a (q_source q) && cell_eqb b (q_target q)
  then andM (has_boundary_of_type s (q_source q) b (q_sop q))
            (has_boundary_of_type s (q_target q) a (q_top q))
  else
  do from <- (if cell_eqb a (q_source q) then is_free s b else Ok false) ;;
  if from then has_boundary_of_type s (q_source q) b (q_sop q) else
  do to <- andM (is_free s a) (Ok (cell_eqb b (q_target q))) ;;
  if to then has_boundary_of_type s (q_target q) a (q_top q) else Ok false.

(** custom_graph_search.cpp:131-152 *)
Definition have_edge_EDPC (q : query) (a b : cell) : outcome bool :=
  let s := q_slice q in
  let fe := fun c => is_free_or_activity s c [AEDPC] in
  do both <- andM (andM (fe a) (fe b)) (do r <- is_boundary_reserved s a b ;; Ok (negb r)) ;;
  if both then Ok true else
  if cell_eqb a (q_source q) && cell_eqb b (q_target q)
  then andM (has_boundary_of_type s (q_source q) b (q_sop q))
            (has_boundary_of_type s (q_target q) a (q_top q))
  else
  do from <- (if cell_eqb a (q_source q) then fe b else Ok false) ;;
  if from then has_boundary_of_type s (q_source q) b (q_sop q) else
  do to <- andM (fe a) (Ok (cell_eqb b (q_target q))) ;;
  if to then has_boundary_of_type s (q_target q) a (q_top q) else Ok false.

(** custom_graph_search.cpp:237-238 and 258-260 *)
Definition edge (q : query) (a b : cell) : outcome bool :=
  if q_edpc q then have_edge_EDPC q a b else have_edge q a b.

(** custom_graph_search.cpp:256-274, the loop over the neighbours of [curr] *)
Definition relax (q : query) (curr d : nat) (st : list pdata * list nat) (nc : cell)
  : outcome (list pdata * list nat) :=
  let '(m, fr) := st in
  do e <- edge q (cell_of q curr) nc ;;
  if negb e then Ok st else
  let n := make_vertex q nc in
  do p <- idx m n ;;
  match pd_dist p with
  | None => Ok (set_row m n (mkPD (Some (S d)) curr), fr ++ [n])
  | Some dn => if (S d <? dn)%nat then Ok (set_row m n (mkPD (Some (S d)) curr), fr) else Ok st
  end.

(** std::priority_queue: [pick] says at which position of the list of queued
    vertices the top is.  What the comparator guarantees about it is a hypothesis
    of the theorems that need it. *)
Definition pick_fun := list pdata -> list nat -> nat.
Definition pop (pick : pick_fun) (m : list pdata) (fr : list nat) : outcome (nat * list nat) :=
  let i := pick m fr in
  match nth_error fr i with
  | Some v => Ok (v, firstn i fr ++ skipn (S i) fr)
  | None => UB UBPop
  end.

(** custom_graph_search.cpp:247-275; [stop] is [heuristic != Heuristic::None] *)
Fixpoint search_loop (fuel : nat) (q : query) (pick : pick_fun) (stop : bool) (m : list pdata) (fr : list nat)
  : outcome (list pdata) :=
  match fr with
  | [] => Ok m
  | _ =>
      match fuel with
      | O => Fuel
      | S f =>
          do (curr, fr') <- pop pick m fr ;;
          do p <- idx m curr ;;
          do d <- deref (pd_dist p) ;;
          if stop && (curr =? make_vertex q (q_target q))%nat then Ok m else
          do (m', fr'') <- foldM (relax q curr d) (neighbours (q_layout q) (cell_of q curr)) (m, fr') ;;
          search_loop f q pick stop m' fr''
      end
  end.

(** custom_graph_search.cpp:215-218 *)
Definition fresh_map (q : query) : list pdata := map (mkPD None) (seq 0 (num_vertices q)).

(** custom_graph_search.cpp:223-245: the initial map and frontier *)
Definition seed (q : query) : outcome (list pdata * list nat) :=
  let src := make_vertex q (q_source q) in
  if q_cycle q then
    foldM (fun st nc =>
             let '(m, fr) := st in
             do e <- edge q (q_source q) nc ;;
             if e : bool
             then let n := make_vertex q nc in
                  do _ <- idx m n ;;
                  Ok (set_row m n (mkPD (Some 1%nat) (simulated_source q)), fr ++ [n])
             else Ok st)
          (neighbours (q_layout q) (q_source q))
          (fresh_map q ++ [mkPD (Some 0%nat) (simulated_source q)], [])
  else
    do _ <- idx (fresh_map q) src ;;
    Ok (set_row (fresh_map q) src (mkPD (Some 0%nat) src), [src]).

(** custom_graph_search.cpp:299-316, the routing tile put on [curr] *)
Definition bare_bounds : bounds :=
  mkBounds (mkB BNone false) (mkB BNone false) (mkB BNone false) (mkB BNone false).
Definition route_mark (edpc : bool) : boundary :=
  if edpc then mkB BLabel1 true else mkB BConnected true.
Definition route_tile (q : query) (prec curr next : cell) : scell :=
  fold_left (fun t n =>
     if cell_eqb prec n || cell_eqb next n
     then match set_boundary_with t n (route_mark (q_edpc q)) with Some t' => t' | None => t end
     else t)
   (neighbours (q_layout q) curr) (mkSC bare_bounds curr).

(** custom_graph_search.cpp:289-321: following the predecessors; the result is
    the tiles in the order they are appended and the vertex where it stops *)
Fixpoint trace (fuel : nat) (q : query) (m : list pdata) (prec curr next : nat) : outcome (list scell * nat) :=
  if (curr =? next)%nat then Ok ([], curr) else
  match fuel with
  | O => Fuel
  | S f =>
      do p <- idx m next ;;
      do (r, stop) <- trace f q m curr next (pd_pred p) ;;
      Ok (route_tile q (cell_of q prec) (cell_of q curr) (cell_of q next) :: r, stop)
  end.

(** custom_graph_search.cpp:199-328 *)
Definition do_search (q : query) (pick : pick_fun) (stop : bool) : outcome (option region) :=
  do (m, fr) <- seed q ;;
  do m <- search_loop (2 * num_vertices q) q pick stop m fr ;;
  let tgt := make_vertex q (q_target q) in
  do pt <- idx m tgt ;;
  do pc <- idx m (pd_pred pt) ;;
  do (cells, last) <- trace (S (num_vertices q)) q m tgt (pd_pred pt) (pd_pred pc) ;;
  let root := if q_cycle q then simulated_source q else make_vertex q (q_source q) in
  Ok (if (last =? root)%nat then Some (mkRegion cells None) else None).

(** custom_graph_search.cpp:331-364 with 210-211 *)
Definition find_route (L : layout) (edpc : bool) (pick : pick_fun) (stop : bool)
  (s : slice) (source : N) (sop : pauli) (target : N) (top : pauli) : outcome (option region) :=
  do a <- value_ (get_cell_by_id s source) ;;
  do b <- value_ (get_cell_by_id s target) ;;
  do_search (mkQ L s a b sop top (N.eqb source target) edpc) pick stop.

(** custom_graph_search.cpp:37-42: the vertex of least known distance (the first
    such one: which of several std::priority_queue yields is unspecified) *)
Definition cost (m : list pdata) (v : nat) : option nat :=
  match nth_error m v with Some p => pd_dist p | None => None end.
Definition cheaper (m : list pdata) (a b : nat) : bool :=
  match cost m a, cost m b with
  | Some x, Some y => (x <? y)%nat
  | Some _, None => true
  | None, _ => false
  end.
Definition pick_min : pick_fun := fun m fr =>
  match fr with
  | [] => O
  | v :: r => fst (fst (fold_left (fun acc x => let '(best, bv, i) := acc in
                     if cheaper m x bv then (i, x, S i) else (best, bv, S i)) r (O, v, 1%nat)))
  end.

(** ** The cache, router.cpp:11-36 *)

Definition path_id := (cell * pauli * cell * pauli)%type.
Definition path_id_eqb (a b : path_id) : bool :=
  let '(a1, a2, a3, a4) := a in let '(b1, b2, b3, b4) := b in
  cell_eqb a1 b1 && pauli_eqb a2 b2 && cell_eqb a3 b3 && pauli_eqb a4 b4.
Fixpoint cache_lookup (k : path_id) (c : list (path_id * region)) : option region :=
  match c with
  | [] => None
  | (k', r) :: rest => if path_id_eqb k k' then Some r else cache_lookup k rest
  end.
Definition cached_route (route : slice -> N -> pauli -> N -> pauli -> outcome (option region))
  (cache : list (path_id * region)) (s : slice) (source : N) (sop : pauli) (target : N) (top : pauli)
  : outcome (option region * list (path_id * region)) :=
  do a <- value_ (get_cell_by_id s source) ;;
  do b <- value_ (get_cell_by_id s target) ;;
  let k := (a, sop, b, top) in
  match cache_lookup k cache with
  | Some r => Ok (Some r, cache)
  | None =>
      do r <- route s source sop target top ;;
      Ok (match r with
          | None => (None, cache)
          | Some x => (Some x, (k, x) :: cache)
          end)
  end.
