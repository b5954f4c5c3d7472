(** Model of src/patches/dense_patch_computation.cpp:13-77 and 177-1446
    (applying one instruction to a slice) and of the crossing functions of
    src/patches/dense_slice.cpp:275-526. *)
From Verif Require Import Base TextModel PatchesModel InstrModel LayoutModel SliceModel RouterModel.
Open Scope Z_scope.

(** ** Crossing routes, dense_slice.cpp:275-526 *)

Definition all_dirs : list dir := [DTop; DBottom; DLeft; DRight].
Definition flip_ref (s : slice) (r : bref) : outcome slice :=
  do b <- read_ref s r ;; write_ref s r (mkB (bt_not (btype b)) (bactive b)).
(** The boundary on the other side of the edge, when there is a patch there. *)
Definition flip_conjugate (s : slice) (n c : cell) : outcome slice :=
  do r <- boundary_ref s n c ;;
  match r with Some x => flip_ref s x | None => Ok s end.
Definition label_conjugate (s : slice) (n c : cell) (t : boundary_type) : outcome slice :=
  do r <- boundary_ref s n c ;;
  match r with Some x => set_ref_type s x t | None => Ok s end.

(** dense_slice.cpp:295-326, one side of the crossing cell [c]; [d] is the
    direction of travel *)
Definition flip_side (L : layout) (c : cell) (d : dir) (s : slice) (d' : dir) : outcome slice :=
  match neighbour_towards L c d' with
  | None => Throw LogicError
  | Some n =>
      do b <- read_ref s (c, d') ;;
      if negb (is_label (btype b)) then Throw LogicError
      else if dir_eqb d' (dir_not d) then Ok s
      else do s1 <- flip_ref s (c, d') ;; flip_conjugate s1 n c
  end.
(** dense_slice.cpp:276-338.  Fuel: the recursion moves one tile in direction
    [d] every time (proved never to run out, ApplyEnds.flip_chain_fuel). *)
Fixpoint flip_crossing_chain (fuel : nat) (L : layout) (s : slice) (c : cell) (d : dir) : outcome slice :=
  match fuel with
  | O => Fuel
  | S f =>
      if negb (mem_cell c (s_crossing s)) then Throw InvalidArgument else
      do t <- patch_at s c ;;
      match t with
      | None => Throw LogicError
      | Some _ =>
          do s' <- foldM (flip_side L c d) all_dirs s ;;
          match neighbour_towards L c d with
          | Some n => if mem_cell n (s_crossing s') then flip_crossing_chain f L s' n d else Ok s'
          | None => Ok s'
          end
      end
  end.
Definition chain_fuel (L : layout) : nat :=
  Z.to_nat (row (l_furthest L) + col (l_furthest L) + 3).

(** dense_slice.cpp:372-475, the loop over the four sides.  The state: slice,
    [tmp] (by its direction), [crossing_indices], [num_crossing_neighbors] and
    [num_reserved_edges_found].  [pd] is the side towards [prev]. *)
Definition cross_state := (slice * option dir * list dir * nat * nat)%type.
Definition follow_chain (L : layout) (s : slice) (n : cell) (d : dir) (ci : list dir) (nc : nat)
  : outcome (slice * list dir * nat) :=
  if mem_cell n (s_crossing s)
  then do s' <- flip_crossing_chain (chain_fuel L) L s n d ;; Ok (s', ci ++ [d], S nc)
  else Ok (s, ci, nc).
Definition cross_side (L : layout) (c prev : cell) (pd : dir) (prev_crossing : bool)
  (st : cross_state) (d : dir) : outcome cross_state :=
  let '(s, tmp, ci, nc, nr) := st in
  match neighbour_towards L c d with
  | None => Throw LogicError
  | Some n =>
      do b <- read_ref s (c, d) ;;
      if is_label (btype b) then
        if cell_eqb n prev then
          if prev_crossing then Ok (s, tmp, ci ++ [d], nc, S nr) else Throw LogicError
        else match tmp with
        | None =>
            do pb <- read_ref s (c, pd) ;;
            if btype_eqb (btype b) (btype pb) then
              do s1 <- flip_ref s (c, d) ;;
              do s2 <- flip_conjugate s1 n c ;;
              do (s3, ci', nc') <- follow_chain L s2 n d ci nc ;;
              Ok (s3, Some d, ci', nc', S nr)
            else Ok (s, Some d, ci, nc, S nr)
        | Some t =>
            do tb <- read_ref s (c, t) ;;
            if negb (btype_eqb (btype b) (btype tb)) then
              do s1 <- flip_ref s (c, d) ;;
              do s2 <- label_conjugate s1 n c (bt_not (btype b)) ;;
              do (s3, ci', nc') <- follow_chain L s2 n d ci nc ;;
              Ok (s3, tmp, ci', nc', S nr)
            else Ok (s, tmp, ci, nc, S nr)
        end
      else if negb (btype_eqb (btype b) BNone) then Throw RuntimeError
      else Ok st
  end.
(** dense_slice.cpp:505-523 *)
Definition label_side (L : layout) (c : cell) (t : boundary_type) (s : slice) (d : dir) : outcome slice :=
  match neighbour_towards L c d with
  | None => Ok s
  | Some n =>
      do b <- read_ref s (c, d) ;;
      if btype_eqb (btype b) BNone
      then do s1 <- write_ref s (c, d) (mkB t true) ;; label_conjugate s1 n c t
      else Ok s
  end.
(** dense_slice.cpp:340-526; the patch argument is the one on tile [c] (see the
    only call, dense_patch_computation.cpp:226) *)
Definition mark_boundaries_for_crossing_cell (L : layout) (s : slice) (c prev : cell)
  : outcome (slice * boundary_type) :=
  let prev_crossing := mem_cell prev (s_crossing s) in
  do pr <- boundary_ref s c prev ;;
  match pr with
  | None => Throw InvalidArgument
  | Some p =>
      do pb <- read_ref s p ;;
      if prev_crossing && btype_eqb (btype pb) BNone then Throw LogicError else
      do (s, tmp, ci, nc, nr) <-
        foldM (cross_side L c prev (snd p) prev_crossing) all_dirs
              (s, None, [], if prev_crossing then 1%nat else 0%nat, 0%nat) ;;
      if (2 <? nc)%nat then Throw LogicError else
      do across <- (if (nc =? 2)%nat
                    then do a <- idx ci 0 ;; do b <- idx ci 1 ;; Ok (dir_eqb a (dir_not b))
                    else Ok true) ;;
      if negb across then Throw LogicError else
      if (nr =? 4)%nat then Throw LogicError else
      if (nr =? 3)%nat && negb prev_crossing then Throw LogicError else
      if (nr =? 2)%nat && prev_crossing then Throw LogicError else
      if (nr <? 2)%nat then Throw LogicError else
      do t <- deref tmp ;;
      do tb <- read_ref s (c, t) ;;
      let label := bt_not (btype tb) in
      do s <- foldM (label_side L c label) all_dirs s ;;
      Ok (s, label)
  end.

(** ** Helpers of dense_patch_computation.cpp *)

(** dense_patch_computation.cpp:13-46.  Assigning through the optional of
    [get_mut_boundary_with] is undefined when the two tiles are not adjacent. *)
Definition join_tiles (a b : cell) : outcome (list scell) :=
  let mark := mkB BConnected true in
  do x <- deref (set_boundary_with (mkSC bare_bounds a) b mark) ;;
  do y <- deref (set_boundary_with (mkSC bare_bounds b) a mark) ;;
  Ok [x; y].
Definition litinski_rotation (p : spatch) (neighbour : cell) : outcome operation :=
  match sp_cells p with
  | Multi _ => Throw LogicError
  | Single sc =>
      do cells <- join_tiles (sc_cell sc) neighbour ;;
      Ok (Busy (mkRegion cells None) 3
               [mkSP (sp_patch p) (Single (mkSC (instant_rotate (sc_b sc)) (sc_cell sc)))])
  end.

(** dense_patch_computation.cpp:59-65 *)
Definition find_free_ancilla_location (L : layout) (s : slice) : outcome (option cell) :=
  first_free s (l_ancilla L).

(** dense_patch_computation.cpp:67-77 *)
Fixpoint first_next_to (s : slice) (target : cell) (o : pauli) (l : list cell) : outcome (option cell) :=
  match l with
  | [] => Ok None
  | c :: r =>
      do b <- boundary_between s target c ;;
      do ok <- match b with
               | None => Ok false
               | Some x => do t <- boundary_for_operator o ;;
                           if btype_eqb (btype x) t then is_free s c else Ok false
               end ;;
      if ok : bool then Ok (Some c) else first_next_to s target o r
  end.
Definition place_ancilla_next_to (L : layout) (s : slice) (target : N) (o : pauli) : outcome (option cell) :=
  do c <- value_ (get_cell_by_id s target) ;;
  first_next_to s c o (neighbours L c).

(** [slice.get_boundary_between(a,b)->get().is_active = true]: undefined when
    there is no such boundary *)
Definition activate (s : slice) (a b : cell) : outcome slice :=
  do r <- boundary_ref s a b ;; do x <- deref r ;; set_ref_active s x true.
(** [slice.get_boundary_between_or_fail(a,b).get().is_active = true] *)
Definition activate_or_fail (s : slice) (a b : cell) : outcome slice :=
  do x <- boundary_ref_or_fail s a b ;; set_ref_active s x true.

(** dense_patch_computation.cpp:177-193 *)
Definition stitch_boundaries (s : slice) (source target : cell) (cells : list scell) : outcome slice :=
  match cells with
  | [] => do s1 <- activate s source target ;; activate s1 target source
  | first :: _ =>
      do s1 <- activate s source (sc_cell (last cells first)) ;;
      activate s1 target (sc_cell first)
  end.

(** dense_patch_computation.cpp:272-277 *)
Definition relabel (t : boundary_type) (b : boundary) : boundary :=
  if negb (btype_eqb (btype b) BNone) && negb (btype_eqb (btype b) t) then mkB t (bactive b) else b.
Definition relabel4 (t : boundary_type) (sc : scell) : scell :=
  mkSC (mkBounds (relabel t (b_top (sc_b sc))) (relabel t (b_bottom (sc_b sc)))
                 (relabel t (b_left (sc_b sc))) (relabel t (b_right (sc_b sc)))) (sc_cell sc).

(** dense_patch_computation.cpp:280-282 *)
Definition place_routing (s : slice) (sc : scell) (act : activity) (opid : option N) : outcome slice :=
  place_sparse s (mkSP (mkPatch TRouting act None None opid) (Single sc)) false.

(** dense_patch_computation.cpp:195-288.  [all] is the whole region (only its
    cells are looked at), [k] the counter, [prev] the previous cell; the tiles of
    the region are returned as the loop leaves them. *)
Fixpoint mark_cells (L : layout) (act : activity) (opid : option N) (all : list scell)
  (s : slice) (label : boundary_type) (k : nat) (prev : option cell) (todo : list scell)
  : outcome (slice * list scell) :=
  match todo with
  | [] => Ok (s, [])
  | sc :: rest =>
      let c := sc_cell sc in
      do t <- patch_at s c ;;
      do (s1, label1, sc1) <-
        match t with
        | Some p =>
            if act_eqb act AEDPC then
              if act_eqb (p_act (dp p)) AEDPC then
                if mem_cell c (s_crossing s) then Throw RuntimeError else
                let s' := with_crossing s (cset_insert c (s_crossing s)) in
                do pc <- deref prev ;;
                do (s'', lab) <- mark_boundaries_for_crossing_cell L s' c pc ;;
                Ok (s'', lab, sc)
              else if (k =? 0)%nat then
                do second <- idx all 1 ;;
                do r <- boundary_ref s c (sc_cell second) ;;
                match r with
                | None => Throw RuntimeError
                | Some x => do s' <- set_ref_type s x label ;;
                            Ok (with_marks s' (s_rough s' ++ [x]) (s_smooth s'), label, sc)
                end
              else if (S k =? length all)%nat then
                do before <- idx all (length all - 2) ;;
                do r <- boundary_ref s c (sc_cell before) ;;
                match r with
                | None => Throw RuntimeError
                | Some x => do s' <- set_ref_type s x label ;;
                            Ok (with_marks s' (s_rough s') (s_smooth s' ++ [x]), label, sc)
                end
              else Throw RuntimeError
            else Throw RuntimeError
        | None =>
            let sc1 := if act_eqb act AEDPC then relabel4 label sc else sc in
            do s' <- place_routing s sc1 act opid ;;
            Ok (s', label, sc1)
        end ;;
      do (s2, rest') <- mark_cells L act opid all s1 label1 (S k) (Some c) rest ;;
      Ok (s2, sc1 :: rest')
  end.
Definition mark_routing_region (L : layout) (s : slice) (r : region) (act : activity)
  : outcome (slice * region) :=
  do (s', cells) <- mark_cells L act (rg_id r) (rg_cells r) s BLabel1 0 None (rg_cells r) ;;
  Ok (s', mkRegion cells (rg_id r)).

(** dense_patch_computation.cpp:290-299 *)
Definition clear_routing_region (s : slice) (r : region) : outcome slice :=
  foldM (fun s sc => set_patch s (sc_cell sc) None) (rg_cells r) s.

(** ** The state an instruction is applied in *)

Definition route_cache := list (path_id * region).
(** The flags, the layout and the router of [try_apply_instruction_direct_followup];
    the router may keep a cache. *)
Record env := mkEnv {
  e_local : bool; e_twists : bool; e_opids : bool; e_edpc : bool; e_layout : layout;
  e_route : route_cache -> slice -> N -> pauli -> N -> pauli -> outcome (option region * route_cache) }.
(** dense_patch_computation.cpp:302: the counter is a 64 bit static *)
Record world := mkW { w_slice : slice; w_ops : N; w_cache : route_cache }.
Definition with_slice (w : world) (s : slice) : world := mkW s (w_ops w) (w_cache w).

(** The routers of router.cpp and custom_graph_search.cpp *)
Definition plain_router (L : layout) (edpc : bool) (pick : pick_fun) (stop : bool) :=
  fun (cache : route_cache) s source sop target top =>
    do r <- find_route L edpc pick stop s source sop target top ;; Ok (r, cache).
Definition caching_router (L : layout) (pick : pick_fun) (stop : bool) :=
  fun (cache : route_cache) => cached_route (find_route L false pick stop) cache.

(** What [try_apply_instruction_direct_followup] leaves: the state, the
    instruction (which it may modify), whether [maybe_error] is set, and the
    follow-up instructions. *)
Record applied := mkA { a_world : world; a_op : operation; a_error : bool; a_follow : list instr }.

Definition done_ (w : world) (o : operation) : outcome applied := Ok (mkA w o false []).
(** [lstk::cat(instruction, ...)]: composing the message prints the instruction *)
Definition failed (w : world) (o : operation) : outcome applied :=
  do _ <- print_op o ;; Ok (mkA w o true []).

(** dense_patch_computation.cpp:307-338; [get_patch_by_id(id)->get()] is
    undefined when there is no such patch *)
Definition merge_patches (e : env) (w : world) (source : N) (sop : pauli) (target : N) (top : pauli)
  : outcome (world * bool) :=
  let s := w_slice w in
  do p <- deref (get_patch_by_id s source) ;;
  do busy <- (if dp_is_active p then Ok true
              else do p' <- deref (get_patch_by_id s target) ;; Ok (dp_is_active p')) ;;
  if busy : bool then Ok (w, false) else
  do (r, cache) <- e_route e (w_cache w) s source sop target top ;;
  match r with
  | None => Ok (mkW s (w_ops w) cache, false)
  | Some reg =>
      let reg := if e_opids e then mkRegion (rg_cells reg) (Some (w_ops w)) else reg in
      let ops := if e_opids e then ((w_ops w + 1) mod 2 ^ 64)%N else w_ops w in
      do a <- deref (get_cell_by_id s source) ;;
      do b <- deref (get_cell_by_id s target) ;;
      do s1 <- stitch_boundaries s a b (rg_cells reg) ;;
      do (s2, _) <- mark_routing_region (e_layout e) s1 reg AMultiPatch ;;
      Ok (mkW s2 ops cache, true)
  end.

(** ** Local instructions, dense_patch_computation.cpp:341-525 *)

(** [true]: an error is returned.  The messages print the local instruction,
    which cannot fail.  No local instruction has follow-ups. *)
Definition free_for_local (e : env) (s : slice) (c : cell) : outcome bool :=
  if e_edpc e then is_free_or_activity s c [AEDPC; AReserved] else is_free s c.
Definition vacate_for_local (e : env) (s : slice) (c : cell) : outcome slice :=
  if e_edpc e then set_patch s c None else Ok s.
Definition place_square (s : slice) (c : cell) (id : option N) (label : string) : outcome slice :=
  do (s', _) <- place_single s (basic_square_patch c id (Some (lit label))) false ;; Ok s'.
(** [slice.patch_at(c)->activity = a]; undefined on an empty tile *)
Definition set_activity (s : slice) (c : cell) (a : activity) : outcome slice :=
  do t <- patch_at s c ;; do p <- deref t ;; set_patch s c (Some (set_act p a)).
Definition set_id (p : dpatch) (id : option N) : dpatch :=
  mkDP (mkPatch (p_type (dp p)) (p_act (dp p)) id (p_label (dp p)) (p_op (dp p))) (db p).
Definition set_tile_id (s : slice) (c : cell) (id : option N) : outcome slice :=
  do t <- patch_at s c ;; do p <- deref t ;; set_patch s c (Some (set_id p id)).
(** The tile is empty, or the patch on it is busy. *)
Definition unusable (s : slice) (c : cell) : outcome bool :=
  do t <- patch_at s c ;;
  Ok (match t with None => true | Some p => dp_is_active p end).
Definition absent (s : slice) (c : cell) : outcome bool :=
  do t <- patch_at s c ;; Ok (match t with None => true | Some _ => false end).

Definition try_local (e : env) (s : slice) (l : local_instr) : outcome (slice * bool) :=
  match l with
  | LPrepareY id c =>                                    (* 347-360 *)
      do free <- is_free s c ;;
      if negb free then Throw RuntimeError else
      do s1 <- place_square s c id "Y State" ;;
      do s2 <- set_activity s1 c AUnitary ;;
      Ok (s2, false)
  | LBellPrepare id1 id2 c1 c2 =>                        (* 362-397 *)
      do f1 <- free_for_local e s c1 ;;
      if negb f1 then Ok (s, true) else
      do f2 <- free_for_local e s c2 ;;
      if negb f2 then Ok (s, true) else
      do s <- vacate_for_local e s c1 ;;
      do s <- vacate_for_local e s c2 ;;
      do s <- place_square s c1 id1 "Bell 1" ;;
      do s <- place_square s c2 id2 "Bell 2" ;;
      do s <- activate_or_fail s c1 c2 ;;
      do s <- activate_or_fail s c2 c1 ;;
      Ok (s, false)
  | LBellMeasure c1 c2 =>                                (* 399-416 *)
      do a1 <- absent s c1 ;; if a1 : bool then Ok (s, true) else
      do a2 <- absent s c2 ;; if a2 : bool then Ok (s, true) else
      do b1 <- unusable s c1 ;; if b1 : bool then Ok (s, true) else
      do b2 <- unusable s c2 ;; if b2 : bool then Ok (s, true) else
      do s <- activate_or_fail s c1 c2 ;;
      do s <- activate_or_fail s c2 c1 ;;
      do s <- set_activity s c1 AMeasurement ;;
      do s <- set_activity s c2 AMeasurement ;;
      Ok (s, false)
  | LMove src tgt new_id =>                              (* 418-454 *)
      do b <- unusable s src ;; if b : bool then Ok (s, true) else
      do f <- free_for_local e s tgt ;;
      if negb f then Ok (s, true) else
      do s <- vacate_for_local e s tgt ;;
      do t <- patch_at s src ;;
      do id <- match new_id with
               | Some x => Ok (Some x)
               | None => do p <- deref t ;; Ok (p_id (dp p))
               end ;;
      do s <- place_square s tgt id "Move" ;;
      do s <- activate_or_fail s src tgt ;;
      do s <- activate_or_fail s tgt src ;;
      do s <- set_activity s src AMeasurement ;;
      do s <- set_tile_id s src None ;;
      Ok (s, false)
  | LTwoPatchMeasure c1 c2 =>                            (* 456-471 *)
      do a1 <- absent s c1 ;; if a1 : bool then Ok (s, true) else
      do a2 <- absent s c2 ;; if a2 : bool then Ok (s, true) else
      do b1 <- unusable s c1 ;; if b1 : bool then Ok (s, true) else
      do b2 <- unusable s c2 ;; if b2 : bool then Ok (s, true) else
      do s <- activate_or_fail s c1 c2 ;;
      do s <- activate_or_fail s c2 c1 ;;
      Ok (s, false)
  | LExtendSplit id target ext =>                        (* 473-505 *)
      do b <- unusable s target ;; if b : bool then Ok (s, true) else
      do f <- free_for_local e s ext ;;
      if negb f then Ok (s, true) else
      do s <- vacate_for_local e s ext ;;
      do s <- place_square s ext id "Extended" ;;
      do s <- activate_or_fail s ext target ;;
      do s <- activate_or_fail s target ext ;;
      Ok (s, false)
  | LMergeContract kept measured =>                      (* 507-523 *)
      do a1 <- absent s kept ;; if a1 : bool then Ok (s, true) else
      do a2 <- absent s measured ;; if a2 : bool then Ok (s, true) else
      do b1 <- unusable s kept ;; if b1 : bool then Ok (s, true) else
      do b2 <- unusable s measured ;; if b2 : bool then Ok (s, true) else
      do s <- activate_or_fail s kept measured ;;
      do s <- activate_or_fail s measured kept ;;
      do s <- set_activity s measured AMeasurement ;;
      Ok (s, false)
  end.

(** ** Long-range Bell operations, dense_patch_computation.cpp:527-746 *)

Inductive lrb := LRPrep | LRMeasure | LRMerge | LRSplit.
Definition is_prep_or_split (t : lrb) : bool := match t with LRPrep | LRSplit => true | _ => false end.

(** [for (j = from; j < to; j = j+2)] *)
Fixpoint by2 (n j : nat) : list nat :=
  match n with
  | O => []
  | S O => [j]
  | S (S n') => j :: by2 n' (S (S j))
  end.

Definition layers := (list local_instr * list local_instr)%type.
Definition add1 (l : layers) (x : local_instr) : layers := (fst l ++ [x], snd l).
Definition add2 (l : layers) (x : local_instr) : layers := (fst l, snd l ++ [x]).
Definition if_eq (a b : nat) (o : option N) : option N := if (a =? b)%nat then o else None.

(** dense_patch_computation.cpp:712-744, the two loops; [off] is
    [!even_route && !reverse].  The subtractions cannot wrap: when they are
    evaluated [end >= 2]. *)
Definition bell_pair_at (route : list cell) (type : lrb) (reverse even : bool) (off start stop : nat)
  (side1 side2 : option N) (l : layers) (j : nat) : outcome layers :=
  do a <- idx route j ;;
  do b <- idx route (j + 1) ;;
  Ok (if is_prep_or_split type
      then add1 l (LBellPrepare (if_eq j (start + off) side2)
                                (if_eq j (stop - 1 - (if negb even && reverse then 1 else 0)) side1) a b)
      else add2 l (LBellMeasure a b)).
Definition bell_link_at (route : list cell) (type : lrb) (reverse even : bool) (off start stop : nat)
  (side1 side2 : option N) (l : layers) (j : nat) : outcome layers :=
  do a <- idx route (j - 1) ;;
  do b <- idx route j ;;
  Ok (if is_prep_or_split type
      then add2 l (LBellMeasure a b)
      else add1 l (if negb reverse
                   then LBellPrepare (if_eq j (start + 2 + off) side2) None a b
                   else LBellPrepare None (if_eq j (stop - 1 - (if negb even then 1 else 0)) side1) a b)).
Definition bell_chain (route : list cell) (type : lrb) (reverse even : bool) (start stop : nat)
  (side1 side2 : option N) (l : layers) : outcome layers :=
  let off := if negb even && negb reverse then 1%nat else 0%nat in
  do l <- foldM (bell_pair_at route type reverse even off start stop side1 side2)
                (by2 (stop - (start + off)) (start + off)) l ;;
  foldM (bell_link_at route type reverse even off start stop side1 side2)
        (by2 (stop - (start + 2 + off)) (start + 2 + off)) l.

(** dense_patch_computation.cpp:538-746; [stop] is the parameter [end] *)
Definition compile_bell (type : lrb) (l : layers) (route : list cell) (start stop : nat) (reverse : bool)
  (side1 side2 : option N) : outcome layers :=
  if (stop <=? start)%nat || (length route <? stop)%nat then Throw InvalidArgument else
  let size := (stop - start + 1)%nat in
  let even := Nat.even size in
  let short := (size =? 2)%nat || (size =? 3)%nat in
  do l <- (if is_prep_or_split type && negb even then
             if negb reverse
             then do a <- idx route (start + 1) ;; do b <- idx route start ;; Ok (add2 l (LMove a b None))
             else do a <- idx route (stop - 1) ;; do b <- idx route stop ;; Ok (add2 l (LMove a b None))
           else Ok l) ;;
  match type with
  | LRSplit =>
      if negb reverse then
        do a <- idx route stop ;; do b <- idx route (stop - 1) ;;
        let l := add1 l (LExtendSplit None a b) in
        if short then Ok l else
        do c <- idx route (stop - 2) ;;
        bell_chain route type reverse even start (stop - 2) side1 side2 (add2 l (LBellMeasure b c))
      else
        do a <- idx route start ;; do b <- idx route (start + 1) ;;
        let l := add1 l (LExtendSplit None a b) in
        if short then Ok l else
        do c <- idx route (start + 2) ;;
        bell_chain route type reverse even (start + 2) stop side1 side2 (add2 l (LBellMeasure b c))
  | LRPrep => bell_chain route type reverse even start stop side1 side2 l
  | LRMeasure | LRMerge =>
      do l <- (if negb even then
                 if negb reverse
                 then do a <- idx route start ;; do b <- idx route (start + 1) ;; Ok (add1 l (LMove a b None))
                 else do a <- idx route stop ;; do b <- idx route (stop - 1) ;; Ok (add1 l (LMove a b None))
               else Ok l) ;;
      match type with
      | LRMerge =>
          if negb reverse then
            do a <- idx route stop ;; do b <- idx route (stop - 1) ;;
            if short then Ok (add2 l (LMergeContract a b)) else
            do c <- idx route (stop - 2) ;;
            bell_chain route type reverse even start (stop - 2) side1 side2
              (add2 (add1 l (LBellPrepare side1 None b c)) (LMergeContract a b))
          else
            do a <- idx route start ;; do b <- idx route (start + 1) ;;
            if short then Ok (add2 l (LMergeContract a b)) else
            do c <- idx route (start + 2) ;;
            bell_chain route type reverse even (start + 2) stop side1 side2
              (add2 (add1 l (LBellPrepare side2 None b c)) (LMergeContract a b))
      | _ => bell_chain route type reverse even start stop side1 side2 l
      end
  end.

(** ** Applying an instruction, dense_patch_computation.cpp:748-1446 *)

(** dense_patch_computation.cpp:757-767 *)
Definition apply_measure (w : world) (o : operation) (target : N) : outcome applied :=
  let s := w_slice w in
  match get_cell_by_id s target with
  | None => failed w o
  | Some c => do s' <- set_activity s c AMeasurement ;; done_ (with_slice w s') o
  end.

(** dense_patch_computation.cpp:768-799 *)
Definition apply_single (e : env) (w : world) (o : operation) (target : N) (op : sq_op) : outcome applied :=
  let s := w_slice w in
  match get_cell_by_id s target, get_patch_by_id s target with
  | Some c, Some p =>
      match op with
      | SqS =>
          if e_edpc e then Throw RuntimeError else
          do (w', ok) <- merge_patches e w target PX target PZ ;;
          if negb ok then failed w' o
          else Ok (mkA w' o false [instr_of (SingleOp target SqZ false)])
      | _ =>
          if dp_is_active p then failed w o else
          match op with
          | SqH => do s' <- set_patch s c (Some (mkDP (dp (set_act p AUnitary)) (instant_rotate (db p)))) ;;
                   done_ (with_slice w s') o
          | _ => done_ w o
          end
      end
  | _, _ => failed w o
  end.

(** dense_patch_computation.cpp:800-856.  The two mismatch branches (834, 839)
    construct an exception without throwing it: they have no effect. *)
Definition apply_multi (e : env) (w : world) (obs : list (N * pauli)) (neg : bool) (local : option local_instr)
  : outcome applied :=
  let o := MultiMeasure obs neg local in
  let s := w_slice w in
  match obs with
  | [(a, pa); (b, pb)] =>
      if negb (has_patch s a) then failed w o else
      if negb (has_patch s b) then failed w o else
      if negb (e_local e) then
        if e_edpc e then Throw RuntimeError else
        do (w', ok) <- merge_patches e w a pa b pb ;;
        if negb ok then failed w' o else done_ w' o
      else
        do ca <- value_ (get_cell_by_id s a) ;;
        do cb <- value_ (get_cell_by_id s b) ;;
        do _ <- boundary_ref_or_fail s ca cb ;;
        do _ <- boundary_ref_or_fail s cb ca ;;
        let l := LTwoPatchMeasure ca cb in
        do (s', err) <- try_local e s l ;;
        Ok (mkA (with_slice w s') (MultiMeasure obs neg (Some l)) err [])
  | _ => Throw LogicError
  end.

(** dense_patch_computation.cpp:857-869 *)
Definition apply_init (e : env) (w : world) (target : N) (st : init_state) (place : option place_next_to)
  : outcome applied :=
  let o := Init target st place in
  let s := w_slice w in
  do loc <- match place with
            | Some p => place_ancilla_next_to (e_layout e) s (pnt_target p) (pnt_op p)
            | None => find_free_ancilla_location (e_layout e) s
            end ;;
  match loc with
  | None => failed w o
  | Some c =>
      do s1 <- place_square s c None "Init" ;;
      do s2 <- set_tile_id s1 c (Some target) ;;
      done_ (with_slice w s2) o
  end.

(** The loops of dense_patch_computation.cpp:911-920, 1153-1164 and 1240-1249:
    apply [ls] from index [i] on until one fails; the index reached and whether
    all were applied. *)
Fixpoint run_locals (e : env) (s : slice) (ls : list local_instr) (i : nat) : outcome (slice * nat * bool) :=
  match ls with
  | [] => Ok (s, i, true)
  | l :: r => do (s', err) <- try_local e s l ;;
              if err : bool then Ok (s', i, false) else run_locals e s' r (S i)
  end.

(** dense_patch_computation.cpp:870-923 *)
Definition apply_bell_init (e : env) (w : world) (s1 s2 : N) (l1 l2 : place_next_to)
  (locals : option (list local_instr)) (counter : option (nat * nat)) (wt : N) (cl : list N)
  : outcome applied :=
  let o := BellInit s1 s2 l1 l2 locals counter in
  let s := w_slice w in
  if negb (e_local e) then Throw RuntimeError else
  if negb (has_patch s (pnt_target l1)) then failed w o else
  if negb (has_patch s (pnt_target l2)) then failed w o else
  let go := fun (w : world) (locals : option (list local_instr)) (first : nat) =>
    do ls <- value_ locals ;;
    do (s', i, all) <- run_locals e (w_slice w) (skipn first ls) first ;;
    let o' := BellInit s1 s2 l1 l2 (Some ls) (Some (first, i)) in
    Ok (mkA (with_slice w s') o' false (if all : bool then [] else [mkI o' wt cl])) in
  match counter with
  | Some (_, second) => go w locals second
  | None =>
      do (r, cache) <- e_route e (w_cache w) s (pnt_target l1) (pnt_op l1) (pnt_target l2) (pnt_op l2) ;;
      let w' := mkW s (w_ops w) cache in
      match r with
      | None => failed w' o
      | Some reg =>
          if (length (rg_cells reg) <? 2)%nat then failed w' o else
          do (la, lb) <- compile_bell LRPrep ([], []) (map sc_cell (rg_cells reg)) 0
                           (length (rg_cells reg) - 1) false (Some s1) (Some s2) ;;
          go w' (Some (la ++ lb)) 0%nat
      end
  end.

(** dense_patch_computation.cpp:1220-1230 (and the same at 1026-1036 and 1041-1051) *)
Definition compile_cnot (l : layers) (route : list cell) (side1 side2 : N) : outcome layers :=
  let n := length route in
  if Nat.even n then
    do l <- compile_bell LRMerge l route (n - 2) (n - 1) false None None ;;
    do l <- compile_bell LRMerge l route 0 1 true None None ;;
    compile_bell LRPrep l route 1 (n - 2) true (Some side1) (Some side2)
  else
    do l <- compile_bell LRSplit l route (n - 2) (n - 1) false None None ;;
    compile_bell LRMerge l route 0 (n - 2) true (Some side1) (Some side2).

(** [slice.get_boundary_between(a,b).value().get().boundary_type] *)
Definition type_between (s : slice) (a b : cell) : outcome boundary_type :=
  do r <- boundary_ref s a b ;; do x <- value_ r ;; do y <- read_ref s x ;; Ok (btype y).

(** dense_patch_computation.cpp:998-1006: the interior points where the label
    changes; [i] is the index of the first cell of [cells] *)
Fixpoint label_changes (s : slice) (cur : boundary_type) (i : nat) (cells : list cell)
  : outcome (list (nat * boundary_type) * boundary_type) :=
  match cells with
  | a :: ((b :: _) as rest) =>
      do t <- type_between s a b ;;
      if btype_eqb t cur then label_changes s cur (S i) rest
      else do (l, last) <- label_changes s t (S i) rest ;; Ok ((i, t) :: l, last)
  | _ => Ok ([], cur)
  end.

(** dense_patch_computation.cpp:1020-1106, the segment from one end point to the
    next; phases are pairs of layers *)
Definition edpc_segment (route : list cell) (side1 side2 : N) (n_ends : nat) (ends : list (nat * boundary_type))
  (ph : layers * layers) (i : nat) : outcome (layers * layers) :=
  let '(p1, p2) := ph in
  do (a, t) <- idx ends i ;;
  do (b, _) <- idx ends (i + 1) ;;
  match t with
  | BLabel1 =>
      do p1 <- (if (i =? 0)%nat then compile_bell LRSplit p1 route a b true None (Some side2)
                else if (i =? n_ends - 2)%nat then compile_bell LRSplit p1 route a b false None (Some side1)
                else compile_bell LRPrep p1 route a b false None None) ;;
      Ok (p1, p2)
  | BLabel2 =>
      do p2 <- (if (i =? 0)%nat then compile_bell LRMerge p2 route a b true None None
                else if (i =? n_ends - 2)%nat then compile_bell LRMerge p2 route a b false None None
                else compile_bell LRMeasure p2 route a b false None None) ;;
      Ok (p1, p2)
  | _ => Throw RuntimeError
  end.
(** dense_patch_computation.cpp:994-1106 *)
Definition edpc_decompose (s : slice) (route : list cell) (side1 side2 : N) : outcome (layers * layers) :=
  do c0 <- idx route 0 ;;
  do c1 <- idx route 1 ;;
  do first <- type_between s c0 c1 ;;
  do (mid, cur) <- label_changes s first 1 (tl route) ;;
  let ends := (0%nat, first) :: mid ++ [((length route - 1)%nat, cur)] in
  let n := length ends in
  let none := (([], []), ([], [])) in
  if (n =? 2)%nat && btype_eqb cur BLabel1 then
    do l <- compile_cnot ([], []) route side1 side2 ;; Ok (l, ([], []))
  else if (n =? 2)%nat && btype_eqb cur BLabel2 then
    do l <- compile_cnot ([], []) route side1 side2 ;; Ok (([], []), l)
  else foldM (edpc_segment route side1 side2 n ends) (seq 0 (n - 1)) none.

(** [vec[i] = x] on a vector; out of range is undefined *)
Definition set_idx {A} (l : list A) (i : nat) (x : A) : outcome (list A) :=
  do _ <- idx l i ;; Ok (set_row l i x).

(** dense_patch_computation.cpp:964-976 and 1198-1210 *)
Definition with_ends (reg : region) (control target : cell) : region :=
  mkRegion (mkSC bare_bounds target :: rg_cells reg ++ [mkSC bare_bounds control]) (rg_id reg).

Section CNOT.
Variables (e : env) (w : world) (control target side1 side2 : N) (wt : N) (cl : list N).
Definition cnot_op (route : option region) (counters : option (list (nat * nat)))
  (sets : option (list (list local_instr))) (phase : option nat) : operation :=
  BellCNOT control target side1 side2 route counters sets phase.

(** dense_patch_computation.cpp:950-985 *)
Definition cnot_find_route (counters : option (list (nat * nat)))
  (sets : option (list (list local_instr))) (phase : option nat) : outcome applied :=
  let s := w_slice w in
  do (r, cache) <- e_route e (w_cache w) s control PZ target PX ;;
  let w' := mkW s (w_ops w) cache in
  match r with
  | None => failed w' (cnot_op None counters sets phase)
  | Some reg =>
      if (length (rg_cells reg) <? 2)%nat then Throw RuntimeError else
      do cc <- value_ (get_cell_by_id s control) ;;
      do ct <- value_ (get_cell_by_id s target) ;;
      do (s', reg') <- mark_routing_region (e_layout e) s (with_ends reg cc ct) AEDPC ;;
      let o' := cnot_op (Some reg') counters sets phase in
      do _ <- print_op o' ;;
      Ok (mkA (with_slice w' s') o' true [mkI o' wt cl])
  end.

(** dense_patch_computation.cpp:991-1144 *)
Definition cnot_decompose (reg : region) : outcome applied :=
  do (p1, p2) <- edpc_decompose (w_slice w) (map sc_cell (rg_cells reg)) side1 side2 ;;
  failed w (cnot_op (Some reg) (Some [(0,0); (0,0); (0,0); (0,0)]%nat)
              (Some [fst p1; snd p1; fst p2; snd p2]) (Some 0%nat)).

(** dense_patch_computation.cpp:1146-1178 *)
Definition cnot_phase (reg : region) (counters : list (nat * nat))
  (sets : option (list (list local_instr))) (phase : option nat) : outcome applied :=
  do ph <- value_ phase ;;
  do counters <- (if (ph =? 0)%nat then Ok counters
                  else do x <- idx counters (ph - 1) ;; set_idx counters (ph - 1) (snd x, snd x)) ;;
  do x <- idx counters ph ;;
  do ss <- value_ sets ;;
  do ls <- idx ss ph ;;
  do (s', i, all) <- run_locals e (w_slice w) (skipn (snd x) ls) (snd x) ;;
  let w' := with_slice w s' in
  let counters := set_row counters ph (snd x, i) in
  if negb all then
    let o' := cnot_op (Some reg) (Some counters) (Some ss) (Some ph) in
    Ok (mkA w' o' false [mkI o' wt cl])
  else
    do third <- (if (ph =? 1)%nat then do l <- idx ss 2 ;; Ok (length l =? 0)%nat else Ok false) ;;
    if (ph =? length ss - 1)%nat || third
    then Ok (mkA w' (cnot_op (Some reg) (Some counters) (Some ss) (Some ph)) false [])
    else let o' := cnot_op (Some reg) (Some counters) (Some ss) (Some (S ph)) in
         Ok (mkA w' o' false [mkI o' wt cl]).

(** dense_patch_computation.cpp:1238-1250 *)
Definition cnot_locals (w : world) (route : option region) (counters : list (nat * nat))
  (sets : option (list (list local_instr))) (phase : option nat) : outcome applied :=
  do x <- idx counters 0 ;;
  do ss <- value_ sets ;;
  do ls <- idx ss 0 ;;
  do (s', i, all) <- run_locals e (w_slice w) (skipn (snd x) ls) (snd x) ;;
  let o' := cnot_op route (Some (set_row counters 0 (snd x, i))) (Some ss) phase in
  Ok (mkA (with_slice w s') o' false (if all : bool then [] else [mkI o' wt cl])).

(** dense_patch_computation.cpp:1183-1251 *)
Definition cnot_plain (route : option region) (counters : option (list (nat * nat)))
  (sets : option (list (list local_instr))) (phase : option nat) : outcome applied :=
  let s := w_slice w in
  match counters with
  | Some cs => cnot_locals w route cs sets phase
  | None =>
      do (r, cache) <- e_route e (w_cache w) s control PZ target PX ;;
      let w' := mkW s (w_ops w) cache in
      match r with
      | None => failed w' (cnot_op route counters sets phase)
      | Some reg =>
          if (length (rg_cells reg) <? 2)%nat then Throw RuntimeError else
          do cc <- value_ (get_cell_by_id s control) ;;
          do ct <- value_ (get_cell_by_id s target) ;;
          do (la, lb) <- compile_cnot ([], []) (map sc_cell (rg_cells (with_ends reg cc ct))) side1 side2 ;;
          cnot_locals w' route [(0, 0)%nat] (Some [la ++ lb]) phase
      end
  end.

(** dense_patch_computation.cpp:924-1253 *)
Definition apply_cnot (route : option region) (counters : option (list (nat * nat)))
  (sets : option (list (list local_instr))) (phase : option nat) : outcome applied :=
  let o := cnot_op route counters sets phase in
  let s := w_slice w in
  if negb (e_local e) then Throw RuntimeError else
  match get_patch_by_id s control, get_patch_by_id s target with
  | None, _ => failed w o
  | _, None => failed w o
  | Some pc, Some pt =>
      if dp_is_active pc then failed w o else
      if dp_is_active pt then failed w o else
      if e_edpc e then
        match route, counters with
        | None, _ => cnot_find_route counters sets phase
        | Some reg, None => cnot_decompose reg
        | Some reg, Some cs => cnot_phase reg cs sets phase
        end
      else cnot_plain route counters sets phase
  end.
End CNOT.

(** dense_patch_computation.cpp:1262-1264: the last free neighbour *)
Definition last_free (s : slice) (l : list cell) : outcome (option cell) :=
  foldM (fun acc c => do f <- is_free s c ;; Ok (if f : bool then Some c else acc)) l None.

(** dense_patch_computation.cpp:1254-1282 *)
Definition apply_rotate (e : env) (w : world) (target : N) : outcome applied :=
  let o := Rotate target in
  let s := w_slice w in
  match get_cell_by_id s target with
  | None => failed w o
  | Some c =>
      do nb <- last_free s (neighbours (e_layout e) c) ;;
      match nb with
      | None => failed w o
      | Some n =>
          do t <- patch_at s c ;;
          do p <- deref t ;;
          let p := if act_eqb (p_act (dp p)) AUnitary then set_act p ANone else p in
          do b <- litinski_rotation (to_sparse_patch p c) n ;;
          do s1 <- set_patch s c None ;;
          match b with
          | Busy reg steps after =>
              do (s2, reg') <- mark_routing_region (e_layout e) s1 reg ARotation ;;
              Ok (mkA (with_slice w s2) o false [instr_of (Busy reg' (steps - 1) after)])
          | _ => Throw Unreachable
          end
      end
  end.

(** L1 distance; [near] is looked up again for every tile *)
Definition l1 (a b : cell) : Z := Z.abs (col a - col b) + Z.abs (row a - row b).
Definition nearest_step (s : slice) (near : N) (best : option (Z * cell)) (c : cell)
  : outcome (option (Z * cell)) :=
  do n <- value_ (get_cell_by_id s near) ;;
  Ok (match best with
      | None => Some (l1 c n, c)
      | Some (d, _) => if l1 c n <? d then Some (l1 c n, c) else best
      end).

(** dense_patch_computation.cpp:1283-1316 *)
Definition apply_magic (e : env) (w : world) (target near : N) : outcome applied :=
  let o := MagicRequest target near in
  let s := w_slice w in
  match l_times (e_layout e) with
  | [] => Throw LogicError
  | _ =>
      match s_magic s with
      | [] => failed w o
      | _ =>
          do best <- foldM (nearest_step s near) (s_magic s) None ;;
          do dc <- value_ best ;;
          let c := snd dc in
          do t <- patch_at s c ;;
          do p <- value_ t ;;
          do s1 <- set_patch s c (Some (mkDP (mkPatch TQubit ANone (Some target) (p_label (dp p)) (p_op (dp p)))
                                             (db p))) ;;
          done_ (with_slice w (with_magic s1 (cset_erase c (s_magic s1)))) o
      end
  end.

(** dense_patch_computation.cpp:1341-1352; [patch_at(cell)->id] is undefined on
    an empty tile *)
Definition nearest_y (s : slice) (near : N) (best : option (Z * cell)) (c : cell)
  : outcome (option (Z * cell)) :=
  do t <- patch_at s c ;;
  do p <- deref t ;;
  match p_id (dp p) with
  | Some _ => Ok best
  | None => if dp_is_active p then Ok best else nearest_step s near best c
  end.
(** dense_patch_computation.cpp:1377-1384 *)
Definition smooth_neighbour (s : slice) (c : cell) (acc : option cell) (n : cell) : outcome (option cell) :=
  do f <- is_free s n ;;
  if negb f then Ok acc else
  do b <- boundary_between s c n ;;
  do x <- deref b ;;
  Ok (if btype_eqb (btype x) BSmooth then Some n else acc).

(** dense_patch_computation.cpp:1317-1404 *)
Definition apply_y (e : env) (w : world) (target near : N) (local : option local_instr) : outcome applied :=
  let o := YRequest target near local in
  let s := w_slice w in
  match get_cell_by_id s target with
  | Some c =>
      do s1 <- set_tile_id s c None ;;
      done_ (with_slice w (with_yavail s1 (u32_inc (s_yavail s1)))) o
  | None =>
      if negb (e_local e && e_twists e) && negb (N.eqb (s_yavail s) 0) then
        do best <- foldM (nearest_y s near) (l_ystates (e_layout e)) None ;;
        match best with
        | Some (_, c) =>
            do s1 <- set_tile_id s c (Some target) ;;
            done_ (with_slice w (with_yavail s1 (u32_dec (s_yavail s1)))) o
        | None => Ok (mkA w o true [])
        end
      else if e_twists e then
        do c <- value_ (get_cell_by_id s near) ;;
        do nb <- foldM (smooth_neighbour s c) (neighbours (e_layout e) c) None ;;
        match nb with
        | None => failed w o
        | Some n =>
            let l := LPrepareY (Some target) n in
            do (s', _) <- try_local e s l ;;
            done_ (with_slice w s') (YRequest target near (Some l))
        end
      else Ok (mkA w o true [])
  end.

(** dense_patch_computation.cpp:1411-1423: place the patches until one does not
    fit; [true] when all fitted *)
Fixpoint place_all (s : slice) (l : list spatch) : outcome (slice * bool) :=
  match l with
  | [] => Ok (s, true)
  | p :: r =>
      do blocked <- foldM (fun (b : bool) sc => do f <- is_free s (sc_cell sc) ;; Ok (b || negb f))
                          (match sp_cells p with Single sc => [sc] | Multi l => l end) false ;;
      if blocked : bool then Ok (s, false) else
      do s1 <- place_sparse s p false ;; place_all s1 r
  end.

(** dense_patch_computation.cpp:1405-1441 *)
Definition apply_busy (w : world) (reg : region) (steps : N) (after : list spatch) : outcome applied :=
  let o := Busy reg steps after in
  let s := w_slice w in
  if N.eqb steps 0 then
    do s1 <- clear_routing_region s reg ;;
    do (s2, all) <- place_all s1 after ;;
    if all : bool then done_ (with_slice w s2) o else failed (with_slice w s2) o
  else
    do _ <- mapM (fun sc => patch_at s (sc_cell sc)) (rg_cells reg) ;;
    Ok (mkA w o false [instr_of (Busy reg (steps - 1) after)]).

(** dense_patch_computation.cpp:748-1446 *)
Definition try_apply (e : env) (w : world) (i : instr) : outcome applied :=
  match op i with
  | Declare _ => Throw Unreachable
  | Measure t _ _ => apply_measure w (op i) t
  | SingleOp t o _ => apply_single e w (op i) t o
  | MultiMeasure obs neg local => apply_multi e w obs neg local
  | Init t st place => apply_init e w t st place
  | BellInit s1 s2 l1 l2 locals counter => apply_bell_init e w s1 s2 l1 l2 locals counter (wait i) (clients i)
  | BellCNOT c t s1 s2 route counters sets phase =>
      apply_cnot e w c t s1 s2 (wait i) (clients i) route counters sets phase
  | Rotate t => apply_rotate e w t
  | MagicRequest t near => apply_magic e w t near
  | YRequest t near local => apply_y e w t near local
  | Busy reg steps after => apply_busy w reg steps after
  | Reset _ => done_ w (op i)
  end.
