(** Model of include/lsqecc/layout/layout.hpp, src/layout/layout.cpp,
    include/lsqecc/layout/ascii_layout_spec.hpp,
    src/layout/ascii_layout_spec.cpp and
    src/layout/dynamic_layouts/compact_layout.cpp. *)
From Verif Require Import Base TextModel PatchesModel.
Open Scope Z_scope.

(** ascii_layout_spec.hpp:17-36.  [enum CellType : char]: the value is the
    character itself. *)
Notation ctype := ascii.
Definition kRouting : ctype := "r"%char.
Definition kQubit : ctype := "Q"%char.
Definition kRotated : ctype := "T"%char.
Definition kDynamic : ctype := "D"%char.
Definition kAncilla : ctype := "A"%char.
Definition kMagic : ctype := "M"%char.
Definition kDead : ctype := "X"%char.
Definition kYState : ctype := "Y"%char.
Definition kRegion0 : ctype := "0"%char.

(** ascii_layout_spec.hpp:38-49, [k_distillation_region_types] *)
Definition region_types : list ctype := lit "0123456789".

(** ascii_layout_spec.hpp:51-76; the case labels in the order of the switch *)
Definition cell_type_from_char (c : ascii) : outcome ctype :=
  if existsb (Ascii.eqb c) (lit "rQTDAMXY0123456789") then Ok c else Throw LogicError.

(** ascii_layout_spec.hpp:78-79 *)
Notation grid := (list text).

(** ascii_layout_spec.cpp:18-32 *)
Fixpoint parse_rows (rows : list text) : outcome grid :=
  match rows with
  | [] => Ok []
  | [] :: r => parse_rows r
  | row :: r => do cs <- mapM cell_type_from_char row ;;
                do g <- parse_rows r ;;
                Ok (cs :: g)
  end.
Definition parse_grid (input : text) : outcome grid :=
  parse_rows (split_on input "010"%char).

(** ascii_layout_spec.cpp:60-71 *)
Definition spec_furthest (g : grid) : outcome cell :=
  match g with
  | [] => Throw LogicError
  | first :: _ =>
      let n_cols := length first in
      if existsb (fun r => negb (Nat.eqb n_cols (length r))) g then Throw LogicError
      else if Nat.eqb n_cols 0 then Throw LogicError
      else Ok (mkCell (Z.of_nat (length g) - 1) (Z.of_nat n_cols - 1))
  end.

(** [grid_spec_[c.row][c.col]]: unchecked; a negative int32 becomes a huge
    index. *)
Definition cell_at (g : grid) (c : cell) : outcome ctype :=
  if (row c <? 0) || (col c <? 0) then UB UBIndex
  else do r <- idx g (Z.to_nat (row c)) ;; idx r (Z.to_nat (col c)).

(** [iter::enumerate] with the index as a coordinate. *)
Fixpoint enum_from {A} (i : Z) (l : list A) : list (Z * A) :=
  match l with
  | [] => []
  | x :: r => (i, x) :: enum_from (i + 1) r
  end.

(** The two nested [iter::enumerate] loops, as a list of cells with their type,
    row by row. *)
Definition enum_grid (g : grid) : list (cell * ctype) :=
  flat_map (fun ir => map (fun jc => (mkCell (fst ir) (fst jc), snd jc)) (enum_from 0 (snd ir)))
           (enum_from 0 g).

(** ascii_layout_spec.cpp:92-103 *)
Definition find_all_cells_of_type (g : grid) (t : ctype) : list cell :=
  map fst (filter (fun p => Ascii.eqb (snd p) t) (enum_grid g)).

(** ascii_layout_spec.cpp:82-90 *)
Definition find_a_cell_of_type (g : grid) (t : ctype) : option cell :=
  hd_error (find_all_cells_of_type g t).

(** [std::find(l.begin(), l.end(), c) != l.end()] *)
Definition mem_cell (c : cell) (l : list cell) : bool := existsb (cell_eqb c) l.

(** ascii_layout_spec.cpp:47-55, the loop over the neighbours of one cell *)
Definition grow (g : grid) (t : ctype) (connected : list cell) (frontier : list cell) (item : cell)
  : outcome (list cell) :=
  do ty <- cell_at g item ;;
  if Ascii.eqb ty t && negb (mem_cell item frontier) && negb (mem_cell item connected)
  then Ok (frontier ++ [item]) else Ok frontier.

(** ascii_layout_spec.cpp:41-56; [furthest_cell()] is called in every iteration
    and always gives the same answer.  Fuel: number of dequeued cells. *)
Fixpoint flood (fuel : nat) (g : grid) (t : ctype) (furthest : cell)
         (connected frontier : list cell) : outcome (list cell) :=
  match fuel with
  | O => Fuel
  | S f =>
    match frontier with
    | [] => Ok connected
    | curr :: rest =>
        let connected' := connected ++ [curr] in
        do frontier' <- foldM (grow g t connected')
                              (get_neigbours_in curr (mkCell 0 0) furthest) rest ;;
        flood f g t furthest connected' frontier'
    end
  end.

Definition area (g : grid) : nat := fold_right (fun r n => (length r + n)%nat) 0%nat g.

(** ascii_layout_spec.cpp:34-58 *)
Definition connected_component (g : grid) (start : cell) : outcome (list cell) :=
  do t <- cell_at g start ;;
  do furthest <- spec_furthest g ;;
  flood (S (area g)) g t furthest [] [start].

(** layout.cpp:6-23 *)
Definition basic_square_patch (c : cell) (id : option N) (label : option text) : spatch :=
  mkSP (mkPatch TQubit ANone id label None)
       (Single (mkSC (mkBounds (mkB BSmooth false) (mkB BSmooth false)
                               (mkB BRough false) (mkB BRough false)) c)).

(** layout.cpp:24-32 *)
Definition make_distillation_region_cell (c : cell) : scell :=
  mkSC (mkBounds (mkB BConnected false) (mkB BConnected false)
                 (mkB BConnected false) (mkB BConnected false)) c.

(** ascii_layout_spec.cpp:74-80 *)
Definition make_distillation_region (start : cell) (g : grid) : outcome (list scell) :=
  do cs <- connected_component g start ;; Ok (map make_distillation_region_cell cs).

(** ascii_layout_spec.cpp:117-123 *)
Definition in_region (r : list scell) (c : cell) : bool :=
  existsb (fun s => cell_eqb c (sc_cell s)) r.
(** ascii_layout_spec.cpp:125-132 *)
Definition in_some_region (rs : list (list scell)) (c : cell) : bool :=
  existsb (fun r => in_region r c) rs.

(** layout.hpp:14-38: what a [Layout] answers. *)
Record layout := mkLayout {
  l_core : list spatch;                 (* core_patches *)
  l_furthest : cell;                    (* furthest_cell *)
  l_regions : list (list scell);        (* distillation_regions *)
  l_queues : list (list cell);          (* distilled_state_locations, by region *)
  l_times : list N;                     (* distillation_times *)
  l_ancilla : list cell;                (* ancilla_location *)
  l_dead : list cell;                   (* dead_location *)
  l_reserved : list cell;               (* reserved_for_magic_states *)
  l_ystates : list cell;                (* predistilled_y_states *)
  l_magic_reserved : bool               (* magic_states_reserved *) }.

(** layout.hpp:41-44 *)
Record dist_options := mkDO { d_staggered : bool; d_time : N }.

(** ascii_layout_spec.cpp:162-166: set the type of the boundary towards each of
    the four neighbours, keeping [is_active]. *)
Definition draw_side (region : list scell) (s : scell) (neighbour : cell) : outcome scell :=
  do b <- deref (get_boundary_with s neighbour) ;;
  let t := if in_region region neighbour then BNone else BSmooth in
  deref (set_boundary_with s neighbour (mkB t (bactive b))).

(** ascii_layout_spec.cpp:170-179 *)
Definition queue_side (g : grid) (q : list cell) (neighbour : cell) : outcome (list cell) :=
  do ty <- cell_at g neighbour ;;
  if Ascii.eqb ty kRouting then Ok (q ++ [neighbour]) else Ok q.

(** ascii_layout_spec.cpp:158-181, the loop over the cells of a new region.
    Only boundaries change, so [in_region] may look at the original region. *)
Fixpoint draw_region (g : grid) (furthest : cell) (region todo : list scell)
         (done : list scell) (q : list cell) : outcome (list scell * list cell) :=
  match todo with
  | [] => Ok (done, q)
  | s :: r =>
      do s' <- foldM (draw_side region) (get_neigbours (sc_cell s)) s ;;
      do q' <- foldM (queue_side g) (get_neigbours_in (sc_cell s) (mkCell 0 0) furthest) q ;;
      draw_region g furthest region r (done ++ [s']) q'
  end.

(** uint32_t conversion of the timer. *)
Definition u32 (n : N) : N := (n mod 2 ^ 32)%N.

(** ascii_layout_spec.cpp:148-191, the body of the loop over starting cells.
    The state is (regions, queues, times). *)
Definition region_state := (list (list scell) * list (list cell) * list N)%type.
Definition add_region (g : grid) (furthest : cell) (o : dist_options) (st : region_state)
           (start : cell) : outcome region_state :=
  let '(regions, queues, times) := st in
  if in_some_region regions start then Ok st else
  do new <- make_distillation_region start g ;;
  do (drawn, q) <- draw_region g furthest new new [] [] ;;
  let t0 := u32 (d_time o) in
  let t := if d_staggered o then u32 (t0 + N.of_nat (length regions)) else t0 in
  Ok (regions ++ [drawn], queues ++ [q], times ++ [t]).

(** ascii_layout_spec.cpp:139-193, the loop over the region characters *)
Definition add_regions_of_type (g : grid) (furthest : cell) (o : dist_options) (reserved : bool)
           (st : region_state) (t : ctype) : outcome region_state :=
  let cells := find_all_cells_of_type g t in
  if negb (Nat.eqb (length cells) 0) && reserved then Throw LogicError
  else foldM (add_region g furthest o) cells st.

(** ascii_layout_spec.cpp:135-209, [LayoutFromSpec::init_cache] *)
Definition layout_of_grid (g : grid) (o : dist_options) : outcome layout :=
  do furthest <- spec_furthest g ;;
  let reserved := find_all_cells_of_type g kMagic in
  let has_reserved := negb (Nat.eqb (length reserved) 0) in
  do (rqs, times) <- foldM (add_regions_of_type g furthest o has_reserved) region_types ([], [], []) ;;
  let '(regions, queues) := rqs in
  let times' := times ++ repeat (u32 (d_time o)) (length reserved) in
  let core := map (fun c => basic_square_patch c None None) (find_all_cells_of_type g kQubit) in
  Ok (mkLayout core furthest regions queues times'
        (find_all_cells_of_type g kAncilla) (find_all_cells_of_type g kDead)
        reserved (find_all_cells_of_type g kYState) has_reserved).

(** ascii_layout_spec.hpp:110-113 *)
Definition layout_from_spec (spec : text) (o : dist_options) : outcome layout :=
  do g <- parse_grid spec ;; layout_of_grid g o.

(** layout.hpp:52-58, the cells visited by [for_each_cell] *)
Definition all_cells (furthest : cell) : list cell :=
  flat_map (fun i => map (fun j => mkCell (Z.of_nat i) (Z.of_nat j))
                         (seq 0 (Z.to_nat (col furthest + 1))))
           (seq 0 (Z.to_nat (row furthest + 1))).

(** [std::fill_n(row.begin() + from, n, t)]: writing past the end is
    undefined. *)
Definition fill_n (r : list ctype) (from n : nat) (t : ctype) : outcome (list ctype) :=
  if (from + n <=? length r)%nat
  then Ok (firstn from r ++ repeat t n ++ skipn (from + n) r) else UB UBIndex.

(** [grid.at(i) = row] after an edit of row [i] *)
Fixpoint set_row {A} (g : list A) (i : nat) (r : A) : list A :=
  match g, i with
  | [], _ => []
  | _ :: g', O => r :: g'
  | x :: g', S i' => x :: set_row g' i' r
  end.
Definition fill_row (g : grid) (i from n : nat) (t : ctype) : outcome grid :=
  do r <- at_ g i ;; do r' <- fill_n r from n t ;; Ok (set_row g i r').
Definition set_at (g : grid) (i j : nat) (t : ctype) : outcome grid :=
  do r <- at_ g i ;; do _ <- at_ r j ;; Ok (set_row g i (set_row r j t)).

(** compact_layout.cpp:9-43.  [std::ceil(double(n)/2.0)] is taken to be exact
    (it is below 2^53). *)
Definition compact_grid (n : nat) (no_clogging : bool) : outcome grid :=
  let dist_cols := if no_clogging then 0%nat else 5%nat in
  let core_cols := ((n + 1) / 2)%nat in
  let total := (core_cols + (3 + dist_cols))%nat in
  let g := repeat (repeat kRouting total) 3 in
  do g <- fill_row g 0 0 core_cols kQubit ;;
  do g <- fill_row g 2 0 (n - core_cols) kQubit ;;
  do g <- set_at g 0 (core_cols + 1) kAncilla ;;
  do g <- (if no_clogging then set_at g 1 (core_cols + 2) kMagic else Ok g) ;;
  if no_clogging then Ok g else
  do g <- set_at g 2 (core_cols + 1) kAncilla ;;
  do g <- fill_row g 0 (core_cols + 3) dist_cols kRegion0 ;;
  do g <- fill_row g 1 (core_cols + 3) dist_cols kRegion0 ;;
  fill_row g 2 (core_cols + 3) dist_cols kRegion0.

Definition make_compact_layout (n : nat) (o : dist_options) (no_clogging : bool) : outcome layout :=
  do g <- compact_grid n no_clogging ;; layout_of_grid g o.
