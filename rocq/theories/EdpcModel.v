(** Model of src/layout/dynamic_layouts/edpc_layout.cpp.

    size_t arithmetic is reduced modulo 2^64 where a difference or a product could leave the range; sums of positions of a grid that fits
    in memory are not.  [std::ceil(sqrt(n))] and the floating point product with [std::floor] are taken to be exact (below 2^53). *)
From Verif Require Import Base TextModel PatchesModel LayoutModel.
Open Scope Z_scope.

Definition u64 (z : Z) : Z := z mod 2 ^ 64.
Definition b2z (b : bool) : Z := if b then 1 else 0.

(** [grid[i][j] = t], unchecked *)
Definition put_char (g : grid) (i j : Z) (t : ctype) : outcome grid :=
  if (i <? 0) || (j <? 0) then UB UBIndex else
  do r <- idx g (Z.to_nat i) ;; do _ <- idx r (Z.to_nat j) ;;
  Ok (set_row g (Z.to_nat i) (set_row r (Z.to_nat j) t)).

(** The options of the generator and the dimensions of the grid, 10-36.  [ep_pad]: t_distillation_region_rows and _cols, which are equal;
    [ep_size]: total_rows = total_cols *)
Record edpc := mkEdpc { ep_n : Z; ep_lanes : Z; ep_condensed : bool; ep_explicit : bool; ep_predistilled : bool }.
Definition ep_pad (p : edpc) : Z := if ep_explicit p then 5 else 0.
Definition ep_root (p : edpc) : Z := Z.sqrt_up (ep_n p).
Definition ep_core (p : edpc) : Z :=
  let sr := ep_root p in
  let c := u64 (sr + ep_lanes p * (sr - 1) + 2 * ep_lanes p + 2) in
  if ep_condensed p then c - ep_lanes p * (sr / 2) else c.
Definition ep_size (p : edpc) : Z := ep_core p + 2 * ep_pad p.
(** [grid.size() - t_distillation_region_rows - (num_lanes+1) - 1] *)
Definition ep_last (p : edpc) : Z := u64 (ep_size p - ep_pad p - (ep_lanes p + 1) - 1).

(** The variables of the main loop, 43-49 *)
Record est := mkEst { e_grid : grid; e_placed : Z; e_vert : bool; e_horiz : bool; e_rows_lost : Z; e_cols_lost : Z; e_row_lost : bool }.

(** 53-54: the two remainders *)
Definition ep_offset (p : edpc) (x : Z) (shift : bool) (lost : Z) : Z :=
  let s := b2z shift in
  u64 (x - ep_pad p - ((1 - s) * lost + s) * (ep_lanes p + 1 + (1 - s))) mod (ep_lanes p + 1 + s).
(** 56-57 *)
Definition ep_ring (p : edpc) (i j : Z) : bool :=
  (i =? ep_pad p) || (j =? ep_pad p) || (i =? ep_size p - ep_pad p - 1) || (j =? ep_size p - ep_pad p - 1).

(** 59-79 *)
Definition visit_ring (p : edpc) (st : est) (i j : Z) : outcome est :=
  do g <- put_char (e_grid st) i j kYState ;;
  if ep_condensed p then
    let right := (ep_pad p <? j) && (j <? ep_last p) in
    do g <- (if right then put_char g i (j + 1) kYState else Ok g) ;;
    let down := (ep_pad p <? i) && (i <? ep_last p) in
    do g <- (if down then put_char g (i + 1) j kYState else Ok g) ;;
    Ok (mkEst g (e_placed st) (if down then true else e_vert st) (if ep_last p <=? j then false else if right then true else e_horiz st)
          (e_rows_lost st) (if right then e_cols_lost st + 1 else e_cols_lost st) (if down then true else e_row_lost st))
  else Ok (mkEst g (e_placed st) (e_vert st) (e_horiz st) (e_rows_lost st) (e_cols_lost st) (e_row_lost st)).
(** 81-119 *)
Definition visit_inside (p : edpc) (st : est) (i j : Z) : outcome est :=
  if e_placed st <? ep_n p then
    do g <- put_char (e_grid st) i j kQubit ;;
    let k := e_placed st + 1 in
    if ep_condensed p then
      let right := (k <? ep_n p) && (j <? ep_last p) in
      do g <- (if right then put_char g i (j + 1) kQubit else Ok g) ;;
      let k := if right then k + 1 else k in
      let down := (k <? ep_n p) && (i <? ep_last p) in
      do g <- (if down then put_char g (i + 1) j kQubit else Ok g) ;;
      let k := if down then k + 1 else k in
      let both := (k <? ep_n p) && (j <? ep_last p) && (i <? ep_last p) in
      do g <- (if both then put_char g (i + 1) (j + 1) kQubit else Ok g) ;;
      let k := if both then k + 1 else k in
      Ok (mkEst g k (if ep_last p <=? i then false else if down then true else e_vert st) (if ep_last p <=? j then false else if right then true else e_horiz st)
            (e_rows_lost st) (if right then e_cols_lost st + 1 else e_cols_lost st) (if down then true else e_row_lost st))
    else Ok (mkEst g k (e_vert st) (e_horiz st) (e_rows_lost st) (e_cols_lost st) (e_row_lost st))
  else Ok (mkEst (e_grid st) (e_placed st) (if ep_last p <=? i then false else e_vert st) (if ep_last p <=? j then false else e_horiz st)
             (e_rows_lost st) (e_cols_lost st) (e_row_lost st)).
(** 50-121, the body of the inner loop *)
Definition visit_cell (p : edpc) (i : Z) (st : est) (j : Z) : outcome est :=
  if (ep_offset p i (e_vert st) (e_rows_lost st) =? 0) && (ep_offset p j (e_horiz st) (e_cols_lost st) =? 0)
  then if ep_ring p i j then visit_ring p st i j else visit_inside p st i j
  else Ok st.

(** [for (size_t x = from; x < to; x++)] *)
Definition range (from to : Z) : list Z := map (fun k => from + Z.of_nat k) (seq 0 (Z.to_nat (to - from))).
(** 46-123 *)
Definition visit_row (p : edpc) (st : est) (i : Z) : outcome est :=
  let st := mkEst (e_grid st) (e_placed st) (e_vert st) (e_horiz st) (e_rows_lost st) 0 false in
  do st <- foldM (visit_cell p i) (range (ep_pad p) (ep_size p - ep_pad p)) st ;;
  Ok (mkEst (e_grid st) (e_placed st) (e_vert st) (e_horiz st) (e_rows_lost st + b2z (e_row_lost st)) (e_cols_lost st) (e_row_lost st)).
Definition place_tiles (p : edpc) : outcome grid :=
  let n := Z.to_nat (ep_size p) in
  do st <- foldM (visit_row p) (range (ep_pad p) (ep_size p - ep_pad p)) (mkEst (repeat (repeat kRouting n) n) 0 false false 0 0 false) ;;
  Ok (e_grid st).

(** 125-232: one tile of one of the four edges, with [block] the tiles of the factory beside it; the state is the grid and [a_count] *)
Definition fill_block (g : grid) (block : list (Z * Z)) : outcome grid :=
  foldM (fun g ij => put_char g (fst ij) (snd ij) kRegion0) block g.
Definition rect (i0 i1 j0 j1 : Z) : list (Z * Z) := flat_map (fun k => map (fun l => (k, l)) (range j0 j1)) (range i0 i1).
Definition visit_edge (p : edpc) (block : Z -> Z -> list (Z * Z)) (st : grid * Z) (ij : Z * Z) : outcome (grid * Z) :=
  let (g, a) := st in
  let (i, j) := ij in
  do c <- cell_at g (mkCell i j) ;;
  if Ascii.eqb c kYState then
    let a := a + 1 in
    let new := if ep_explicit p then kRouting else kMagic in
    if Z.even a then do g <- put_char g i j new ;; do g <- fill_block g (block i j) ;; Ok (g, a)
    else if ep_predistilled p then Ok (g, a)
    else do g <- put_char g i j new ;; Ok (g, a)
  else Ok (g, a).
Definition one_edge (p : edpc) (cells : list (Z * Z)) (block : Z -> Z -> list (Z * Z)) (g : grid) : outcome grid :=
  do (g, _) <- foldM (visit_edge p block) cells (g, 0) ;; Ok g.
Definition edges (p : edpc) (g : grid) : outcome grid :=
  let t := ep_pad p in let last := ep_size p - t - 1 in
  let along := range t (ep_size p - t) in
  do g <- one_edge p (map (fun j => (t, j)) along) (fun i j => rect (i - t) i (j - 1) (j + 2)) g ;;
  do g <- one_edge p (map (fun j => (last, j)) along) (fun i j => rect (i + 1) (i + t + 1) (j - 1) (j + 2)) g ;;
  do g <- one_edge p (map (fun i => (i, t)) along) (fun i j => rect (i - 1) (i + 2) (j - t) j) g ;;
  one_edge p (map (fun i => (i, last)) along) (fun i j => rect (i - 1) (i + 2) (j + 1) (j + t + 1)) g.

(** 234-245 *)
Definition core_pos (p : edpc) (i j : Z) : bool :=
  (ep_pad p <=? i) && (i <? ep_size p - ep_pad p) && (ep_pad p <=? j) && (j <? ep_size p - ep_pad p).
Definition dead_tiles (p : edpc) (g : grid) : grid :=
  map (fun ir => map (fun jc => if core_pos p (fst ir) (fst jc) then snd jc else if Ascii.eqb (snd jc) kRouting then kDead else snd jc) (enum_from 0 (snd ir)))
      (enum_from 0 g).

Definition edpc_grid (p : edpc) : outcome grid :=
  do g <- place_tiles p ;; do g <- edges p g ;; Ok (dead_tiles p g).
(** 10-258 *)
Definition make_edpc_layout (p : edpc) (o : dist_options) : outcome layout :=
  do g <- edpc_grid p ;; layout_of_grid g o.
