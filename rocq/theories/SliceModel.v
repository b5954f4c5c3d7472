(** Model of include/lsqecc/patches/dense_slice.hpp, src/patches/dense_slice.cpp
    and of [advance_slice] (src/patches/dense_patch_computation.cpp:49-175). *)
From Verif Require Import Base TextModel PatchesModel LayoutModel.
Open Scope Z_scope.

(** dense_slice.hpp:22 [std::optional<DensePatch>] *)
Notation tile := (option dpatch).

(** A [std::reference_wrapper<Boundary>] into a tile: which tile, which side. *)
Notation bref := (cell * dir)%type.

(** dense_slice.hpp:22-35.  The two [std::set<Cell>] members are kept as lists
    sorted by [operator<]; the timers are uint32_t; the reference to the layout
    is passed to the functions that use it. *)
Record slice := mkSlice {
  s_cells : list (list tile);
  s_magic : list cell;
  s_timers : list N;
  s_yavail : N;
  s_crossing : list cell;
  s_rough : list bref;
  s_smooth : list bref }.

Definition with_cells (s : slice) (g : list (list tile)) : slice :=
  mkSlice g (s_magic s) (s_timers s) (s_yavail s) (s_crossing s) (s_rough s) (s_smooth s).
Definition with_magic (s : slice) (m : list cell) : slice :=
  mkSlice (s_cells s) m (s_timers s) (s_yavail s) (s_crossing s) (s_rough s) (s_smooth s).
Definition with_timers (s : slice) (t : list N) : slice :=
  mkSlice (s_cells s) (s_magic s) t (s_yavail s) (s_crossing s) (s_rough s) (s_smooth s).
Definition with_yavail (s : slice) (y : N) : slice :=
  mkSlice (s_cells s) (s_magic s) (s_timers s) y (s_crossing s) (s_rough s) (s_smooth s).
Definition with_crossing (s : slice) (x : list cell) : slice :=
  mkSlice (s_cells s) (s_magic s) (s_timers s) (s_yavail s) x (s_rough s) (s_smooth s).
Definition with_marks (s : slice) (r m : list bref) : slice :=
  mkSlice (s_cells s) (s_magic s) (s_timers s) (s_yavail s) (s_crossing s) r m.

(** [std::set<Cell>::insert], [erase] and [count] *)
Fixpoint cset_insert (c : cell) (l : list cell) : list cell :=
  match l with
  | [] => [c]
  | x :: r => if cell_ltb c x then c :: l
              else if cell_ltb x c then x :: cset_insert c r else l
  end.
Definition cset_erase (c : cell) (l : list cell) : list cell :=
  filter (fun x => negb (cell_eqb c x)) l.

(** [v.at(i)] with a signed index: a negative one becomes huge. *)
Definition at_z {A} (l : list A) (i : Z) : outcome A :=
  if i <? 0 then Throw OutOfRange else at_ l (Z.to_nat i).

(** dense_slice.cpp:81-89 *)
Definition patch_at (s : slice) (c : cell) : outcome tile :=
  do r <- at_z (s_cells s) (row c) ;; at_z r (col c).
(** Assignment through the reference returned by [patch_at]. *)
Definition set_patch (s : slice) (c : cell) (t : tile) : outcome slice :=
  do r <- at_z (s_cells s) (row c) ;;
  do _ <- at_z r (col c) ;;
  Ok (with_cells s (set_row (s_cells s) (Z.to_nat (row c)) (set_row r (Z.to_nat (col c)) t))).

(** dense_slice.cpp:18-32: the tiles in the order of the traversal *)
Definition tiles (s : slice) : list (cell * tile) :=
  flat_map (fun ir => map (fun jt => (mkCell (fst ir) (fst jt), snd jt)) (enum_from 0 (snd ir)))
           (enum_from 0 (s_cells s)).

Definition has_id (id : N) (t : tile) : bool :=
  match t with
  | Some p => match p_id (dp p) with Some x => N.eqb x id | None => false end
  | None => false
  end.

(** dense_slice.cpp:71-79: the last match wins *)
Definition get_cell_by_id (s : slice) (id : N) : option cell :=
  fold_left (fun ret ct => if has_id id (snd ct) then Some (fst ct) else ret) (tiles s) None.

(** dense_slice.cpp:39-48 hands out a reference to the last match, which is the
    tile of [get_cell_by_id]; this is its content. *)
Definition get_patch_by_id (s : slice) (id : N) : option dpatch :=
  fold_left (fun ret ct => if has_id id (snd ct) then snd ct else ret) (tiles s) None.

(** dense_slice.cpp:222-225 *)
Definition has_patch (s : slice) (id : N) : bool :=
  match get_patch_by_id s id with Some _ => true | None => false end.

(** dense_slice.cpp:91-96 *)
Definition delete_patch_by_id (s : slice) (id : N) : slice :=
  with_cells s (map (map (fun t => if has_id id t then None else t)) (s_cells s)).

(** dense_slice.cpp:98-106 *)
Definition neighbour_towards (L : layout) (c : cell) (d : dir) : option cell :=
  get_directional_neighbor c (mkCell 0 0) (l_furthest L) d.
Definition neighbours (L : layout) (c : cell) : list cell :=
  get_neigbours_in c (mkCell 0 0) (l_furthest L).

(** dense_slice.cpp:170-173 *)
Definition is_free (s : slice) (c : cell) : outcome bool :=
  do t <- patch_at s c ;; Ok (match t with None => true | Some _ => false end).

(** dense_slice.cpp:175-194 *)
Definition is_free_or_activity (s : slice) (c : cell) (acts : list activity) : outcome bool :=
  do t <- patch_at s c ;;
  Ok (match t with
      | None => true
      | Some p => existsb (act_eqb (p_act (dp p))) acts
      end).

(** dense_slice.cpp:196-209 *)
Definition place_single (s : slice) (p : spatch) (distillation : bool) : outcome (slice * cell) :=
  match sp_cells p with
  | Multi _ => Throw LogicError
  | Single sc =>
      do free <- is_free s (sc_cell sc) ;;
      if negb free && negb distillation then Throw LogicError else
      do d <- from_sparse_patch p ;;
      do s' <- set_patch s (sc_cell sc) (Some d) ;;
      Ok (s', sc_cell sc)
  end.

(** [SparsePatch{.cells=patch}]: every other member is value-initialised. *)
Definition bare_patch : patch := mkPatch TDistillation ANone None None None.
(** dense_slice.cpp:210-220 *)
Definition place_sparse (s : slice) (p : spatch) (distillation : bool) : outcome slice :=
  match sp_cells p with
  | Single _ => do (s', _) <- place_single s p distillation ;; Ok s'
  | Multi l => foldM (fun s sc => do (s', _) <- place_single s (mkSP bare_patch (Single sc)) distillation ;; Ok s')
                     l s
  end.

(** dense_slice.cpp:227-240 *)
Definition boundary_ref (s : slice) (target neighbour : cell) : outcome (option bref) :=
  do t <- patch_at s target ;;
  Ok (match t with
      | None => None
      | Some _ => match side_towards target neighbour with
                  | Some d => Some (target, d)
                  | None => None
                  end
      end).
(** Reading and writing through such a reference.  If the tile has been emptied
    since, the reference dangles. *)
Definition read_ref (s : slice) (r : bref) : outcome boundary :=
  do t <- patch_at s (fst r) ;;
  match t with None => UB UBDangling | Some p => Ok (side (db p) (snd r)) end.
Definition write_ref (s : slice) (r : bref) (b : boundary) : outcome slice :=
  do t <- patch_at s (fst r) ;;
  match t with
  | None => UB UBDangling
  | Some p => set_patch s (fst r) (Some (mkDP (dp p) (set_side (db p) (snd r) b)))
  end.
Definition set_ref_type (s : slice) (r : bref) (t : boundary_type) : outcome slice :=
  do b <- read_ref s r ;; write_ref s r (mkB t (bactive b)).
Definition set_ref_active (s : slice) (r : bref) (a : bool) : outcome slice :=
  do b <- read_ref s r ;; write_ref s r (mkB (btype b) a).

(** dense_slice.cpp:242-246: [lstk::get_or_throw] throws its argument by the
    static type [std::exception]. *)
Definition boundary_ref_or_fail (s : slice) (target neighbour : cell) : outcome bref :=
  do r <- boundary_ref s target neighbour ;;
  match r with Some x => Ok x | None => Throw PlainException end.

(** dense_slice.cpp:249-255, the const version, read at once *)
Definition boundary_between (s : slice) (target neighbour : cell) : outcome (option boundary) :=
  do r <- boundary_ref s target neighbour ;;
  match r with
  | Some x => do b <- read_ref s x ;; Ok (Some b)
  | None => Ok None
  end.

(** dense_slice.cpp:257-261 *)
Definition has_boundary_of_type (s : slice) (target neighbour : cell) (o : pauli) : outcome bool :=
  do b <- boundary_between s target neighbour ;;
  match b with
  | None => Ok false
  | Some x => do t <- boundary_for_operator o ;; Ok (btype_eqb (btype x) t)
  end.

Definition is_label (t : boundary_type) : bool := btype_eqb t BLabel1 || btype_eqb t BLabel2.
(** dense_slice.cpp:263-267 *)
Definition is_boundary_reserved (s : slice) (target neighbour : cell) : outcome bool :=
  do b <- boundary_between s target neighbour ;;
  Ok (match b with None => false | Some x => is_label (btype x) end).

(** ** Construction, dense_slice.cpp:108-167 *)

(** dense_slice.cpp:108-114 *)
Definition empty_slice (L : layout) : slice :=
  mkSlice (repeat (repeat None (Z.to_nat (col (l_furthest L) + 1))) (Z.to_nat (row (l_furthest L) + 1)))
          [] [] 0%N [] [] [].

(** dense_slice.cpp:122-128: the loop stops when the ids are used up *)
Fixpoint place_core (s : slice) (core : list spatch) (ids : list N) : outcome slice :=
  match core, ids with
  | [], _ => Ok s
  | _ :: _, [] => Ok s
  | p :: core', id :: ids' =>
      do (s1, c) <- place_single s p false ;;
      do t <- patch_at s1 c ;;
      do d <- deref t ;;
      do s2 <- set_patch s1 c (Some (mkDP (mkPatch (p_type (dp d)) (p_act (dp d)) (Some id)
                                                   (p_label (dp d)) (p_op (dp d))) (db d))) ;;
      place_core s2 core' ids'
  end.

(** uint32_t arithmetic of [predistilled_ystates_available] *)
Definition u32_inc (n : N) : N := u32 (n + 1).
Definition u32_dec (n : N) : N := if N.eqb n 0 then (2 ^ 32 - 1)%N else (n - 1)%N.

(** dense_slice.cpp:130-135 *)
Definition place_ystate (s : slice) (c : cell) : outcome slice :=
  do (s', _) <- place_single s (basic_square_patch c None None) false ;;
  Ok (with_yavail s' (u32_inc (s_yavail s'))).

Definition connected4 : bounds :=
  mkBounds (mkB BConnected false) (mkB BConnected false) (mkB BConnected false) (mkB BConnected false).
Definition distillation_patch : patch := mkPatch TDistillation ADistillation None None None.
Definition dead_patch : patch := mkPatch TDead ADead None None None.

(** dense_slice.cpp:116-167 *)
Definition new_slice (L : layout) (ids : list N) : outcome slice :=
  if (length (l_core L) <? length ids)%nat then Throw RuntimeError else
  do s <- place_core (empty_slice L) (l_core L) ids ;;
  do s <- foldM place_ystate (l_ystates L) s ;;
  do s <- foldM (fun s sc => set_patch s (sc_cell sc) (Some (mkDP distillation_patch (sc_b sc))))
                (concat (l_regions L)) s ;;
  do s <- foldM (fun s c => set_patch s c (Some (mkDP distillation_patch connected4))) (l_reserved L) s ;;
  let s := with_timers s (s_timers s ++ l_times L) in
  foldM (fun s c => set_patch s c (Some (mkDP dead_patch connected4))) (l_dead L) s.

(** ** Advancing time, dense_patch_computation.cpp:79-175 *)

Definition set_act (p : dpatch) (a : activity) : dpatch :=
  mkDP (mkPatch (p_type (dp p)) a (p_id (dp p)) (p_label (dp p)) (p_op (dp p))) (db p).
Definition calm (b : boundary) : boundary := mkB (btype b) false.
Definition calm4 (b : bounds) : bounds :=
  mkBounds (calm (b_top b)) (calm (b_bottom b)) (calm (b_left b)) (calm (b_right b)).

(** dense_patch_computation.cpp:81-109, what happens to one tile *)
Definition advance_tile (t : tile) : tile :=
  match t with
  | None => None
  | Some p =>
      let p := if act_eqb (p_act (dp p)) AUnitary then set_act p ANone else p in
      let p := if act_eqb (p_act (dp p)) AEDPC then set_act p AReserved else p in
      let p := if negb (act_eqb (p_act (dp p)) ARotation) && negb (act_eqb (p_act (dp p)) AReserved)
               then mkDP (dp p) (calm4 (db p)) else p in
      if act_eqb (p_act (dp p)) AMultiPatch || act_eqb (p_act (dp p)) AMeasurement
      then None else Some p
  end.

(** dense_patch_computation.cpp:134-137 and 154-157 *)
Definition magic_state_patch (c : cell) : spatch :=
  let p := basic_square_patch c None (Some (lit "Magic State")) in
  mkSP (mkPatch TPreparedState (p_act (sp_patch p)) (p_id (sp_patch p)) (p_label (sp_patch p))
                (p_op (sp_patch p))) (sp_cells p).
Definition spawn_magic (s : slice) (c : cell) : outcome slice :=
  do (s', _) <- place_single s (magic_state_patch c) true ;;
  Ok (with_magic s' (cset_insert c (s_magic s'))).

(** dense_patch_computation.cpp:118-141, the body of the loop over the reserved
    tiles; [i] is [reserved_cell_index]. *)
Definition respawn (L : layout) (st : slice * nat) (c : cell) : outcome (slice * nat) :=
  let '(s, i) := st in
  do t <- patch_at s c ;;
  do s1 <- match t with
           | None =>
               do s' <- set_patch s c (Some (mkDP distillation_patch connected4)) ;;
               do _ <- idx (s_timers s') i ;;
               do full <- idx (l_times L) i ;;
               Ok (with_timers s' (set_row (s_timers s') i full))
           | Some p =>
               if ptype_eqb (p_type (dp p)) TDistillation
               then do x <- idx (s_timers s) i ;;
                    Ok (with_timers s (set_row (s_timers s) i (u32_dec x)))
               else Ok s
           end ;;
  do x <- idx (s_timers s1) i ;;
  if N.eqb x 0 then
    do t' <- patch_at s1 c ;;
    do p' <- deref t' ;;
    if negb (ptype_eqb (p_type (dp p')) TPreparedState) && negb (ptype_eqb (p_type (dp p')) TQubit)
    then do s2 <- spawn_magic s1 c ;; Ok (s2, S i)
    else Ok (s1, S i)
  else Ok (s1, S i).

(** dense_patch_computation.cpp:49-57 *)
Fixpoint first_free (s : slice) (l : list cell) : outcome (option cell) :=
  match l with
  | [] => Ok None
  | c :: r => do free <- is_free s c ;; if free then Ok (Some c) else first_free s r
  end.
Definition find_place_for_magic_state (s : slice) (L : layout) (i : nat) : outcome (option cell) :=
  do q <- idx (l_queues L) i ;; first_free s q.

(** dense_patch_computation.cpp:148-164, the loop over the factories *)
Fixpoint run_factories (L : layout) (s : slice) (i : nat) (todo : list N) : outcome slice :=
  match todo with
  | [] => Ok s
  | t :: r =>
      let t' := u32_dec t in
      if N.eqb t' 0 then
        do place <- find_place_for_magic_state s L i ;;
        do s1 <- match place with Some c => spawn_magic s c | None => Ok s end ;;
        do full <- idx (l_times L) i ;;
        run_factories L (with_timers s1 (set_row (s_timers s1) i full)) (S i) r
      else run_factories L (with_timers s (set_row (s_timers s) i t')) (S i) r
  end.

(** dense_patch_computation.cpp:79-175 *)
Definition advance_slice (L : layout) (s : slice) : outcome slice :=
  let s := with_cells s (map (map advance_tile) (s_cells s)) in
  do s <- (if l_magic_reserved L
           then do (s', _) <- foldM (respawn L) (l_reserved L) (s, 0%nat) ;; Ok s'
           else run_factories L s 0 (s_timers s)) ;;
  Ok (with_crossing s []).
