(** Model of include/lsqecc/patches/sparse_slice.hpp, src/patches/sparse_slice.cpp
    and of [slice_to_json(SparseSlice)] (src/patches/slices_to_json.cpp:125-172). *)
From Verif Require Import Base TextModel PatchesModel LayoutModel SliceModel OutputModel.
Open Scope Z_scope.

(** sparse_slice.hpp:16-34; the reference to the layout is passed to the functions that use it *)
Record sslice := mkSS {
  ss_qubits : list spatch;      (* qubit_patches *)
  ss_routing : list region;     (* routing_regions *)
  ss_magic : list spatch;       (* unbound_magic_states *)
  ss_timers : list N            (* time_to_next_magic_state_by_distillation_region *) }.

(** [p.id == id], an optional compared with a number *)
Definition bears (id : N) (p : spatch) : bool := match p_id (sp_patch p) with Some x => N.eqb x id | None => false end.

(** sparse_slice.cpp:14-20 *)
Definition ss_has_patch (s : sslice) (id : N) : bool := existsb (bears id) (ss_qubits s).
(** sparse_slice.cpp:22-34 *)
Definition ss_patch_by_id (s : sslice) (id : N) : outcome spatch :=
  match find (bears id) (ss_qubits s) with Some p => Ok p | None => Throw LogicError end.
(** sparse_slice.cpp:36-40 *)
Definition ss_delete (s : sslice) (id : N) : sslice :=
  mkSS (filter (fun p => negb (bears id p)) (ss_qubits s)) (ss_routing s) (ss_magic s) (ss_timers s).

(** the loops of sparse_slice.cpp:43-62: the first patch with such a cell *)
Definition patch_with (c : cell) (l : list spatch) : option spatch := find (fun p => existsb (fun x => cell_eqb x c) (get_cells p)) l.
Definition ss_qubit_on (s : sslice) (c : cell) : option spatch := patch_with c (ss_qubits s).
Definition ss_magic_on (s : sslice) (c : cell) : option spatch := patch_with c (ss_magic s).
(** sparse_slice.cpp:64-69 *)
Definition ss_any_on (s : sslice) (c : cell) : option spatch :=
  match ss_qubit_on s c with Some p => Some p | None => ss_magic_on s c end.
(** sparse_slice.cpp:71-79 *)
Definition ss_is_free (L : layout) (s : sslice) (c : cell) : bool :=
  if existsb (existsb (fun x => cell_eqb (sc_cell x) c)) (l_regions L) then false
  else match ss_any_on s c with Some _ => false | None => true end.
(** sparse_slice.cpp:81-89 *)
Definition ss_is_free_or_activity (s : sslice) (c : cell) (acts : list activity) : outcome bool := Throw NotImplemented.
Definition ss_neighbour_towards (s : sslice) (c : cell) (d : dir) : outcome (option cell) := Throw NotImplemented.
(** sparse_slice.cpp:91-94 *)
Definition ss_neighbours (L : layout) (c : cell) : list cell := get_neigbours_in c (mkCell 0 0) (l_furthest L).
(** sparse_slice.cpp:95-104 *)
Definition ss_blank : sslice := mkSS [] [] [] [].
(** sparse_slice.cpp:106-118 *)
Definition ss_single_by_id (s : sslice) (id : N) : outcome scell :=
  do p <- ss_patch_by_id s id ;; match sp_cells p with Single c => Ok c | Multi _ => Throw LogicError end.
(** sparse_slice.cpp:119-125 *)
Definition ss_cell_by_id (s : sslice) (id : N) : outcome (option cell) :=
  if ss_has_patch s id then do p <- ss_patch_by_id s id ;; do c <- get_a_cell p ;; Ok (Some c) else Ok None.
(** sparse_slice.cpp:128-134 *)
Definition ss_boundary_of_type (s : sslice) (target neighbour : cell) (o : pauli) : outcome bool :=
  match ss_qubit_on s target with
  | None => Throw BadOptional
  | Some p => match sp_cells p with Single c => have_boundary_of_type_with c o neighbour | Multi _ => Ok false end
  end.
(** sparse_slice.cpp:136-144 *)
Definition ss_reserved (s : sslice) (target neighbour : cell) : outcome bool :=
  match ss_qubit_on s target with
  | None => Throw BadOptional
  | Some p => match sp_cells p with
              | Single c => Ok (match get_boundary_with c neighbour with Some b => is_label (btype b) | None => false end)
              | Multi _ => Ok false
              end
  end.
(** sparse_slice.cpp:146-149, not checked *)
Definition ss_timer (s : sslice) (k : nat) : outcome N := idx (ss_timers s) k.

(** sparse_slice.hpp:59-63: two of the five members are not compared *)
Definition scell_eq_dec (a b : scell) : {a = b} + {a <> b}.
Proof. decide equality; [decide equality; apply Z.eq_dec|decide equality; apply boundary_eq_dec]. Defined.
Definition spatch_eq_dec (a b : spatch) : {a = b} + {a <> b}.
Proof.
  decide equality.
  - decide equality; [apply scell_eq_dec|apply list_eq_dec, scell_eq_dec].
  - assert (D : forall x y : option N, {x = y} + {x <> y}) by (decide equality; apply N.eq_dec).
    assert (D' : forall x y : option text, {x = y} + {x <> y}) by (decide equality; apply list_eq_dec, ascii_dec).
    decide equality; [apply activity_eq_dec|apply patch_type_eq_dec].
Defined.
Definition region_eq_dec (a b : region) : {a = b} + {a <> b}.
Proof. decide equality; [decide equality; apply N.eq_dec|apply list_eq_dec, scell_eq_dec]. Defined.
Definition ss_equal (a b : sslice) : bool :=
  (if list_eq_dec spatch_eq_dec (ss_qubits a) (ss_qubits b) then true else false)
  && (if list_eq_dec region_eq_dec (ss_routing a) (ss_routing b) then true else false)
  && (if list_eq_dec N.eq_dec (ss_timers a) (ss_timers b) then true else false).

(** slices_to_json.cpp:26-35 on this kind of slice *)
Definition ss_annotate_region (s : sslice) (jk : json * nat) (region : list scell) : outcome (json * nat) :=
  let (j, k) := jk in
  do front <- (match region with [] => UB UBDeref | x :: _ => Ok x end) ;;
  do t <- ss_timer s k ;;
  do j <- at_cell (sc_cell front) (put_field (lit "text") (JStr (lit "Time to next magic state:" ++ print_N t))) j ;;
  Ok (j, S k).
(** slices_to_json.cpp:129-144 *)
Definition ss_draw_patch (j : json) (p : spatch) : outcome json :=
  match sp_cells p with
  | Single c => do d <- from_sparse_patch p ;; do x <- patch_json d ;; at_cell (sc_cell c) (fun _ => Ok x) j
  | Multi _ => Throw RuntimeError
  end.
(** slices_to_json.cpp:146-157; [json({})] is an empty object *)
Definition ss_draw_routing (r : region) (j : json) (c : scell) : outcome json :=
  let x := edges_json (sc_b c) in
  do x <- put_field (lit "patch_type") (JStr (lit "Ancilla")) x ;;
  do x <- put_field (lit "activity") (JObj []) x ;;
  do x <- (match rg_id r with Some n => put_field (lit "operation_id") (JStr (print_N n)) x | None => Ok x end) ;;
  at_cell (sc_cell c) (fun _ => Ok x) j.
(** slices_to_json.cpp:125-172; what 159-167 make of the distillation regions is thrown away *)
Definition ss_json (L : layout) (s : sslice) : outcome json :=
  do j <- foldM ss_draw_patch (ss_qubits s ++ ss_magic s) (blank_grid (l_furthest L)) ;;
  do j <- foldM (fun j r => foldM (ss_draw_routing r) (rg_cells r) j) (ss_routing s) j ;;
  do (j, _) <- foldM (ss_annotate_region s) (l_regions L) (j, O) ;; Ok j.
