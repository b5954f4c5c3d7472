(** Model of include/lsqecc/patches/patches.hpp and src/patches/patches.cpp,
    and of include/lsqecc/pauli_rotations/pauli_operator.hpp. *)
From Verif Require Import Base TextModel.
Open Scope Z_scope.

(** pauli_operator.hpp:11-16 *)
Inductive pauli := PI | PX | PY | PZ.
Definition pauli_eq_dec (a b : pauli) : {a = b} + {a <> b}.
Proof. decide equality. Defined.
Definition pauli_eqb (a b : pauli) : bool := if pauli_eq_dec a b then true else false.

(** pauli_operator.hpp:18-25 *)
Definition pauli_from_string (s : text) : outcome pauli :=
  if text_eqb s (lit "I") then Ok PI
  else if text_eqb s (lit "X") then Ok PX
  else if text_eqb s (lit "Y") then Ok PY
  else if text_eqb s (lit "Z") then Ok PZ
  else Throw LogicError.

(** pauli_operator.hpp:27-35; the enum has no other value. *)
Definition pauli_to_string (p : pauli) : text :=
  match p with PI => lit "I" | PX => lit "X" | PY => lit "Y" | PZ => lit "Z" end.

(** patches.hpp:16-23 *)
Inductive boundary_type := BNone | BConnected | BRough | BSmooth | BLabel1 | BLabel2.
Definition boundary_type_eq_dec (a b : boundary_type) : {a = b} + {a <> b}.
Proof. decide equality. Defined.
Definition btype_eqb (a b : boundary_type) : bool := if boundary_type_eq_dec a b then true else false.

(** patches.hpp:25-27 *)
Inductive dir := DTop | DBottom | DLeft | DRight.
Definition dir_eq_dec (a b : dir) : {a = b} + {a <> b}.
Proof. decide equality. Defined.
Definition dir_eqb (a b : dir) : bool := if dir_eq_dec a b then true else false.

(** patches.cpp:7-23, [operator!(BoundaryType)] *)
Definition bt_not (b : boundary_type) : boundary_type :=
  match b with
  | BNone => BConnected | BConnected => BNone
  | BRough => BSmooth | BSmooth => BRough
  | BLabel1 => BLabel2 | BLabel2 => BLabel1
  end.

(** patches.cpp:25-37, [operator!(CellDirection)] *)
Definition dir_not (d : dir) : dir :=
  match d with DTop => DBottom | DBottom => DTop | DLeft => DRight | DRight => DLeft end.

(** patches.cpp:60-70 *)
Definition boundary_for_operator (op : pauli) : outcome boundary_type :=
  match op with
  | PX => Ok BRough
  | PZ => Ok BSmooth
  | PI => Throw LogicError
  | PY => Throw LogicError
  end.

(** patches.hpp:41-63.  Coordinates are int32_t in the code; here unbounded
    integers (no lattice comes near the limits). *)
Record cell := mkCell { row : Z; col : Z }.
Definition cell_eqb (a b : cell) : bool := (row a =? row b) && (col a =? col b).
(** patches.hpp:57-60, [operator<] *)
Definition cell_ltb (a b : cell) : bool :=
  (row a <? row b) || ((row a =? row b) && (col a <? col b)).

(** patches.hpp:67-73 *)
Inductive patch_type := TDistillation | TPreparedState | TQubit | TRouting | TDead.
Definition patch_type_eq_dec (a b : patch_type) : {a = b} + {a <> b}.
Proof. decide equality. Defined.
Definition ptype_eqb (a b : patch_type) : bool := if patch_type_eq_dec a b then true else false.

(** patches.hpp:75-86 *)
Inductive activity := ANone | AMeasurement | AUnitary | ADistillation | ADead
                    | AMultiPatch | ARotation | AEDPC | AReserved.
Definition activity_eq_dec (a b : activity) : {a = b} + {a <> b}.
Proof. decide equality. Defined.
Definition act_eqb (a b : activity) : bool := if activity_eq_dec a b then true else false.

(** patches.hpp:89-94 *)
Record boundary := mkB { btype : boundary_type; bactive : bool }.
Definition boundary_eq_dec (a b : boundary) : {a = b} + {a <> b}.
Proof. decide equality; [apply bool_dec | apply boundary_type_eq_dec]. Defined.

(** patches.hpp:98-109 *)
Record bounds := mkBounds { b_top : boundary; b_bottom : boundary; b_left : boundary; b_right : boundary }.

(** One side of a tile, and its update. *)
Definition side (b : bounds) (d : dir) : boundary :=
  match d with DTop => b_top b | DBottom => b_bottom b | DLeft => b_left b | DRight => b_right b end.
Definition set_side (b : bounds) (d : dir) (x : boundary) : bounds :=
  match d with
  | DTop => mkBounds x (b_bottom b) (b_left b) (b_right b)
  | DBottom => mkBounds (b_top b) x (b_left b) (b_right b)
  | DLeft => mkBounds (b_top b) (b_bottom b) x (b_right b)
  | DRight => mkBounds (b_top b) (b_bottom b) (b_left b) x
  end.

(** patches.cpp:304-307 *)
Definition has_active_boundary (b : bounds) : bool :=
  bactive (b_top b) || bactive (b_bottom b) || bactive (b_left b) || bactive (b_right b).

(** patches.cpp:309-316: right:=top, top:=left, left:=bottom, bottom:=old right *)
Definition instant_rotate (b : bounds) : bounds :=
  mkBounds (b_left b) (b_right b) (b_bottom b) (b_top b).

(** patches.hpp:112-122 *)
Record scell := mkSC { sc_b : bounds; sc_cell : cell }.

(** patches.hpp:131-140.  [label] is a std::string, ids are uint32_t,
    operation ids uint64_t: unbounded naturals here. *)
Record patch := mkPatch {
  p_type : patch_type; p_act : activity; p_id : option N;
  p_label : option text; p_op : option N }.

(** patches.hpp:145-156, the variant member and [SparsePatch] *)
Inductive occupied := Single (c : scell) | Multi (l : list scell).
Record spatch := mkSP { sp_patch : patch; sp_cells : occupied }.

(** patches.hpp:158-166, [DensePatch] *)
Record dpatch := mkDP { dp : patch; db : bounds }.

(** patches.hpp:168-174 *)
Record region := mkRegion { rg_cells : list scell; rg_id : option N }.

(** patches.cpp:78-94.  In the multi cell branch the vector is constructed
    with [size] value-initialised elements before the cells are appended. *)
Definition get_cells (p : spatch) : list cell :=
  match sp_cells p with
  | Single c => [sc_cell c]
  | Multi l => repeat (mkCell 0 0) (length l) ++ map sc_cell l
  end.

(** patches.cpp:97-108; [front()] of an empty vector is undefined *)
Definition get_a_cell (p : spatch) : outcome cell :=
  match sp_cells p with
  | Single c => Ok (sc_cell c)
  | Multi [] => UB UBPop
  | Multi (c :: _) => Ok (sc_cell c)
  end.

(** patches.cpp:216-226, with visit_individual_cells (198-214) inlined *)
Definition sp_is_active (p : spatch) : bool :=
  if act_eqb (p_act (sp_patch p)) ANone then
    match sp_cells p with
    | Single c => has_active_boundary (sc_b c)
    | Multi l => existsb (fun c => has_active_boundary (sc_b c)) l
    end
  else true.

(** patches.cpp:228-234 *)
Definition get_neigbours (c : cell) : list cell :=
  [ mkCell (row c - 1) (col c); mkCell (row c + 1) (col c);
    mkCell (row c) (col c - 1); mkCell (row c) (col c + 1) ].

(** patches.cpp:236-254 *)
Definition get_directional_neighbor (c origin furthest : cell) (d : dir) : option cell :=
  match d with
  | DTop => if row c >? row origin then Some (mkCell (row c - 1) (col c)) else None
  | DBottom => if row c <? row furthest then Some (mkCell (row c + 1) (col c)) else None
  | DLeft => if col c >? col origin then Some (mkCell (row c) (col c - 1)) else None
  | DRight => if col c <? col furthest then Some (mkCell (row c) (col c + 1)) else None
  end.

(** patches.cpp:256-264 *)
Definition get_neigbours_in (c origin furthest : cell) : list cell :=
  (if row c >? row origin then [mkCell (row c - 1) (col c)] else []) ++
  (if row c <? row furthest then [mkCell (row c + 1) (col c)] else []) ++
  (if col c >? col origin then [mkCell (row c) (col c - 1)] else []) ++
  (if col c <? col furthest then [mkCell (row c) (col c + 1)] else []).

(** The side of tile [c] that the four tests of patches.cpp:266-303 select for
    [neighbour] (the four functions there repeat the same chain). *)
Definition side_towards (c neighbour : cell) : option dir :=
  if cell_eqb neighbour (mkCell (row c - 1) (col c)) then Some DTop
  else if cell_eqb neighbour (mkCell (row c + 1) (col c)) then Some DBottom
  else if cell_eqb neighbour (mkCell (row c) (col c - 1)) then Some DLeft
  else if cell_eqb neighbour (mkCell (row c) (col c + 1)) then Some DRight
  else None.

(** patches.cpp:266-274 *)
Definition get_boundary_with (s : scell) (neighbour : cell) : option boundary :=
  match side_towards (sc_cell s) neighbour with
  | Some d => Some (side (sc_b s) d)
  | None => None
  end.

(** patches.cpp:276-284 and 295-303 hand out a mutable reference to the same
    boundary; assigning [x] through it is: *)
Definition set_boundary_with (s : scell) (neighbour : cell) (x : boundary) : option scell :=
  match side_towards (sc_cell s) neighbour with
  | Some d => Some (mkSC (set_side (sc_b s) d x) (sc_cell s))
  | None => None
  end.

(** patches.cpp:286-292: the operator is only looked up when there is a boundary *)
Definition have_boundary_of_type_with (s : scell) (op : pauli) (neighbour : cell) : outcome bool :=
  match get_boundary_with s neighbour with
  | None => Ok false
  | Some b => do t <- boundary_for_operator op ;; Ok (btype_eqb (btype b) t)
  end.

(** patches.cpp:318-321: label and operation id are left out of the braces *)
Definition to_sparse_patch (p : dpatch) (c : cell) : spatch :=
  mkSP (mkPatch (p_type (dp p)) (p_act (dp p)) (p_id (dp p)) None None)
       (Single (mkSC (db p) c)).

(** patches.cpp:322-332 *)
Definition from_sparse_patch (p : spatch) : outcome dpatch :=
  match sp_cells p with
  | Single c => Ok (mkDP (sp_patch p) (sc_b c))
  | Multi _ => Throw RuntimeError
  end.

(** patches.cpp:333-337 *)
Definition dp_is_active (p : dpatch) : bool :=
  if act_eqb (p_act (dp p)) ANone then has_active_boundary (db p) else true.
