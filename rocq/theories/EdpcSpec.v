(** Vocabulary for the generated EDPC layout (C26). *)
From Coq Require Import Relations.
From Verif Require Import Base PatchesModel LayoutModel LayoutSpec.
Open Scope Z_scope.

(** The length of each side: a grid of ceil(sqrt n) by ceil(sqrt n) qubits with [lanes] free lines between them and around them and one line
    of ancillary states around that; condensing drops the lanes inside pairs of rows and of columns; explicit factories take five lines more on each side. *)
Definition side (n lanes : Z) (condensed explicit : bool) : Z :=
  let r := Z.sqrt_up n in
  (r + 1) * (lanes + 1) + 1 - (if condensed then lanes * (r / 2) else 0) + (if explicit then 10 else 0).
(** Width of the strip for the factories *)
Definition strip (explicit : bool) : Z := if explicit then 5 else 0.
(** The tile is a qubit of the layout. *)
Definition qubit_tile (L : layout) (c : cell) : Prop := In (basic_square_patch c None None) (l_core L).
(** Inside the border of ancillary states *)
Definition in_core (n lanes : Z) (condensed explicit : bool) (c : cell) : Prop :=
  strip explicit < row c < side n lanes condensed explicit - strip explicit - 1
  /\ strip explicit < col c < side n lanes condensed explicit - strip explicit - 1.
(** One walks from tile to tile over open tiles. *)
Definition walks (L : layout) : cell -> cell -> Prop :=
  clos_refl_trans cell (fun a b => adj a b /\ open_tile L a /\ open_tile L b).
