(** Independent vocabulary for the layout properties (C23 - C27). *)
From Coq Require Import Relations Sorted.
From Verif Require Import Base TextSpec PatchesModel LayoutModel.

(** Character [t] is written at row [row c], column [col c] of the text rows. *)
Definition written (rows : list text) (c : cell) (t : ascii) : Prop :=
  exists i j r, c = mkCell (Z.of_nat i) (Z.of_nat j)
                /\ nth_error rows i = Some r /\ nth_error r j = Some t.

(** The characters a layout file may use. *)
Definition alphabet : text := lit "rQTDAMXY0123456789".
Definition digits : text := lit "0123456789".

Definition newline : ascii := "010"%char.

(** All rows have one and the same length. *)
Definition rectangular (rows : list text) : Prop :=
  exists n, n <> O /\ Forall (fun r => length r = n) rows.

(** Reading order: by row, then by column. *)
Definition reads_before (a b : cell) : Prop :=
  (row a < row b \/ (row a = row b /\ col a < col b))%Z.

(** Sharing an edge. *)
Definition adj (a b : cell) : Prop :=
  (Z.abs (row a - row b) + Z.abs (col a - col b) = 1)%Z.

(** One step between edge-adjacent cells that both carry [t]. *)
Definition step (rows : list text) (t : ascii) (a b : cell) : Prop :=
  adj a b /\ written rows a t /\ written rows b t.

(** Connected through cells carrying the same character. *)
Definition linked (rows : list text) (t : ascii) : cell -> cell -> Prop :=
  clos_refl_trans cell (step rows t).

(** The lines of a file that are not empty. *)
Definition nonempty (l : text) : bool := match l with [] => false | _ => true end.

(** [l] lists, in reading order and once each, exactly the cells carrying [t]. *)
Definition lists_exactly (rows : list text) (t : ascii) (l : list cell) : Prop :=
  StronglySorted reads_before l /\ forall c, In c l <-> written rows c t.

(** The cell lies on the lattice with the given far corner. *)
Definition on_lattice (far c : cell) : Prop :=
  (0 <= row c <= row far /\ 0 <= col c <= col far)%Z.

(** A line of [n] tiles of row [i] starting in column [j]. *)
Definition line (i j : Z) (n : nat) : list cell :=
  map (fun k => mkCell i (j + Z.of_nat k)) (seq 0 n).

(** A tile of the layout that starts out with nothing on it. *)
Definition open_tile (L : layout) (c : cell) : Prop :=
  on_lattice (l_furthest L) c
  /\ (forall p, In p (l_core L) -> ~ In c (get_cells p))
  /\ (forall R, In R (l_regions L) -> ~ In c (map sc_cell R))
  /\ ~ In c (l_dead L) /\ ~ In c (l_reserved L) /\ ~ In c (l_ystates L).
