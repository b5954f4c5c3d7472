(** Independent vocabulary for routes. *)
From Verif Require Import Base PatchesModel LayoutModel LayoutSpec SliceModel SliceSpec InstrSpec.
Open Scope Z_scope.

(** The kind of side an operator is measured on. *)
Inductive side_for : pauli -> boundary_type -> Prop :=
| side_x : side_for PX BRough
| side_z : side_for PZ BSmooth.

(** The patch on [c] shows operator [o] towards the tile [n] next to it. *)
Definition shows (s : slice) (c n : cell) (o : pauli) : Prop :=
  exists p d t, tile_at s c = Some p /\ n = step c d /\ side_for o t /\ btype (side (db p) d) = t.

(** A tile a route may use: an empty one or, when routes may cross (EDPC), one
    that is part of another such route. *)
Definition usable (edpc : bool) (s : slice) (c : cell) : Prop :=
  match tile_at s c with
  | None => True
  | Some p => edpc = true /\ p_act (dp p) = AEDPC
  end.

(** The side of [a] towards [b] already belongs to a crossing route. *)
Definition side_reserved (s : slice) (a b : cell) : Prop :=
  exists p d, tile_at s a = Some p /\ b = step a d
    /\ (btype (side (db p) d) = BLabel1 \/ btype (side (db p) d) = BLabel2).

(** A route may go from [a] to the neighbouring tile [b]. *)
Inductive may_step (edpc : bool) (s : slice) (src : cell) (sop : pauli) (tgt : cell) (top : pauli)
  : cell -> cell -> Prop :=
| step_open a b : usable edpc s a -> usable edpc s b -> (edpc = true -> ~ side_reserved s a b) ->
    may_step edpc s src sop tgt top a b
| step_leave b : b <> tgt -> usable edpc s b -> shows s src b sop -> may_step edpc s src sop tgt top src b
| step_arrive a : a <> src -> usable edpc s a -> shows s tgt a top -> may_step edpc s src sop tgt top a tgt
| step_direct : shows s src tgt sop -> shows s tgt src top -> may_step edpc s src sop tgt top src tgt.

(** Consecutive elements are related. *)
Fixpoint consecutive {A} (R : A -> A -> Prop) (l : list A) : Prop :=
  match l with
  | a :: (b :: _) as r => R a b /\ consecutive R r
  | _ => True
  end.

(** A walk from the source through the tiles [mid] to the target. *)
Definition walk (edpc : bool) (L : layout) (s : slice) (src : cell) (sop : pauli) (tgt : cell) (top : pauli)
  (mid : list cell) : Prop :=
  consecutive (fun a b => adjacent a b /\ may_step edpc s src sop tgt top a b) (src :: mid ++ [tgt])
  /\ Forall (on_lattice (l_furthest L)) mid.

(** The sides of a route tile: joined towards the previous and the next tile of
    the route, nothing on the others. *)
Definition joined_to (mark : boundary) (t : scell) (prev next : cell) : Prop :=
  forall d, side (sc_b t) d =
    if cell_eqb (step (sc_cell t) d) prev || cell_eqb (step (sc_cell t) d) next
    then mark else mkB BNone false.

(** [l] lists the tiles of a route from the target's end; [prev] is before it
    and [last] is after it. *)
Fixpoint all_joined (mark : boundary) (prev : cell) (l : list scell) (last : cell) : Prop :=
  match l with
  | [] => True
  | t :: r => joined_to mark t prev (match r with [] => last | t' :: _ => sc_cell t' end)
              /\ all_joined mark (sc_cell t) r last
  end.

(** How the tiles of a route are joined: as one connected region, or with the
    label that keeps crossing routes apart. *)
Definition join_mark (edpc : bool) : boundary :=
  if edpc then mkB BLabel1 true else mkB BConnected true.

(** [cells], listed from the target's end, is a route from [src] to [tgt]. *)
Definition is_route (edpc : bool) (L : layout) (s : slice) (src : cell) (sop : pauli) (tgt : cell) (top : pauli)
  (cells : list scell) : Prop :=
  let mid := rev (map sc_cell cells) in
  walk edpc L s src sop tgt top mid
  /\ NoDup mid /\ ~ In src mid /\ ~ In tgt mid
  /\ Forall (usable edpc s) mid
  /\ all_joined (join_mark edpc) tgt cells src.
