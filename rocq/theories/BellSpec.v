(** Independent vocabulary for long-range Bell operations. *)
From Verif Require Import Base PatchesModel LayoutModel LayoutSpec InstrModel InstrSpec.
From Verif Require Import SliceModel SliceSpec RouterModel RouterSpec ApplyModel ApplySpec.
Open Scope nat_scope.

(** A segment of [n] tiles has the links [0 .. n-2], link [k] joining tiles [k]
    and [k+1].  Each link gets one operation, in the first or in the second layer,
    alternating along the segment. *)

(** Operations that produce (rather than use up) what is at the near end. *)
Definition producing (t : lrb) : bool := match t with LRPrep | LRSplit => true | LRMeasure | LRMerge => false end.
Definition in_first (t : lrb) (n : nat) (reverse : bool) (k : nat) : bool :=
  let first := if Nat.odd n && negb reverse then Nat.even k else Nat.odd k in
  if producing t then negb first else first.

(** With an odd number of tiles the near end is a Move; the far link of a merge or
    split joins a patch that stays where it is. *)
Definition move_link (n : nat) (reverse : bool) : option nat :=
  if Nat.odd n then Some (if reverse then n - 2 else 0) else None.
Definition far_link (n : nat) (reverse : bool) : nat := if reverse then 0 else n - 2.

(** [x] or [y] is [a] and the other [b]. *)
Definition either (a b x y : cell) : Prop := (x = a /\ y = b) \/ (x = b /\ y = a).

(** The ids given to the two halves prepared on link [k]: [side2] is used on link
    [k2] only, [side1] on link [k1] only. *)
Definition ids_at (side1 side2 : option N) (k1 k2 k : nat) (i j : option N) : Prop :=
  (i = None \/ i = side2 /\ k = k2) /\ (j = None \/ j = side1 /\ k = k1)
  \/ i = side1 /\ k = k1 /\ j = None.
(** In a long-range preparation the first prepared link names [side2], on its
    first tile, and the last one [side1], on its last tile. *)
Definition prep_ids (n : nat) (reverse : bool) (side1 side2 : option N) (k : nat) (i j : option N) : Prop :=
  i = (if k =? (if Nat.odd n && negb reverse then 1 else 0) then side2 else None)
  /\ j = (if k =? n - 2 - (if Nat.odd n && reverse then 1 else 0) then side1 else None).

(** What is done on link [k] of the segment [at_]. *)
Definition link_does (t : lrb) (n : nat) (reverse : bool) (side1 side2 : option N) (k1 k2 : nat)
  (at_ : nat -> cell) (k : nat)  (l : local_instr) : Prop :=
  if match move_link n reverse with Some m => k =? m | None => false end then
    (* the end tile of the move link *)
    let outer := if reverse then k + 1 else k in
    let inner := if reverse then k else k + 1 in
    l = if producing t then LMove (at_ inner) (at_ outer) None else LMove (at_ outer) (at_ inner) None
  else
    let outer := if reverse then k else k + 1 in
    let inner := if reverse then k + 1 else k in
    match t, k =? far_link n reverse with
    | LRMerge, true => l = LMergeContract (at_ outer) (at_ inner)
    | LRSplit, true => l = LExtendSplit None (at_ outer) (at_ inner)
    | _, _ => exists x y, either (at_ k) (at_ (k + 1)) x y
        /\ if in_first t n reverse k
           then exists i j, l = LBellPrepare i j x y /\ ids_at side1 side2 k1 k2 k i j
                  /\ (t = LRPrep -> x = at_ k /\ prep_ids n reverse side1 side2 k i j)
           else l = LBellMeasure x y
    end.

(** The tile at position [k] of the segment starting at [start]. *)
Definition seg (route : list cell) (start : nat) (k : nat) : cell := nth (start + k) route (mkCell 0 0).

(** [ops] does exactly one thing on each of the links selected by [sel]. *)
Definition on_links (sel : nat -> bool) (does : nat -> local_instr -> Prop) (n : nat) (ops : list local_instr) : Prop :=
  exists links, Forall2 does links ops /\ NoDup links
    /\ forall k, In k links <-> k + 1 < n /\ sel k = true.


(** A CNOT between the patches at the two ends of a segment of [n] tiles: the
    inner tiles are filled with Bell pairs on the odd links in the first layer; in
    the second the ends are joined to them and the even links are measured.  When
    [n] is odd the last inner tile is split off the far patch instead. *)
Definition cnot_link (side1 side2 : N) (k1 k2 n : nat) (at_ : nat -> cell) (k : nat) (l : local_instr) : Prop :=
  if k =? 0 then l = LMergeContract (at_ 0) (at_ 1)
  else if k =? n - 2 then
    l = if Nat.even n then LMergeContract (at_ (n - 1)) (at_ (n - 2)) else LExtendSplit None (at_ (n - 1)) (at_ (n - 2))
  else exists x y, either (at_ k) (at_ (k + 1)) x y
    /\ if Nat.odd k then exists i j, l = LBellPrepare i j x y /\ ids_at (Some side1) (Some side2) k1 k2 k i j
       else l = LBellMeasure x y.

(** ** Running the two layers *)

(** What is left of a tile in the next slice when no factory delivers onto it. *)
Definition later (t t' : tile) : Prop :=
  match t with
  | None => t' = None
  | Some p => consumed (p_act (dp p)) /\ t' = None
              \/ ~ consumed (p_act (dp p)) /\ exists p', t' = Some p' /\ same_patch_later p p'
  end.

(** An idle square qubit patch with the given id, whatever its label. *)
Definition resting (id : option N) (t : tile) : Prop :=
  exists p, t = Some p /\ p_type (dp p) = TQubit /\ p_act (dp p) = ANone /\ p_id (dp p) = id
    /\ p_op (dp p) = None /\ db p = db (square None None).
Definition some_resting (t : tile) : Prop := exists id, resting id t.

(** What a long-range operation needs on its segment of [n] tiles: the inner
    tiles are free to use, and so are the ends where something is produced; the
    other ends hold idle patches. *)
Definition end_ready (edpc : bool) (s : slice) (make : bool) (c : cell) : Prop :=
  if make then claimable edpc s c else exists p, idle s c p.
Definition near_end (n : nat) (reverse : bool) : nat := if reverse then n - 1 else 0.
Definition far_end (n : nat) (reverse : bool) : nat := if reverse then 0 else n - 1.
Definition far_makes (t : lrb) : bool := match t with LRPrep => true | _ => false end.
Definition segment_ready (edpc : bool) (s : slice) (t : lrb) (n : nat) (reverse : bool) (at_ : nat -> cell) : Prop :=
  (forall k, 0 < k -> k + 1 < n -> claimable edpc s (at_ k))
  /\ end_ready edpc s (producing t) (at_ (near_end n reverse))
  /\ end_ready edpc s (far_makes t) (at_ (far_end n reverse)).

(** What it leaves there: the inner tiles are free; a preparation leaves the two
    named halves at the ends, a measurement nothing, a merge the far patch, a
    split the far patch and one more at the near end. *)
Definition segment_done (s s' : slice) (t : lrb) (n : nat) (reverse : bool) (side1 side2 : option N)
  (at_ : nat -> cell) : Prop :=
  (forall k, 0 < k -> k + 1 < n -> tile_at s' (at_ k) = None)
  /\ match t with
     | LRPrep => resting side2 (tile_at s' (at_ 0)) /\ resting side1 (tile_at s' (at_ (n - 1)))
     | LRMeasure => tile_at s' (at_ 0) = None /\ tile_at s' (at_ (n - 1)) = None
     | LRMerge => tile_at s' (at_ (near_end n reverse)) = None
                  /\ tile_at s' (at_ (far_end n reverse)) = tile_at s (at_ (far_end n reverse))
     | LRSplit => some_resting (tile_at s' (at_ (near_end n reverse)))
                  /\ tile_at s' (at_ (far_end n reverse)) = tile_at s (at_ (far_end n reverse))
     end.

(** A CNOT needs idle patches at the ends and free tiles between them, and leaves
    the same. *)
Definition cnot_ready (edpc : bool) (s : slice) (n : nat) (at_ : nat -> cell) : Prop :=
  (forall k, 0 < k -> k + 1 < n -> claimable edpc s (at_ k))
  /\ (exists p, idle s (at_ 0) p) /\ (exists p, idle s (at_ (n - 1)) p).
Definition cnot_done (s s' : slice) (n : nat) (at_ : nat -> cell) : Prop :=
  (forall k, 0 < k -> k + 1 < n -> tile_at s' (at_ k) = None)
  /\ tile_at s' (at_ 0) = tile_at s (at_ 0) /\ tile_at s' (at_ (n - 1)) = tile_at s (at_ (n - 1)).

(** The tiles of a segment: different, each next to the one before. *)
Definition segment_path (n : nat) (at_ : nat -> cell) : Prop :=
  (forall i j, i < n -> j < n -> at_ i = at_ j -> i = j)
  /\ (forall k, k + 1 < n -> adjacent (at_ k) (at_ (k + 1))).
