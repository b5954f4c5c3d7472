(** What nearest-neighbour steps do to encoded states, independently of the compiler:
    the textbook rules of lattice surgery in the stabiliser formalism of [StabSpec]. *)
From Verif Require Import Base PatchesModel LayoutModel InstrModel StabSpec SliceModel SliceSpec RouterSpec ApplyModel.

Section Tiles.
(** The patch on a tile, and the operator it shows at its side towards another tile. *)
Variables (patch : cell -> N) (shows : cell -> cell -> pauli).

(** The basis in which a patch can be cut off without disturbing [p] of the rest. *)
Definition other (p : pauli) : pauli := match p with PX => PZ | _ => PX end.
(** Merging two patches along a common side measures the product of what they show there. *)
Definition joint (a b : cell) : list (N * pauli) := [(patch a, shows a b); (patch b, shows b a)].

(** A pair in the state stabilised by XX and ZZ *)
Definition bell_pair (a b : N) (G : gset) : gset := measure [(a, PZ); (b, PZ)] (prepare a PX (prepare b PX G)).
Definition bell_measure (a b : N) (G : gset) : gset := discard a (discard b (measure [(a, PX); (b, PX)] (measure [(a, PZ); (b, PZ)] G))).
(** What was on [a] is on [b]. *)
Definition swap (a b : N) (g : pstr) : pstr := fun q => if N.eqb q a then g b else if N.eqb q b then g a else g q.
Definition move (a b : N) (G : gset) : gset := discard a (image (swap a b) G).
(** [m] is merged with [k] and measured away. *)
Definition merge (k m : N) (p q : pauli) (G : gset) : gset := discard m (measure [(m, other q)] (measure [(k, p); (m, q)] G)).
(** A new patch [x] is split off [k]. *)
Definition split_off (k x : N) (p q : pauli) (G : gset) : gset := measure [(k, p); (x, q)] (prepare x (other q) G).

Definition local_act (l : local_instr) (G : gset) : gset :=
  match l with
  | LPrepareY _ c => prepare (patch c) PY G
  | LBellPrepare _ _ a b => bell_pair (patch a) (patch b) G
  | LBellMeasure a b => bell_measure (patch a) (patch b) G
  | LMove a b _ => move (patch a) (patch b) G
  | LTwoPatchMeasure a b => measure (joint a b) G
  | LExtendSplit _ k x => split_off (patch k) (patch x) (shows k x) (shows x k) G
  | LMergeContract k m => merge (patch k) (patch m) (shows k m) (shows m k) G
  end.
Fixpoint local_run (l : list local_instr) (G : gset) : gset :=
  match l with [] => G | x :: r => local_run r (local_act x G) end.

(** Steps act as the map [F] on states that leave the helper tiles alone. *)
Definition tiles_act_as (helpers : list cell) (l : list local_instr) (F : gset -> gset) : Prop :=
  forall G, state G -> (forall c, In c helpers -> unused (patch c) G) -> same (local_run l G) (F G).
End Tiles.

(** A fresh square patch shows X to the left and right, Z above and below. *)
Definition beside (a b : cell) : bool := Z.eqb (row a) (row b).
Definition square_shows (a b : cell) : pauli := if beside a b then PX else PZ.

(** [shows] says what the patches of a slice show, and takes tiles without a patch
    as places for fresh square ones. *)
Definition reads (s : slice) (shows : cell -> cell -> pauli) : Prop :=
  (forall a b o, RouterSpec.shows s a b o -> shows a b = o)
  /\ (forall a b, tile_at s a = None -> shows a b = square_shows a b).
(** No two tiles of a list have the same patch. *)
Definition own_patches (patch : cell -> N) (l : list cell) : Prop :=
  forall a b, In a l -> In b l -> patch a = patch b -> a = b.
(** The sides of a patch: X on the left and right ([h]) or above and below, Z on
    the other two. *)
Definition sideways (d : dir) : bool := match d with DLeft | DRight => true | _ => false end.
Definition oriented (p : dpatch) (h : bool) : Prop :=
  forall d, btype (side (db p) d) = if Bool.eqb (sideways d) h then BRough else BSmooth.

(** What a long-range operation on the patches [near] and [far] is meant to be;
    [nb] is the tile next to [far] on the way to [near]. *)
Definition lr_means (patch : cell -> N) (shows : cell -> cell -> pauli) (t : lrb) (near far nb : cell) : gset -> gset :=
  match t with
  | LRPrep => bell_pair (patch near) (patch far)
  | LRMeasure => bell_measure (patch near) (patch far)
  | LRMerge => merge (patch far) (patch near) (shows far nb) (shows nb far)
  | LRSplit => split_off (patch far) (patch near) (shows far nb) (shows nb far)
  end.

(** The attempts at an instruction up to its end, with whatever else happening in
    between: an attempt that fails is made again later, one that leaves something
    to be done is followed by one at the rest.  Listed are the slices before and
    after each attempt. *)
Inductive lifetime (far : cell) (e : env) : operation -> list (slice * slice) -> Prop :=
| life_wait w wt cl o z steps : sized far (w_slice w) -> try_apply e w (mkI o wt cl) = Ok z -> a_error z = true ->
    lifetime far e (a_op z) steps -> lifetime far e o ((w_slice w, w_slice (a_world z)) :: steps)
| life_part w wt cl o z i steps : sized far (w_slice w) -> try_apply e w (mkI o wt cl) = Ok z -> a_error z = false -> a_follow z = [i] ->
    lifetime far e (op i) steps -> lifetime far e o ((w_slice w, w_slice (a_world z)) :: steps)
| life_end w wt cl o z : sized far (w_slice w) -> try_apply e w (mkI o wt cl) = Ok z -> a_error z = false -> a_follow z = [] ->
    lifetime far e o [(w_slice w, w_slice (a_world z))].
