(** Independent vocabulary: which edges of an encoded qubit are rough and which are smooth. *)
From Verif Require Import Base PatchesModel LayoutModel InstrModel SliceModel SliceSpec ApplyModel ApplySpec RunModel.
Open Scope nat_scope.

(** The two ways a surface code patch can lie on its tile: equal edges face each other. *)
Definition upright (b : bounds) : Prop :=
  btype (side b DTop) = BSmooth /\ btype (side b DBottom) = BSmooth /\ btype (side b DLeft) = BRough /\ btype (side b DRight) = BRough.
Definition lying (b : bounds) : Prop :=
  btype (side b DTop) = BRough /\ btype (side b DBottom) = BRough /\ btype (side b DLeft) = BSmooth /\ btype (side b DRight) = BSmooth.
(** After so many quarter turns *)
Definition faces (n : nat) (b : bounds) : Prop := if Nat.even n then upright b else lying b.

(** The patches that hold a qubit or a prepared state: the other tiles are routing, distillation and dead ones. *)
Definition encodes (p : dpatch) : Prop := p_type (dp p) = TQubit \/ p_type (dp p) = TPreparedState.
Definition edges_sound (s : slice) : Prop := forall c p, tile_at s c = Some p -> encodes p -> upright (db p) \/ lying (db p).

(** How often the patch of qubit [q] was turned: by the Hadamard gates applied to it, and by the rotations that were brought to their end. *)
Definition turns_it (q : N) (ev : event) : bool :=
  match ev with
  | Applied i => match op i with
                 | SingleOp t SqH _ => N.eqb t q
                 | Busy _ n after => N.eqb n 0 && existsb (fun p => match p_id (sp_patch p) with Some x => N.eqb x q | None => false end) after
                 | _ => false
                 end
  | Emitted _ => false
  end.
Definition quarter_turns (q : N) (es : list event) : nat := length (filter (turns_it q) es).

(** An instruction as programs have them that neither prepares qubit [q], nor measures it, nor takes it for a state that was requested. *)
Definition leaves_be (q : N) (o : operation) : Prop :=
  match o with
  | Measure t _ _ | Init t _ _ | MagicRequest t _ | YRequest t _ _ => t <> q
  | BellInit s1 s2 _ _ _ k => s1 <> q /\ s2 <> q /\ k = None
  | BellCNOT _ _ s1 s2 _ k _ _ => s1 <> q /\ s2 <> q /\ k = None
  | Busy _ _ _ => False
  | SingleOp _ _ _ | MultiMeasure _ _ _ | Reset _ | Declare _ | Rotate _ => True
  end.
(** Qubit [q] is on tile [c], after so many quarter turns, or this tile is taken up by a rotation; it is on no other tile. *)
Definition stays (q : N) (c : cell) (n : nat) (s : slice) : Prop :=
  (exists p, tile_at s c = Some p /\ (p_id (dp p) = Some q /\ encodes p /\ ~ consumed (p_act (dp p)) /\ faces n (db p)
     \/ p_type (dp p) = TRouting /\ p_act (dp p) = ARotation /\ p_id (dp p) = None))
  /\ forall c' p, sits s q c' p -> c' = c.
