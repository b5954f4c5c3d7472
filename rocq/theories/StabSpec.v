(** What instructions do to encoded states, independently of the compiler: the
    textbook stabiliser rules with signs (Pauli corrections) left out. *)
From Verif Require Import Base PatchesModel InstrModel.

(** A Pauli operator on all patches, one (x, z) pair of bits per patch. *)
Definition pstr := N -> bool * bool.
Definition peq (f g : pstr) : Prop := forall q, f q = g q.
Definition pmul1 (a b : bool * bool) : bool * bool := (xorb (fst a) (fst b), xorb (snd a) (snd b)).
Definition pmul (f g : pstr) : pstr := fun q => pmul1 (f q) (g q).
Definition pone : pstr := fun _ => (false, false).
Definition bits (p : pauli) : bool * bool :=
  match p with PI => (false, false) | PX => (true, false) | PZ => (false, true) | PY => (true, true) end.
Definition anti1 (a b : bool * bool) : bool := xorb (fst a && snd b) (snd a && fst b).
(** The operator with Pauli [p] on patch [q] *)
Definition at_patch (q : N) (p : bool * bool) : pstr := fun r => if N.eqb r q then p else (false, false).
Fixpoint obs_op (o : list (N * pauli)) : pstr :=
  match o with [] => pone | (q, p) :: r => pmul (at_patch q (bits p)) (obs_op r) end.
Fixpoint anticommutes (g : pstr) (o : list (N * pauli)) : bool :=
  match o with [] => false | (q, p) :: r => xorb (anti1 (g q) (bits p)) (anticommutes g r) end.

(** A state is given by the operators that stabilise it (up to sign).  Patches
    that are not part of the program may serve as references, so that what
    happens to all states describes the whole linear map. *)
Definition gset := pstr -> Prop.
Definition same (G H : gset) : Prop := forall g, G g <-> H g.
Definition state (G : gset) : Prop :=
  G pone /\ (forall f g, G f -> G g -> G (pmul f g)) /\ (forall f g, peq f g -> G f -> G g).
(** [a] carries no state *)
Definition unused (a : N) (G : gset) : Prop := forall g, G g -> g a = (false, false).

Definition power (e : bool) (f : pstr) : pstr := fun q => (e && fst (f q), e && snd (f q)).
(** A new patch in the +1 eigenstate of [p] *)
Definition prepare (a : N) (p : pauli) (G : gset) : gset :=
  fun g' => exists g e, G g /\ peq g' (pmul g (power e (at_patch a (bits p)))).
Definition measure (o : list (N * pauli)) (G : gset) : gset :=
  fun g' => exists g e, G g /\ anticommutes g o = false /\ peq g' (pmul g (power e (obs_op o))).
(** Forget a patch *)
Definition discard (a : N) (G : gset) : gset := fun g => G g /\ g a = (false, false).
Definition conj_h (t : N) (g : pstr) : pstr := fun q => if N.eqb q t then (snd (g q), fst (g q)) else g q.
Definition conj_s (t : N) (g : pstr) : pstr := fun q => if N.eqb q t then (fst (g q), xorb (fst (g q)) (snd (g q))) else g q.
Definition conj_cnot (c t : N) (g : pstr) : pstr := fun q =>
  if N.eqb q c then (fst (g c), xorb (snd (g c)) (snd (g t)))
  else if N.eqb q t then (xorb (fst (g t)) (fst (g c)), snd (g t))
  else g q.
Definition image (f : pstr -> pstr) (G : gset) : gset := fun g' => exists g, G g /\ peq g' (f g).

(** One instruction; [None] for those outside the stabiliser formalism.  A
    request for a Y state without clients hands it back. *)
Definition act (i : instr) (G : gset) : option gset :=
  match op i with
  | Init a StPlus _ => Some (prepare a PX G)
  | Init a StZero _ => Some (prepare a PZ G)
  | MultiMeasure o _ _ => Some (measure o G)
  | Measure a p _ => Some (discard a (measure [(a, p)] G))
  | SingleOp t SqH _ => Some (image (conj_h t) G)
  | SingleOp t SqS _ => Some (image (conj_s t) G)
  | SingleOp _ SqX _ | SingleOp _ SqY _ | SingleOp _ SqZ _ => Some G
  | Rotate _ => Some G
  | BellCNOT c t _ _ _ _ _ _ => Some (image (conj_cnot c t) G)
  | YRequest y _ _ => match clients i with [] => Some (discard y G) | _ => Some (prepare y PY G) end
  | _ => None
  end.
Fixpoint run (l : list instr) (G : gset) : option gset :=
  match l with [] => Some G | i :: r => match act i G with Some G' => run r G' | None => None end end.

(** A program acts as the map [F] on states that leave its helpers alone. *)
Definition acts_as (helpers : list N) (l : list instr) (F : gset -> gset) : Prop :=
  forall G, state G -> (forall a, In a helpers -> unused a G) ->
  exists G', run l G = Some G' /\ same G' (F G).
