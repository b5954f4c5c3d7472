(** Vocabulary for the statements about lowering and injection. *)
From Verif Require Import Base PatchesModel InstrModel GatesModel LoweringModel.

(** Every patch id written anywhere in an instruction. *)
Definition ids_of (i : instr) : list N :=
  clients i ++
  match op i with
  | Declare l => l
  | Measure t _ _ => [t]
  | MultiMeasure o _ _ => map fst o
  | Init t _ None => [t]
  | Init t _ (Some p) => [t; pnt_target p]
  | BellInit a b p q _ _ => [a; b; pnt_target p; pnt_target q]
  | MagicRequest t n => [t; n]
  | YRequest t n _ => [t; n]
  | SingleOp t _ _ => [t]
  | Rotate t => [t]
  | Busy _ _ l => concat (map (fun p => match p_id (sp_patch p) with Some x => [x] | None => [] end) l)
  | BellCNOT c t a b _ _ _ _ => [c; t; a; b]
  | Reset t => [t]
  end.

(** The patches an instruction brings into existence.  A Y state request
    without clients gives a Y state back, it does not ask for a new one. *)
Definition made (i : instr) : list N :=
  match op i with
  | Init t _ _ => [t]
  | MagicRequest t _ => [t]
  | YRequest t _ _ => match clients i with [] => [] | _ => [t] end
  | BellInit a b _ _ _ _ => [a; b]
  | BellCNOT _ _ a b _ _ _ _ => [a; b]
  | _ => []
  end.
Definition made_by (l : list instr) : list N := concat (map made l).

(** An instruction after which patch [h] is gone. *)
Definition ends (i : instr) (h : N) : Prop :=
  match op i with
  | Measure t _ _ => t = h
  | YRequest t _ _ => t = h /\ clients i = []
  | _ => False
  end.

(** The ids [c, c+1, ..., c'-1], as 32 bit numbers. *)
Fixpoint ids_upto (c : N) (n : nat) : list N :=
  match n with O => [] | S k => (c mod 2 ^ 32)%N :: ids_upto (c + 1) k end.
Definition id_range (c c' : N) : list N := ids_upto c (N.to_nat (c' - c)).

(** All instructions of a program in which [h] is written, in order. *)
Definition history (h : N) (l : list instr) : list instr :=
  filter (fun i => existsb (N.eqb h) (ids_of i)) l.

(** The life of a helper patch: created, used, ended once; or internal to one
    Bell based CNOT. *)
Definition lives (h : N) (H : list instr) : Prop :=
  (exists cr us fin, H = cr :: us ++ [fin] /\ made cr = [h] /\ ends fin h /\ ~ In h (made fin) /\
     ~ ends cr h /\ Forall (fun i => ~ In h (made i) /\ ~ ends i h) us) \/
  (exists i c t a b r1 r2 r3 r4, H = [i] /\ op i = BellCNOT c t a b r1 r2 r3 r4 /\ c <> h /\ t <> h /\ (a = h \/ b = h)).

Definition gate_qubits (g : gate) : list N :=
  match g with
  | GBasic t _ => [t]
  | GRZ t _ => [t]
  | GControlled c (SBasic t _) _ _ => [c; t]
  | GControlled c (SRZ t _) _ _ => [c; t]
  | GReset _ t => [t]
  end.

(** Completely reading a stream. *)
Definition reads {S} (next : next_fn S) (st : S) (c : N) (r : outcome (list instr * N)) : Prop :=
  r <> Fuel /\ exists fuel, drain next fuel st c = r.

Definition lowers (cfg : lower_cfg) (gs : list gate) (c : N) (r : outcome (list instr * N)) : Prop :=
  reads (lower_next cfg) (mkLS [] gs) c r.

(** Gates the lowering supports *)
Definition supported (cfg : lower_cfg) (g : gate) : Prop :=
  match g with
  | GBasic _ _ => True
  | GRZ _ f => (fr_num f = 1 /\ (fr_den f = 1 \/ fr_den f = 2 \/ fr_den f = 4))%Z
  | GControlled _ (SBasic _ b) ct _ =>
      (b = GX \/ b = GZ) /\ (cfg_corr cfg = CorrAlways -> ct <> BellBased /\ cfg_local cfg = false)
  | GControlled _ (SRZ _ _) _ _ => False
  | GReset r _ => r = cfg_qreg cfg
  end.

(** An S (or S dagger) on one of the given qubits *)
Definition is_S_on (core : list N) (i : instr) : Prop :=
  exists t d, op i = SingleOp t SqS d /\ In t core.
Definition is_H_on (core : list N) (i : instr) : Prop :=
  exists t d, op i = SingleOp t SqH d /\ In t core.

(** ** Boundary exposure.  Physical bookkeeping: rotating a patch, or applying a
    Hadamard to it, exchanges the boundaries at which X and Z can be reached. *)
Definition reachable := N -> option (bool * bool).   (* (X, Z) of tracked patches *)
Definition swap_at (q : N) (r : reachable) : reachable := fun p =>
  if N.eqb p q then match r p with Some (x, z) => Some (z, x) | None => None end else r p.
Definition phys_step (i : instr) (r : reachable) : reachable :=
  match op i with
  | Rotate q => swap_at q r
  | SingleOp q SqH _ => swap_at q r
  | _ => r
  end.
(** operators that have to be reachable when [i] is executed *)
Definition needs (i : instr) : list (N * pauli) :=
  match op i with
  | MultiMeasure o _ _ => o
  | BellCNOT c t _ _ _ _ _ _ => [(c, PZ); (t, PX)]
  | SingleOp t SqS _ => [(t, PZ)]
  | _ => []
  end.
Definition can_reach (r : reachable) (n : N * pauli) : Prop :=
  match r (fst n) with
  | None => True
  | Some (x, z) => match snd n with PX => x = true | PZ => z = true | _ => False end
  end.
Fixpoint all_reachable (r : reachable) (l : list instr) : Prop :=
  match l with
  | [] => True
  | i :: l' => Forall (can_reach r) (needs i) /\ all_reachable (phys_step i r) l'
  end.
Definition phys_of (m : emap) : reachable := fun q =>
  match alookup m q with Some e => Some (x_exposed e, z_exposed e) | None => None end.

(** The instructions a stream gives when read to its end while others draw ids
    from the same generator in between. *)
Inductive pulled {S} (src : next_fn S) : S -> N -> list instr -> Prop :=
| pulled_end s c : src s c = Ok None -> pulled src s c []
| pulled_step s c i s' c' c'' l : src s c = Ok (Some (i, s', c')) -> (c' <= c'')%N ->
    pulled src s' c'' l -> pulled src s c (i :: l).

(** The effect of a memoryless pass on the program consisting of [i] alone. *)
Definition alone (e : expander unit) (i : instr) (k : N) (seg : list instr) (k' : N) : Prop :=
  reads (inject_next e list_next) (mkIS [] tt [i]) k (Ok (seg, k')).

(** Orientation after a program *)
Fixpoint phys_run (l : list instr) (r : reachable) : reachable :=
  match l with [] => r | i :: l' => phys_run l' (phys_step i r) end.

(** Instructions boundary rotation is meant for: measurements of X and Z only,
    each patch once, CNOTs between different patches, clients among the measured
    patches, and no rotation already there. *)
Definition rotatable (m : emap) (i : instr) : Prop :=
  match op i with
  | MultiMeasure o _ _ => NoDup (map fst o) /\
      Forall (fun n => alookup m (fst n) <> None -> snd n = PX \/ snd n = PZ) o
  | BellCNOT c t _ _ _ _ _ _ => c <> t
  | Rotate q => alookup m q = None
  | _ => True
  end.
Definition one_side (m : emap) : Prop :=
  forall q e, alookup m q = Some e -> x_exposed e = true \/ z_exposed e = true.

(** A gate whose control and target differ *)
Definition distinct_ends (g : gate) : Prop :=
  match g with
  | GControlled c (SBasic t _) _ _ => c <> t
  | GControlled c (SRZ t _) _ _ => c <> t
  | _ => True
  end.
