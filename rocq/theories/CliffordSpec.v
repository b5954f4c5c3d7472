(** What the gates of a circuit are meant to do to encoded states, by the textbook, and up to Pauli operators as in
    [StabSpec]: C65. *)
From Verif Require Import Base PatchesModel InstrModel GatesModel LoweringModel StabSpec.

(** Conjugation by a controlled Z: X on either qubit picks up a Z on the other. *)
Definition conj_flip (c t : N) (g : pstr) : pstr := fun q =>
  if N.eqb q c then (fst (g c), xorb (snd (g c)) (fst (g t)))
  else if N.eqb q t then (fst (g t), xorb (snd (g t)) (fst (g c)))
  else g q.

(** The gates that are stabiliser operations *)
Definition clifford (g : gate) : Prop :=
  match g with
  | GBasic _ b => b <> GT /\ b <> GTDg
  | GRZ _ f => (fr_num f = 1 /\ (fr_den f = 1 \/ fr_den f = 2))%Z
  | GControlled c (SBasic t b) _ _ => (b = GX \/ b = GZ) /\ c <> t
  | _ => False
  end.
Definition does (g : gate) (G : gset) : gset :=
  match g with
  | GBasic t GH => image (conj_h t) G
  | GBasic t GS | GBasic t GSDg => image (conj_s t) G
  | GRZ t f => if (fr_den f =? 2)%Z then image (conj_s t) G else G
  | GControlled c (SBasic t GX) _ _ => image (conj_cnot c t) G
  | GControlled c (SBasic t GZ) _ _ => image (conj_flip c t) G
  | _ => G
  end.
(** A circuit, gate after gate *)
Definition circuit (gs : list gate) (G : gset) : gset := fold_left (fun G g => does g G) gs G.

(** Which CNOTs are made from Bell pairs *)
Definition bell_based (cfg : lower_cfg) (ct : cnot_type) : bool := match ct with BellBased => true | _ => cfg_local cfg end.
(** The same circuit, except that the CNOTs and CZs that are not made from Bell pairs measure the target (C12) *)
Definition really (cfg : lower_cfg) (g : gate) (G : gset) : gset :=
  match g with
  | GControlled _ (SBasic t GX) ct _ => if bell_based cfg ct then does g G else measure [(t, PX)] G
  | GControlled _ (SBasic t GZ) ct _ => if bell_based cfg ct then does g G else measure [(t, PZ)] G
  | _ => does g G
  end.
Definition really_all (cfg : lower_cfg) (gs : list gate) (G : gset) : gset := fold_left (fun G g => really cfg g G) gs G.
