(** A compiled Clifford circuit does to the encoded qubits what the circuit says: C65. *)
From Coq Require Import Permutation.
From Verif Require Import Base TextModel PatchesModel LayoutModel InstrModel InstrSpec InstrProofs GatesModel GatesProofs LoweringModel LoweringSpec LoweringProofs LoweringProps StabSpec StabProofs StabProps
  GraphSpec SliceModel SliceSpec SliceProofs MarksModel ApplyModel RouterModel RouterProofs RouterProps BellProps DagModel DagSpec DagSim RunModel RunSpec RunProofs RunProps SchedSpec WaveModel WaveSpec WaveProofs WaveProps
  RunInv IdsProps CircuitProps OrderSpec OrderProofs OrderProps CliffordSpec CliffordProofs.
Open Scope nat_scope.

(** ** Compilation to instructions *)

(** With CNOTs from Bell pairs, the instructions that any of the pass pipelines makes of a circuit of Clifford gates do to
    every encoded state what the circuit does (up to Pauli operators), and leave nothing in the patches they introduce. *)
Theorem C65_circuit : forall cfg core gs c out c',
  Forall (fun q => (q < c)%N) core -> in_register c gs -> Forall clifford gs -> cfg_local cfg = true ->
  compiles cfg core gs c (Ok (out, c')) -> (c' <= 2 ^ 32)%N ->
  acts_as (id_range c c') out (circuit gs).
Proof.
  intros cfg core gs c out c' Hc Hg Cl Lo H Lw.
  assert (A : acts_as (id_range c c') out (really_all cfg gs)).
  { inversion H as [r H1|m r K H1|r H1|r H1]; subst.
    - now apply plain_acts.
    - eapply inject2_acts; [apply boundary_good|apply teleport_good; exact Hc|exact Lw|exact Cl|exact Hg|exact H1].
    - eapply inject_acts; [apply teleport_good; exact Hc|exact Lw|exact Cl|exact Hg|exact H1].
    - unfold catalytic_next in H1. rewrite Lo in H1. eapply inject_acts; [apply catalytic_good; exact Hc|exact Lw|exact Cl|exact Hg|exact H1]. }
  intros G S U. destruct (A G S U) as (G' & R & E). exists G'. rewrite <- (really_bell cfg gs G Lo). auto.
Qed.
Print Assumptions C65_circuit.

(** Otherwise the circuit is done with a measurement of the target in place of each CNOT and CZ that is not made from a Bell
    pair (without catalysis; for S by catalysis see C16). *)
Theorem C65_measured : forall cfg core gs c out c' m,
  Forall (fun q => (q < c)%N) core -> in_register c gs -> Forall clifford gs -> (c' <= 2 ^ 32)%N ->
  lowers cfg gs c (Ok (out, c')) \/ reads (compact_next cfg core) (mkIS [] tt (mkIS [] m (mkLS [] gs))) c (Ok (out, c'))
    \/ reads (edpc_next cfg core) (mkIS [] tt (mkLS [] gs)) c (Ok (out, c')) ->
  acts_as (id_range c c') out (really_all cfg gs).
Proof.
  intros cfg core gs c out c' m Hc Hg Cl Lw [H1|[H1|H1]].
  - now apply plain_acts.
  - eapply inject2_acts; [apply boundary_good|apply teleport_good; exact Hc|exact Lw|exact Cl|exact Hg|exact H1].
  - eapply inject_acts; [apply teleport_good; exact Hc|exact Lw|exact Cl|exact Hg|exact H1].
Qed.
Print Assumptions C65_measured.
(** Then entangling two qubits fails: a Hadamard and a CNOT do not make a Bell pair. *)
Definition pair_gates : list gate := [GBasic 0 GH; GControlled 0 (SBasic 1 GX) ControlFirst NextToControl].
Theorem C65_measured_refuted : exists cfg out, cfg_local cfg = false /\ Forall clifford pair_gates /\ in_register 2 pair_gates /\ compiles cfg [0; 1]%N pair_gates 2 (Ok (out, 3%N))
  /\ ~ acts_as (id_range 2 3) out (circuit pair_gates).
Proof.
  exists (mkCfg false CorrNever (lit "q")). eexists. assert (Cl : Forall clifford pair_gates) by (apply Forall_cons; [split; discriminate|apply Forall_cons; [split; [auto|discriminate]|apply Forall_nil]]).
  assert (Rg : in_register 2 pair_gates) by (repeat (apply Forall_cons || apply Forall_nil); reflexivity).
  split; [reflexivity|]. split; [exact Cl|]. split; [exact Rg|].
  match goal with |- compiles ?cfg ?core ?gs ?c (Ok (?o, ?c')) /\ _ => assert (L : lowers cfg gs c (Ok (o, c'))) by (apply lowers_iff; reflexivity) end.
  split; [now apply compiles_plain|].
  pose proof (C65_measured _ [0; 1]%N pair_gates 2%N _ 3%N [] ltac:(repeat constructor) Rg Cl ltac:(lia) (or_introl L)) as A.
  set (z := at_patch 1 (false, true)). apply (not_both (only z) (conj_cnot 0 1 z) A).
  - apply only_state.
  - intros a Ha. apply only_unused. apply id_range_small in Ha; [|lia]. unfold z, at_patch. now rewrite (proj2 (N.eqb_neq a 1)) by lia.
  - intros (f & e & (h & (e0 & E0) & Eh) & _ & E). specialize (E 0%N). revert E. unfold pmul. rewrite Eh. unfold conj_h. cbn [N.eqb]. rewrite E0. destruct e0, e; discriminate.
  - exists (conj_h 0 z). split; [exists z; split; [apply only_in|apply peq_refl]|]. apply conj_cnot_congr. intros q. unfold conj_h, z, at_patch.
    destruct (N.eqb_spec q 0) as [->|]; reflexivity.
Qed.
Print Assumptions C65_measured_refuted.


(** ** Compilation to slices *)

(** Every run to the end of every pipeline on what such a circuit is compiled to: doing the instructions in the order in which
    they are finished does to the encoded state what the circuit does. *)
Theorem C65_run : forall cfg core gs c out c' pl e late grow w t,
  Forall (fun q => (q < c)%N) core -> in_register c gs -> Forall clifford gs -> cfg_local cfg = true ->
  compiles cfg core gs c (Ok (out, c')) -> (c' <= 2 ^ 32)%N ->
  e_edpc e = false -> halts pl e late grow out w t Finished ->
  exists log, map step log = told (t_events t) /\ accounts out log /\ Permutation (completed log) (seq 0 (length out))
    /\ acts_as (id_range c c') (pick out (completed log)) (circuit gs).
Proof.
  intros cfg core gs c out c' pl e late grow w t Hc Hg Cl Lo H Lw Ed Ha.
  assert (Few : Forall few_patches out) by (eapply Forall_impl; [exact plain_few|eapply compiles_plain_all; exact H]).
  destruct (C64_same_effect pl e late grow out w t Ed (fun _ => Few) Ha) as (log & E & Ac & Pe & G). exists log.
  split; [exact E|]. split; [exact Ac|]. split; [exact Pe|]. pose proof (C65_circuit cfg core gs c out c' Hc Hg Cl Lo H Lw) as A.
  intros G0 S U. destruct (A G0 S U) as (G' & R & Sm). destruct (G _ alike means (Some G0) act_lawful) as [X _]; [split; [exact S|apply same_refl]|].
  rewrite !means_run, R in X. destruct (run (pick out (completed log)) G0) as [G1|]; [|contradiction]. exists G1. split; [reflexivity|]. eapply same_trans; [apply X|exact Sm].
Qed.
Print Assumptions C65_run.

(** With EDPC the same holds unless an instruction is lost (see C41). *)
Theorem C65_edpc : forall cfg core gs c out c' e late grow w t,
  Forall (fun q => (q < c)%N) core -> in_register c gs -> Forall clifford gs -> cfg_local cfg = true ->
  compiles cfg core gs c (Ok (out, c')) -> (c' <= 2 ^ 32)%N -> halts Wave e late grow out w t Finished ->
  (exists log, map step log = told (t_events t) /\ accounts out log /\ acts_as (id_range c c') (pick out (completed log)) (circuit gs))
  \/ exists acts w' p j, scheduled e clash less_again out w acts w' p /\ t_events t = seen acts /\ ready clash out p j /\ lost e p acts j.
Proof.
  intros cfg core gs c out c' e late grow w t Hc Hg Cl Lo H Lw Ha. pose proof (compiles_plain_all _ _ _ _ _ _ H) as Pl.
  assert (Few : Forall few_patches out) by (eapply Forall_impl; [exact plain_few|exact Pl]).
  assert (Un : uncut e out) by (apply starts_uncut; eapply Forall_impl; [|exact Pl]; intros i Pi; apply (plain_tidy i Pi)).
  destruct (C64_edpc e late grow out w t Un Few Ha) as [(log & E & Ac & G)|X]; [left|right; exact X]. exists log.
  split; [exact E|]. split; [exact Ac|]. pose proof (C65_circuit cfg core gs c out c' Hc Hg Cl Lo H Lw) as A.
  intros G0 S U. destruct (A G0 S U) as (G' & R & Sm). pose proof (G _ alike means (Some G0) act_lawful (conj S (same_refl _))) as X.
  rewrite !means_run, R in X. destruct (run (pick out (completed log)) G0) as [G1|]; [|contradiction]. exists G1. split; [reflexivity|]. eapply same_trans; [apply X|exact Sm].
Qed.
Print Assumptions C65_edpc.

(** A concrete case: three CNOTs, a Hadamard, an S and a Z on six qubits.  The DAG and the wave pipeline finish them in another
    order than the stream pipeline; in each, Z on qubit 0 becomes X on qubit 0 and Y on qubit 4. *)
Definition ghz_start : layout * slice := Eval vm_compute in
  match (do L <- layout_from_spec (lit "rrrrrrr
rQrQrQr
rrrrrrr
rQrQrQr
rrrrrrr") (mkDO true 2) ;; do s <- new_slice L [0; 1; 2; 3; 4; 5]%N ;; Ok (L, s)) with
  | Ok x => x | _ => ex_start end.
Definition ghz_env : env := mkEnv true false false false (fst ghz_start) (plain_router (fst ghz_start) false pick_min false).
Definition ghz_world : world := mkW (snd ghz_start) 0 [].
Definition ghz_gates : list gate := [GControlled 3 (SBasic 1 GX) ControlFirst NextToControl; GBasic 0 GH; GControlled 0 (SBasic 4 GX) ControlFirst NextToControl;
  GControlled 5 (SBasic 2 GX) TargetFirst DedicatedCell; GBasic 5 GZ; GBasic 4 GS].
Definition ghz_kinds (l : list instr) : list N :=
  map (fun i => match op i with SingleOp _ SqH _ => 20 | SingleOp _ SqS _ => 21 | SingleOp _ SqZ _ => 22 | BellCNOT c _ _ _ _ _ _ _ => c | _ => 30 end)%N l.
Example C65_ex : exists out, compiles (mkCfg true CorrNever (lit "q")) [0; 1; 2; 3; 4; 5]%N ghz_gates 6 (Ok (out, 12%N))
  /\ in_register 6 ghz_gates /\ Forall clifford ghz_gates
  /\ (forall pl, exists t, halts pl ghz_env never never out ghz_world t Finished
       /\ ghz_kinds (told (t_events t)) = match pl with Stream => [3; 3; 20; 0; 0; 5; 5; 22; 21; 22] | _ => [3; 20; 5; 3; 5; 0; 22; 0; 21; 22] end%N)
  /\ circuit ghz_gates (only (at_patch 0 (false, true))) (pmul (at_patch 0 (true, false)) (at_patch 4 (true, true))).
Proof.
  eexists. split; [apply compiles_plain; apply lowers_iff; reflexivity|]. split; [repeat (apply Forall_cons || apply Forall_nil); reflexivity|].
  split. { unfold ghz_gates. repeat apply Forall_cons; try apply Forall_nil; cbn; repeat split; auto; discriminate. }
  split. { intros []; (eexists; split; [exists 60; vm_compute; reflexivity|vm_compute; reflexivity]). }
  set (z := at_patch 0 (false, true)). exists (conj_cnot 5 2 (conj_cnot 0 4 (conj_h 0 (conj_cnot 3 1 z)))). split.
  - exists (conj_cnot 0 4 (conj_h 0 (conj_cnot 3 1 z))). split; [|apply peq_refl]. exists (conj_h 0 (conj_cnot 3 1 z)). split; [|apply peq_refl].
    exists (conj_cnot 3 1 z). split; [|apply peq_refl]. exists z. split; [apply only_in|apply peq_refl].
  - intros q. unfold conj_s, conj_cnot, conj_h, pmul, z, at_patch.
    destruct (N.eqb_spec q 0) as [->|?]; [reflexivity|]. destruct (N.eqb_spec q 1) as [->|?]; [reflexivity|]. destruct (N.eqb_spec q 2) as [->|?]; [reflexivity|].
    destruct (N.eqb_spec q 3) as [->|?]; [reflexivity|]. destruct (N.eqb_spec q 4) as [->|?]; [reflexivity|]. destruct (N.eqb_spec q 5) as [->|?]; reflexivity.
Qed.
