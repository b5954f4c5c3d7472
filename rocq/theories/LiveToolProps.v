(** C69, for circuits: what the command line reads and compiles on the compact layouts and on a layout from a file. *)
From Coq Require Import Permutation FinFun.
From Verif Require Import Base GatesModel InstrModel PatchesModel LayoutModel LayoutSpec SliceModel SliceSpec SliceProofs LoweringModel LoweringProofs ApplyModel RunModel RunInv RunProps SlicerModel
  ExposedProps StuckProps WaveSpec LiveProps LiveDagProps LiveWaveProps.
Open Scope nat_scope.

(** The circuits: Pauli gates and Hadamard gates on a register of [n] qubits, and the operations they stand for *)
Definition easy (n : N) (g : gate) : Prop := match g with GBasic t (GX | GY | GZ | GH) => (t < n)%N | _ => False end.
Definition meant (g : gate) : operation :=
  match g with GBasic t GX => SingleOp t SqX false | GBasic t GY => SingleOp t SqY false | GBasic t GZ => SingleOp t SqZ false | GBasic t _ => SingleOp t SqH false | _ => Declare [] end.

Lemma easy_lower : forall n cfg c g, easy n g -> lower_gate cfg c g = Ok ([instr_of (meant g)], c).
Proof. intros n cfg c g H. destruct g as [t b| | |]; try contradiction. destruct b; try contradiction; reflexivity. Qed.
Lemma easy_boundary : forall n g m c, easy n g -> exists m', boundary_expand m c (instr_of (meant g)) = Ok ([instr_of (meant g)], m', c).
Proof. intros n g m c H. destruct g as [t b| | |]; try contradiction. destruct b; try contradiction; cbn; eauto. destruct (alookup m t); eauto. Qed.
Lemma easy_teleport : forall n g core c, easy n g -> teleport_expand core false tt c (instr_of (meant g)) = Ok ([instr_of (meant g)], tt, c).
Proof. intros n g core c H. destruct g as [t b| | |]; try contradiction. destruct b; try contradiction; reflexivity. Qed.

Lemma plain_reads : forall n cfg fuel gs c out c', Forall (easy n) gs -> drain (lower_next cfg) fuel (mkLS [] gs) c = Ok (out, c') -> out = map (fun g => instr_of (meant g)) gs.
Proof.
  intros n cfg. induction fuel as [|f IH]; intros gs c out c' E H; [discriminate|]. cbn [drain] in H. unfold lower_next at 1 in H. cbn [ls_queue ls_gates] in H.
  destruct gs as [|g gs]; cbn [bind] in H; [injection H as <- _; reflexivity|]. inversion E as [|? ? Eg Er]; subst. rewrite (easy_lower n) in H by exact Eg. cbn [bind] in H.
  destruct (drain (lower_next cfg) f (mkLS [] gs) c) as [[l c1]| | |] eqn:D; cbn [bind] in H; try discriminate. injection H as <- _. cbn [map]. f_equal. eapply IH; eauto.
Qed.
Lemma compact_reads : forall n cfg core fuel gs m c out c', Forall (easy n) gs -> drain (compact_next cfg core) fuel (mkIS [] tt (mkIS [] m (mkLS [] gs))) c = Ok (out, c') ->
  out = map (fun g => instr_of (meant g)) gs.
Proof.
  intros n cfg core. induction fuel as [|f IH]; intros gs m c out c' E H; [discriminate|]. cbn [drain] in H. unfold compact_next at 1 in H. unfold inject_next at 1 in H. cbn [is_queue is_src] in H.
  unfold inject_next at 1 in H. cbn [is_queue is_src] in H. unfold lower_next at 1 in H. cbn [ls_queue ls_gates] in H.
  destruct gs as [|g gs]; cbn [bind] in H; [injection H as <- _; reflexivity|]. inversion E as [|? ? Eg Er]; subst. rewrite (easy_lower n) in H by exact Eg. cbn [bind is_mem] in H.
  destruct (easy_boundary n g m c Eg) as (m' & Bo). rewrite Bo in H. cbn [bind is_mem is_src is_queue] in H. rewrite (easy_teleport n) in H by exact Eg. cbn [bind] in H.
  destruct (drain (compact_next cfg core) f (mkIS [] tt (mkIS [] m' (mkLS [] gs))) c) as [[l c1]| | |] eqn:D; cbn [bind] in H; try discriminate. injection H as <- _. cbn [map]. f_equal. eapply IH; eauto.
Qed.
Lemma easy_usable : forall n gs, Forall (easy n) gs -> usable (core_qubits_from_qreg n) (map (fun g => instr_of (meant g)) gs).
Proof.
  intros n gs E. induction E as [|g gs Eg _ IH]; [exact I|]. cbn [map usable]. split; [reflexivity|].
  destruct g as [t b| | |]; try contradiction. assert (Ht : forall x, (x < n)%N -> In x (core_qubits_from_qreg n)).
  { intros x Hx. unfold core_qubits_from_qreg. apply in_map_iff. exists (N.to_nat x). split; [apply N2Nat.id|]. apply in_seq. lia. }
  destruct b; try contradiction; cbn; auto.
Qed.

(** On every layout read from a file and on the compact layouts, if the run starts at all (there is a tile for each qubit of the register): a circuit of Pauli and Hadamard gates is compiled to its
    end by all three pipelines, whatever the other options, every gate exactly once, and with at most one slice more than there are gates. *)
Theorem C69_circuit : forall grid ug fuel d pick j ops w n gs out c' pl,
  match st_source (j_stream j) with LliSource _ => False | _ => True end -> match st_passes (j_stream j) with NoPasses | CompactPasses _ => True | _ => False end ->
  st_core (j_stream j) = core_qubits_from_qreg n -> layout_wf (j_layout j) ->
  (do raw <- gates_of fuel d (st_source (j_stream j)) ;; rot_drain grid ug fuel [] raw) = Ok gs -> Forall (easy n) gs ->
  instructions grid ug fuel d (j_stream j) = Ok (out, c') -> job_world ops j = Ok w ->
  exists t, halts pl (job_env pick j) never never out w t Finished /\ Permutation (ops_applied t) (map meant gs) /\ length (emitted (t_events t)) <= S (length gs).
Proof.
  intros grid ug fuel d pick j ops w n gs out c' pl Hs Hp Hc W Hg He Hi Hw.
  assert (Lc : length (core_qubits_from_qreg n) = N.to_nat n) by (unfold core_qubits_from_qreg; now rewrite map_length, seq_length).
  assert (Nd : NoDup (core_qubits_from_qreg n)) by (unfold core_qubits_from_qreg; apply Injective_map_NoDup; [intros x y E; now apply Nat2N.inj|apply seq_NoDup]).
  assert (Hl : N.to_nat n <= length (core_cells (j_layout j))).
  { rewrite <- Lc, <- Hc. destruct (Nat.le_gt_cases (length (st_core (j_stream j))) (length (core_cells (j_layout j)))) as [G|G]; [exact G|]. exfalso.
    unfold job_world in Hw. rewrite new_slice_few in Hw; [discriminate|]. destruct (lw_core _ W) as [cells Hcs]. unfold core_cells in G. rewrite Hcs in *. rewrite core_cells_basic in G. now rewrite map_length. }
  assert (Ho : out = map (fun g => instr_of (meant g)) gs).
  { unfold instructions in Hi. rewrite Hc in Hi. destruct (st_source (j_stream j)); [contradiction|..]; (destruct (gates_of fuel d _) as [raw| | |]; try discriminate; cbn [bind] in Hg, Hi);
    rewrite Hg in Hi; cbn [bind] in Hi; (destruct (st_passes (j_stream j)); try contradiction; [eapply plain_reads; eauto|eapply compact_reads; eauto]). }
  assert (U : usable (core_qubits_from_qreg n) out) by (rewrite Ho; now apply easy_usable).
  assert (En : new_slice (e_layout (job_env pick j)) (core_qubits_from_qreg n) = Ok (w_slice w)).
  { unfold job_world in Hw. rewrite Hc in Hw. cbn [job_env e_layout]. destruct (new_slice (j_layout j) (core_qubits_from_qreg n)) as [s| | |]; try discriminate. cbn [bind] in Hw.
    destruct (job_refused j); [discriminate|]. injection Hw as <-. reflexivity. }
  assert (Mo : map op out = map meant gs) by (rewrite Ho, map_map; reflexivity). assert (Lo : length out = length gs) by (rewrite Ho; apply map_length). rewrite <- Mo, <- Lo.
  destruct pl.
  - destruct (C69_stream (job_env pick j) (core_qubits_from_qreg n) out w W ltac:(rewrite Lc; exact Hl) Nd En U) as (t & H & O & K). exists t. split; [exact H|]. split; [now rewrite O|exact K].
  - destruct (C69_dag (job_env pick j) (core_qubits_from_qreg n) out w W ltac:(rewrite Lc; exact Hl) Nd En U) as (t & H & O & K). exists t. split; [exact H|]. split; [exact O|lia].
  - destruct (C69_wave (job_env pick j) never (core_qubits_from_qreg n) out w W ltac:(rewrite Lc; exact Hl) Nd En U) as (t & H & O & K); [| |exists t; split; [exact H|]; split; [exact O|lia]].
    + rewrite Ho. apply Forall_map. revert He. apply Forall_impl. intros g Hg'. split; [constructor|]. destruct g as [q b| | |]; try contradiction. destruct b; try contradiction; cbn; lia.
    + rewrite Ho. apply Forall_map. apply Forall_forall. intros g _. cbn. apply N.le_refl.
Qed.
Print Assumptions C69_circuit.

(** The same for the layouts the command line makes: the run on a compact layout starts, and is completed. *)
Theorem C69_compact : forall grid ug fuel d mc o (no_clogging : bool) pm src n local v pick j ops gs out c' pl,
  make_layout mc o (Auto (if no_clogging then ACompactNoClogging else ACompact)) pm (mkStream src (core_qubits_from_qreg n) (qasm_id_start n) NoPasses local) = Ok (On (j_layout j, j_stream j, v)) ->
  match src with LliSource _ => False | _ => True end -> j_pipeline j <> PEdpc ->
  (do raw <- gates_of fuel d src ;; rot_drain grid ug fuel [] raw) = Ok gs -> Forall (easy n) gs -> instructions grid ug fuel d (j_stream j) = Ok (out, c') ->
  exists w t, job_world ops j = Ok w /\ halts pl (job_env pick j) never never out w t Finished /\ Permutation (ops_applied t) (map meant gs) /\ length (emitted (t_events t)) <= S (length gs).
Proof.
  intros grid ug fuel d mc o nc pm src n local v pick j ops gs out c' pl Hm Hs Np Hg He Hi.
  assert (M : exists e, make_compact_layout (length (core_qubits_from_qreg n)) (distillation_options mc o) nc = Ok (j_layout j) /\ j_stream j = mkStream src (core_qubits_from_qreg n) (qasm_id_start n) (CompactPasses e) local).
  { unfold make_layout in Hm. cbn [st_core] in Hm. destruct nc; cbn [st_core] in Hm;
    (destruct (has o "notwists"%string); [discriminate|]);
    (destruct (make_compact_layout _ _ _) as [L0| | |] eqn:EL; try discriminate; cbn [bind] in Hm);
    (destruct (exposed_core L0 _) as [e| | |] eqn:EE; try discriminate; cbn [bind] in Hm);
    injection Hm as <- <- _; exists e; auto. }
  destruct M as (m & EL & Es). destruct (compact_core _ _ _ _ EL) as (W & Cl & _).
  assert (Hw : exists w, job_world ops j = Ok w).
  { unfold job_world. rewrite Es. cbn [st_core]. destruct (new_slice_ok (j_layout j) (core_qubits_from_qreg n) W) as (s & E & _); [rewrite Cl; apply le_n|]. rewrite E. cbn [bind].
    unfold job_refused. destruct (j_pipeline j); try contradiction; eauto. }
  destruct Hw as (w & Hw). exists w.
  destruct (C69_circuit grid ug fuel d pick j ops w n gs out c' pl) as (t & H); [rewrite Es; exact Hs|rewrite Es; exact I|rewrite Es; reflexivity|exact W|rewrite Es; exact Hg|exact He|exact Hi|exact Hw|].
  exists t. split; [exact Hw|exact H].
Qed.
Print Assumptions C69_compact.

Definition easy_lines : list string := ["OPENQASM 2.0;"; "qreg q[3];"; "h q[0];"; "x q[2];"; "h q[0];"; "z q[1];"; "h q[2];"]%string.
Example C69_compact_ex : exists p j gs out c w, compile easy_lines [] = (p, Ok (On j)) /\ j_pipeline j <> PEdpc
  /\ match st_source (j_stream j) with LliSource _ => False | _ => True end /\ match st_passes (j_stream j) with CompactPasses _ => True | _ => False end /\ st_core (j_stream j) = core_qubits_from_qreg 3
  /\ (do raw <- gates_of 100 (pr_default p) (st_source (j_stream j)) ;; rot_drain (fun _ => Throw RuntimeError) false 100 [] raw) = Ok gs /\ Forall (easy 3) gs
  /\ instructions (fun _ => Throw RuntimeError) false 100 (pr_default p) (j_stream j) = Ok (out, c) /\ job_world 0 j = Ok w
  /\ map meant gs = [SingleOp 0 SqH false; SingleOp 2 SqX false; SingleOp 0 SqH false; SingleOp 1 SqZ false; SingleOp 2 SqH false].
Proof.
  do 6 eexists. split; [vm_compute; reflexivity|]. split; [discriminate|]. split; [exact I|]. split; [exact I|]. split; [vm_compute; reflexivity|]. split; [vm_compute; reflexivity|].
  split; [repeat constructor|]. split; [vm_compute; reflexivity|]. split; vm_compute; reflexivity.
Qed.
