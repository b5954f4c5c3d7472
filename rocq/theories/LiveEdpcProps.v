(** C69, for circuits on the EDPC layouts, where every Hadamard gate is followed by a rotation. *)
From Coq Require Import FinFun.
From Verif Require Import Base GatesModel InstrModel InstrProofs PatchesModel LayoutModel LayoutSpec LayoutProofs EdpcModel EdpcSpec EdpcProofs EdpcShape EdpcProps SliceModel SliceSpec SliceProofs LoweringModel LoweringProofs ApplyModel
  RouterModel RunModel RunInv RunProps OrientProps SlicerModel SlicerProps StuckProps LiveProps LiveToolProps LiveRotateProps.
Open Scope nat_scope.

(** On an EDPC layout with lanes every qubit has a neighbour that stays free. *)
Lemma edpc_airy : forall n lanes condensed explicit predistilled o L, (0 <= n)%Z -> (1 <= lanes)%Z -> ((Z.sqrt_up n + 1) * (lanes + 1) < 2 ^ 31)%Z ->
  make_edpc_layout (mkEdpc n lanes condensed explicit predistilled) o = Ok L -> layout_wf L /\ Z.of_nat (length (core_cells L)) = n /\ airy L.
Proof.
  intros n lanes condensed explicit predistilled o L Hn Hl Hs E. assert (Hl0 : (0 <= lanes)%Z) by lia. set (p := mkEdpc n lanes condensed explicit predistilled) in *.
  destruct (C26_reach n lanes condensed explicit predistilled o L Hn Hl Hs E) as (hub & _ & Re).
  destruct (C26_lanes n lanes condensed explicit predistilled o L Hn Hl0 Hs E row (or_introl eq_refl)) as (R1 & _ & _).
  destruct (C26_lanes n lanes condensed explicit predistilled o L Hn Hl0 Hs E col (or_intror eq_refl)) as (K1 & _ & _).
  destruct (layout_shape p o Hn Hl0 Hs) as (L' & l & E' & _ & Ln & _ & Lc & _ & _ & _ & _ & _ & _ & _ & Rg). assert (L' = L) by congruence. subst L'.
  destruct (side_is p Hn Hl0 Hs) as [Si St]. cbn [p ep_n ep_lanes ep_condensed ep_explicit] in Si, St. fold p in Si, St.
  unfold make_edpc_layout in E. destruct (edpc_grid p) as [g| | |]; try discriminate. cbn [bind] in E. pose proof (grid_layout_wf g o L E) as W.
  split; [exact W|]. destruct (lw_core L W) as [cells Hc].
  assert (Ec : core_cells L = cells) by (unfold core_cells; rewrite Hc; apply core_cells_basic). split; [rewrite Ec; rewrite Hc, map_length in Lc; cbn [p ep_n] in Ln; lia|].
  intros c Hin. assert (Q : qubit_tile L c) by (unfold qubit_tile; rewrite Hc; apply in_map_iff; exists c; split; [reflexivity|now rewrite <- Ec]).
  destruct (Re c Q) as (h & _ & Oh & _ & Eh & Ah & _). exists h. split; [exact Ah|]. split; [exact Oh|]. intros qu Hqu Hh.
  destruct (layout_of_grid_spec g o) as [(L1 & E1 & Ok1 & _)|[E1 _]]; [|congruence]. assert (L1 = L) by congruence. subst L1.
  destruct Ok1 as (_ & _ & _ & _ & _ & _ & _ & (times & [H2 _ _] & _) & _). cbn [fst snd] in H2.
  assert (F : exists R, In R (l_regions L) /\ region_ok g R qu) by (clear -H2 Hqu; induction H2 as [|x y a b H _ IH]; [destruct Hqu|destruct Hqu as [<-|Hq]; [exists x; split; [now left|exact H]|destruct (IH Hq) as (R & R1 & R2); exists R; split; [now right|exact R2]]]).
  destruct F as (R & HR & RO). apply (ro_queue _ _ _ RO) in Hh as (c1 & H1 & A1 & _). apply in_map_iff in H1 as (sc & Es & H1). apply (Rg R sc HR H1). rewrite Es.
  pose proof (R1 c Q) as B1. pose proof (K1 c Q) as B2. unfold adj in Ah, A1. rewrite St, Si. lia.
Qed.

(** The instructions for a gate: on these layouts every Hadamard gate is followed by a rotation. *)
Definition spelled (g : gate) : list operation := meant g :: match g with GBasic t GH => [Rotate t] | _ => [] end.
Lemma turned_reads : forall n cfg (ex : expander unit) fuel q gs c out c', (forall g c, easy n g -> ex tt c (instr_of (meant g)) = Ok (map instr_of (spelled g), tt, c)) -> Forall (easy n) gs ->
  drain (inject_next ex (lower_next cfg)) fuel (mkIS q tt (mkLS [] gs)) c = Ok (out, c') -> out = q ++ map instr_of (flat_map spelled gs).
Proof.
  intros n cfg ex fuel q gs c out c' Hex. revert q gs c out c'. induction fuel as [|f IH]; intros q gs c out c' E H; [discriminate|]. cbn [drain] in H. unfold inject_next at 1 in H. cbn [is_queue is_src is_mem] in H.
  destruct q as [|x q].
  - unfold lower_next at 1 in H. cbn [ls_queue ls_gates] in H. destruct gs as [|g gs]; cbn [bind] in H; [injection H as <- _; reflexivity|]. inversion E as [|? ? Eg Er]; subst.
    rewrite (easy_lower n) in H by exact Eg. cbn [bind] in H. rewrite Hex in H by exact Eg. unfold spelled at 1 in H. cbn [map bind] in H.
    match type of H with context [drain ?a f ?b ?d] => destruct (drain a f b d) as [[l c1]| | |] eqn:D end; cbn [bind] in H; try discriminate. injection H as <- _.
    cbn [flat_map app]. unfold spelled at 1. cbn [map app]. f_equal. rewrite map_app. exact (IH _ _ _ _ _ Er D).
  - cbn [bind] in H. match type of H with context [drain ?a f ?b ?d] => destruct (drain a f b d) as [[l c1]| | |] eqn:D end; cbn [bind] in H; try discriminate. injection H as <- _.
    cbn [app]. f_equal. exact (IH _ _ _ _ _ E D).
Qed.
Lemma qreg_in : forall n t, (t < n)%N -> In t (core_qubits_from_qreg n).
Proof. intros n t H. unfold core_qubits_from_qreg. apply in_map_iff. exists (N.to_nat t). split; [apply N2Nat.id|]. apply in_seq. lia. Qed.
Lemma easy_turned : forall n g c, easy n g -> teleport_expand (core_qubits_from_qreg n) true tt c (instr_of (meant g)) = Ok (map instr_of (spelled g), tt, c).
Proof. intros n g c H. destruct g as [t b| | |]; try contradiction. destruct b; try contradiction; try reflexivity. cbn. rewrite (proj2 (memN_In t _) (qreg_in n t H)). reflexivity. Qed.
Lemma easy_catalytic : forall n local g c, easy n g -> catalytic_expand local (core_qubits_from_qreg n) true tt c (instr_of (meant g)) = Ok (map instr_of (spelled g), tt, c).
Proof. intros n local g c H. destruct g as [t b| | |]; try contradiction. destruct b; try contradiction; try reflexivity. cbn. rewrite (proj2 (memN_In t _) (qreg_in n t H)). reflexivity. Qed.
Lemma easy_turnable : forall n gs, Forall (easy n) gs -> turnable (core_qubits_from_qreg n) (map instr_of (flat_map spelled gs)).
Proof.
  intros n gs E. induction E as [|g gs Eg _ IH]; [exact I|]. destruct g as [t b| | |]; try contradiction. pose proof (qreg_in n t) as Ht.
  destruct b; try contradiction; cbn [flat_map spelled meant map app turnable instr_of op wait]; repeat (split; [first [reflexivity|exact I|exact (Ht Eg)]|]); exact IH.
Qed.

Definition lanes_asked (mc : machine) (o : options) : N := if has o "numlanes"%string then mc_num mc (get o "numlanes"%string) else 1%N.

(** The command line with --layoutgenerator edpc and at least one lane: whatever the other options, a circuit of Pauli and Hadamard gates is compiled to its end by the stream pipeline.  Every gate is applied, in order,
    a Hadamard gate followed by a rotation of its patch, and a Hadamard gate takes at most four slices, the others one. *)
Theorem C69_edpc : forall grid ug fuel d mc o pm src n local v pick j ops gs out c',
  make_layout mc o (Auto AEdpc) pm (mkStream src (core_qubits_from_qreg n) (qasm_id_start n) NoPasses local) = Ok (On (j_layout j, j_stream j, v)) ->
  match src with LliSource _ => False | _ => True end -> j_pipeline j <> PEdpc -> (1 <= lanes_asked mc o)%N -> ((Z.sqrt_up (Z.of_N n) + 1) * (Z.of_N (lanes_asked mc o) + 1) < 2 ^ 31)%Z ->
  (do raw <- gates_of fuel d src ;; rot_drain grid ug fuel [] raw) = Ok gs -> Forall (easy n) gs -> instructions grid ug fuel d (j_stream j) = Ok (out, c') ->
  exists w t, job_world ops j = Ok w /\ halts Stream (job_env pick j) never never out w t Finished /\ filter asked (ops_applied t) = flat_map spelled gs
  /\ length (emitted (t_events t)) <= S (list_sum (map (fun g => match g with GBasic _ GH => 4 | _ => 1 end) gs)).
Proof.
  intros grid ug fuel d mc o pm src n local v pick j ops gs out c' Hm Hs Np Hl Hb Hg He Hi.
  assert (Lc : length (core_qubits_from_qreg n) = N.to_nat n) by (unfold core_qubits_from_qreg; now rewrite map_length, seq_length).
  assert (Nd : NoDup (core_qubits_from_qreg n)) by (unfold core_qubits_from_qreg; apply Injective_map_NoDup; [intros x y E; now apply Nat2N.inj|apply seq_NoDup]).
  assert (M : exists condensed explicit (catalytic : bool), make_edpc_layout (mkEdpc (Z.of_N n) (Z.of_N (lanes_asked mc o)) condensed explicit catalytic) (distillation_options mc o) = Ok (j_layout j)
    /\ j_stream j = mkStream src (core_qubits_from_qreg n) (qasm_id_start n) (if catalytic then CatalyticPasses else EdpcPasses) local).
  { unfold make_layout in Hm. cbn [st_core] in Hm. fold (lanes_asked mc o) in Hm. rewrite Lc, N_nat_Z in Hm.
    match type of Hm with context [make_edpc_layout ?a ?b] => destruct (make_edpc_layout a b) as [L0| | |] eqn:EL end; try discriminate. cbn [bind] in Hm. injection Hm as <- <- _.
    do 3 eexists. split; [exact EL|reflexivity]. }
  destruct M as (condensed & explicit & catalytic & EL & Es). destruct (edpc_airy (Z.of_N n) (Z.of_N (lanes_asked mc o)) _ _ _ _ _ ltac:(lia) ltac:(lia) Hb EL) as (W & Cl & Air).
  assert (Hn : length (core_qubits_from_qreg n) <= length (core_cells (j_layout j))) by (rewrite Lc; apply Nat2Z.inj_le; rewrite N_nat_Z; rewrite Cl; apply Z.le_refl).
  assert (Ho : out = map instr_of (flat_map spelled gs)).
  { unfold instructions in Hi. rewrite Es in Hi. cbn [st_source st_passes st_core st_start st_local] in Hi. destruct src; [contradiction|..]; (destruct (gates_of fuel d _) as [raw| | |]; try discriminate; cbn [bind] in Hg, Hi);
    rewrite Hg in Hi; cbn [bind] in Hi; destruct catalytic; (eapply (turned_reads n _ _ fuel [] gs); [|exact He|exact Hi]); intros; first [now apply easy_turned|now apply easy_catalytic]. }
  destruct (new_slice_ok (j_layout j) (core_qubits_from_qreg n) W) as (s & E & _); [exact Hn|].
  assert (Hw : job_world ops j = Ok (mkW s ops [])) by (unfold job_world; rewrite Es; cbn [st_core]; rewrite E; cbn [bind]; unfold job_refused; destruct (j_pipeline j); try contradiction; reflexivity).
  destruct (C69_rotations (job_env pick j) (core_qubits_from_qreg n) out (mkW s ops []) W Air Hn Nd E) as (t & H & O & K); [rewrite Ho; now apply easy_turnable|].
  exists (mkW s ops []), t. split; [exact Hw|]. split; [exact H|]. split; [rewrite O, Ho, map_map; cbn [instr_of op]; apply map_id|].
  eapply Nat.le_trans; [exact K|]. apply le_n_S. rewrite Ho. clear -He. induction He as [|g gs Eg _ IH]; [apply le_n|]. destruct g as [q b| | |]; try contradiction.
  destruct b; try contradiction; unfold spans, list_sum in *; cbn [flat_map spelled meant app map fold_right span instr_of op] in *; lia.
Qed.
Print Assumptions C69_edpc.

(** The circuit of [C69_compact_ex], with explicit factories as well *)
Definition edpc_options (explicit : bool) : list (string * string) := (if explicit then [("layoutgenerator", "edpc"); ("explicitfactories", "")] else [("layoutgenerator", "edpc")])%string.
Definition edpc_mach : machine := ex_mach (ex_lines easy_lines).
Example C69_edpc_ex : forall explicit, let o := line_of (("input-format", "qasm") :: edpc_options explicit)%string in
  lanes_asked edpc_mach o = 1%N /\ exists p j gs out c w v, compile easy_lines (edpc_options explicit) = (p, Ok (On j)) /\ j_pipeline j <> PEdpc
  /\ make_layout edpc_mach o (Auto AEdpc) (j_pipeline j) (mkStream (st_source (j_stream j)) (core_qubits_from_qreg 3) (qasm_id_start 3) NoPasses (st_local (j_stream j))) = Ok (On (j_layout j, j_stream j, v))
  /\ (do raw <- gates_of 100 (pr_default p) (st_source (j_stream j)) ;; rot_drain (fun _ => Throw RuntimeError) false 100 [] raw) = Ok gs /\ Forall (easy 3) gs
  /\ instructions (fun _ => Throw RuntimeError) false 100 (pr_default p) (j_stream j) = Ok (out, c) /\ job_world 0 j = Ok w
  /\ exists t, halts Stream (job_env pick_min j) never never out w t Finished /\ length (emitted (t_events t)) = 10.
Proof.
  intros [|] o; (split; [vm_compute; reflexivity|]); (do 7 eexists); (split; [vm_compute; reflexivity|]); (split; [discriminate|]); (split; [vm_compute; reflexivity|]); (split; [vm_compute; reflexivity|]);
  (split; [repeat constructor|]); (split; [vm_compute; reflexivity|]); (split; [vm_compute; reflexivity|]); (eexists; split; [exists 100; vm_compute; reflexivity|vm_compute; reflexivity]).
Qed.

(** Two qubits among factories: a rotation right after a Hadamard gate, a gate after the rotation, the other qubit, and the measurements *)
Definition turn_prog : list instr := map instr_of [SingleOp 7 SqH false; Rotate 7; SingleOp 7 SqX false; Rotate 3; SingleOp 3 SqH false; Measure 7 PZ false; Rotate 3; Measure 3 PX false].
Example C69_rotations_ex : exists L s, make_edpc_layout (mkEdpc 2 1 false true false) (mkDO true 1) = Ok L /\ l_regions L <> [] /\ layout_wf L /\ airy L /\ new_slice L [7; 3]%N = Ok s /\ turnable [7; 3]%N turn_prog
  /\ let e := mkEnv false true false false L (e_route jam_env) in exists t, halts Stream e never never turn_prog (mkW s 0 []) t Finished /\ length (emitted (t_events t)) = 10.
Proof.
  destruct (make_edpc_layout (mkEdpc 2 1 false true false) (mkDO true 1)) as [L| | |] eqn:E; try (vm_compute in E; discriminate E).
  destruct (edpc_airy 2 1 false true false (mkDO true 1) L ltac:(lia) ltac:(lia) ltac:(reflexivity) E) as (W & _ & A).
  vm_compute in E. injection E as E. exists L. subst L. eexists. split; [reflexivity|]. split; [discriminate|]. split; [exact W|]. split; [exact A|]. split; [vm_compute; reflexivity|]. split.
  - cbn. repeat split; auto; try (now left); try (now right; left); vm_compute; reflexivity.
  - eexists. split; [exists 60; vm_compute; reflexivity|vm_compute; reflexivity].
Qed.
