(** C53, refuted: a program of seven CNOTs, one of which is reported done without its control having been touched. *)
From Verif Require Import Base TextModel PatchesModel LayoutModel EdpcModel InstrModel StabSpec StabProofs.
From Verif Require Import SliceModel SliceSpec SliceProofs RouterModel RouterSpec RouterProofs RouterProps ApplyModel ApplySpec BellProps BellStabProps BellStabSpec BellStabProps BellCrossProps RunModel WaveModel WaveSpec WaveProps.

(** The EDPC layout as generated for 25 qubits with the default options: a lane of ancillas around each *)
Definition drop_start : layout * slice := Eval vm_compute in
  match (do l <- make_edpc_layout (mkEdpc 25 1 false false true) (mkDO true 2) ;; do s <- new_slice l (map N.of_nat (seq 0 25)) ;; Ok (l, s)) with
  | Ok x => x | _ => cross_start end.
Definition drop_env : env := mkEnv true false false true (fst drop_start) (plain_router (fst drop_start) true pick_min false).
Definition drop_prog : list instr :=
  map (fun ct => mkI (BellCNOT (fst ct) (snd ct) (100 + fst ct) (200 + snd ct) None None None None) 9 [])
    [(7, 1); (2, 21); (5, 14); (8, 6); (10, 22); (24, 16); (15, 11)]%N.
Definition drop_world : world := mkW (snd drop_start) 0 [].

(** What was done for CNOT 8 6, as seen by the instruction visitor: the layers compiled and the number of the last one *)
Definition its_layers (x : event) : list (option (list (list local_instr)) * option nat) :=
  match x with Applied (mkI (BellCNOT 8 6 _ _ _ _ l p) _ _) => [(l, p)] | _ => [] end.
Definition merge_control : local_instr := LMergeContract (mkCell 4 8) (mkCell 3 8).

(** The run finishes; the only operation on the control of that CNOT is in its fourth layer, and the last layer reported is the second. *)
Theorem C53_dropped_run_refuted : exists t a b, wave_run drop_env (fun _ => false) 9 drop_prog drop_world = Halt t Finished
  /\ flat_map its_layers (t_events t) = [(Some [a; b; []; [merge_control]], Some 1); (Some [a; b; []; [merge_control]], Some 1)]
  /\ (exists p, tile_at (snd drop_start) (mkCell 4 8) = Some p /\ p_id (dp p) = Some 8%N)
  /\ forall l, In l (a ++ b) -> ~ In (mkCell 4 8) (local_cells l).
Proof.
  eexists _, _, _. split; [vm_compute; reflexivity|]. split; [vm_compute; reflexivity|]. split; [eexists; split; vm_compute; reflexivity|].
  intros l Hl. apply in_app_iff in Hl. cbn [In] in Hl.
  repeat match goal with H : _ \/ _ |- _ => destruct H | H : _ = l |- _ => subst l | H : False |- _ => destruct H end; cbn; intuition discriminate.
Qed.
Print Assumptions C53_dropped_run_refuted.

(** The attempts at that CNOT in the run: found after three others, decomposed when all seven have routes, then the
    layers *)
Definition world_of (p : progress wave_st) : world := match p with Go s => v_world s | Halt _ _ => drop_world end.
Definition st_of (p : progress wave_st) : wave_st := match p with Go s => s | Halt _ _ => wave_init [] drop_world end.
Definition drop_one (proximate deferred : bool) (l : list nat) (s : wave_st) : progress wave_st :=
  pfold (schedule_one drop_env (fun _ => false) proximate deferred) l s.
Definition drop_before : world := Eval vm_compute in world_of (drop_one false false [0; 1; 2] (wave_init drop_prog drop_world)).
Definition drop_routed : wave_st := Eval vm_compute in st_of (drop_one false false [0; 1; 2; 3; 4; 5; 6] (wave_init drop_prog drop_world)).
Definition drop_cut : wave_st := Eval vm_compute in
  st_of (match drop_one false true [0; 1; 2; 3; 4; 5; 6] drop_routed with Go s => unmark s | x => x end).
Definition drop_next : wave_st := Eval vm_compute in st_of (wave_step drop_env (fun _ => false) (fun _ => false) (wave_init drop_prog drop_world)).
Definition drop_w1 : world := Eval vm_compute in world_of (drop_one false true [0; 1; 2] drop_routed).
Definition drop_w2 : world := Eval vm_compute in world_of (drop_one false true [0; 1; 2] drop_cut).
Definition drop_w3 : world := Eval vm_compute in world_of (drop_one true false [0; 1; 2] drop_next).
Definition drop_try (w : world) (o : operation) : applied :=
  match try_apply drop_env w (mkI o 9 []) with Ok z => z | _ => mkA w o true [] end.
Definition drop_found : applied := Eval vm_compute in drop_try drop_before (BellCNOT 8 6 108 206 None None None None).
Definition drop_1 : applied := Eval vm_compute in drop_try drop_w1 (a_op drop_found).
Definition drop_2 : applied := Eval vm_compute in drop_try drop_w2 (a_op drop_1).
Definition drop_3 : applied := Eval vm_compute in drop_try drop_w3 (a_op drop_2).
Definition drop_steps : list (slice * slice) :=
  [(w_slice drop_w1, w_slice (a_world drop_1)); (w_slice drop_w2, w_slice (a_world drop_2)); (w_slice drop_w3, w_slice (a_world drop_3))].
Lemma drop_life : lifetime (l_furthest (fst drop_start)) drop_env (a_op drop_found) drop_steps.
Proof.
  apply (life_wait _ _ drop_w1 9 [] _ drop_1); [small_sized|vm_compute; reflexivity|reflexivity|].
  apply (life_part _ _ drop_w2 9 [] _ drop_2 (mkI (a_op drop_2) 9 [])); [small_sized|vm_compute; reflexivity|reflexivity|reflexivity|].
  apply (life_end _ _ drop_w3 9 [] _ drop_3); [small_sized|vm_compute; reflexivity|reflexivity|reflexivity].
Qed.
Definition drop_reg : region := Eval vm_compute in match a_op drop_found with BellCNOT _ _ _ _ (Some r) _ _ _ => r | _ => mkRegion [] None end.
Definition drop_inner : list cell := Eval vm_compute in match map sc_cell (rg_cells drop_reg) with _ :: l => removelast l | [] => [] end.
Definition drop_patch (c : cell) : dpatch := match tile_at (w_slice drop_before) c with Some p => p | None => square None None end.

(** All its attempts together are not the CNOT. *)
Theorem C53_dropped_refuted : forall patch, (forall x y, patch x = patch y -> x = y) -> exists ops,
  lifetime (l_furthest (fst drop_start)) drop_env (a_op drop_found) drop_steps
  /\ Forall2 (fun st d => ran true (fst st) d (snd st)) drop_steps ops
  /\ ~ tiles_act_as patch (cross_shows (w_slice drop_before)) drop_inner (concat ops) (image (conj_cnot (patch (mkCell 4 8)) (patch (mkCell 4 4)))).
Proof.
  intros patch Pj.
  assert (Hs : sized (l_furthest (fst drop_start)) (w_slice drop_before)) by small_sized.
  assert (T8 : filter (fun x => match snd x with Some i => N.eqb i 8 | None => false end) (on_tiles (w_slice drop_before)) = [(mkCell 4 8, Some 8%N)]) by (vm_compute; reflexivity).
  assert (T6 : filter (fun x => match snd x with Some i => N.eqb i 6 | None => false end) (on_tiles (w_slice drop_before)) = [(mkCell 4 4, Some 6%N)]) by (vm_compute; reflexivity).
  assert (C8 : forall x, carries (w_slice drop_before) x 8 -> x = mkCell 4 8).
  { intros x Hx. assert (I : In (x, Some 8%N) [(mkCell 4 8, Some 8%N)]) by (rewrite <- T8; apply filter_In; split; [apply (carried_listed _ _ _ _ Hs); exact Hx|reflexivity]).
    destruct I as [I|[]]. congruence. }
  assert (C6 : forall x, carries (w_slice drop_before) x 6 -> x = mkCell 4 4).
  { intros x Hx. assert (I : In (x, Some 6%N) [(mkCell 4 4, Some 6%N)]) by (rewrite <- T6; apply filter_In; split; [apply (carried_listed _ _ _ _ Hs); exact Hx|reflexivity]).
    destruct I as [I|[]]. congruence. }
  destruct (C53_crossing_instruction (fst drop_start) pick_min false drop_env drop_before 9 [] 8 6 108 206 drop_found (mkCell 4 8) (mkCell 4 4)
    (drop_patch (mkCell 4 8)) (drop_patch (mkCell 4 4)) true true patch (cross_shows (w_slice drop_before)) drop_reg drop_steps) as (inner & s' & p1 & p2 & ops & Ei & Us & Is & Ed & Rn & Act);
    auto using pick_min_valid, cross_reads, drop_life.
  - discriminate.
  - intros x y Hx Hy. rewrite (C8 _ Hx). symmetry. auto.
  - intros x y Hx Hy. rewrite (C6 _ Hx). symmetry. auto.
  - exists (drop_patch (mkCell 4 8)). split; vm_compute; reflexivity.
  - exists (drop_patch (mkCell 4 4)). split; vm_compute; reflexivity.
  - intros []; vm_compute; reflexivity.
  - intros []; vm_compute; reflexivity.
  - exists ops. split; [exact drop_life|]. split; [exact Rn|].
    assert (In1 : inner ++ [mkCell 4 8] = drop_inner ++ [mkCell 4 8]) by (change (mkCell 4 4 :: drop_inner ++ [mkCell 4 8] = mkCell 4 4 :: inner ++ [mkCell 4 8]) in Ei; now injection Ei).
    apply app_inv_tail in In1. subst inner.
    assert (K : match edpc_decompose s' (mkCell 4 4 :: drop_inner ++ [mkCell 4 8]) 108 206 with Ok (_, p) => fst p = [] /\ snd p <> [] | _ => True end).
    { clear Ed. destruct Is as [<-|[<-|[<-|[]]]]; vm_compute; first [exact I|split; [reflexivity|discriminate]]. }
    rewrite Ed in K. destruct K as [K1 K2]. exact (proj2 (proj2 Act K1 K2)).
Qed.
Print Assumptions C53_dropped_refuted.

(** ** Neighbours after a Hadamard *)
(** Patches 2 and 7 are next to each other with one tile between them; turned by a Hadamard, one of them shows the
    operator of its end of a CNOT to that tile, and the search answers with the route of one tile.  Compilation then
    ends with an exception, although the board is otherwise empty and other routes exist. *)
Definition next_to_each_other : list instr := [mkI (SingleOp 7 SqH false) 9 []; mkI (BellCNOT 2 7 100 101 None None None None) 9 []].
Theorem C53_neighbours_refuted : (exists t, wave_run drop_env (fun _ => false) 9 next_to_each_other drop_world = Halt t (Failed RuntimeError))
  /\ exists t, wave_run drop_env (fun _ => false) 9 (tl next_to_each_other) drop_world = Halt t Finished.
Proof. split; eexists; vm_compute; reflexivity. Qed.
Print Assumptions C53_neighbours_refuted.
