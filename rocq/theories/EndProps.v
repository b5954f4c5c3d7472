(** C63: compilation comes to an end. *)
From Verif Require Import Base TextModel PatchesModel LayoutModel LayoutSpec InstrModel SliceModel SliceSpec SliceProofs SliceProps MarksModel ApplyModel ApplyEnds ApplyProps BellProps
  RouterModel RouterSpec RouterProofs RouterProps BoostModel BoostProofs BoostProps RunModel RunProofs RunProps SchedSpec SchedProofs DagLoop DagLoopProps WaveModel WaveSpec WaveProofs WaveProps RunInv SlicerModel EndSpec EndProofs EndTime.
Open Scope nat_scope.

Definition stops (pl : pipeline) (e : env) (late grow : nat -> bool) (prog : list instr) (w : world) : Prop :=
  exists t r, halts pl e late grow prog w t r /\ r <> Unended.

(** *** Nothing is cut short

    Whatever the program: where the model's searches and chains are given a limit on their number of steps, that limit is never reached.
    The compiler's own loops, which have none, come to an end there as well. *)
Theorem C63_no_limit : forall pl e late grow prog w t r, settles e -> layout_wf (e_layout e) -> timed (e_layout e) (w_slice w) ->
  (pl = Wave -> uncut e prog /\ Forall few_patches prog) -> halts pl e late grow prog w t r -> r <> Unended.
Proof.
  intros pl e late grow prog w t r St W T Few (n & H). destruct pl; cbn in H.
  - eapply no_fuel_stream; eauto. exact T.
  - destruct (C40_runs e late prog w) as (st0 & E0 & R). rewrite E0 in H. cbn [pbind] in H. specialize (R n). rewrite H in R. eapply no_fuel_dag; eauto.
  - destruct (Few eq_refl) as [Un Fe]. pose proof (C41_runs e late grow prog w Un Fe n) as R. rewrite H in R. eapply no_fuel_wave; eauto.
Qed.
Print Assumptions C63_no_limit.

(** *** Programs without operations over a distance

    Whatever the layout, the router, the pipeline, the time limit and the limits of the instructions. *)
Theorem C63_ends : forall pl e late grow prog w, settles e -> layout_wf (e_layout e) -> timed (e_layout e) (w_slice w) ->
  (pl = Wave -> uncut e prog /\ Forall few_patches prog) -> no_links e prog -> Forall (fun i => (wait i <= SIZE_MAX)%N) prog ->
  stops pl e late grow prog w.
Proof.
  intros pl e late grow prog w St W T Few Nl Wt.
  assert (X : exists t r, halts pl e late grow prog w t r).
  { unfold halts. destruct pl.
    - destruct (stream_ends e late (stream_init prog w)) as (n & t & r & H); [|eauto].
      apply Forall_forall. intros i Hi y Ey. injection Ey as <-. unfold queue, stream_init in Hi. cbn in Hi.
      split; [intros El; exact (proj1 (Forall_forall _ _) (Nl El) i Hi)|exact (proj1 (Forall_forall _ _) Wt i Hi)].
    - destruct (C40_runs e late prog w) as (st0 & E0 & _). destruct (dag_ends e late prog w Nl Wt st0 E0) as (t & r & H). exists t, r. eexists. rewrite E0. exact H.
    - destruct (Few eq_refl) as [Un Fe]. destruct (wave_ends e late grow prog w Nl Wt Un Fe) as (n & t & r & H). eauto. }
  destruct X as (t & r & H). exists t, r. split; [exact H|]. eapply C63_no_limit; eauto.
Qed.
Print Assumptions C63_ends.

(** *** The routers of the compiler all come to an end. *)
Lemma job_settles : forall pick j, valid_pick pick -> settles (job_env pick j).
Proof.
  intros pick j V cache s a pa b pb S. unfold job_env in *. cbn [e_layout e_route] in *. unfold job_router.
  assert (B : ends (boost_route (j_layout j) pick s a pa b pb)).
  { destruct (get_cell_by_id s a) as [x|] eqn:Ea; [destruct (get_cell_by_id s b) as [y|] eqn:Eb|].
    - pose proof (C58_search (j_layout j) pick s a pa b pb x y S V Ea Eb) as H. unfold ends. destruct (boost_route _ _ _ _ _ _ _); try discriminate. destruct H.
    - unfold boost_route. rewrite Ea, Eb. unfold ends. discriminate.
    - unfold boost_route. rewrite Ea. unfold ends. discriminate. }
  assert (P : forall stop edpc, ends (plain_router (j_layout j) edpc pick stop cache s a pa b pb)).
  { intros stop edpc. unfold plain_router. pose proof (find_route_ends (j_layout j) edpc pick stop s a pa b pb V S) as H. unfold ends in *. destruct (find_route _ _ _ _ _ _ _ _ _); cbn; congruence. }
  assert (C : forall stop, ends (caching_router (j_layout j) pick stop cache s a pa b pb)).
  { intros stop. unfold caching_router. apply cached_ends, find_route_ends; auto. }
  destruct (j_provider j); destruct (j_cached j); auto; [now apply cached_ends|].
  unfold ends in *. destruct (boost_route _ _ _ _ _ _ _); cbn; congruence.
Qed.

(** A run of the tool without --local, whatever else is on the command line and in the input *)
Theorem C63_tool : forall pick j ops w pl late grow prog, valid_pick pick -> layout_wf (j_layout j) -> job_world ops j = Ok w ->
  j_local j = false -> (pl = Wave -> uncut (job_env pick j) prog /\ Forall few_patches prog) -> Forall (fun i => (wait i <= SIZE_MAX)%N) prog ->
  stops pl (job_env pick j) late grow prog w.
Proof.
  intros pick j ops w pl late grow prog V W Jw Lo Few Wt. apply C63_ends; auto; [now apply job_settles| |].
  - unfold job_world in Jw. destruct (new_slice (j_layout j) (st_core (j_stream j))) as [s| | |] eqn:E; cbn [bind] in Jw; try discriminate.
    destruct (job_refused j); [discriminate|]. injection Jw as <-. cbn [w_slice]. change (e_layout (job_env pick j)) with (j_layout j). set (core := st_core (j_stream j)) in *.
    destruct (Nat.le_gt_cases (length core) (length (core_cells (j_layout j)))) as [L|L].
    + destruct (new_slice_ok _ core W L) as (s' & E' & I). assert (s' = s) by congruence. subst s'. split; [apply (in_sized _ _ _ I)|]. now rewrite (in_timers _ _ _ I).
    + rewrite new_slice_few in E; [discriminate|]. destruct (lw_core _ W) as [cells Hcs]. unfold core_cells in L. rewrite Hcs in *. rewrite core_cells_basic in L. now rewrite map_length.
  - intros El. change (e_local (job_env pick j)) with (j_local j) in El. congruence.
Qed.
Print Assumptions C63_tool.

(** *** The DAG pipeline takes at most 101 slices for each thing to do *)
Lemma turns_more : forall S (step : S -> progress S) n m s t r, n <= m -> turns step n s = Halt t r -> turns step m s = Halt t r.
Proof. intros S step n m s t r Le H. replace m with (n + (m - n)) by lia. rewrite turns_plus, H. reflexivity. Qed.

Theorem C63_dag : forall e late prog w, no_links e prog -> Forall (fun i => (wait i <= SIZE_MAX)%N) prog ->
  (exists t r, halts Dag e late late prog w t r)
  /\ forall t r, halts Dag e late late prog w t r -> (N.of_nat (length (emitted (t_events t))) <= 101 * all_toil prog + 1)%N.
Proof.
  intros e late prog w Nl Wt. destruct (C40_runs e late prog w) as (st0 & E0 & _). destruct (dag_ends e late prog w Nl Wt st0 E0) as (t & r & H).
  split; [exists t, r; eexists; rewrite E0; exact H|]. intros t' r' (n & H'). rewrite E0 in H'. cbn [pbind] in H'.
  assert (X : t' = t) by (destruct (Nat.le_ge_cases n (N.to_nat (all_toil prog) * 101 + 1)) as [Le|Le]; [rewrite (turns_more _ _ _ _ _ _ _ Le H') in H|rewrite (turns_more _ _ _ _ _ _ _ Le H) in H']; congruence).
  subst t'. apply turns_emit in H. assert (Z0 : emitted (t_events (ds_tally st0)) = []).
  { unfold dag_init in E0. destruct (DagModel.dag_of _ _); cbn [lift pbind] in E0; try discriminate. now injection E0 as <-. }
  rewrite Z0 in H. cbn [length] in H. lia.
Qed.
Print Assumptions C63_dag.

(** *** With a time limit

    Every program, operations over a distance included, once the clock says from some slice on that the time is up. *)
Theorem C63_time_limit : forall pl e late grow prog w top, (forall m, top <= m -> late m = true) ->
  (exists t r, halts pl e late grow prog w t r)
  /\ (settles e -> layout_wf (e_layout e) -> timed (e_layout e) (w_slice w) -> (pl = Wave -> uncut e prog /\ Forall few_patches prog) -> stops pl e late grow prog w).
Proof.
  intros pl e late grow prog w top Top.
  assert (X : exists t r, halts pl e late grow prog w t r).
  { unfold halts. destruct pl.
    - destruct (limited_stream e late top Top (stream_init prog w)) as (n & t & r & H). eauto.
    - destruct (C40_runs e late prog w) as (st0 & E0 & _). destruct (limited_ends _ (dag_step e late) late _ top Top (dag_shows e late) st0) as (t & r & H). exists t, r. eexists. rewrite E0. exact H.
    - destruct (limited_ends _ (wave_step e late grow) late _ top Top (wave_shows e late grow) (wave_init prog w)) as (t & r & H). eauto. }
  split; [exact X|]. intros St W T Few. destruct X as (t & r & H). exists t, r. split; [exact H|]. eapply C63_no_limit; eauto.
Qed.
Print Assumptions C63_time_limit.

(** *** Operations over a distance

    Without the hypothesis on the program it is false: a Bell pair whose way is blocked by a magic state is taken up again and again, although its own limit is 5. *)
Theorem C63_links_refuted : exists e prog w, settles e /\ layout_wf (e_layout e) /\ timed (e_layout e) (w_slice w) /\ Forall (fun i => (wait i <= 5)%N) prog
  /\ forall late, (forall n, late n = false) -> forall grow, ~ stops Stream e late grow prog w.
Proof.
  exists jam_env, jam_prog, (mkW (snd jam_start) 0 []). split; [|split; [|split; [|split]]].
  - intros cache s a pa b pb S. unfold jam_env. cbn [e_route]. unfold plain_router. pose proof (find_route_ends (fst jam_start) false pick_min false s a pa b pb pick_min_valid S) as H.
    unfold ends in *. destruct (find_route _ _ _ _ _ _ _ _ _); cbn; congruence.
  - apply (text_layout_wf jam_text (mkDO true 1)). vm_compute. reflexivity.
  - split; [small_sized|reflexivity].
  - repeat constructor; vm_compute; discriminate.
  - intros late Nl grow (t & r & (n & H) & _). change (turns (stream_step jam_env late) n (stream_init jam_prog (mkW (snd jam_start) 0 [])) = Halt t r) in H. destruct (C42_started_refuted n) as (st & G & _).
    assert (X : forall k s, turns (stream_step jam_env late) k s = turns (stream_step jam_env never) k s).
    { induction k as [|k IH]; intros s; [reflexivity|]. cbn [turns]. assert (E : stream_step jam_env late s = stream_step jam_env never s).
      { unfold stream_step, visit. destruct (take_next s) as [[i s1]|]; [|now rewrite Nl]. destruct (try_apply _ _ _); cbn [lift pbind]; try reflexivity. destruct (a_follow _); [|now rewrite Nl]. destruct (negb _); [reflexivity|]. now rewrite Nl. }
      rewrite E. destruct (stream_step jam_env never s); cbn; [apply IH|reflexivity]. }
    rewrite X in H. congruence.
Qed.
Print Assumptions C63_links_refuted.

(** Two gates, a rotation, a measurement and a busy region that is due: at most 8 things to do.  All three pipelines end; the DAG with at most 809 slices. *)
Definition end_prog : list instr := [hadamard 7; hadamard 7; instr_of (Rotate 3); instr_of (Measure 7 PZ false); instr_of (Busy (mkRegion [] None) 0 [])].
Definition end_env : env := mkEnv false false false false (fst ex_start) (plain_router (fst ex_start) false pick_min false).
Example C63_ex : all_toil end_prog = 8%N /\ no_links end_env end_prog /\ (forall pl, stops pl end_env never never end_prog ex_world)
  /\ exists t, halts Dag end_env never never end_prog ex_world t Finished /\ 1 < length (emitted (t_events t)).
Proof.
  assert (Nl : no_links end_env end_prog) by (intros El; discriminate).
  split; [vm_compute; reflexivity|]. split; [exact Nl|]. split.
  - intros pl. apply C63_ends; auto.
    + intros cache s a pa b pb S. unfold end_env. cbn [e_route]. unfold plain_router. pose proof (find_route_ends (fst ex_start) false pick_min false s a pa b pb pick_min_valid S) as H.
      unfold ends in *. destruct (find_route _ _ _ _ _ _ _ _ _); cbn; congruence.
    + apply (text_layout_wf route_text (mkDO true 2)). vm_compute. reflexivity.
    + split; [small_sized|reflexivity].
    + intros _. split; [intros Ed; discriminate|]. repeat (constructor; [split; [repeat constructor; intros []|cbn; lia]|]). constructor.
    + repeat constructor; vm_compute; discriminate.
  - eexists. split; [exists 40; vm_compute; reflexivity|vm_compute; lia].
Qed.

(** The Bell pair that never comes through is given up when the time is up after 6 slices. *)
Example C63_time_limit_ex : exists t, halts Stream jam_env (Nat.leb 6) never jam_prog (mkW (snd jam_start) 0 []) t (Failed RuntimeError) /\ length (emitted (t_events t)) = 6.
Proof. eexists. split; [exists 10; vm_compute; reflexivity|vm_compute; reflexivity]. Qed.
