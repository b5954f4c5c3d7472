(** The order in which instructions are applied makes no difference: C64. *)
From Coq Require Import Permutation.
From Verif Require Import Base TextModel PatchesModel LayoutModel InstrModel InstrSpec InstrProofs GraphSpec SliceModel SliceSpec SliceProofs MarksModel ApplyModel RouterModel RouterProofs RouterProps BellProps
  DagModel DagSpec DagSim RunModel RunSpec RunProofs RunProps SchedSpec SchedProofs DagLoop DagLoopProps WaveModel WaveSpec WaveProofs WaveProps RunInv IdsProps GraphProps CircuitProps OrderSpec OrderProofs.
Open Scope nat_scope.

(** Every run to the end of every pipeline accounts for the program: there is a way to tell for each instruction that was
    announced as applied which instruction of the program it belongs to, such that each is carried out once, by itself and by
    steps that work on nothing else, and those that work on the same patch one after the other, in the order of the program. *)
Theorem C64_accounts : forall pl e late grow prog w t, e_edpc e = false -> (pl = Wave -> Forall few_patches prog) ->
  halts pl e late grow prog w t Finished ->
  exists log, map step log = told (t_events t) /\ accounts prog log.
Proof.
  intros pl e late grow prog w t Ed Few (n & H). destruct pl.
  - destruct (C38_finished e late prog w n t Ed H) as (es & k & w' & O & Ev). destruct (in_order_accounts e w prog es k w' O) as (log & E & Ac & _).
    exists log. rewrite Ev, told_app, app_nil_r. auto.
  - destruct (dag_init prog w) as [st0|] eqn:I0; cbn [pbind] in H.
    + destruct (C40_runs e late prog w) as (st & I' & R). assert (st = st0) by congruence. subst st. specialize (R n). rewrite H in R.
      inversion R as [acts w' p S Ev Al _ _|acts w' p j x r _ _ _ X|?|?|?|acts w' p r _ _ X]; subst.
      * exists (log_of acts). rewrite Ev. split; [apply log_told|]. apply (sched_accounts e same_again prog w acts w' p); [intros x a y ->; split; reflexivity|exact S|].
        intros j v P. destruct (sched_life _ _ _ _ _ _ _ _ S j v P) as (o & O1 & _). rewrite Forall_forall in Al. rewrite O1. f_equal. apply Al. eapply nth_error_In; eauto.
      * destruct (try_apply e w' x); [contradiction|discriminate..].
      * destruct (advance_slice (e_layout e) (w_slice w')); [contradiction|discriminate..].
    + destruct (C40_runs e late prog w) as (st & I' & _). congruence.
  - pose proof (C41_runs e late grow prog w (plain_uncut e prog Ed) (Few eq_refl) n) as R. rewrite H in R.
    inversion R as [acts w' p S Ev Al _ _|acts w' p j x r _ _ _ _ X|?|?|?|?|acts w' p r _ _ X|?|acts w' p r _ _ _ X|acts w' p j S Ev Rd Lo]; subst.
    + exists (log_of acts). rewrite Ev. split; [apply log_told|]. apply (sched_accounts e less_again prog w acts w' p); [intros x a y [->|[_ ->]]; split; reflexivity|exact S|].
      intros j v P. destruct (sched_life _ _ _ _ _ _ _ _ S j v P) as (o & O1 & _). rewrite Forall_forall in Al. rewrite O1. f_equal. apply Al. eapply nth_error_In; eauto.
    + destruct (try_apply e w' x); [contradiction|discriminate..].
    + destruct (advance_slice (e_layout e) (w_slice w')); [contradiction|discriminate..].
    + destruct (give_back (w_slice w')); [contradiction|discriminate..].
    + destruct Lo as (Lo & _). congruence.
Qed.
Print Assumptions C64_accounts.

(** Whatever instructions do - to anything, up to any notion [R] of being the same, as long as instructions without a common
    patch may be exchanged - doing it in the order in which a pipeline finishes them comes to the same as doing it in the order
    of the program. *)
Theorem C64_same_effect : forall pl e late grow prog w t, e_edpc e = false -> (pl = Wave -> Forall few_patches prog) ->
  halts pl e late grow prog w t Finished ->
  exists log, map step log = told (t_events t) /\ accounts prog log /\ Permutation (completed log) (seq 0 (length prog))
    /\ forall D R (mean : instr -> D -> D) d, lawful R mean -> R d d ->
         R (effect_of mean (pick prog (completed log)) d) (effect_of mean prog d)
         /\ R (effect_of mean (told (t_events t)) d) (effect_of mean (flat_map (fun j => map step (of_job j log)) (seq 0 (length prog))) d).
Proof.
  intros pl e late grow prog w t Ed Few H. destruct (C64_accounts pl e late grow prog w t Ed Few H) as (log & E & Ac). exists log.
  split; [exact E|]. split; [exact Ac|]. split; [now apply completed_once|]. intros D R mean d Lw Hd. split; [exact (completed_same prog log Ac D R mean d Lw Hd)|]. rewrite <- E. exact (steps_in_turn prog log Ac D R mean d Lw Hd).
Qed.
Print Assumptions C64_same_effect.

(** So it does not matter which pipeline compiles a program, nor for which layout. *)
Corollary C64_pipelines_agree : forall pl e late grow w t pl' e' late' grow' w' t' prog, e_edpc e = false -> e_edpc e' = false -> Forall few_patches prog ->
  halts pl e late grow prog w t Finished -> halts pl' e' late' grow' prog w' t' Finished ->
  exists log log', map step log = told (t_events t) /\ accounts prog log /\ map step log' = told (t_events t') /\ accounts prog log'
    /\ forall D R (mean : instr -> D -> D) d, lawful R mean -> R d d -> R (effect_of mean (pick prog (completed log)) d) (effect_of mean (pick prog (completed log')) d).
Proof.
  intros pl e late grow w t pl' e' late' grow' w' t' prog Ed Ed' Few H H'.
  destruct (C64_same_effect pl e late grow prog w t Ed (fun _ => Few) H) as (log & E & A & _ & G).
  destruct (C64_same_effect pl' e' late' grow' prog w' t' Ed' (fun _ => Few) H') as (log' & E' & A' & _ & G').
  exists log, log'. split; [exact E|]. split; [exact A|]. split; [exact E'|]. split; [exact A'|]. intros D R mean d Lw Hd.
  destruct (G D R mean d Lw Hd) as [X _]. destruct (G' D R mean d Lw Hd) as [X' _]. eapply (law_trans _ _ Lw); [exact X|]. now apply (law_sym _ _ Lw).
Qed.
Print Assumptions C64_pipelines_agree.

(** What is announced about one patch, in the order in which it is announced, is what the instructions of the program do to
    it, in their order. *)
Theorem C64_patch : forall pl e late grow prog w t p (about : instr -> bool), e_edpc e = false -> (pl = Wave -> Forall few_patches prog) ->
  halts pl e late grow prog w t Finished -> (forall i, about i = true <-> works_on i p) ->
  exists log, map step log = told (t_events t) /\ accounts prog log
    /\ filter about (told (t_events t)) = flat_map (fun j => filter about (map step (of_job j log))) (seq 0 (length prog)).
Proof.
  intros pl e late grow prog w t p about Ed Few H Ab. destruct (C64_same_effect pl e late grow prog w t Ed Few H) as (log & E & Ac & _ & G). exists log.
  split; [exact E|]. split; [exact Ac|].
  set (mean := fun (x : instr) (d : list instr) => if about x then d ++ [x] else d).
  assert (Lw : lawful eq mean).
  { split; [congruence|congruence|congruence|]. intros x y d _ Fr. unfold mean. destruct (about x) eqn:Ax, (about y) eqn:Ay; try reflexivity. exfalso. apply (Fr p); now apply Ab. }
  assert (F : forall l d, effect_of mean l d = d ++ filter about l).
  { induction l as [|x l IH]; intros d; [now rewrite app_nil_r|]. change (effect_of mean (x :: l) d) with (effect_of mean l (mean x d)). rewrite IH. unfold mean. cbn [filter].
    destruct (about x); [rewrite <- app_assoc|]; reflexivity. }
  destruct (G _ eq mean [] Lw eq_refl) as [_ X]. rewrite !F in X. cbn [app] in X. rewrite X. clear. induction (seq 0 (length prog)) as [|j l IH]; [reflexivity|].
  cbn [flat_map]. rewrite filter_app, IH. reflexivity.
Qed.
Print Assumptions C64_patch.

(** With EDPC the same holds unless an instruction is lost (see C41). *)
Theorem C64_edpc : forall e late grow prog w t, uncut e prog -> Forall few_patches prog -> halts Wave e late grow prog w t Finished ->
  (exists log, map step log = told (t_events t) /\ accounts prog log
     /\ forall D R (mean : instr -> D -> D) d, lawful R mean -> R d d -> R (effect_of mean (pick prog (completed log)) d) (effect_of mean prog d))
  \/ exists acts w' p j, scheduled e clash less_again prog w acts w' p /\ t_events t = seen acts /\ ready clash prog p j /\ lost e p acts j.
Proof.
  intros e late grow prog w t Un Few (n & H). pose proof (C41_runs e late grow prog w Un Few n) as R. rewrite H in R.
  inversion R as [acts w' p S Ev Al _ _|acts w' p j x r _ _ _ _ X|?|?|?|?|acts w' p r _ _ X|?|acts w' p r _ _ _ X|acts w' p j S Ev Rd Lo]; subst.
  - left. exists (log_of acts). rewrite Ev. split; [apply log_told|].
    assert (Ac : accounts prog (log_of acts)).
    { apply (sched_accounts e less_again prog w acts w' p); [intros x a y [->|[_ ->]]; split; reflexivity|exact S|].
      intros j v P. destruct (sched_life _ _ _ _ _ _ _ _ S j v P) as (o & O1 & _). rewrite Forall_forall in Al. rewrite O1. f_equal. apply Al. eapply nth_error_In; eauto. }
    split; [exact Ac|]. intros D R0 mean d Lw Hd. exact (completed_same prog _ Ac D R0 mean d Lw Hd).
  - destruct (try_apply e w' x); [contradiction|discriminate..].
  - destruct (advance_slice (e_layout e) (w_slice w')); [contradiction|discriminate..].
  - destruct (give_back (w_slice w')); [contradiction|discriminate..].
  - right. exists acts, w', p, j. auto.
Qed.
Print Assumptions C64_edpc.

(** Instructions that are only to be near a patch do not count as working on it, and then the order does matter: the stream
    pipeline compiles a request for a magic state near patch 7 followed by the measurement of 7; the other pipelines measure 7
    while the request waits for the factory, and then fail as there is no patch 7 to be near to. *)
Definition near_text : text := lit "rQrQr
rrrrr
11111".
Definition near_start : layout * slice := Eval vm_compute in
  match (do L <- layout_from_spec near_text (mkDO true 2) ;; do s <- new_slice L [7; 3]%N ;; Ok (L, s)) with
  | Ok x => x | _ => ex_start end.
Definition near_env : env := mkEnv false false false false (fst near_start) (plain_router (fst near_start) false pick_min false).
Definition near_world : world := mkW (snd near_start) 0 [].
Definition near_prog : list instr := [instr_of (MagicRequest 5 7); instr_of (Measure 7 PZ false)].
Theorem C64_near_refuted : exists e prog w, e_edpc e = false /\ Forall few_patches prog
  /\ (exists t, halts Stream e never never prog w t Finished /\ map op (told (t_events t)) = map op prog)
  /\ (exists t, halts Dag e never never prog w t (Failed BadOptional) /\ map op (told (t_events t)) = [Measure 7 PZ false])
  /\ (exists t, halts Wave e never never prog w t (Failed BadOptional) /\ map op (told (t_events t)) = [Measure 7 PZ false]).
Proof.
  exists near_env, near_prog, near_world. split; [reflexivity|]. split; [repeat constructor; vm_compute; auto; lia|].
  split; [|split]; (eexists; split; [exists 30; vm_compute; reflexivity|vm_compute; reflexivity]).
Qed.
Print Assumptions C64_near_refuted.

(** A program whose instructions are finished in another order by the DAG and the wave pipeline: patch 5 and patch 3 get what is theirs in order. *)
Definition turn_prog : list instr :=
  [instr_of (MagicRequest 5 7); instr_of (Measure 5 PZ false); instr_of (Rotate 3); instr_of (Measure 3 PX false)].
Definition about_ (p : N) (i : instr) : bool := memN p (operating_patches i).
Lemma about_works : forall p i, about_ p i = true <-> works_on i p.
Proof. intros p i. unfold about_. rewrite memN_In. apply operating_works. Qed.
Definition kinds (l : list instr) : list nat :=
  map (fun i => match op i with MagicRequest _ _ => 0 | Measure t _ _ => if N.eqb t 5 then 1 else 3 | Rotate _ => 2 | Busy _ _ _ => 4 | _ => 5 end) l.
Example C64_ex : forall pl, exists t, halts pl near_env never never turn_prog near_world t Finished
  /\ kinds (told (t_events t)) = match pl with Stream => [0; 1; 2; 4; 4; 4; 3] | Dag => [2; 4; 4; 4; 0; 3; 1] | Wave => [2; 4; 4; 0; 1; 4; 3] end
  /\ map op (filter (about_ 5) (told (t_events t))) = [MagicRequest 5 7; Measure 5 PZ false]
  /\ exists log, map step log = told (t_events t) /\ accounts turn_prog log
       /\ filter (about_ 5) (told (t_events t)) = flat_map (fun j => filter (about_ 5) (map step (of_job j log))) (seq 0 4).
Proof.
  assert (Few : Forall few_patches turn_prog) by (repeat constructor; vm_compute; auto; lia).
  assert (G : forall pl, exists t, halts pl near_env never never turn_prog near_world t Finished
    /\ kinds (told (t_events t)) = match pl with Stream => [0; 1; 2; 4; 4; 4; 3] | Dag => [2; 4; 4; 4; 0; 3; 1] | Wave => [2; 4; 4; 0; 1; 4; 3] end
    /\ map op (filter (about_ 5) (told (t_events t))) = [MagicRequest 5 7; Measure 5 PZ false]).
  { intros pl. destruct pl; (eexists; split; [exists 30; vm_compute; reflexivity|]; split; vm_compute; reflexivity). }
  intros pl. destruct (G pl) as (t & H & K & M). exists t. split; [exact H|]. split; [exact K|]. split; [exact M|].
  exact (C64_patch pl near_env never never turn_prog near_world t 5%N (about_ 5) eq_refl (fun _ => Few) H (about_works 5)).
Qed.

(** With EDPC an instruction can get lost: the patch that a rotation has put on a tile listed as holding a magic state (see C35)
    is handed out after a route for its CNOT was found and before the CNOT is begun; the CNOT is then dropped, and the run ends
    as if it had been carried out. *)
Definition lose_text : text := lit "rrrrrA
rQrrrr
rrrMrr
rrrrrr".
Definition lose_start : layout * slice := Eval vm_compute in
  match (do L <- layout_from_spec lose_text (mkDO true 2) ;; do s <- new_slice L [7]%N ;; Ok (L, s)) with
  | Ok x => x | _ => ex_start end.
Definition lose_env : env := mkEnv true false false true (fst lose_start) (plain_router (fst lose_start) true pick_min false).
Definition lose_world : world := mkW (snd lose_start) 0 [].
Definition lose_prog : list instr :=
  [instr_of (MagicRequest 100 7); instr_of (Rotate 100); instr_of (BellCNOT 100 7 20 21 None None None None);
   instr_of (Init 101 StZero None); instr_of (Measure 101 PZ false); instr_of (Init 101 StZero None); instr_of (Measure 101 PZ false);
   instr_of (Init 101 StZero None); instr_of (Rotate 101); instr_of (Measure 101 PZ false); instr_of (MagicRequest 101 7)].
Theorem C41_lost_refuted : exists e prog w t text times cnot, e_edpc e = true /\ e_route e = plain_router (e_layout e) true pick_min false
  /\ layout_from_spec text times = Ok (e_layout e) /\ new_slice (e_layout e) [7]%N = Ok (w_slice w) /\ uncut e prog /\ Forall few_patches prog
  /\ halts Wave e never never prog w t Finished
  /\ nth_error prog 2 = Some (instr_of cnot) /\ cnot = BellCNOT 100 7 20 21 None None None None
  /\ Forall (fun i => plan (op i) <> cnot) (told (t_events t))
  /\ length (told (t_events t)) = 16.
Proof.
  exists lose_env, lose_prog, lose_world. eexists. exists lose_text, (mkDO true 2), (BellCNOT 100 7 20 21 None None None None).
  split; [reflexivity|]. split; [reflexivity|]. split; [vm_compute; reflexivity|]. split; [vm_compute; reflexivity|].
  split; [intros _; unfold lose_prog; repeat constructor|]. split; [unfold lose_prog; repeat constructor; vm_compute; auto; lia|].
  split; [exists 30; vm_compute; reflexivity|]. split; [reflexivity|]. split; [reflexivity|]. split; [|vm_compute; reflexivity].
  cbn [t_events told flat_map app]. repeat (apply Forall_cons; [discriminate|]). constructor.
Qed.
Print Assumptions C41_lost_refuted.
