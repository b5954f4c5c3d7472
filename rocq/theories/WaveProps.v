(** The wave pipeline, with and without EDPC: order and completeness (C41), counters (C39), limits (C42). *)
From Verif Require Import Base PatchesModel TextModel LayoutModel LayoutSpec InstrModel LoweringModel DagModel SliceModel MarksModel RouterModel ApplyModel
  RunModel RunProofs SchedSpec SchedProofs DagLoop RouterProps BellProps RunProps DagLoopProps WaveModel WaveSpec WaveProofs.
Open Scope nat_scope.

(** ** C41 *)

(** Every run, however far it got, is an order of carrying out the program that respects its dependencies; and it
    stops only for one of the reasons of [wave_left]. *)
Lemma plain_uncut : forall e prog, e_edpc e = false -> uncut e prog.
Proof. intros e prog H1 H2. congruence. Qed.

Theorem C41_runs : forall e late grow prog w0, uncut e prog -> Forall few_patches prog -> forall n,
  match turns (wave_step e late grow) n (wave_init prog w0) with
  | Go st => exists acts p, scheduled e clash less_again prog w0 acts (v_world st) p /\ t_events (v_tally st) = seen acts
      /\ kept_order clash prog acts
      /\ forall j x0, nth_error prog j = Some x0 -> exists o, nth_error p j = Some o /\ life less_again x0 (tries j acts) o
  | Halt t r => wave_left e late grow prog w0 t r
  end.
Proof.
  intros e late grow prog w0 Pl Few n. pose proof (turns_ok e late grow prog w0 Pl Few n _ _ _ _ (init_ok e late grow prog w0 Few)) as W.
  destruct (turns (wave_step e late grow) n (wave_init prog w0)) as [st|t r]; [|exact W].
  destruct W as (new & p & more & W & _). cbn [app] in W. exists new, p. pose proof (wa_sched _ _ _ _ _ _ _ _ _ _ _ W) as S. split; [exact S|].
  split; [apply (wa_events _ _ _ _ _ _ _ _ _ _ _ W)|]. split; [|eapply sched_life; eauto].
  intros i j u v Hij Pu Pv Hc t1 x a o t2 Et. eapply sched_order; eauto.
Qed.
Print Assumptions C41_runs.

(** A run that finishes has carried out every instruction exactly once, with all its
    follow-ups, and those that share a patch in program order; with EDPC, unless one was lost. *)
Theorem C41_ends : forall e late grow prog w0 n t, uncut e prog -> Forall few_patches prog ->
  turns (wave_step e late grow) n (wave_init prog w0) = Halt t Finished ->
  exists acts w p, scheduled e clash less_again prog w0 acts w p /\ t_events t = seen acts /\ kept_order clash prog acts
    /\ ((forall j x0, nth_error prog j = Some x0 -> life less_again x0 (tries j acts) None)
        \/ exists j, ready clash prog p j /\ lost e p acts j).
Proof.
  intros e late grow prog w0 n t Pl Few T. pose proof (C41_runs e late grow prog w0 Pl Few n) as R. rewrite T in R.
  inversion R as [acts w p S Ev Al _ _|acts w p j x r _ _ _ _ X|?|?|?|?|acts w p r _ _ X|?|acts w p r _ _ _ X|acts w p j S Ev Rd Lo]; subst.
  - exists acts, w, p. split; [exact S|]. split; [exact Ev|]. split; [intros i j u v Hij Pu Pv Hc t1 x a o t2 Et; eapply sched_order; eauto|].
    left. intros j x0 Pj. destruct (sched_life _ _ _ _ _ _ _ _ S _ _ Pj) as (o & O1 & O2). rewrite Forall_forall in Al.
    rewrite (Al o) in O2; [exact O2|eapply nth_error_In; eauto].
  - destruct (try_apply e w x); [contradiction|discriminate..].
  - destruct (advance_slice (e_layout e) (w_slice w)); [contradiction|discriminate..].
  - destruct (give_back (w_slice w)); [contradiction|discriminate..].
  - exists acts, w, p. split; [exact S|]. split; [exact Ev|]. split; [intros i k u v Hij Pu Pv Hc t1 x a o t2 Et; eapply sched_order; eauto|]. right. eauto.
Qed.
Print Assumptions C41_ends.

Theorem C41_finished : forall e late grow prog w0 n t, e_edpc e = false -> Forall few_patches prog ->
  turns (wave_step e late grow) n (wave_init prog w0) = Halt t Finished ->
  exists acts w p, scheduled e clash less_again prog w0 acts w p /\ t_events t = seen acts /\ kept_order clash prog acts
    /\ forall j x0, nth_error prog j = Some x0 -> life less_again x0 (tries j acts) None.
Proof.
  intros e late grow prog w0 n t Pl Few T. destruct (C41_ends e late grow prog w0 n t (plain_uncut e prog Pl) Few T) as (acts & w & p & S & Ev & K & [L|(j & _ & Lo & _)]); [|congruence].
  exists acts, w, p. auto.
Qed.
Print Assumptions C41_finished.

(** In every slice, every instruction whose turn had come when the slice began is attempted, unless it was lost; and it gets on. *)
Theorem C41_attempted : forall e late grow prog w0 n st st', uncut e prog -> Forall few_patches prog ->
  turns (wave_step e late grow) n (wave_init prog w0) = Go st -> wave_step e late grow st = Go st' ->
  exists acts new p p', scheduled e clash less_again prog w0 acts (v_world st) p /\ t_events (v_tally st) = seen acts
    /\ scheduled e clash less_again prog w0 (acts ++ new) (v_world st') p' /\ t_events (v_tally st') = seen (acts ++ new)
    /\ forall j, ready clash prog p j -> (exists x a o, In (Try j x a o) new /\ moves e x a o) \/ lost e p acts j.
Proof.
  intros e late grow prog w0 n st st' Pl Few T S. pose proof (turns_ok e late grow prog w0 Pl Few n _ _ _ _ (init_ok e late grow prog w0 Few)) as W. rewrite T in W.
  destruct W as (acts & p & more & W). cbn [app] in W. pose proof (step_ok e late grow prog w0 Pl Few _ _ _ _ W) as W2. rewrite S in W2.
  destruct W2 as (new & p' & more2 & [W2 _] & _ & At). destruct W as [W _]. exists acts, new, p, p'.
  split; [apply (wa_sched _ _ _ _ _ _ _ _ _ _ _ W)|]. split; [apply (wa_events _ _ _ _ _ _ _ _ _ _ _ W)|].
  split; [apply (wa_sched _ _ _ _ _ _ _ _ _ _ _ W2)|]. split; [apply (wa_events _ _ _ _ _ _ _ _ _ _ _ W2)|exact At].
Qed.
Print Assumptions C41_attempted.

(** If the list of instructions is never moved, the scheduler itself does nothing undefined: what is undefined is undefined
    in an attempt, in the advance or where marks are taken back. *)
Theorem C41_no_move : forall e late grow prog w0 n t u, uncut e prog -> Forall few_patches prog -> (forall m, length prog <= m -> grow m = false) ->
  turns (wave_step e late grow) n (wave_init prog w0) = Halt t (Undefined u) ->
  (exists w i, try_apply e w i = UB u) \/ (exists s, advance_slice (e_layout e) s = UB u) \/ (e_edpc e = true /\ exists s, give_back s = UB u).
Proof.
  intros e late grow prog w0 n t u Pl Few Gr T. pose proof (C41_runs e late grow prog w0 Pl Few n) as R. rewrite T in R.
  inversion R as [|acts w p j x r _ _ _ _ X|?|?|?|?|acts w p r _ _ X|acts w p _ _ _ (m & M1 & M2)|acts w p r _ _ Ed X|]; subst.
  - left. exists w, x. destruct (try_apply e w x); try contradiction; congruence.
  - right. left. exists (w_slice w). destruct (advance_slice (e_layout e) (w_slice w)); try contradiction; congruence.
  - rewrite (Gr m M1) in M2. discriminate.
  - right. right. split; [exact Ed|]. exists (w_slice w). destruct (give_back (w_slice w)); try contradiction; congruence.
Qed.
Print Assumptions C41_no_move.

(** ** C39 and C42 for the wave pipeline *)

Theorem C39_wave : forall e late grow prog w0 n t, uncut e prog -> Forall few_patches prog ->
  turns (wave_step e late grow) n (wave_init prog w0) = Halt t Finished ->
  t_slices t = (1 + N.of_nat (length (emitted (t_events t))))%N
  /\ N.of_nat (length (t_events t)) = (t_instrs t + N.of_nat (length (emitted (t_events t))))%N
  /\ (e_edpc e = false -> (N.of_nat (length prog) <= t_instrs t)%N).
Proof.
  intros e late grow prog w0 n t Pl Few T. pose proof (C41_runs e late grow prog w0 Pl Few n) as R. rewrite T in R.
  inversion R as [acts w p S Ev Al Sl In_|acts w p j x r _ _ _ _ X|?|?|?|?|acts w p r _ _ X|?|acts w p r _ _ _ X|acts w p j S Ev Rd Lo Sl In_]; subst.
  2: { destruct (try_apply e w x); [contradiction|discriminate..]. }
  2: { destruct (advance_slice (e_layout e) (w_slice w)); [contradiction|discriminate..]. }
  2: { destruct (give_back (w_slice w)); [contradiction|discriminate..]. }
  2: { rewrite Ev. split; [exact Sl|]. split; [exact In_|]. intros Pf. destruct Lo. congruence. }
  rewrite Ev. split; [exact Sl|]. split; [exact In_|]. intros _. pose proof (sched_counted _ _ _ _ _ _ _ _ S Al). lia.
Qed.
Print Assumptions C39_wave.

Lemma life_patience : forall x0 l o, life less_again x0 l o -> forall x, o = Some x -> (forall y a, In (y, a) l -> a_error a = true) ->
  (wait x0 <= wait x + N.of_nat (length l))%N.
Proof.
  intros x0 l o H. induction H as [|l x a y H IH Er Ag|l x a H IH Er]; intros z Ez Al.
  - injection Ez as <-. cbn. lia.
  - injection Ez as <-. assert (Al' : forall y b, In (y, b) l -> a_error b = true) by (intros u b Hu; apply (Al u b); apply in_app_iff; now left).
    specialize (IH x eq_refl Al'). rewrite app_length. cbn [length]. destruct Ag as [->|[Nz ->]]; cbn [tried wait]; lia.
  - exfalso. rewrite (Al x a) in Er; [discriminate|]. apply in_app_iff. right. now left.
Qed.

(** Before an instruction is accepted for the first time it is refused at most once more than its limit says; and it has no
    wait left, which is the condition to give up, only after as many refusals as its limit says. *)
Theorem C42_wave : forall e late grow prog w0 n st, e_edpc e = false -> Forall few_patches prog ->
  turns (wave_step e late grow) n (wave_init prog w0) = Go st ->
  exists acts p, scheduled e clash less_again prog w0 acts (v_world st) p /\ t_events (v_tally st) = seen acts
    /\ forall j x0, nth_error prog j = Some x0 -> (forall x a, In (x, a) (tries j acts) -> a_error a = true) ->
         (N.of_nat (length (tries j acts)) <= wait x0 + 1)%N
         /\ exists x, nth_error p j = Some (Some x) /\ (wait x0 <= wait x + N.of_nat (length (tries j acts)))%N.
Proof.
  intros e late grow prog w0 n st Pf Few T. pose proof (plain_uncut e prog Pf) as Pl. pose proof (turns_ok e late grow prog w0 Pl Few n _ _ _ _ (init_ok e late grow prog w0 Few)) as W. rewrite T in W.
  destruct W as (acts & p & more & W & _). cbn [app] in W. exists acts, p. pose proof (wa_sched _ _ _ _ _ _ _ _ _ _ _ W) as S.
  split; [exact S|]. split; [apply (wa_events _ _ _ _ _ _ _ _ _ _ _ W)|]. intros j x0 Hj Al.
  destruct (sched_life _ _ _ _ _ _ _ _ S _ _ Hj) as (o & O1 & O2). destruct o as [x|].
  - pose proof (wa_limit _ _ _ _ _ _ _ _ _ _ _ W Pf j x0 x Hj O1 Al). pose proof (life_patience _ _ _ O2 _ eq_refl Al). split; [lia|].
    exists x. auto.
  - exfalso. assert (X : exists x a, In (x, a) (tries j acts) /\ a_error a = false).
    { inversion O2 as [E|l x a y H Er Ag E|l x a H Er E]. exists x, a. split; [apply in_app_iff; right; now left|exact Er]. }
    destruct X as (x & a & X & Er). rewrite (Al x a X) in Er. discriminate.
Qed.
Print Assumptions C42_wave.

(** ** Concrete runs *)

Definition plain_env : env := mkEnv false false false false (fst ex_start) (plain_router (fst ex_start) false pick_min false).
Definition wave_run (e : env) (grow : nat -> bool) (n : nat) (prog : list instr) (w : world) : progress wave_st :=
  turns (wave_step e never grow) n (wave_init prog w).
(** Capacities 1, 2, 4, 8, ... as in libstdc++ *)
Fixpoint power_of_two (f m : nat) : bool :=
  match f with O => false | S f => if Nat.eqb m 1 then true else (Nat.even m && power_of_two f (Nat.div2 m))%bool end.
Definition doubling (m : nat) : bool := (Nat.eqb m 0 || power_of_two m m)%bool.

(** A joint measurement, then a rotation of the one patch and a measurement of the other: the follow-up of the
    rotation is appended while the dependents of the joint measurement are being read. *)
Definition moving : list instr :=
  [instr_of (MultiMeasure [(7, PX); (3, PX)]%N false None); instr_of (Rotate 7); instr_of (Measure 3 PZ false); instr_of (Measure 7 PZ false)].
Theorem C41_dangling_refuted : exists t, wave_run plain_env doubling 9 moving ex_world = Halt t (Undefined UBDangling).
Proof. eexists. vm_compute. reflexivity. Qed.
Print Assumptions C41_dangling_refuted.
Example C41_ex_move : Forall few_patches moving /\ exists t, wave_run plain_env (fun _ => false) 9 moving ex_world = Halt t Finished
  /\ sights t = [OtherOp; Rotation 7; Measured 3; Slice_; Waiting 2; Slice_; Waiting 1; Slice_; Waiting 0; Measured 7; Slice_]%N
  /\ map rotating_tiles (emitted (t_events t)) = [2; 2; 2; 0].
Proof. split; [repeat constructor; vm_compute; auto; lia|]. eexists. split; [vm_compute; reflexivity|]. vm_compute. auto. Qed.

(** Four instructions in four slices: reported as seven and five. *)
Theorem C39_wave_refuted : exists t, wave_run plain_env (fun _ => false) 9 moving ex_world = Halt t Finished
  /\ t_slices t = 5%N /\ length (emitted (t_events t)) = 4 /\ t_instrs t = 7%N.
Proof. eexists. split; [vm_compute; reflexivity|]. vm_compute. auto. Qed.
Print Assumptions C39_wave_refuted.

(** The second measurement may not wait at all.  Stream compilation gives up; here it is refused in the first slice and
    carried out in the second. *)
Definition impatient : list instr :=
  [instr_of (MultiMeasure [(7, PX); (3, PX)]%N false None); mkI (MultiMeasure [(7, PZ); (3, PZ)]%N false None) 0 []].
Theorem C42_wave_refuted : (exists t, wave_run plain_env (fun _ => false) 9 impatient ex_world = Halt t Finished /\ sights t = [OtherOp; Slice_; OtherOp; Slice_])
  /\ exists t, turns (stream_step plain_env never) 9 (stream_init impatient ex_world) = Halt t (Failed RuntimeError).
Proof. split; [eexists; split; vm_compute; reflexivity|eexists; vm_compute; reflexivity]. Qed.
Print Assumptions C42_wave_refuted.

(** With EDPC: three CNOTs between six qubits.  The routes of the first two cross: they start together, and the second, which
    crosses, takes four slices in place of two; the third finds no route at first and starts when the first is done. *)
Definition six_start : layout * slice := Eval vm_compute in
  match (do L <- layout_from_spec (lit "rrrrrrr
rQrQrQr
rrrrrrr
rQrQrQr
rrrrrrr") (mkDO true 2) ;; do s <- new_slice L [1; 2; 3; 4; 5; 6]%N ;; Ok (L, s)) with
  | Ok x => x | _ => ex_start end.
Definition six_env : env := mkEnv true false false true (fst six_start) (plain_router (fst six_start) true pick_min false).
Definition six_prog : list instr := [instr_of (BellCNOT 1 6 20 21 None None None None); instr_of (BellCNOT 3 4 22 23 None None None None);
  instr_of (BellCNOT 2 5 24 25 None None None None)].
Example C41_ex_edpc : e_edpc six_env = true /\ uncut six_env six_prog /\ Forall few_patches six_prog
  /\ exists t, wave_run six_env (fun _ => false) 20 six_prog (mkW (snd six_start) 0 []) = Halt t Finished
    /\ map (fun v => match v with Applied i => match op i with BellCNOT c t _ _ _ _ _ k => Some (c, t, k) | _ => None end | Emitted _ => None end) (t_events t) =
      [Some (1%N, 6%N, Some 1); Some (3%N, 4%N, Some 1); None; Some (1%N, 6%N, Some 1); Some (3%N, 4%N, Some 2); None;
       Some (3%N, 4%N, Some 3); Some (2%N, 5%N, Some 1); None; Some (3%N, 4%N, Some 3); Some (2%N, 5%N, Some 1); None].
Proof.
  split; [reflexivity|]. split; [intros _; repeat constructor|]. split; [repeat constructor; vm_compute; auto; lia|].
  eexists. split; [vm_compute; reflexivity|]. vm_compute. auto.
Qed.
