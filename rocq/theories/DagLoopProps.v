(** The DAG pipeline: order and completeness (C40), counters (C39), limits (C42). *)
From Verif Require Import Base PatchesModel TextModel LayoutModel LayoutSpec InstrModel LoweringModel DagModel SliceModel RouterModel ApplyModel
  RunModel RunProofs SchedSpec SchedProofs DagLoop RouterProps BellProps RunProps.
Open Scope nat_scope.

(** Two instructions that conflict were kept in order, and every instruction
    was attempted, with its follow-ups, until nothing was left of it. *)
Definition kept_order (conflict : instr -> instr -> bool) (prog : list instr) (acts : list act) : Prop :=
  forall i j u v, i < j -> nth_error prog i = Some u -> nth_error prog j = Some v -> conflict u v = true ->
  forall t1 x a o t2, acts = t1 ++ Try j x a o :: t2 -> tries i t2 = [].

(** ** C40 *)

(** Every run, however far it got, is an order of carrying out the program that respects its
    dependencies; and it stops only for one of the reasons of [dag_left]. *)
Theorem C40_runs : forall e late prog w0,
  exists st0, dag_init prog w0 = Go st0 /\ forall n,
  match turns (dag_step e late) n st0 with
  | Go st => exists acts p, scheduled e clash same_again prog w0 acts (ds_world st) p /\ t_events (ds_tally st) = seen acts
      /\ kept_order clash prog acts
      /\ forall j x0, nth_error prog j = Some x0 -> exists o, nth_error p j = Some o /\ life same_again x0 (tries j acts) o
  | Halt t r => dag_left e late prog w0 t r
  end.
Proof.
  intros e late prog w0. destruct (start_dag e late prog w0) as (st0 & L & I & D). exists st0. split; [exact I|]. intros n.
  pose proof (turns_dag e late prog w0 n st0 _ _ _ D) as W. destruct (turns (dag_step e late) n st0) as [st|t r]; [|exact W].
  destruct W as (new & p & L' & D'). exists new, p. pose proof (da_sched _ _ _ _ _ _ _ D') as S. split; [exact S|].
  split; [apply (da_events _ _ _ _ _ _ _ D')|]. split; [|eapply sched_life; eauto].
  intros i j u v Hij Pu Pv Hc t1 x a o t2 Et. eapply sched_order; eauto.
Qed.
Print Assumptions C40_runs.

(** A run that finishes has carried out every instruction exactly once, with all its
    follow-ups, and those that do not commute in program order. *)
Theorem C40_finished : forall e late prog w0 st0 n t, dag_init prog w0 = Go st0 ->
  turns (dag_step e late) n st0 = Halt t Finished ->
  exists acts w p, scheduled e clash same_again prog w0 acts w p /\ t_events t = seen acts /\ kept_order clash prog acts
    /\ forall j x0, nth_error prog j = Some x0 -> life same_again x0 (tries j acts) None.
Proof.
  intros e late prog w0 st0 n t I T. destruct (C40_runs e late prog w0) as (st & I' & R). assert (st = st0) by congruence. subst st.
  specialize (R n). rewrite T in R. inversion R as [acts w p S Ev Al _ _|acts w p j x r _ _ _ X|?|?|?|acts w p r _ _ X]; subst.
  - exists acts, w, p. split; [exact S|]. split; [exact Ev|]. split; [intros i j u v Hij Pu Pv Hc t1 x a o t2 Et; eapply sched_order; eauto|].
    intros j x0 Pj. destruct (sched_life _ _ _ _ _ _ _ _ S _ _ Pj) as (o & O1 & O2). rewrite Forall_forall in Al.
    rewrite (Al o) in O2; [exact O2|eapply nth_error_In; eauto].
  - destruct (try_apply e w x); [contradiction|discriminate..].
  - destruct (advance_slice (e_layout e) (w_slice w)); [contradiction|discriminate..].
Qed.
Print Assumptions C40_finished.

Lemma dag_rounds : forall e late prog w0 m st st' acts p L, dag_at_point e prog w0 st acts p L -> turns (dag_step e late) m st = Go st' ->
  exists new p' L', dag_at_point e prog w0 st' (acts ++ new) p' L' /\ forall j, ready clash prog p j ->
    (exists x a, In (x, a) (tries j new) /\ a_error a = false) \/ (m <= length (tries j new) /\ forall x a, In (x, a) (tries j new) -> a_error a = true).
Proof.
  intros e late prog w0. induction m as [|m IH]; intros st st' acts p L D T.
    - injection T as <-. exists [], p, L. rewrite app_nil_r. split; [exact D|]. intros j _. right. split; [cbn; lia|intros x a []].
    - cbn [turns] in T. pose proof (step_dag e late prog w0 st acts p L D) as W. destruct (dag_step e late st) as [st1|t r]; cbn [pbind] in T; [|discriminate].
      destruct W as (new & p1 & L1 & D1 & At). destruct (IH _ _ _ _ _ D1 T) as (new2 & p2 & L2 & D2 & R). exists (new ++ new2), p2, L2. rewrite app_assoc. split; [exact D2|].
      intros j Rj. rewrite tries_app. specialize (At j Rj).
      assert (Cs : (exists x a, In (x, a) (tries j new) /\ a_error a = false) \/ forall x a, In (x, a) (tries j new) -> a_error a = true).
      { clear. induction (tries j new) as [|[x a] l IH]; [right; intros ? ? []|]. destruct (a_error a) eqn:Er; [|left; exists x, a; split; [now left|exact Er]].
        destruct IH as [(y & b & ? & ?)|H]; [left; exists y, b; split; [now right|auto]|]. right. intros y b [E|Hy]; [congruence|eauto]. }
      destruct Cs as [(x & a & ? & ?)|Al]; [left; exists x, a; split; [apply in_app_iff; auto|auto]|].
      assert (Rj' : ready clash prog p1 j).
      { eapply sched_ready; [exact (da_sched _ _ _ _ _ _ _ D)|exact (da_sched _ _ _ _ _ _ _ D1)|exact Rj|exact Al]. }
      destruct (R j Rj') as [(x & a & ? & ?)|[Le Al2]]; [left; exists x, a; split; [apply in_app_iff; auto|auto]|].
      right. split.
      + rewrite app_length. destruct (tries j new); [congruence|cbn [length]; lia].
      + intros x a Hx. apply in_app_iff in Hx. destruct Hx; eauto.
Qed.

(** An instruction whose turn has come is attempted in every slice, and if it is refused
    in 101 consecutive slices the run does not go on. *)
Theorem C40_gives_up : forall e late prog w0 st0 n st st', dag_init prog w0 = Go st0 ->
  turns (dag_step e late) n st0 = Go st -> turns (dag_step e late) 101 st = Go st' ->
  exists acts new p p', scheduled e clash same_again prog w0 acts (ds_world st) p /\ t_events (ds_tally st) = seen acts
    /\ scheduled e clash same_again prog w0 (acts ++ new) (ds_world st') p' /\ t_events (ds_tally st') = seen (acts ++ new)
    /\ forall j, ready clash prog p j -> exists x a, In (x, a) (tries j new) /\ a_error a = false.
Proof.
  intros e late prog w0 st0 n st st' I T T'. destruct (start_dag e late prog w0) as (st1 & L & I' & D0). assert (st1 = st0) by congruence. subst st1.
  pose proof (turns_dag e late prog w0 n st0 _ _ _ D0) as W. rewrite T in W. destruct W as (acts & p & L' & D). cbn [app] in D.
  destruct (dag_rounds e late prog w0 101 st st' acts p L' D T') as (new & p' & L2 & D' & R).
  exists acts, new, p, p'. split; [apply (da_sched _ _ _ _ _ _ _ D)|]. split; [apply (da_events _ _ _ _ _ _ _ D)|].
  split; [apply (da_sched _ _ _ _ _ _ _ D')|]. split; [apply (da_events _ _ _ _ _ _ _ D')|].
  intros j Rj. destruct (R j Rj) as [X|[Le Al]]; [exact X|]. exfalso.
  pose proof (da_bound _ _ _ _ _ _ _ D' j) as B. rewrite tries_app, refusals_all in B by exact Al. lia.
Qed.
Print Assumptions C40_gives_up.

(** ** C39 and C42 for the DAG pipeline *)

(** The slice count is one more than the number of slices emitted; the instruction count is the
    number of successful attempts. *)
Theorem C39_dag : forall e late prog w0 st0 n t, dag_init prog w0 = Go st0 ->
  turns (dag_step e late) n st0 = Halt t Finished ->
  t_slices t = (1 + N.of_nat (length (emitted (t_events t))))%N
  /\ N.of_nat (length (t_events t)) = (t_instrs t + N.of_nat (length (emitted (t_events t))))%N
  /\ (N.of_nat (length prog) <= t_instrs t)%N.
Proof.
  intros e late prog w0 st0 n t I T. destruct (C40_runs e late prog w0) as (st & I' & R). assert (st = st0) by congruence. subst st.
  specialize (R n). rewrite T in R. inversion R as [acts w p S Ev Al Sl In_|acts w p j x r _ _ _ X|?|?|?|acts w p r _ _ X]; subst.
  2: { destruct (try_apply e w x); [contradiction|discriminate..]. }
  2: { destruct (advance_slice (e_layout e) (w_slice w)); [contradiction|discriminate..]. }
  rewrite Ev. split; [exact Sl|]. split; [exact In_|]. pose proof (sched_counted _ _ _ _ _ _ _ _ S Al). lia.
Qed.
Print Assumptions C39_dag.

(** No instruction is ever refused more than 100 times in a row, whatever its own limit. *)
Theorem C42_dag : forall e late prog w0 st0 n st, dag_init prog w0 = Go st0 ->
  turns (dag_step e late) n st0 = Go st ->
  exists acts p, scheduled e clash same_again prog w0 acts (ds_world st) p /\ t_events (ds_tally st) = seen acts
    /\ forall j, refusals (tries j acts) <= 100.
Proof.
  intros e late prog w0 st0 n st I T. destruct (start_dag e late prog w0) as (st1 & L & I' & D0). assert (st1 = st0) by congruence. subst st1.
  pose proof (turns_dag e late prog w0 n st0 _ _ _ D0) as W. rewrite T in W. destruct W as (acts & p & L' & D). cbn [app] in D.
  exists acts, p. split; [apply (da_sched _ _ _ _ _ _ _ D)|]. split; [apply (da_events _ _ _ _ _ _ _ D)|apply (da_bound _ _ _ _ _ _ _ D)].
Qed.
Print Assumptions C42_dag.

(** ** Concrete runs *)

Definition dag_run (e : env) (n : nat) (prog : list instr) (w : world) : progress dag_st :=
  let! st := dag_init prog w in turns (dag_step e never) n st.
(** Names of what was seen *)
Inductive sight := Hadamard (q : N) | Rotation (q : N) | Waiting (n : N) | Measured (q : N) | Magic (q : N) | OtherOp | Slice_.
Definition sights (t : tally) : list sight :=
  map (fun x => match x with
       | Emitted _ => Slice_
       | Applied i => match op i with
           | SingleOp q SqH _ => Hadamard q | Rotate q => Rotation q | Busy _ n _ => Waiting n | Measure q _ _ => Measured q
           | MagicRequest q _ => Magic q | _ => OtherOp end
       end) (t_events t).

(** Four instructions in three slices: reported as seven and four. *)
Theorem C39_dag_refuted : exists t, dag_run bell_env 9 [hadamard 7; hadamard 7; instr_of (Rotate 3); instr_of (Measure 7 PZ false)] ex_world = Halt t Finished
  /\ t_slices t = 4%N /\ length (emitted (t_events t)) = 3 /\ t_instrs t = 7%N.
Proof. eexists. split; [vm_compute; reflexivity|]. repeat split; vm_compute; reflexivity. Qed.
Print Assumptions C39_dag_refuted.

Example C40_ex : exists t, dag_run bell_env 9 [hadamard 7; hadamard 7; instr_of (Rotate 3); instr_of (Measure 7 PZ false)] ex_world = Halt t Finished
  /\ sights t = [Hadamard 7; Rotation 3; Slice_; Waiting 2; Hadamard 7; Waiting 1; Slice_; Waiting 0; Measured 7; Slice_]%N.
Proof. eexists. split; vm_compute; reflexivity. Qed.

(** The follow-up of a follow-up is applied in the slice of the latter: a rotation is
    over after two slices instead of three (stream: C37_rotation, [C38_ex]). *)
Definition rotating_tiles (s : slice) : nat :=
  length (filter (fun x => match snd x with Some p => match p_act (dp p) with ARotation => true | _ => false end | None => false end) (tiles s)).
Theorem C37_dag_refuted :
  (exists t, dag_run bell_env 9 [instr_of (Rotate 3)] ex_world = Halt t Finished /\ map rotating_tiles (emitted (t_events t)) = [2; 2; 0]) /\
  (exists t, turns (stream_step bell_env never) 9 (stream_init [instr_of (Rotate 3)] ex_world) = Halt t Finished /\
     map rotating_tiles (emitted (t_events t)) = [2; 2; 2; 0]).
Proof. split; eexists; split; vm_compute; reflexivity. Qed.
Print Assumptions C37_dag_refuted.

(** The limit of an instruction is not looked at: a request that must not wait waits for three slices. *)
Definition magic_text : text := lit "rrr
rQr
111".
Definition magic_start : layout * slice := Eval vm_compute in
  match (do L <- layout_from_spec magic_text (mkDO true 3) ;; do s <- new_slice L [7]%N ;; Ok (L, s)) with
  | Ok x => x | _ => ex_start
  end.
Definition magic_env : env := mkEnv false false false false (fst magic_start) (plain_router (fst magic_start) false pick_min false).
Theorem C42_dag_refuted : exists t, dag_run magic_env 9 [mkI (MagicRequest 9 7) 0 []] (mkW (snd magic_start) 0 []) = Halt t Finished
  /\ sights t = [Slice_; Slice_; Slice_; Magic 9; Slice_]%N.
Proof. eexists. split; vm_compute; reflexivity. Qed.
Print Assumptions C42_dag_refuted.
(** An instruction on a patch that is not there is given up at the 101st attempt although its limit is 2^64 - 1. *)
Example C40_gives_up_ex : exists t, dag_run bell_env 200 [hadamard 99] ex_world = Halt t (Failed RuntimeError)
  /\ length (emitted (t_events t)) = 100.
Proof. eexists. split; vm_compute; reflexivity. Qed.
