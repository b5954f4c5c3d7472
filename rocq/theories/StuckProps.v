(** C68: a circuit the tool accepts is compiled to its end on the layout the tool generates for it. *)
From Verif Require Import Base TextModel PatchesModel LayoutModel InstrModel LoweringModel GatesModel DagModel SliceModel RouterModel RouterProps ApplyModel
  RunModel WaveModel RunInv RunProps SlicerModel SlicerProps.
Open Scope nat_scope.

(** *** A circuit that is not compiled

    The layout generated for one qubit and one T gate has one factory with a queue of three tiles in a column.  The factory fills them in thirty slices.  The magic
    state handed out is the one nearest to the qubit, at the end of the column: the edges of its Z operator are at the rim of the lattice and at the next magic state.  No route leads
    to it, and the magic state in its way is never asked for.  Eight gates before the T gate are enough. *)
Definition late_t : list string :=
  ["OPENQASM 2.0;"; "include ""qelib1.inc"";"; "qreg q[1];"; "h q[0];"; "s q[0];"; "h q[0];"; "s q[0];"; "h q[0];"; "s q[0];"; "h q[0];"; "s q[0];"; "t q[0];"]%string.
Definition compile (l : list string) (o : list (string * string)) : process * outcome (stage job) :=
  slicer (fun _ => Throw RuntimeError) false 100 false (ex_mach (ex_lines l)) (line_of (("input-format", "qasm") :: o)%string) (mkProc DedicatedCell None).
Definition stuck_job : option (job * list instr * world) := Eval vm_compute in
  match compile late_t [] with
  | (p, Ok (On j)) =>
      match instructions (fun _ => Throw RuntimeError) false 100 (pr_default p) (j_stream j), job_world 0 j with
      | Ok (l, _), Ok w => Some (j, l, w) | _, _ => None
      end
  | _ => None
  end.


Definition stuck_env : env := match stuck_job with Some (j, _, _) => job_env pick_min j | None => jam_env end.
Definition stuck_prog : list instr := match stuck_job with Some (_, l, _) => l | None => [] end.
Definition stuck_world : world := match stuck_job with Some (_, _, w) => w | None => mkW (snd jam_start) 0 [] end.

(** The lattice when the T gate is under way, for the ten states of the factory *)
Definition stuck_at (n : nat) : option (world * operation * list N * list instr) :=
  match turns (stream_step stuck_env never) n (stream_init stuck_prog stuck_world) with
  | Go (mkSS w [i] r _) => Some (w, op i, clients i, r)
  | _ => None
  end.
Definition stuck_worlds : list world := Eval vm_compute in
  flat_map (fun n => match stuck_at n with Some (w, _, _, _) => [w] | None => [] end) (seq 70 10).
Definition stuck_op : operation := Eval vm_compute in match stuck_at 70 with Some (_, o, _, _) => o | None => Rotate 0 end.
Definition stuck_clients : list N := Eval vm_compute in match stuck_at 70 with Some (_, _, c, _) => c | None => [] end.
Definition stuck_rest : list instr := Eval vm_compute in match stuck_at 70 with Some (_, _, _, r) => r | None => [] end.
Definition wave_at (n : nat) : option wave_st :=
  match turns (wave_step stuck_env never never) n (wave_init stuck_prog stuck_world) with Go s => Some s | _ => None end.
Definition stuck_wave : wave_st := Eval vm_compute in match wave_at 70 with Some s => s | None => wave_init [] stuck_world end.
Definition wave_worlds : list world := Eval vm_compute in flat_map (fun n => match wave_at n with Some s => [v_world s] | None => [] end) (seq 70 10).

(** A time limit ends a run with an exception or does not make a difference. *)
Definition agrees {S} (f g : S -> progress S) : Prop := forall s, f s = g s \/ exists t, f s = Halt t (Failed RuntimeError).
Lemma turns_agree : forall (A : Type) (f g : A -> progress A), agrees f g ->
  forall n s t r, turns f n s = Halt t r -> r = Failed RuntimeError \/ turns g n s = Halt t r.
Proof.
  intros A f g Ag. induction n as [|n IH]; intros s t r H; [discriminate|]. cbn [turns] in *. destruct (Ag s) as [E|[t' E]]; rewrite E in H.
  - destruct (g s) as [s'|t' r']; cbn [pbind] in *; [eauto|now right].
  - cbn [pbind] in H. injection H as _ <-. now left.
Qed.
Lemma stream_agrees : forall e late, agrees (stream_step e late) (stream_step e never).
Proof.
  intros e late s. unfold stream_step, visit, never. destruct (take_next s) as [[i s1]|]; [|destruct (late _); cbn; eauto].
  destruct (try_apply _ _ _); cbn [lift pbind]; eauto. destruct (a_follow _); [destruct (negb _); eauto|]; destruct (late _); cbn; eauto.
Qed.
Lemma dag_agrees : forall e late, agrees (dag_step e late) (dag_step e never).
Proof.
  intros e late s. unfold dag_step, visit, never. destruct (dag_is_empty _); [eauto|]. destruct (pfold _ _ _); cbn [pbind]; eauto. destruct (lift _ _); cbn [pbind]; eauto.
  destruct (pfold _ _ _); cbn [pbind]; eauto. destruct (late _); cbn; eauto.
Qed.
Lemma wave_agrees : forall e late grow, agrees (wave_step e late grow) (wave_step e never grow).
Proof.
  intros e late grow s. unfold wave_step, visit, never. destruct (v_prox s), (v_heads s); eauto; (destruct (schedule_wave _ _ _); cbn [pbind]; [destruct (late _); cbn; eauto|eauto]).
Qed.

Lemma turns_once : forall (A : Type) (f : A -> progress A) n m s t r t' r', turns f n s = Halt t r -> turns f m s = Halt t' r' -> t = t' /\ r = r'.
Proof.
  intros A f. induction n as [|n IH]; intros [|m] s t r t' r' H K; try discriminate. cbn [turns] in *. destruct (f s); cbn [pbind] in *; [eauto|]. split; congruence.
Qed.

(** A set of states that a step stays in or leaves with an exception *)
Lemma trapped : forall (A : Type) (f : A -> progress A) (J : A -> Prop), (forall s, J s -> (exists s', f s = Go s' /\ J s') \/ exists t, f s = Halt t (Failed RuntimeError)) ->
  forall n s t r, J s -> turns f n s = Halt t r -> r = Failed RuntimeError.
Proof.
  intros A f J HJ. induction n as [|n IH]; intros s t r Hs H; [discriminate|]. cbn [turns] in H. destruct (HJ s Hs) as [(s' & E & Hs')|[t' E]]; rewrite E in H; cbn [pbind] in H; [eauto|congruence].
Qed.
(** The first [k] turns lead there. *)
Lemma trapped_after : forall (A : Type) (f : A -> progress A) (J : A -> Prop), (forall s, J s -> (exists s', f s = Go s' /\ J s') \/ exists t, f s = Halt t (Failed RuntimeError)) ->
  forall k s s' n t r, turns f k s = Go s' -> J s' -> turns f n s = Halt t r -> r = Failed RuntimeError.
Proof.
  intros A f J HJ. induction k as [|k IH]; intros s s' n t r K Hs H.
  - injection K as <-. eapply trapped; eauto.
  - destruct n as [|n]; [discriminate|]. cbn [turns] in *. destruct (f s) as [s1|]; cbn [pbind] in *; [eauto|discriminate].
Qed.

Definition stuck_instr (wt : N) : instr := mkI stuck_op wt stuck_clients.
Definition in_stream (s : stream_st) : Prop := exists w wt t, In w stuck_worlds /\ s = mkSS w [stuck_instr wt] stuck_rest t.
Lemma stuck_try : forall w, In w stuck_worlds -> exists a, (forall wt, try_apply stuck_env w (stuck_instr wt) = Ok a)
  /\ a_op a = stuck_op /\ a_error a = true /\ a_follow a = [] /\ exists s, advance_slice (e_layout stuck_env) (w_slice (a_world a)) = Ok s /\ In (with_slice (a_world a) s) stuck_worlds.
Proof.
  intros w H. repeat (destruct H as [<-|H]; [eexists; (split; [intros wt; vm_compute; reflexivity|]); (split; [reflexivity|]); (split; [reflexivity|]); (split; [reflexivity|]);
    eexists; (split; [vm_compute; reflexivity|]); repeat (first [left; reflexivity|right])|]). destruct H.
Qed.
Lemma stream_stuck : forall s, in_stream s -> (exists s', stream_step stuck_env never s = Go s' /\ in_stream s') \/ exists t, stream_step stuck_env never s = Halt t (Failed RuntimeError).
Proof.
  intros s (w & wt & t & Hw & ->). destruct (stuck_try w Hw) as (a & T & Ho & He & Hf & s' & Ha & Hin).
  unfold stream_step. cbn [take_next ss_future ss_rest ss_world ss_tally]. rewrite T. cbn [lift pbind]. rewrite Hf, He. cbn [negb]. unfold visit, never. cbn [pbind].
  destruct (N.eqb (wait (stuck_instr wt)) 0); [right; eauto|]. unfold advance. rewrite Ha. cbn [lift pbind]. left. eexists. split; [reflexivity|].
  eexists _, _, _. split; [exact Hin|]. rewrite Ho. reflexivity.
Qed.

Definition wave_number : nat := 25.
Definition wave_state (w : world) (wt : N) (t : tally) : wave_st :=
  with_tally (with_world (with_recs stuck_wave (put wave_number (stuck_instr wt, [26; 27]) (v_recs stuck_wave))) w) t.
Definition in_wave (s : wave_st) : Prop := exists w wt t, In w wave_worlds /\ s = wave_state w wt t.
Lemma wave_turn : forall w, In w wave_worlds -> exists w', In w' wave_worlds /\ (forall t, exists t', wave_step stuck_env never never (wave_state w 0 t) = Halt t' (Failed RuntimeError))
  /\ forall p t, wave_step stuck_env never never (wave_state w (Npos p) t) = Go (wave_state w' (Npos p - 1) (more_slices (saw t (Emitted (w_slice w))))).
Proof.
  intros w H. unfold wave_worlds in H.
  repeat match type of H with In _ (_ :: ?y :: _) => destruct H as [<-|H]; [exists y; (split; [unfold wave_worlds; repeat (first [left; reflexivity|right])|]);
    (split; [intros t; eexists; vm_compute; reflexivity|intros p t; vm_compute; reflexivity])|] end.
  destruct H as [<-|[]]. exists (nth 0 wave_worlds stuck_world). split; [left; reflexivity|]. split; [intros t; eexists; vm_compute; reflexivity|intros p t; vm_compute; reflexivity].
Qed.
Lemma wave_stuck : forall s, in_wave s -> (exists s', wave_step stuck_env never never s = Go s' /\ in_wave s') \/ exists t, wave_step stuck_env never never s = Halt t (Failed RuntimeError).
Proof.
  intros s (w & wt & t & Hw & ->). destruct (wave_turn w Hw) as (w' & Hw' & Z & P). destruct wt as [|p]; [right; apply Z|]. left. eexists. split; [apply P|].
  eexists _, _, _. split; [exact Hw'|reflexivity].
Qed.

Theorem C68_refuted : exists p j prog c w, compile late_t [] = (p, Ok (On j))
  /\ instructions (fun _ => Throw RuntimeError) false 100 (pr_default p) (j_stream j) = Ok (prog, c) /\ job_world 0 j = Ok w
  /\ forall pl late t r, halts pl (job_env pick_min j) late never prog w t r -> r = Failed RuntimeError.
Proof.
  destruct stuck_job as [[[j prog] w]|] eqn:E; [|discriminate].
  assert (X : exists p c, compile late_t [] = (p, Ok (On j)) /\ instructions (fun _ => Throw RuntimeError) false 100 (pr_default p) (j_stream j) = Ok (prog, c) /\ job_world 0 j = Ok w).
  { unfold stuck_job in E. injection E as <- <- <-. eexists _, _. split; [vm_compute; reflexivity|]. split; vm_compute; reflexivity. }
  destruct X as (p & c & X1 & X2 & X3). exists p, j, prog, c, w. split; [exact X1|]. split; [exact X2|]. split; [exact X3|].
  assert (Ee : job_env pick_min j = stuck_env) by (unfold stuck_env; now rewrite E).
  assert (Ep : prog = stuck_prog) by (unfold stuck_prog; now rewrite E). assert (Ew : w = stuck_world) by (unfold stuck_world; now rewrite E).
  rewrite Ee, Ep, Ew. clear. intros pl late t r (n & H). destruct pl.
  - destruct (turns_agree _ _ _ (stream_agrees stuck_env late) _ _ _ _ H) as [?|H']; [assumption|]. clear H.
    assert (K : exists s, turns (stream_step stuck_env never) 70 (stream_init stuck_prog stuck_world) = Go s /\ in_stream s).
    { eexists. split; [vm_compute; reflexivity|]. eexists _, _, _. split; [left; reflexivity|]. reflexivity. }
    destruct K as (s & K & J). eapply (trapped_after _ _ in_stream stream_stuck); eauto.
  - destruct (dag_init stuck_prog stuck_world) as [s0|] eqn:E0; [|vm_compute in E0; discriminate]. cbn [pbind] in H.
    destruct (turns_agree _ _ _ (dag_agrees stuck_env late) _ _ _ _ H) as [?|H']; [assumption|]. clear H.
    assert (K : exists m t', pbind (dag_init stuck_prog stuck_world) (turns (dag_step stuck_env never) m) = Halt t' (Failed RuntimeError)).
    { exists 250. eexists. vm_compute. reflexivity. }
    destruct K as (m & t' & K). rewrite E0 in K. exact (proj2 (turns_once _ _ _ _ _ _ _ _ _ H' K)).
  - destruct (turns_agree _ _ _ (wave_agrees stuck_env late never) _ _ _ _ H) as [?|H']; [assumption|]. clear H.
    assert (K : exists s, turns (wave_step stuck_env never never) 70 (wave_init stuck_prog stuck_world) = Go s /\ in_wave s).
    { eexists. split; [vm_compute; reflexivity|]. eexists _, _, _. split; [left; reflexivity|]. vm_compute; reflexivity. }
    destruct K as (s & K & J). eapply (trapped_after _ _ in_wave wave_stuck); eauto.
Qed.
Print Assumptions C68_refuted.

(** The same circuit with the T gate in the first place is compiled by all pipelines; so is the one with a layout that has no column of magic states. *)
Definition early_t : list string :=
  ["OPENQASM 2.0;"; "include ""qelib1.inc"";"; "qreg q[1];"; "t q[0];"; "h q[0];"; "s q[0];"; "h q[0];"; "s q[0];"; "h q[0];"; "s q[0];"; "h q[0];"; "s q[0];"]%string.
Definition compiled (l : list string) (o : list (string * string)) : Prop := exists p j prog c w, compile l o = (p, Ok (On j))
  /\ instructions (fun _ => Throw RuntimeError) false 100 (pr_default p) (j_stream j) = Ok (prog, c) /\ job_world 0 j = Ok w
  /\ forall pl, exists t, halts pl (job_env pick_min j) never never prog w t Finished.
Ltac compiles_all := eexists _, _, _, _, _; (split; [vm_compute; reflexivity|]); (split; [vm_compute; reflexivity|]); (split; [vm_compute; reflexivity|]);
  intros [| |]; eexists; exists 300; vm_compute; reflexivity.
Example C68_ex : compiled early_t [] /\ compiled late_t [("layoutgenerator", "edpc")]%string.
Proof. split; compiles_all. Qed.
