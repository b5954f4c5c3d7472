(** What every slice that any pipeline emits is like. *)
From Verif Require Import Base PatchesModel LayoutModel InstrModel SliceModel SliceSpec SliceProofs MarksModel ApplySpec ApplyProofs ApplyBell BellProps ApplyModel ApplyProps RunModel RunProofs SchedSpec SchedProofs
  DagLoop DagLoopProps WaveModel WaveSpec WaveProofs WaveProps.
Open Scope nat_scope.

(** The three pipelines (EDPC is the wave pipeline with [e_edpc]) and how a run of them ends. *)
Inductive pipeline := Stream | Dag | Wave.
Definition halts (pl : pipeline) (e : env) (late grow : nat -> bool) (prog : list instr) (w : world) (t : tally) (r : ending) : Prop :=
  exists n, match pl with
  | Stream => turns (stream_step e late) n (stream_init prog w) = Halt t r
  | Dag => pbind (dag_init prog w) (turns (dag_step e late) n) = Halt t r
  | Wave => turns (wave_step e late grow) n (wave_init prog w) = Halt t r
  end.

(** Only the wave pipeline is run with EDPC. *)
Definition admits (pl : pipeline) (e : env) (prog : list instr) : Prop :=
  match pl with Wave => uncut e prog /\ Forall few_patches prog | _ => e_edpc e = false end.
Lemma plain_admits : forall pl e prog, e_edpc e = false -> (pl = Wave -> Forall few_patches prog) -> admits pl e prog.
Proof. intros [| |] e prog Ed Few; cbn; auto. split; [now apply plain_uncut|auto]. Qed.

Section Inv.
Variables (e : env) (I : slice -> Prop).
Hypothesis I_try : forall w i a, I (w_slice w) -> try_apply e w i = Ok a -> I (w_slice (a_world a)).
Hypothesis I_adv : forall s s', I s -> advance_slice (e_layout e) s = Ok s' -> I s'.
Hypothesis I_mend : forall s s', e_edpc e = true -> I s -> give_back s = Ok s' -> I s'.

Lemma emitted_seen : forall acts c, emitted (seen (acts ++ [c])) = emitted (seen acts) ++ match c with Show s => [s] | _ => [] end.
Proof.
  intros acts c. unfold seen. rewrite flat_map_app, emitted_app. f_equal. destruct c as [j x a o|s|]; [|reflexivity|reflexivity]. cbn. now destruct (a_error a).
Qed.
Lemma sched_inv : forall conflict again prog w0 acts w p, scheduled e conflict again prog w0 acts w p -> I (w_slice w0) ->
  I (w_slice w) /\ Forall I (emitted (seen acts)).
Proof.
  intros conflict again prog w0 acts w p S H0. induction S as [|acts w p j x a o S IH Hp Hr Ha Hl|acts w p s S IH Ad|acts w p s S IH Ed Gb].
  - split; [exact H0|constructor].
  - destruct IH as [A B]. split; [eapply I_try; eauto|]. now rewrite emitted_seen, app_nil_r.
  - destruct IH as [A B]. split; [cbn; eapply I_adv; eauto|]. rewrite emitted_seen. apply Forall_app. auto.
  - destruct IH as [A B]. split; [cbn; eapply I_mend; eauto|]. now rewrite emitted_seen, app_nil_r.
Qed.
Lemma dag_left_inv : forall late prog w0 t r, dag_left e late prog w0 t r -> I (w_slice w0) -> Forall I (emitted (t_events t)).
Proof.
  intros late prog w0 t r H H0.
  destruct H as [acts w p S Ev _ _ _|acts w p j x r S Ev _ _|acts w p j x a o S Ev _ _|acts w p j x a o S Ev _ _|acts w p S Ev _|acts w p r S Ev _];
    destruct (sched_inv _ _ _ _ _ _ _ S H0) as [A B]; rewrite Ev; auto.
  - now rewrite emitted_seen, app_nil_r in B.
  - now rewrite emitted_seen, app_nil_r in B.
  - rewrite emitted_app. apply Forall_app. split; [auto|]. cbn. auto.
Qed.
Lemma wave_left_inv : forall late grow prog w0 t r, wave_left e late grow prog w0 t r -> I (w_slice w0) -> Forall I (emitted (t_events t)).
Proof.
  intros late grow prog w0 t r H H0.
  destruct H as [acts w p S Ev _ _ _|acts w p j x r S Ev _ _ _|acts w p j x S Ev _ _ _|acts w p j x a o S Ev _ _|acts w p j x a o S Ev _ _|acts w p S Ev _|acts w p r S Ev _|acts w p S Ev _ _|acts w p r S Ev _ _|acts w p j S Ev _ _ _ _];
    destruct (sched_inv _ _ _ _ _ _ _ S H0) as [A B]; rewrite Ev; auto.
  - now rewrite emitted_seen, app_nil_r in B.
  - now rewrite emitted_seen, app_nil_r in B.
  - rewrite emitted_app. apply Forall_app. split; [auto|]. cbn. auto.
Qed.

(** An invariant of attempts and advances holds for every slice emitted. *)
Lemma halts_inv : forall pl late grow prog w t r, admits pl e prog ->
  halts pl e late grow prog w t r -> I (w_slice w) -> Forall I (emitted (t_events t)).
Proof.
  intros pl late grow prog w t r Ad (n & H) H0. destruct pl; cbn in Ad.
  - pose proof (kept_run e late Ad (fun w _ => I (w_slice w)) I) as K. 
    assert (X : match turns (stream_step e late) n (stream_init prog w) with
      | Go st' => Forall I (emitted (t_events (ss_tally st'))) /\ I (w_slice (ss_world st')) | Halt t _ => Forall I (emitted (t_events t)) end).
    { apply K; auto. intros w1 i l a H1 A. split; [eauto|]. split; [eauto|]. split; intros; cbn; eauto. }
    rewrite H in X. exact X.
  - destruct (C40_runs e late prog w) as (st0 & E0 & R). rewrite E0 in H. cbn [pbind] in H. specialize (R n). rewrite H in R. eapply dag_left_inv; eauto.
  - pose proof (C41_runs e late grow prog w (proj1 Ad) (proj2 Ad) n) as R. rewrite H in R. eapply wave_left_inv; eauto.
Qed.
End Inv.

Lemma give_back_sides : forall far s s', sized far s -> give_back s = Ok s' ->
  exists s1, sides far s s1 /\ s' = with_marks s1 [] [].
Proof.
  intros far s s' Hs H. unfold give_back in H. apply bind_ok in H. destruct H as (x & E & H). apply bind_ok in H. destruct H as (x0 & E0 & H). injection H as <-.
  assert (S1 : sides far s x) by (eapply foldM_sides; [exact Hs| |exact E]; cbv beta; intros ? ? ? Hs0 H0; eapply type_sides; eauto).
  exists x0. split; [|reflexivity]. eapply sides_trans; [exact S1|]. eapply foldM_sides; [apply S1| |exact E0]; cbv beta; intros ? ? ? Hs0 H0; eapply type_sides; eauto.
Qed.
Lemma give_back_timed : forall L s s', timed L s -> give_back s = Ok s' -> timed L s'.
Proof.
  intros L s s' [Hs Ht] H. destruct (give_back_sides _ _ _ Hs H) as (s1 & [S1 (_ & _ & A)] & ->). split; [exact S1|]. cbn.
  destruct A as (_ & -> & _). exact Ht.
Qed.

(** All slices have the size of the layout and a timer for each source of magic states. *)
Lemma halts_timed : forall pl e late grow prog w t r, admits pl e prog -> layout_wf (e_layout e) ->
  timed (e_layout e) (w_slice w) -> halts pl e late grow prog w t r -> Forall (timed (e_layout e)) (emitted (t_events t)).
Proof.
  intros pl e late grow prog w t r Ad W T H. eapply halts_inv; eauto.
  - intros w1 i a T1 A. destruct (C33_timers e w1 i a (proj1 T1) A) as [S2 Tm]. split; [exact S2|]. rewrite Tm. apply T1.
  - intros s s' T1 A. destruct (advance_timed _ s W T1) as (s2 & A2 & T2). assert (s2 = s') by congruence. now subst s2.
  - intros s s' _. apply give_back_timed.
Qed.
