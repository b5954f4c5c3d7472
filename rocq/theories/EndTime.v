(** With a time limit every run ends. *)
From Verif Require Import Base PatchesModel LayoutModel InstrModel SliceModel MarksModel ApplyModel RunModel RunProofs WaveModel.
Open Scope nat_scope.

Definition shown (t : tally) : nat := length (emitted (t_events t)).

Section WaveShown.
Variables (e : env) (grow : nat -> bool).
Definition keeps {A} (s : wave_st) (f : A -> wave_st) (r : progress A) : Prop := match r with Go a => shown (v_tally (f a)) = shown (v_tally s) | Halt _ _ => True end.
Notation keep s := (keeps s (fun x => x)).
Lemma keeps_bind : forall A B s (g : A -> wave_st) (f : B -> wave_st) (x : progress A) (k : A -> progress B), keeps s g x ->
  (forall a, shown (v_tally (g a)) = shown (v_tally s) -> keeps s f (k a)) -> keeps s f (pbind x k).
Proof. intros A B s g f x k H K. destruct x; cbn in *; auto. Qed.
Lemma keeps_pure : forall A B s (f : B -> wave_st) (x : progress A) (k : A -> progress B), (forall a, keeps s f (k a)) -> keeps s f (pbind x k).
Proof. intros A B s f x k K. destruct x; cbn; auto. Qed.
Lemma keeps_from : forall A s s' (f : A -> wave_st) x, shown (v_tally s') = shown (v_tally s) -> keeps s' f x -> keeps s f x.
Proof. intros A s s' f x E H. destruct x; cbn in *; congruence. Qed.
Lemma keeps_fold : forall B (f : wave_st -> B -> progress wave_st) l s, (forall s b, keep s (f s b)) -> keep s (pfold f l s).
Proof.
  intros B f. induction l as [|b l IH]; intros s H; [reflexivity|]. cbn [pfold]. eapply keeps_bind; [apply H|]. intros a E. eapply keeps_from; [exact E|]. now apply IH.
Qed.

Lemma attempt_keeps : forall s id, keeps s snd (attempt e s id).
Proof. intros s id. unfold attempt. apply keeps_pure. intros [x ds]. apply keeps_pure. intros a. reflexivity. Qed.
Lemma report_keeps : forall s x, shown (v_tally (report s x)) = shown (v_tally s).
Proof. intros s x. unfold shown, report. cbn. rewrite em_instr. reflexivity. Qed.
Lemma immediately_keeps : forall d s id, (forall s id f, keep s (d s id f)) -> keeps s snd (immediately e d s id).
Proof.
  intros d s id D. unfold immediately. apply keeps_pure. intros [x ds]. apply keeps_pure. intros imm. destruct imm; [|reflexivity]. cbn [negb].
  eapply keeps_bind; [apply attempt_keeps|]. intros [[x' a] s'] E. cbn [snd] in E. destruct (a_error a).
  - destruct (reschedules _ _); exact E.
  - destruct (reschedules _ _); [cbn; rewrite <- E; apply report_keeps|]. eapply keeps_bind; [apply (keeps_from _ s (report s' x')); [rewrite report_keeps; exact E|apply D]|]. intros s2 E2. exact E2.
Qed.
Lemma release_keeps : forall imm pr m ds s, (forall s d, keeps s snd (imm s d)) -> keep s (release imm pr m ds s).
Proof.
  intros imm pr m. induction ds as [|d ds IH]; intros s H; [reflexivity|]. cbn [release]. destruct (negb _); [exact Logic.I|]. apply keeps_pure. intros c. cbv zeta.
  eapply keeps_bind with (g := fun x => x); [|intros s2 E; eapply keeps_from; [exact E|now apply IH]]. destruct (negb _); [reflexivity|]. destruct pr.
  - apply keeps_pure. intros [x ?]. apply keeps_pure. intros [|]; reflexivity.
  - eapply keeps_bind; [eapply (keeps_from _ s); [|apply H]; reflexivity|]. intros [[|] s2] E; exact E.
Qed.
Lemma dependents_keeps : forall fuel pr s id follow, keep s (dependents e grow fuel pr s id follow).
Proof.
  induction fuel as [|f IH]; intros pr s id follow; [exact Logic.I|]. cbn [dependents]. apply keeps_pure. intros [x ds].
  assert (Im : forall s d, keeps s snd (immediately e (dependents e grow f pr) s d)) by (intros; apply immediately_keeps; intros; apply IH).
  destruct follow as [|j r]; [now apply release_keeps|].
  eapply keeps_bind; [apply keeps_fold; intros s1 b; apply keeps_pure; intros c; reflexivity|]. intros s1 E. eapply keeps_from; [exact E|]. apply keeps_fold. intros s2 b. cbv zeta.
  destruct (negb _); [exact Logic.I|]. eapply keeps_bind; [eapply (keeps_from _ s2); [|apply Im]; reflexivity|]. intros [[|] s3] E3; exact E3.
Qed.
Lemma schedule_one_keeps : forall p d s id, keep s (schedule_one e grow p d s id).
Proof.
  intros p d s id. unfold schedule_one. eapply keeps_bind; [apply attempt_keeps|]. intros [[x a] s1] E. cbn [snd] in E. destruct (a_error a); cbn [negb].
  - destruct (reschedules _ _); [exact E|]. destruct d; [exact E|]. destruct p; [exact Logic.I|]. destruct (N.eqb _ _); [exact Logic.I|]. apply keeps_pure. intros [? ?]. exact E.
  - cbv zeta. destruct (reschedules _ _); [cbn; rewrite <- E; apply report_keeps|]. eapply keeps_from; [|apply dependents_keeps]. rewrite report_keeps. exact E.
Qed.
Lemma schedule_wave_keeps : forall s, keep s (schedule_wave e grow s).
Proof.
  intros s. unfold schedule_wave. eapply keeps_bind; [apply keeps_fold; apply schedule_one_keeps|]. intros s1 E1. eapply keeps_from; [exact E1|].
  eapply keeps_bind; [apply keeps_fold; apply schedule_one_keeps|]. intros s2 E2. eapply keeps_from; [exact E2|].
  eapply keeps_bind with (g := fun x => x); [|intros s3 E3; exact E3]. destruct (e_edpc e); [|reflexivity].
  eapply keeps_bind; [apply keeps_fold; apply schedule_one_keeps|]. intros s3 E3. eapply keeps_from; [exact E3|].
  eapply keeps_bind with (g := fun x => x); [unfold unmark; apply keeps_pure; intros sl; reflexivity|]. intros s4 E4. eapply keeps_from; [exact E4|]. apply keeps_fold; apply schedule_one_keeps.
Qed.
End WaveShown.

(** Each turn of the DAG and the wave pipeline shows a slice, when it is not too late. *)
Lemma wave_shows : forall e late grow s s', wave_step e late grow s = Go s' -> late (shown (v_tally s)) = false /\ shown (v_tally s') = S (shown (v_tally s)).
Proof.
  intros e late grow s s' H. unfold wave_step in H.
  assert (X : (let! s0 := schedule_wave e grow s in let! t := visit late (v_tally s0) (w_slice (v_world s0)) in let! w := advance e t (v_world s0) in
      Go (with_tally (with_world s0 w) (more_slices t))) = Go s') by (destruct (v_prox s); [destruct (v_heads s); [discriminate|]|]; exact H).
  clear H. pose proof (schedule_wave_keeps e grow s) as K. destruct (schedule_wave e grow s) as [s0|]; [|discriminate]. cbn [pbind] in X. cbn in K.
  unfold visit in X. fold (shown (v_tally s0)) in X. rewrite K in X. destruct (late (shown (v_tally s))); [discriminate|]. cbn [pbind] in X.
  destruct (advance _ _ _); [|discriminate]. cbn [pbind] in X. injection X as <-. split; [reflexivity|]. unfold shown in *. cbn. rewrite em_slice. congruence.
Qed.

Lemma attempt_emits : forall e b st l, match dag_attempt e b st l with
  | Go st' => emitted (t_events (ds_tally st')) = emitted (t_events (ds_tally st)) | Halt t _ => emitted (t_events t) = emitted (t_events (ds_tally st)) end.
Proof.
  intros e b st l. unfold dag_attempt. destruct (DagModel.dag_at (ds_dag st) l) as [i| | |]; cbn [lift pbind]; try reflexivity.
  destruct (try_apply e (ds_world st) i) as [a| | |]; cbn [lift pbind]; try reflexivity. destruct (a_error a).
  - destruct b; [reflexivity|]. destruct (_ <? _)%N; reflexivity.
  - unfold handle_followups. assert (X : emitted (t_events (saw (more_instrs (ds_tally st)) (Applied (tried i a)))) = emitted (t_events (ds_tally st))) by (cbn; rewrite emitted_app; apply app_nil_r).
    destruct (a_follow a).
    + destruct (DagModel.pop_head _ _); cbn [lift pbind]; exact X.
    + destruct (DagModel.dag_expand _ _ _ _) as [[h d']| | |]; cbn [lift pbind]; exact X.
Qed.
Lemma attempts_emit : forall e b ls st, match pfold (dag_attempt e b) ls st with
  | Go st' => emitted (t_events (ds_tally st')) = emitted (t_events (ds_tally st)) | Halt t _ => emitted (t_events t) = emitted (t_events (ds_tally st)) end.
Proof.
  intros e b. induction ls as [|l ls IH]; intros st; [reflexivity|]. cbn [pfold]. pose proof (attempt_emits e b st l) as A. destruct (dag_attempt e b st l) as [st1|t r]; cbn [pbind]; [|exact A].
  rewrite <- A. apply IH.
Qed.
Lemma turn_emits : forall e late st, match dag_step e late st with
  | Go st' => length (emitted (t_events (ds_tally st'))) = S (length (emitted (t_events (ds_tally st))))
  | Halt t _ => length (emitted (t_events t)) <= S (length (emitted (t_events (ds_tally st)))) end.
Proof.
  intros e late st. unfold dag_step. destruct (DagModel.dag_is_empty (ds_dag st)); [cbn; lia|].
  pose proof (attempts_emit e true (DagModel.proximate (ds_dag st)) st) as A. destruct (pfold (dag_attempt e true) _ st) as [st1|t r]; cbn [pbind]; [|rewrite A; lia].
  destruct (DagModel.applicable (ds_dag st1)) as [hs| | |]; cbn [lift pbind]; try (rewrite A; lia).
  pose proof (attempts_emit e false hs st1) as B. destruct (pfold (dag_attempt e false) _ st1) as [st2|t r]; cbn [pbind]; [|rewrite B, A; lia].
  unfold visit. destruct (late _); cbn [pbind]; [rewrite B, A; lia|]. unfold advance.
  destruct (advance_slice _ _); cbn [lift pbind ds_tally t_events saw more_slices]; rewrite em_slice, B, A; lia.
Qed.
Lemma turns_emit : forall e late n st t r, turns (dag_step e late) n st = Halt t r -> length (emitted (t_events t)) <= length (emitted (t_events (ds_tally st))) + n.
Proof.
  intros e late. induction n as [|n IH]; intros st t r H; [discriminate|]. cbn [turns] in H. pose proof (turn_emits e late st) as A.
  destruct (dag_step e late st) as [st'|t' r']; cbn [pbind] in H; [apply IH in H; lia|]. injection H as <- <-. lia.
Qed.

Lemma dag_shows : forall e late s s', dag_step e late s = Go s' -> late (shown (ds_tally s)) = false /\ shown (ds_tally s') = S (shown (ds_tally s)).
Proof.
  intros e late st s' H. split; [|pose proof (turn_emits e late st) as T; rewrite H in T; exact T]. unfold dag_step in H.
  destruct (DagModel.dag_is_empty (ds_dag st)); [discriminate|].
  pose proof (attempts_emit e true (DagModel.proximate (ds_dag st)) st) as A. destruct (pfold (dag_attempt e true) _ st) as [st1|t r]; cbn [pbind] in H; [|discriminate].
  destruct (DagModel.applicable (ds_dag st1)) as [hs| | |]; cbn [lift pbind] in H; try discriminate.
  pose proof (attempts_emit e false hs st1) as B. destruct (pfold (dag_attempt e false) _ st1) as [st2|t r]; cbn [pbind] in H; [|discriminate].
  unfold visit in H. rewrite B, A in H. unfold shown. destruct (late _); [discriminate|reflexivity].
Qed.

Lemma limited_ends : forall S (step : S -> progress S) (late : nat -> bool) (view : S -> nat) top, (forall m, top <= m -> late m = true) ->
  (forall s s', step s = Go s' -> late (view s) = false /\ view s' = Datatypes.S (view s)) -> forall s, exists t r, turns step (Datatypes.S (top - view s)) s = Halt t r.
Proof.
  intros S step late view top Top St s. remember (top - view s) as k eqn:Ek. revert s Ek. induction k as [|k IH]; intros s Ek; cbn [turns].
  - destruct (step s) as [s'|t r] eqn:E; [|cbn; eauto]. destruct (St _ _ E) as [L _]. rewrite Top in L by lia. discriminate.
  - destruct (step s) as [s'|t r] eqn:E; [|cbn; eauto]. destruct (St _ _ E) as [L V]. cbn [pbind]. apply IH. lia.
Qed.

(** A turn of the stream pipeline shows a slice, when it is not too late, or deals with an instruction for good. *)
Lemma stream_shows : forall e late s s', stream_step e late s = Go s' ->
  (late (shown (ss_tally s)) = false /\ shown (ss_tally s') = S (shown (ss_tally s)))
  \/ (shown (ss_tally s') = shown (ss_tally s) /\ length (ss_future s') + length (ss_rest s') < length (ss_future s) + length (ss_rest s)).
Proof.
  intros e late s s' H. unfold stream_step in H. destruct (take_next s) as [[i s1]|] eqn:Tn; [|unfold visit in H; destruct (late _); discriminate].
  assert (Q : S (length (ss_future s1) + length (ss_rest s1)) = length (ss_future s) + length (ss_rest s) /\ shown (ss_tally s1) = shown (ss_tally s)).
  { unfold take_next in Tn. destruct (ss_future s); [destruct (ss_rest s); [discriminate|]|]; injection Tn as <- <-; cbn; (split; [lia|reflexivity]). }
  destruct Q as [Q Q1]. destruct (try_apply e (ss_world s1) i) as [a| | |]; cbn [lift pbind] in H; try discriminate.
  set (t := if a_error a then ss_tally s1 else saw (ss_tally s1) (Applied (tried i a))) in H.
  assert (Q2 : shown t = shown (ss_tally s)) by (unfold t; destruct (a_error a); [exact Q1|unfold shown in *; cbn; rewrite em_instr; exact Q1]). clearbody t.
  destruct (a_follow a) as [|j r].
  - destruct (negb (a_error a)); [injection H as <-; right; cbn; split; [exact Q2|lia]|]. left. unfold visit in H. fold (shown t) in H. rewrite Q2 in H. destruct (late _); [discriminate|]. cbn [pbind] in H.
    destruct (wait i =? 0)%N; [discriminate|]. destruct (advance _ _ _); [|discriminate]. injection H as <-. split; [reflexivity|]. unfold shown in *. cbn. rewrite em_slice. congruence.
  - left. unfold visit in H. fold (shown t) in H. rewrite Q2 in H. destruct (late _); [discriminate|]. cbn [pbind] in H.
    destruct (advance _ _ _); [|discriminate]. injection H as <-. split; [reflexivity|]. unfold shown in *. cbn. rewrite em_slice. congruence.
Qed.
Lemma limited_stream : forall e late top, (forall m, top <= m -> late m = true) -> forall s, exists n t r, turns (stream_step e late) n s = Halt t r.
Proof.
  intros e late top Top s. remember (top - shown (ss_tally s)) as k eqn:Ek. revert s Ek. induction k as [k IHk] using (well_founded_induction lt_wf). intros s Ek.
  remember (length (ss_future s) + length (ss_rest s)) as q eqn:Eq. revert s Ek Eq. induction q as [q IHq] using (well_founded_induction lt_wf). intros s Ek Eq.
  destruct (stream_step e late s) as [s'|t r] eqn:E; [|exists 1, t, r; cbn [turns]; rewrite E; reflexivity].
  assert (X : exists n t r, turns (stream_step e late) n s' = Halt t r).
  { destruct (stream_shows _ _ _ _ E) as [[L V]|[V Lt]].
    - destruct (Nat.le_gt_cases top (shown (ss_tally s))) as [Le|Gt]; [rewrite Top in L by exact Le; discriminate|]. eapply (IHk (top - shown (ss_tally s'))); [lia|reflexivity].
    - eapply (IHq (length (ss_future s') + length (ss_rest s'))); [lia|congruence|reflexivity]. }
  destruct X as (n & t & r & H). exists (S n), t, r. cbn [turns]. rewrite E. exact H.
Qed.
