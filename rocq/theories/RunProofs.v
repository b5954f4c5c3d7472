(** Proofs about the compilation loops. *)
From Verif Require Import Base PatchesModel LayoutModel InstrModel SliceModel ApplyModel ApplyProofs ApplyEffect RunModel RunSpec.
Open Scope nat_scope.

Ltac crawl H := repeat first [bstep H | match type of H with (let (_, _) := ?x in _) = _ => destruct x end
                              | match type of H with (let '(_, _) := ?x in _) = _ => destruct x end].

(** At most one follow-up; with a refusal only when crossing routes are in use. *)
Lemma follow_shape : forall e w i a, try_apply e w i = Ok a ->
  a_follow a = [] \/ exists j, a_follow a = [j]
    /\ (a_error a = true -> e_edpc e = true /\ j = tried i a)
    /\ (j = tried i a \/ (exists t, j = instr_of (SingleOp t SqZ false)) \/ exists r n p, j = instr_of (Busy r n p)).
Proof.
  intros e w [o wt cl] a H.
  assert (F : forall w' o', failed w' o' = Ok a -> a_follow a = []) by (intros w' o' X; apply failed_inv in X; tauto).
  assert (D : forall w' o', done_ w' o' = Ok a -> a_follow a = []) by (intros w' o' X; apply done_inv in X; tauto).
  destruct o; cbn [try_apply InstrModel.op wait clients] in H; try discriminate.
  - unfold apply_measure in H. destruct (get_cell_by_id (w_slice w) target); [bstep H|]; eauto.
  - unfold apply_multi in H. destruct observable as [|[x px] [|[y py] [|? ?]]]; try discriminate.
    repeat (match type of H with context[if ?b then _ else _] => destruct b end; cbn [negb] in H; eauto; try discriminate).
    + crawl H. destruct b; cbn [negb] in H; eauto.
    + crawl H. injection H as <-. auto.
  - unfold apply_init in H. bstep H. destruct x; eauto. bstep H. bstep H. eauto.
  - unfold apply_bell_init in H.
    repeat (match type of H with (if ?b then _ else _) = _ => destruct b end; cbn [negb] in H; eauto; try discriminate).
    destruct counter as [[f s]|].
    + repeat bstep H. destruct x0 as [[s' i] all]. injection H as <-. destruct all; cbn; eauto.
      right. eexists. repeat split; auto; discriminate.
    + bstep H. destruct x as [r cache]. destruct r; eauto. destruct (Nat.ltb (length (rg_cells r)) 2); eauto.
      bstep H. destruct x as [la lb]. repeat bstep H. destruct x0 as [[s' i] all]. injection H as <-. destruct all; cbn; eauto.
      right. eexists. repeat split; auto; discriminate.
  - unfold apply_magic in H. destruct (l_times (e_layout e)); try discriminate. destruct (s_magic (w_slice w)); eauto.
    repeat bstep H. eauto.
  - unfold apply_y in H. destruct (get_cell_by_id (w_slice w) target); [bstep H; eauto|].
    destruct (negb (e_local e && e_twists e) && negb (N.eqb (s_yavail (w_slice w)) 0)).
    + bstep H. destruct x as [[z c]|]; [bstep H; eauto|]. injection H as <-. auto.
    + destruct (e_twists e); [|injection H as <-; auto]. bstep H. bstep H. destruct x0; eauto. bstep H. destruct x0. eauto.
  - unfold apply_single in H. destruct (get_cell_by_id (w_slice w) target), (get_patch_by_id (w_slice w) target); eauto.
    destruct op; try (match type of H with (if dp_is_active _ then _ else _) = _ => destruct (dp_is_active d); [eauto|try (bstep H); eauto] end).
    destruct (e_edpc e); try discriminate. bstep H. destruct x as [w' ok]. destruct ok; cbn [negb] in H; eauto.
    injection H as <-. right. eexists. split; [reflexivity|]. split; [discriminate|]. right. left. eauto.
  - unfold apply_rotate in H. destruct (get_cell_by_id (w_slice w) target); eauto. bstep H. destruct x; eauto.
    repeat bstep H. destruct x1; try discriminate. bstep H. destruct x1. injection H as <-. right. eexists. split; [reflexivity|].
    split; [discriminate|]. right. right. eauto.
  - unfold apply_busy in H. destruct (N.eqb steps_to_clear 0).
    + repeat bstep H. destruct x0 as [s2 all]. destruct all; eauto.
    + repeat bstep H. injection H as <-. right. eexists. split; [reflexivity|]. split; [discriminate|]. right. right. eauto.
  - unfold apply_cnot in H.
    destruct (e_local e); cbn [negb] in H; try discriminate.
    destruct (get_patch_by_id (w_slice w) control); eauto. destruct (get_patch_by_id (w_slice w) target); eauto.
    destruct (dp_is_active d); eauto. destruct (dp_is_active d0); eauto.
    assert (L : forall w' cs se, cnot_locals e control target side1 side2 wt cl w' route cs se phase = Ok a ->
      a_follow a = [] \/ exists j, a_follow a = [j] /\ (a_error a = true -> False) /\ j = tried (mkI (BellCNOT control target side1 side2 route counters local_sets phase) wt cl) a).
    { intros w' cs se X. unfold cnot_locals in X. repeat bstep X. destruct x2 as [[s' i] all]. injection X as <-.
      destruct all; cbn; eauto. right. eexists. repeat split; auto; discriminate. }
    assert (L' : forall w' cs se, cnot_locals e control target side1 side2 wt cl w' route cs se phase = Ok a ->
      a_follow a = [] \/ exists j, a_follow a = [j]
    /\ (a_error a = true -> e_edpc e = true /\ j = tried (mkI (BellCNOT control target side1 side2 route counters local_sets phase) wt cl) a)
    /\ (j = tried (mkI (BellCNOT control target side1 side2 route counters local_sets phase) wt cl) a \/ (exists t, j = instr_of (SingleOp t SqZ false)) \/ exists r n p, j = instr_of (Busy r n p))).
    { intros w' cs se X. destruct (L w' cs se X) as [?|(j & J1 & J2 & J3)]; [auto|]. right. exists j. repeat split; auto; tauto. }
    destruct (e_edpc e) eqn:Ed.
    + destruct route as [reg|]; [destruct counters as [cs|]|].
      * unfold cnot_phase in H. crawl H. destruct b; cbn [negb] in H.
        -- bstep H. match type of H with (if ?b then _ else _) = _ => destruct b end; injection H as <-; [auto|].
           right. eexists. repeat split; auto; discriminate.
        -- injection H as <-. right. eexists. repeat split; auto; discriminate.
      * unfold cnot_decompose in H. bstep H. destruct x as [p1 p2]. eauto.
      * unfold cnot_find_route in H. bstep H. destruct x as [r cache]. destruct r; eauto.
        destruct (Nat.ltb (length (rg_cells r)) 2); try discriminate.
        bstep H. bstep H. bstep H. destruct x1. bstep H. injection H as <-. right. eexists. repeat split; auto.
    + unfold cnot_plain in H. destruct counters; eauto.
      bstep H. destruct x as [r cache]. destruct r; eauto.
      destruct (Nat.ltb (length (rg_cells r)) 2); try discriminate.
      bstep H. bstep H. bstep H. destruct x1. eauto.
  - eauto.
Qed.

Lemma emitted_app : forall a b, emitted (a ++ b) = emitted a ++ emitted b.
Proof. intros. unfold emitted. apply flat_map_app. Qed.

Lemma em_slice : forall l s, length (emitted (l ++ [Emitted s])) = S (length (emitted l)).
Proof. intros. rewrite emitted_app, app_length. cbn. lia. Qed.
Lemma em_instr : forall l i, length (emitted (l ++ [Applied i])) = length (emitted l).
Proof. intros. rewrite emitted_app, app_length. cbn. lia. Qed.
Lemma em_both : forall l i s, length (emitted (l ++ [Applied i; Emitted s])) = S (length (emitted l)).
Proof. intros. rewrite emitted_app, app_length. cbn. lia. Qed.

(** ** The stream pipeline *)
Section Stream.
Variables (e : env) (late : nat -> bool) (prog : list instr) (w0 : world).
Hypothesis plain : e_edpc e = false.
Let step := stream_step e late.

(** Where the loop is in the program. *)
Inductive at_point : stream_st -> Prop :=
| ap_between done rest es k w t : prog = done ++ rest -> in_order e w0 done es k w ->
    t_events t = es -> t_instrs t = N.of_nat (length done) ->
    (t_slices t + N.of_nat k = 1 + N.of_nat (length (emitted es)))%N ->
    at_point (mkSS w [] rest t)
| ap_within done i0 rest es k w1 es' k' w i t : prog = done ++ i0 :: rest -> in_order e w0 done es k w1 ->
    underway e w1 i0 es' k' w i ->
    t_events t = es ++ es' -> t_instrs t = (N.of_nat (length done) + 1)%N ->
    (t_slices t + N.of_nat (k + k') = 1 + N.of_nat (length (emitted (es ++ es'))))%N ->
    at_point (mkSS w [i] rest t).

(** How the loop is left: at the end; or in the middle of some instruction;
    or because the time is up. *)
Inductive left_at (t : tally) : ending -> Prop :=
| la_end es k w : in_order e w0 prog es k w -> t_events t = es ++ [Emitted (w_slice w)] ->
    t_instrs t = N.of_nat (length prog) ->
    (t_slices t + N.of_nat k = N.of_nat (length (emitted (t_events t))))%N -> left_at t Finished
| la_broken done i0 rest es k w1 es' k' w i last r : prog = done ++ i0 :: rest -> in_order e w0 done es k w1 ->
    underway e w1 i0 es' k' w i -> breaks_off e w i last r -> t_events t = es ++ es' ++ last ->
    t_instrs t = (N.of_nat (length done) + 1)%N -> left_at t r
| la_late : late (length (emitted (t_events t))) = true -> left_at t (Failed RuntimeError).

Lemma at_start : at_point (stream_init prog w0).
Proof. apply ap_between with (done := []) (es := []) (k := 0%nat); auto. constructor. Qed.

(** An instruction taken up in [w1]: what one attempt makes of it. *)
Lemma attempt_point : forall done i0 rest es k w1 es' k' w i t,
  prog = done ++ i0 :: rest -> in_order e w0 done es k w1 -> underway e w1 i0 es' k' w i ->
  t_events t = es ++ es' -> t_instrs t = (N.of_nat (length done) + 1)%N ->
  (t_slices t + N.of_nat (k + k') = 1 + N.of_nat (length (emitted (es ++ es'))))%N ->
  forall st, take_next st = Some (i, mkSS w [] rest t) ->
  match step st with Go st' => at_point st' | Halt t' r => left_at t' r end.
Proof.
  intros done i0 rest es k w1 es' k' w i t P O U Ev In Sl st Tn. unfold step, stream_step. rewrite Tn. cbn [ss_tally ss_world ss_future ss_rest].
  destruct (try_apply e w i) as [a|x|u|] eqn:A; cbn [lift pbind].
  2-4: (eapply la_broken; [exact P|exact O|exact U| | |exact In];
    [apply bo_attempt; rewrite A; reflexivity|rewrite app_nil_r; exact Ev]).
  destruct (a_follow a) as [|j fl] eqn:Fo.
  - destruct (a_error a) eqn:Er; cbn [negb].
    + unfold visit. destruct (late (length (emitted (t_events t)))) eqn:La; cbn [pbind]; [apply la_late; exact La|].
      destruct (N.eqb_spec (wait i) 0) as [Wz|Wn].
      { eapply la_broken; [exact P|exact O|exact U|eapply bo_used_up; eauto| |exact In]. cbn. rewrite Ev, app_assoc. reflexivity. }
      unfold advance. destruct (advance_slice (e_layout e) (w_slice (a_world a))) as [s|x|u|] eqn:Ad; cbn [lift pbind].
      2-4: (eapply la_broken; [exact P|exact O|exact U| | |exact In];
        [eapply bo_advance; [exact A|reflexivity|auto|rewrite Ad; reflexivity]|cbn; rewrite Er, Ev, app_assoc; reflexivity]).
      eapply ap_within; [exact P|exact O|eapply uw_again; eauto| | |]; cbn [t_events t_instrs t_slices saw more_slices more_instrs].
      * rewrite Ev, app_assoc. reflexivity.
      * exact In.
      * rewrite app_assoc, em_slice. lia.
    + eapply ap_between with (done := done ++ [i0]) (k := (k + k')%nat); cbn [t_events t_instrs t_slices saw more_slices more_instrs].
      * rewrite <- app_assoc. exact P.
      * eapply io_next; [exact O|]. exists es', w, i, a. repeat split; eauto.
      * rewrite Ev, app_assoc. reflexivity.
      * rewrite app_length. cbn [length]. lia.
      * rewrite app_assoc, em_instr. lia.
  - destruct (follow_shape e w i a A) as [X|(j' & X & R & _)]; [congruence|]. rewrite Fo in X. injection X as -> ->.
    destruct (a_error a) eqn:Er; [destruct (R eq_refl); congruence|].
    unfold visit. destruct (late (length (emitted (t_events (saw t (Applied (tried i a))))))) eqn:La; cbn [pbind]; [apply la_late; exact La|].
    unfold advance. destruct (advance_slice (e_layout e) (w_slice (a_world a))) as [s|x|u|] eqn:Ad; cbn [lift pbind].
    2-4: (eapply la_broken; [exact P|exact O|exact U| | |exact In];
        [eapply bo_advance; [exact A|reflexivity|right; congruence|rewrite Ad; reflexivity]|cbn; rewrite Er, Ev, <- !app_assoc; reflexivity]).
    cbn [app]. eapply ap_within; [exact P|exact O|eapply uw_more; eauto| | |]; cbn [t_events t_instrs t_slices saw more_slices more_instrs].
    + rewrite Ev, <- !app_assoc. reflexivity.
    + exact In.
    + rewrite app_assoc, em_both. lia.
Qed.

Lemma step_point : forall st, at_point st -> match step st with Go st' => at_point st' | Halt t r => left_at t r end.
Proof.
  intros st H. destruct H as [done rest es k w t P O Ev In Sl|done i0 rest es k w1 es' k' w i t P O U Ev In Sl].
  - destruct rest as [|i rest].
    + unfold step, stream_step. cbn [take_next ss_future ss_rest ss_tally ss_world]. unfold visit.
      destruct (late (length (emitted (t_events t)))) eqn:La; cbn [pbind]; [apply la_late; exact La|].
      rewrite app_nil_r in P. subst done. eapply la_end; [exact O| | |]; cbn [t_events t_instrs t_slices saw]; [congruence|exact In|].
      rewrite Ev, em_slice. lia.
    + eapply attempt_point with (done := done) (i0 := i) (es' := []) (k' := 0%nat) (t := more_instrs t); eauto.
      * constructor.
      * rewrite app_nil_r. exact Ev.
      * cbn [t_events t_instrs t_slices saw more_slices more_instrs]. lia.
      * rewrite app_nil_r. cbn [t_events t_instrs t_slices saw more_slices more_instrs]. lia.
      * reflexivity.
  - eapply attempt_point; eauto.
Qed.

Lemma turns_point : forall n st, at_point st -> match turns step n st with Go st' => at_point st' | Halt t r => left_at t r end.
Proof.
  induction n as [|n IH]; intros st H; cbn [turns]; [exact H|]. pose proof (step_point st H) as S1.
  destruct (step st) as [st'|t r]; cbn [pbind]; [apply IH; exact S1|exact S1].
Qed.
End Stream.

(** The converse: what can be carried out in order is. *)
Lemma turns_plus : forall S (step : S -> progress S) n m s, turns step (n + m) s = pbind (turns step n s) (turns step m).
Proof.
  induction n as [|n IH]; intros m s; cbn [turns Nat.add pbind]; [reflexivity|].
  destruct (step s) as [s'|t r]; cbn [pbind]; [apply IH|reflexivity].
Qed.

Section Converse.
Variables (e : env) (late : nat -> bool).
Hypothesis never : forall n, late n = false.
Let step := stream_step e late.

(** The counters after more events. *)
Definition later (t : tally) (es : list event) (k : nat) : tally :=
  mkT (t_events t ++ es) (t_instrs t) (t_slices t + N.of_nat (length (emitted es)) - N.of_nat k).

Lemma refusals_slices : forall w0 i0 es k w i, underway e w0 i0 es k w i -> k <= length (emitted es).
Proof. intros w0 i0 es k w i U. induction U; [cbn; lia|rewrite em_both; lia|rewrite em_slice; lia]. Qed.

Lemma underway_runs : forall w1 i0 es k w i, underway e w1 i0 es k w i -> forall rest t,
  exists n st, turns step n (mkSS w1 [] (i0 :: rest) t) = Go st
    /\ take_next st = Some (i, mkSS w [] rest (later (more_instrs t) es k)).
Proof.
  intros w1 i0 es k w i U rest t. induction U as [|es k w i a j s U IH A Er Fo Ad|es k w i a s U IH A Er Fo Wn Ad].
  - exists 0, (mkSS w1 [] (i0 :: rest) t). split; [reflexivity|]. cbn. unfold later. cbn. rewrite app_nil_r, N.add_0_r, N.sub_0_r. reflexivity.
  - destruct IH as (n & st & T & N1). pose proof (refusals_slices _ _ _ _ _ _ U). exists (n + 1), (mkSS (with_slice (a_world a) s) [j] rest
      (later (more_instrs t) (es ++ [Applied (tried i a); Emitted (w_slice (a_world a))]) k)). split; [|reflexivity].
    rewrite turns_plus, T. cbn [pbind turns]. unfold step, stream_step. rewrite N1. cbn [ss_tally ss_world ss_future ss_rest].
    rewrite A. cbn [lift pbind]. rewrite Er, Fo. unfold visit. rewrite never. cbn [pbind]. unfold advance. rewrite Ad. cbn [lift pbind app].
    unfold later, more_slices, saw. cbn [t_events t_instrs t_slices more_instrs]. do 2 f_equal. f_equal; [rewrite <- !app_assoc; reflexivity|].
    rewrite em_both. lia.
  - destruct IH as (n & st & T & N1). pose proof (refusals_slices _ _ _ _ _ _ U). exists (n + 1), (mkSS (with_slice (a_world a) s) [mkI (a_op a) (wait i - 1) (clients i)] rest
      (later (more_instrs t) (es ++ [Emitted (w_slice (a_world a))]) (S k))). split; [|reflexivity].
    rewrite turns_plus, T. cbn [pbind turns]. unfold step, stream_step. rewrite N1. cbn [ss_tally ss_world ss_future ss_rest].
    rewrite A. cbn [lift pbind]. rewrite Er, Fo. cbn [negb]. unfold visit. rewrite never. cbn [pbind].
    destruct (N.eqb_spec (wait i) 0); [contradiction|]. unfold advance. rewrite Ad. cbn [lift pbind].
    unfold later, saw. cbn [t_events t_instrs t_slices more_instrs]. do 2 f_equal. f_equal; [rewrite <- !app_assoc; reflexivity|].
    rewrite em_slice. lia.
Qed.

Lemma carried_runs : forall w1 i0 es k w', carried_out e w1 i0 es k w' -> forall rest t,
  k <= length (emitted es) /\ exists n, turns step n (mkSS w1 [] (i0 :: rest) t) = Go (mkSS w' [] rest (later (more_instrs t) es k)).
Proof.
  intros w1 i0 es k w' (es' & w & i & a & U & A & Er & Fo & -> & ->) rest t.
  pose proof (refusals_slices _ _ _ _ _ _ U). split; [rewrite em_instr; auto|].
  destruct (underway_runs _ _ _ _ _ _ U rest t) as (n & st & T & N1). exists (n + 1). rewrite turns_plus, T. cbn [pbind turns].
  unfold step, stream_step. rewrite N1. cbn [ss_tally ss_world ss_future ss_rest]. rewrite A. cbn [lift pbind]. rewrite Er, Fo. cbn [negb pbind].
  unfold later, saw. cbn [t_events t_instrs t_slices more_instrs]. do 2 f_equal. f_equal; [rewrite <- !app_assoc; reflexivity|].
  rewrite em_instr. reflexivity.
Qed.

Lemma in_order_runs : forall w0 p es k w, in_order e w0 p es k w -> forall rest,
  k <= length (emitted es) /\ exists n, turns step n (stream_init (p ++ rest) w0) = Go (mkSS w [] rest
     (mkT es (N.of_nat (length p)) (1 + N.of_nat (length (emitted es)) - N.of_nat k))).
Proof.
  intros w0 p es k w O. induction O as [|p es k w i es' k' w' O IH C]; intros rest.
  - split; [cbn; lia|]. exists 0. reflexivity.
  - destruct (IH (i :: rest)) as (Kl & n & T). set (t := mkT es (N.of_nat (length p)) (1 + N.of_nat (length (emitted es)) - N.of_nat k)) in *.
    destruct (carried_runs _ _ _ _ _ C rest t) as (Kl' & m & T').
    split; [rewrite emitted_app, app_length; lia|]. exists (n + m). rewrite <- app_assoc. cbn [app]. rewrite turns_plus, T. cbn [pbind]. rewrite T'.
    unfold later, t. cbn [t_events t_instrs t_slices more_instrs]. do 2 f_equal. f_equal.
    + rewrite app_length. cbn [length]. lia.
    + rewrite emitted_app, app_length. lia.
Qed.
End Converse.

(** ** Invariants of the stream pipeline *)
Section Invariant.
Variables (e : env) (late : nat -> bool).
Hypothesis plain : e_edpc e = false.
(** [K w l]: the state of the lattice and all that is still to be done, in order; [Q]: what emitted
    slices are like. *)
Variables (K : world -> list instr -> Prop) (Q : slice -> Prop).
Hypothesis K_attempt : forall w i l a, K w (i :: l) -> try_apply e w i = Ok a ->
  Q (w_slice (a_world a))
  /\ (a_error a = false -> a_follow a = [] -> K (a_world a) l)
  /\ (forall j s, a_error a = false -> a_follow a = [j] -> advance_slice (e_layout e) (w_slice (a_world a)) = Ok s ->
        K (with_slice (a_world a) s) (j :: l))
  /\ (forall s, a_error a = true -> a_follow a = [] -> wait i <> 0%N ->
        advance_slice (e_layout e) (w_slice (a_world a)) = Ok s ->
        K (with_slice (a_world a) s) (mkI (a_op a) (wait i - 1) (clients i) :: l)).
Hypothesis K_end : forall w, K w [] -> Q (w_slice w).

Definition kept (st : stream_st) : Prop :=
  K (ss_world st) (ss_future st ++ ss_rest st) /\ length (ss_future st) <= 1 /\ Forall Q (emitted (t_events (ss_tally st))).

Lemma kept_step : forall st, kept st -> match stream_step e late st with
  | Go st' => kept st' | Halt t _ => Forall Q (emitted (t_events t)) end.
Proof.
  intros [w f r t] (HK & Hf & HQ). cbn [ss_world ss_future ss_rest ss_tally] in *. unfold stream_step.
  assert (Vis : forall t s, Forall Q (emitted (t_events t)) -> Q s -> match visit late t s with
      | Go t' => t' = saw t (Emitted s) /\ Forall Q (emitted (t_events t')) | Halt t' _ => Forall Q (emitted (t_events t')) end).
  { intros t1 s1 F1 F2. unfold visit. destruct (late _); auto. split; [reflexivity|]. cbn. rewrite emitted_app. apply Forall_app. split; auto.
    cbn. constructor; auto. }
  destruct (take_next (mkSS w f r t)) as [[i st']|] eqn:Tn.
  - assert (X : K w (i :: ss_rest st') /\ ss_world st' = w /\ ss_future st' = [] /\ Forall Q (emitted (t_events (ss_tally st')))).
    { destruct f as [|x f]; [destruct r as [|x r]; [discriminate|]|destruct f; [|cbn in Hf; lia]]; cbn in Tn; injection Tn as <- <-; auto. }
    destruct X as (HK' & Ew & Ef & HQ'). rewrite Ew.
    destruct (try_apply e w i) as [a|x|u|] eqn:A; cbn [lift pbind]; auto.
    destruct (K_attempt _ _ _ _ HK' A) as (Q1 & K1 & K2 & K3).
    set (t1 := if a_error a then ss_tally st' else saw (ss_tally st') (Applied (tried i a))).
    assert (Q2 : Forall Q (emitted (t_events t1))).
    { unfold t1. destruct (a_error a); auto. cbn. rewrite emitted_app. apply Forall_app. split; auto. constructor. }
    destruct (a_follow a) as [|j fl] eqn:Fo.
    + destruct (a_error a) eqn:Er; cbn [negb].
      * pose proof (Vis t1 _ Q2 Q1) as V. destruct (visit late t1 (w_slice (a_world a))) as [t2|t2 ?]; cbn [pbind]; auto. destruct V as [_ V].
        destruct (N.eqb_spec (wait i) 0); auto. unfold advance.
        destruct (advance_slice (e_layout e) (w_slice (a_world a))) as [s|x|u|] eqn:Ad; cbn [lift pbind]; auto.
        split; [|split; auto]. cbn. rewrite Ef. cbn [app]. apply K3; auto. cbn. rewrite Ef. cbn. lia.
      * split; [|split; auto]; cbn; rewrite Ef; [apply K1; auto|cbn; lia].
    + destruct (follow_shape e w i a A) as [X|(j' & X & R & _)]; [congruence|]. rewrite Fo in X. injection X as -> ->.
      destruct (a_error a) eqn:Er; [destruct (R eq_refl); congruence|].
      pose proof (Vis t1 _ Q2 Q1) as V. destruct (visit late t1 (w_slice (a_world a))) as [t2|t2 ?]; cbn [pbind]; auto. destruct V as [_ V].
      unfold advance. destruct (advance_slice (e_layout e) (w_slice (a_world a))) as [s|x|u|] eqn:Ad; cbn [lift pbind]; auto.
      split; [|split; auto]; cbn; rewrite Ef; cbn [app]; [apply K2; auto|cbn; lia].
  - destruct f; [|discriminate]. destruct r; [|discriminate]. cbn [ss_tally ss_world]. 
    pose proof (Vis t _ HQ (K_end _ HK)) as V. destruct (visit late t (w_slice w)) as [t2|t2 ?]; cbn [pbind]; tauto.
Qed.

Lemma kept_turns : forall n st, kept st -> match turns (stream_step e late) n st with
  | Go st' => kept st' | Halt t _ => Forall Q (emitted (t_events t)) end.
Proof.
  induction n as [|n IH]; intros st H; cbn [turns]; [exact H|]. pose proof (kept_step st H) as S1.
  destruct (stream_step e late st); cbn [pbind]; [apply IH; exact S1|exact S1].
Qed.
Lemma kept_run : forall n prog w, K w prog ->
  match turns (stream_step e late) n (stream_init prog w) with
  | Go st' => Forall Q (emitted (t_events (ss_tally st'))) /\ K (ss_world st') (ss_future st' ++ ss_rest st')
  | Halt t _ => Forall Q (emitted (t_events t)) end.
Proof.
  intros n prog w H. assert (Z : kept (stream_init prog w)) by (split; [exact H|split; [cbn; lia|constructor]]).
  pose proof (kept_turns n _ Z) as T. destruct (turns (stream_step e late) n (stream_init prog w)) as [st|t r]; auto.
  destruct T as (T1 & _ & T2). auto.
Qed.
End Invariant.
