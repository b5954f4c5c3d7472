(** Invariants of whole runs that speak about what was applied so far. *)
From Verif Require Import Base PatchesModel LayoutModel InstrModel SliceModel SliceSpec SliceProofs ApplyModel ApplySpec ApplyProofs ApplyProps.
From Verif Require Import RunModel RunSpec RunProofs SchedSpec SchedProofs DagLoop DagLoopProps WaveModel WaveSpec WaveProofs WaveProps RunInv YProps.
Open Scope nat_scope.

(** [I] holds of every slice shown, given what had happened before. *)
Definition each_shown (I : list event -> slice -> Prop) (es : list event) : Prop :=
  forall before s after, es = before ++ Emitted s :: after -> I before s.
Lemma each_nil : forall I, each_shown I [].
Proof. intros I before s after H. destruct before; discriminate. Qed.
Lemma each_snoc : forall (I : list event -> slice -> Prop) es ev, each_shown I es -> (match ev with Emitted s => I es s | Applied _ => True end) -> each_shown I (es ++ [ev]).
Proof.
  intros I es ev H H1 before s after E. destruct after as [|x after] using rev_ind.
  - apply app_inj_tail in E as [<- ->]. exact H1.
  - rewrite app_comm_cons, app_assoc in E. apply app_inj_tail in E as [E _]. eapply H; eauto.
Qed.

Lemma each_prefix : forall (I : list event -> slice -> Prop) es x, each_shown I (es ++ x) -> each_shown I es.
Proof. intros I es x H before s after ->. apply (H before s (after ++ x)). now rewrite <- app_assoc. Qed.
Lemma nth_put_at : forall A (p : list (option A)) j o k, j < length p -> nth_error (put_at j o p) k = if Nat.eqb k j then Some o else nth_error p k.
Proof.
  intros A p j o k Hj. unfold put_at. assert (Lf : length (firstn j p) = j) by (apply firstn_length_le; lia). destruct (Nat.eqb_spec k j) as [->|Nk].
  - rewrite nth_error_app2, Lf, Nat.sub_diag by lia. reflexivity.
  - destruct (Nat.lt_ge_cases k j) as [Lt|Ge].
    + rewrite nth_error_app1 by lia. rewrite <- (firstn_skipn j p) at 2. now rewrite nth_error_app1 by lia.
    + rewrite nth_error_app2, Lf by lia. replace (k - j) with (S (k - S j)) by lia. cbn [nth_error].
      rewrite <- (firstn_skipn (S j) p) at 2. rewrite nth_error_app2 by (rewrite firstn_length_le; lia). now rewrite firstn_length_le by lia.
Qed.

Section Trace.
Variables (e : env) (I : list event -> slice -> Prop) (P : list event -> slice -> operation -> Prop) (D : operation -> operation -> Prop).
Hypothesis Ed : e_edpc e = false.
Hypothesis Sym : forall o o', D o o' -> D o' o.
(** What happened so far, after the attempt *)
Definition after_try (h : list event) (i : instr) (a : applied) : list event := if a_error a then h else h ++ [Applied (tried i a)].
Hypothesis Try_ : forall h w i a, I h (w_slice w) -> P h (w_slice w) (op i) -> try_apply e w i = Ok a ->
  I (after_try h i a) (w_slice (a_world a)) /\ (forall o', left_of a o' -> P (after_try h i a) (w_slice (a_world a)) o')
  /\ forall o, P h (w_slice w) o -> D (op i) o -> P (after_try h i a) (w_slice (a_world a)) o /\ forall o', left_of a o' -> D o' o.
Hypothesis Adv : forall h s s', I h s -> advance_slice (e_layout e) s = Ok s' -> I (h ++ [Emitted s]) s' /\ forall o, P h s o -> P (h ++ [Emitted s]) s' o.

Definition apart_in (h : list event) (s : slice) (p : list (option instr)) : Prop :=
  (forall j x, nth_error p j = Some (Some x) -> P h s (op x))
  /\ forall j k x y, j <> k -> nth_error p j = Some (Some x) -> nth_error p k = Some (Some y) -> D (op x) (op y).
Lemma apart_in_start : forall s l, Forall (fun i => P [] s (op i)) l -> (forall i i', In i l -> In i' l -> D (op i) (op i')) -> apart_in [] s (map Some l).
Proof.
  intros s l F A. rewrite Forall_forall in F.
  assert (M : forall j x, nth_error (map Some l) j = Some (Some x) -> In x l).
  { intros j x H. rewrite nth_error_map in H. destruct (nth_error l j) eqn:E; cbn in H; [|discriminate]. injection H as <-. now apply nth_error_In in E. }
  split; eauto.
Qed.
Lemma apart_in_try : forall h w p j x a o, I h (w_slice w) -> apart_in h (w_slice w) p -> nth_error p j = Some (Some x) -> try_apply e w x = Ok a ->
  (match o with Some y => left_of a (op y) | None => True end) ->
  I (after_try h x a) (w_slice (a_world a)) /\ apart_in (after_try h x a) (w_slice (a_world a)) (put_at j o p).
Proof.
  intros h w p j x a o A [B1 B2] Hj Ha Lf. destruct (Try_ h w x a A (B1 j x Hj) Ha) as (A' & E1 & E2). split; [exact A'|].
  assert (Lj : j < length p) by (apply nth_error_Some; congruence).
  split.
  - intros k y Hk. rewrite nth_put_at in Hk by exact Lj. destruct (Nat.eqb_spec k j) as [->|Nk].
    + injection Hk as ->. auto.
    + apply E2; eauto.
  - intros k l y z Nkl Hk Hl. rewrite nth_put_at in Hk, Hl by exact Lj. destruct (Nat.eqb_spec k j) as [->|Nk], (Nat.eqb_spec l j) as [->|Nl].
    + congruence.
    + injection Hk as ->. apply (E2 (op z)); eauto.
    + injection Hl as ->. apply Sym. apply (E2 (op y)); eauto.
    + exact (B2 k l y z Nkl Hk Hl).
Qed.

Lemma seen_try : forall acts j x a o, seen (acts ++ [Try j x a o]) = after_try (seen acts) x a.
Proof. intros acts j x a o. unfold seen, after_try. rewrite flat_map_app. cbn. destruct (a_error a); [now rewrite app_nil_r|reflexivity]. Qed.
Lemma seen_show : forall acts s, seen (acts ++ [Show s]) = seen acts ++ [Emitted s].
Proof. intros acts s. unfold seen. now rewrite flat_map_app. Qed.
Lemma seen_split : forall acts c, seen (acts ++ [c]) = seen acts ++ seen [c].
Proof. intros acts c. unfold seen. now rewrite flat_map_app. Qed.
Lemma each_try : forall h x a, each_shown I h -> each_shown I (after_try h x a).
Proof. intros h x a H. unfold after_try. destruct (a_error a); [exact H|]. apply each_snoc; [exact H|exact Logic.I]. Qed.

Lemma sched_trace : forall (again : instr -> applied -> instr -> Prop) prog w0 acts w p, (forall x a y, again x a y -> op y = a_op a) -> I [] (w_slice w0) -> apart_in [] (w_slice w0) (map Some prog) ->
  scheduled e clash again prog w0 acts w p -> I (seen acts) (w_slice w) /\ apart_in (seen acts) (w_slice w) p /\ each_shown I (seen acts).
Proof.
  intros again prog w0 acts w p Ag I0 P0 Sc. induction Sc as [|acts w p j x a o Sc IH Hp Hr Ha Hl|acts w p s Sc IH Ad|acts w p s Sc IH Em Mn].
  - split; [exact I0|]. split; [exact P0|apply each_nil].
  - destruct IH as (A & B & C). destruct (apart_in_try (seen acts) w p j x a o A B Hp Ha) as [A' B'].
    { destruct o as [y|]; [|exact Logic.I]. unfold leaves in Hl. destruct (a_error a) eqn:Er.
      - destruct Hl as (y' & X & Z). injection X as <-. left. split; [exact Er|eauto].
      - right. exists y. auto. }
    rewrite seen_try. split; [exact A'|]. split; [exact B'|]. now apply each_try.
  - destruct IH as (A & B & C). destruct (Adv _ _ _ A Ad) as [A' B']. rewrite seen_show. split; [exact A'|]. split; [destruct B as [B1 B2]; split; eauto|].
    apply each_snoc; [exact C|exact A].
  - congruence.
Qed.

(** ** The stream pipeline *)
Definition traced (st : stream_st) : Prop :=
  I (t_events (ss_tally st)) (w_slice (ss_world st)) /\ apart_in (t_events (ss_tally st)) (w_slice (ss_world st)) (map Some (ss_future st ++ ss_rest st))
  /\ length (ss_future st) <= 1 /\ each_shown I (t_events (ss_tally st)).
Lemma traced_step : forall late st, traced st -> match stream_step e late st with
  | Go st' => traced st' | Halt t _ => each_shown I (t_events t) end.
Proof.
  intros late [w f r t] (HI & HK & Hf & HQ). cbn [ss_world ss_future ss_rest ss_tally] in *. unfold stream_step.
  assert (Vis : forall t s, each_shown I (t_events t) -> I (t_events t) s -> match visit late t s with
      | Go t' => t' = saw t (Emitted s) /\ each_shown I (t_events t') | Halt t' _ => each_shown I (t_events t') end).
  { intros t1 s1 F1 F2. unfold visit. destruct (late _); auto. split; [reflexivity|]. cbn. now apply each_snoc. }
  destruct (take_next (mkSS w f r t)) as [[i st']|] eqn:Tn.
  - assert (X : apart_in (t_events t) (w_slice w) (map Some (i :: ss_rest st')) /\ ss_world st' = w /\ ss_future st' = [] /\ t_events (ss_tally st') = t_events t).
    { destruct f as [|x f]; [destruct r as [|x r]; [discriminate|]|destruct f; [|cbn in Hf; lia]]; cbn in Tn; injection Tn as <- <-; auto. }
    destruct X as (HK' & Ew & Ef & Et). rewrite Ew.
    destruct (try_apply e w i) as [a|x|u|] eqn:A; cbn [lift pbind]; [|rewrite Et; auto..].
    set (t1 := if a_error a then ss_tally st' else saw (ss_tally st') (Applied (tried i a))).
    assert (E1 : t_events t1 = after_try (t_events t) i a).
    { unfold t1, after_try. destruct (a_error a); [exact Et|]. cbn. now rewrite Et. }
    assert (Q2 : each_shown I (t_events t1)) by (rewrite E1; now apply each_try).
    assert (Tr : forall o, (match o with Some y => left_of a (op y) | None => True end) ->
      I (t_events t1) (w_slice (a_world a)) /\ apart_in (t_events t1) (w_slice (a_world a)) (o :: map Some (ss_rest st'))).
    { intros o Lf. rewrite E1. exact (apart_in_try (t_events t) w (map Some (i :: ss_rest st')) 0 i a o HI HK' eq_refl A Lf). }
    pose proof (proj1 (Tr None Logic.I)) as Q1.
    assert (Go_on : forall y s, left_of a (op y) -> advance_slice (e_layout e) (w_slice (a_world a)) = Ok s -> each_shown I (t_events (saw t1 (Emitted (w_slice (a_world a))))) ->
      traced (mkSS (with_slice (a_world a) s) [y] (ss_rest st') (saw t1 (Emitted (w_slice (a_world a)))))).
    { intros y s Lf Ad Es. destruct (Tr (Some y) Lf) as [A1 B1]. destruct (Adv _ _ _ A1 Ad) as [A2 B2]. unfold traced. cbn [ss_world ss_future ss_rest ss_tally app map with_slice w_slice length].
      split; [exact A2|]. split; [destruct B1 as [C1 C2]; split; [intros j x Hj; apply B2; exact (C1 j x Hj)|exact C2]|]. split; [lia|exact Es]. }
    destruct (a_follow a) as [|j fl] eqn:Fo.
    + destruct (a_error a) eqn:Er; cbn [negb].
      * pose proof (Vis t1 _ Q2 Q1) as V. fold t1. destruct (visit late t1 (w_slice (a_world a))) as [t2|t2 ?]; cbn [pbind]; auto. destruct V as [-> V].
        destruct (N.eqb_spec (wait i) 0); auto. unfold advance.
        destruct (advance_slice (e_layout e) (w_slice (a_world a))) as [s|x|u|] eqn:Ad; cbn [lift pbind]; auto.
        rewrite Ef. cbn [app]. apply Go_on; auto. left. auto.
      * destruct (Tr None Logic.I) as [_ [C1 C2]]. unfold traced. cbn [ss_world ss_future ss_rest ss_tally]. rewrite Ef. cbn [app length more_instrs t_events].
        split; [exact Q1|]. split; [|split; [lia|exact Q2]]. split; [intros k x Hk; exact (C1 (S k) x Hk)|]. intros k l x y Nk Hk Hl. apply (C2 (S k) (S l) x y); auto.
    + destruct (follow_shape e w i a A) as [X|(j' & X & R & _)]; [congruence|]. rewrite Fo in X. injection X as -> ->.
      destruct (a_error a) eqn:Er; [destruct (R eq_refl); congruence|].
      pose proof (Vis t1 _ Q2 Q1) as V. fold t1. destruct (visit late t1 (w_slice (a_world a))) as [t2|t2 ?]; cbn [pbind]; auto. destruct V as [-> V].
      unfold advance. destruct (advance_slice (e_layout e) (w_slice (a_world a))) as [s|x|u|] eqn:Ad; cbn [lift pbind]; auto.
      rewrite Ef. cbn [app]. apply Go_on; auto. right. exists j'. rewrite Fo. auto.
  - destruct f; [|discriminate]. destruct r; [|discriminate]. cbn [ss_tally ss_world].
    pose proof (Vis t _ HQ HI) as V. destruct (visit late t (w_slice w)) as [t2|t2 ?]; cbn [pbind]; tauto.
Qed.
Lemma traced_turns : forall late n st, traced st -> match turns (stream_step e late) n st with
  | Go st' => traced st' | Halt t _ => each_shown I (t_events t) end.
Proof.
  intros late. induction n as [|n IH]; intros st H; cbn [turns]; [exact H|]. pose proof (traced_step late st H) as S1.
  destruct (stream_step e late st); cbn [pbind]; [apply IH; exact S1|exact S1].
Qed.

(** ** All pipelines *)
Lemma runs_trace : forall pl late grow prog w t r, (pl = Wave -> Forall few_patches prog) -> I [] (w_slice w) -> Forall (fun i => P [] (w_slice w) (op i)) prog ->
  (forall i i', In i prog -> In i' prog -> D (op i) (op i')) -> halts pl e late grow prog w t r -> each_shown I (t_events t).
Proof.
  intros pl late grow prog w t r Few I0 P0 D0 (n & H). pose proof (apart_in_start _ _ P0 D0) as S0. destruct pl.
  - assert (T0 : traced (stream_init prog w)).
    { unfold traced, stream_init. cbn [ss_world ss_future ss_rest ss_tally app t_events length]. split; [exact I0|]. split; [exact S0|]. split; [lia|apply each_nil]. }
    pose proof (traced_turns late n _ T0) as X. rewrite H in X. exact X.
  - destruct (C40_runs e late prog w) as (st0 & E0 & R). rewrite E0 in H. cbn [pbind] in H. specialize (R n). rewrite H in R.
    assert (Ag : forall x a y, same_again x a y -> op y = a_op a) by (intros x a y ->; reflexivity).
    destruct R as [acts w' p S' Ev _ _ _|acts w' p j x r S' Ev _ _|acts w' p j x a o S' Ev _ _|acts w' p j x a o S' Ev _ _|acts w' p S' Ev _|acts w' p r S' Ev _];
    destruct (sched_trace _ _ _ _ _ _ Ag I0 S0 S') as (A & _ & B); rewrite Ev; auto.
    + rewrite seen_split in B. eapply each_prefix; exact B.
    + rewrite seen_split in B. eapply each_prefix; exact B.
    + apply each_snoc; [exact B|exact A].
  - pose proof (C41_runs e late grow prog w (plain_uncut e prog Ed) (Few eq_refl) n) as R. rewrite H in R.
    assert (Ag : forall x a y, less_again x a y -> op y = a_op a) by (intros x a y [->|[_ ->]]; reflexivity).
    destruct R as [acts w' p S' Ev _ _ _|acts w' p j x r S' Ev _ _ _|acts w' p j x S' Ev _ _ _|acts w' p j x a o S' Ev _ _|acts w' p j x a o S' Ev _ _|acts w' p S' Ev _|acts w' p r S' Ev _|acts w' p S' Ev _ _|acts w' p r S' Ev Em _|acts w' p j S' Ev _ _ _ _];
    destruct (sched_trace _ _ _ _ _ _ Ag I0 S0 S') as (A & _ & B); rewrite Ev; auto.
    + rewrite seen_split in B. eapply each_prefix; exact B.
    + rewrite seen_split in B. eapply each_prefix; exact B.
    + apply each_snoc; [exact B|exact A].
Qed.
End Trace.
