(** Consequences of being scheduled. *)
From Verif Require Import Base PatchesModel LayoutModel InstrModel SliceModel ApplyModel RunModel SchedSpec.
Open Scope nat_scope.

Lemma put_at_length {B} (v : B) n l : n < length l -> length (put_at n v l) = length l.
Proof. intros H. unfold put_at. rewrite app_length, firstn_length. cbn [length]. rewrite skipn_length. lia. Qed.
Lemma put_at_same {B} (v : B) : forall l n, n < length l -> nth_error (put_at n v l) n = Some v.
Proof. induction l as [|x l IH]; intros [|n] H; cbn in *; try lia; [reflexivity|]. apply IH. lia. Qed.
Lemma put_at_other {B} (v : B) : forall l n m, n < length l -> n <> m -> nth_error (put_at n v l) m = nth_error l m.
Proof.
  induction l as [|x l IH]; intros [|n] [|m] H D; cbn in *; try lia; try reflexivity.
  apply IH; lia.
Qed.
Lemma nth_short {B} (l : list B) n x : nth_error l n = Some x -> n < length l.
Proof. intros H. apply nth_error_Some. congruence. Qed.

Lemma seen_app : forall a b, seen (a ++ b) = seen a ++ seen b.
Proof. intros. unfold seen. apply flat_map_app. Qed.
Lemma tries_app : forall j a b, tries j (a ++ b) = tries j a ++ tries j b.
Proof. intros. unfold tries. apply flat_map_app. Qed.
Lemma tries_one : forall j x a o i, tries i [Try j x a o] = if Nat.eqb j i then [(x, a)] else [].
Proof. intros. cbn. rewrite app_nil_r. reflexivity. Qed.
Lemma refusals_snoc : forall l x a, refusals (l ++ [(x, a)]) = if a_error a then S (refusals l) else 0.
Proof. intros. unfold refusals. rewrite fold_left_app. reflexivity. Qed.

Section Facts.
Variables (e : env) (conflict : instr -> instr -> bool) (again : instr -> applied -> instr -> Prop).
Notation sched := (scheduled e conflict again).

Lemma sched_length : forall prog w0 acts w p, sched prog w0 acts w p -> length p = length prog.
Proof.
  intros prog w0 acts w p S. induction S as [|acts w p j x a o S IH N G A Lv| |]; auto; [apply map_length|].
  rewrite put_at_length; [exact IH|eapply nth_short; eauto].
Qed.

(** The life of each instruction. *)
Lemma sched_life : forall prog w0 acts w p, sched prog w0 acts w p ->
  forall j x0, nth_error prog j = Some x0 -> exists o, nth_error p j = Some o /\ life again x0 (tries j acts) o.
Proof.
  intros prog w0 acts w p S. induction S as [|acts w p k x a o' S IH N G A Lv|acts w p s S IH Ad|acts w p s S IH Ed Ad]; intros j x0 P.
  - exists (Some x0). split; [rewrite nth_error_map, P; reflexivity|constructor].
  - destruct (IH j x0 P) as (o & O1 & O2). pose proof (nth_short _ _ _ N) as K. rewrite tries_app, tries_one.
    destruct (Nat.eqb_spec k j) as [->|D].
    + rewrite N in O1. injection O1 as <-. eexists. split; [apply put_at_same; exact K|].
      unfold leaves in Lv. destruct (a_error a) eqn:Er; [destruct Lv as (y & -> & Ag); econstructor; eauto|subst o'; constructor; auto].
    + rewrite put_at_other by auto. rewrite app_nil_r. eauto.
  - destruct (IH j x0 P) as (o & O1 & O2). exists o. split; [exact O1|]. rewrite tries_app. cbn. rewrite app_nil_r. exact O2.
  - destruct (IH j x0 P) as (o & O1 & O2). exists o. split; [exact O1|]. rewrite tries_app. cbn. rewrite app_nil_r. exact O2.
Qed.

(** Nothing left stays nothing left. *)
Lemma sched_over : forall prog w0 acts w p, sched prog w0 acts w p -> forall t1 t2, acts = t1 ++ t2 ->
  exists w1 p1, sched prog w0 t1 w1 p1 /\ forall i, nth_error p1 i = Some None ->
     nth_error p i = Some None /\ tries i t2 = [].
Proof.
  intros prog w0 acts w p S. induction S as [|acts w p k x a o' S IH N G A Lv|acts w p s S IH Ad|acts w p s S IH Ed Ad]; intros t1 t2 E.
  - symmetry in E. apply app_eq_nil in E. destruct E as [-> ->]. exists w0, (map Some prog). split; [constructor|auto].
  - destruct t2 as [|c t2] using rev_ind.
    + rewrite app_nil_r in E. subst t1. eexists _, _. split; [econstructor; eauto|]. auto.
    + rewrite app_assoc in E. apply app_inj_tail in E. destruct E as [E <-]. destruct (IH t1 t2 E) as (w1 & p1 & S1 & W).
      exists w1, p1. split; [exact S1|]. intros i Hi. destruct (W i Hi) as [W1 W2]. assert (D : k <> i) by (intros ->; congruence).
      rewrite put_at_other by (auto; eapply nth_short; eauto). split; [exact W1|]. rewrite tries_app, W2, tries_one.
      apply Nat.eqb_neq in D. rewrite D. reflexivity.
  - destruct t2 as [|c t2] using rev_ind.
    + rewrite app_nil_r in E. subst t1. eexists _, _. split; [eapply sc_show; eauto|]. auto.
    + rewrite app_assoc in E. apply app_inj_tail in E. destruct E as [E <-]. destruct (IH t1 t2 E) as (w1 & p1 & S1 & W).
      exists w1, p1. split; [exact S1|]. intros i Hi. destruct (W i Hi) as [W1 W2]. split; [exact W1|]. rewrite tries_app, W2. reflexivity.
  - destruct t2 as [|c t2] using rev_ind.
    + rewrite app_nil_r in E. subst t1. eexists _, _. split; [eapply sc_mend; eauto|]. auto.
    + rewrite app_assoc in E. apply app_inj_tail in E. destruct E as [E <-]. destruct (IH t1 t2 E) as (w1 & p1 & S1 & W).
      exists w1, p1. split; [exact S1|]. intros i Hi. destruct (W i Hi) as [W1 W2]. split; [exact W1|]. rewrite tries_app, W2. reflexivity.
Qed.

(** An instruction is not touched any more once a later one that conflicts with
    it has been attempted. *)
Lemma sched_order : forall prog w0 acts w p, sched prog w0 acts w p ->
  forall i j u v, i < j -> nth_error prog i = Some u -> nth_error prog j = Some v -> conflict u v = true ->
  forall t1 x a o t2, acts = t1 ++ Try j x a o :: t2 -> tries i t2 = [] /\ nth_error p i = Some None.
Proof.
  intros prog w0 acts w p S i j u v Hij Pi Pj Hc t1 x a o t2 E.
  assert (E' : acts = (t1 ++ [Try j x a o]) ++ t2) by (rewrite <- app_assoc; exact E).
  destruct (sched_over _ _ _ _ _ S _ _ E') as (w1 & p1 & S1 & W).
  inversion S1 as [X|acts' w' p' k x' a' o' S' N G A Lv Eq|acts' w' p' s' S' Ad Eq|acts' w' p' s' S' Ed' Ad Eq]; subst.
  - destruct t1; discriminate.
  - apply app_inj_tail in Eq. destruct Eq as [-> Eq]. injection Eq as -> -> -> ->. pose proof (G _ _ _ Hij Pi Pj Hc) as Ni.
    destruct (W i) as [W1 W2]; [|auto]. rewrite put_at_other; [exact Ni|eapply nth_short; eauto|lia].
  - apply app_inj_tail in Eq. destruct Eq as [_ Eq]. discriminate.
  - apply app_inj_tail in Eq. destruct Eq as [_ Eq]. discriminate.
Qed.
End Facts.

Lemma refusals_all : forall l r, (forall x a, In (x, a) r -> a_error a = true) -> refusals (l ++ r) = refusals l + length r.
Proof.
  intros l r. induction r as [|[x a] r IH] using rev_ind; intros H; [rewrite app_nil_r; cbn; lia|].
  rewrite app_assoc, refusals_snoc, (H x a) by (apply in_app_iff; right; now left). rewrite app_length. cbn [length]. rewrite IH; [lia|].
  intros y b Hy. apply (H y). apply in_app_iff. now left.
Qed.

(** ** What was done determines where one is *)
Section Det.
Variables (e : env) (conflict : instr -> instr -> bool) (again : instr -> applied -> instr -> Prop).
Notation sched := (scheduled e conflict again).

Lemma sched_fun : forall prog w0 acts w p, sched prog w0 acts w p -> forall w' p', sched prog w0 acts w' p' -> w = w' /\ p = p'.
Proof.
  intros prog w0 acts w p S. induction S as [|acts w p j x a o S IH N G A Lv|acts w p s S IH Ad|acts w p s S IH Ed Ad]; intros w' p' S'.
  - inversion S' as [|? ? ? ? ? ? ? _ _ _ _ _ E|? ? ? ? _ _ E|? ? ? ? _ _ _ E]; [auto|destruct acts; discriminate..].
  - inversion S' as [E|? ? ? ? ? ? ? S1 N1 G1 A1 Lv1 E|? ? ? ? S1 _ E|? ? ? ? S1 _ _ E]; subst.
    + destruct acts; discriminate.
    + apply app_inj_tail in E. destruct E as [-> E]. injection E as -> -> -> ->. destruct (IH _ _ S1) as [-> ->]. auto.
    + apply app_inj_tail in E. destruct E as [_ E]. discriminate.
    + apply app_inj_tail in E. destruct E as [_ E]. discriminate.
  - inversion S' as [E|? ? ? ? ? ? ? S1 N1 G1 A1 Lv1 E|? ? ? ? S1 Ad1 E|? ? ? ? S1 _ _ E]; subst.
    + destruct acts; discriminate.
    + apply app_inj_tail in E. destruct E as [_ E]. discriminate.
    + apply app_inj_tail in E. destruct E as [-> E]. injection E as E. destruct (IH _ _ S1) as [-> ->]. rewrite Ad in Ad1. injection Ad1 as ->. auto.
    + apply app_inj_tail in E. destruct E as [_ E]. discriminate.
  - inversion S' as [E|? ? ? ? ? ? ? S1 N1 G1 A1 Lv1 E|? ? ? ? S1 Ad1 E|? ? ? ? S1 _ Ad1 E]; subst.
    + destruct acts; discriminate.
    + apply app_inj_tail in E. destruct E as [_ E]. discriminate.
    + apply app_inj_tail in E. destruct E as [_ E]. discriminate.
    + apply app_inj_tail in E. destruct E as [-> _]. destruct (IH _ _ S1) as [-> ->]. rewrite Ad in Ad1. injection Ad1 as ->. auto.
Qed.

(** Without an attempt nothing changes. *)
Lemma sched_still : forall prog w0 acts w p, sched prog w0 acts w p -> forall new w' p', sched prog w0 (acts ++ new) w' p' ->
  forall j, tries j new = [] -> nth_error p' j = nth_error p j.
Proof.
  intros prog w0 acts w p S new. induction new as [|c new IH] using rev_ind; intros w' p' S' j T.
  - rewrite app_nil_r in S'. destruct (sched_fun _ _ _ _ _ S _ _ S') as [_ ->]. reflexivity.
  - rewrite tries_app in T. apply app_eq_nil in T. destruct T as [T1 T2]. rewrite app_assoc in S'.
    inversion S' as [E|? ? ? k ? ? ? S1 N1 G1 A1 Lv1 E|? ? ? ? S1 Ad1 E|? ? ? ? S1 Ed1 Ad1 E]; subst.
    + destruct (acts ++ new); discriminate.
    + apply app_inj_tail in E. destruct E as [-> <-]. rewrite <- (IH _ _ S1 j T1). rewrite tries_one in T2.
      destruct (Nat.eqb_spec k j); [discriminate|]. apply put_at_other; [eapply nth_short; eauto|auto].
    + apply app_inj_tail in E. destruct E as [-> <-]. exact (IH _ _ S1 j T1).
    + apply app_inj_tail in E. destruct E as [-> <-]. exact (IH _ _ S1 j T1).
Qed.

(** Only being accepted can complete an instruction. *)
Lemma sched_ready : forall prog w0 acts w p new w' p', sched prog w0 acts w p -> sched prog w0 (acts ++ new) w' p' ->
  forall j, ready conflict prog p j -> (forall x a, In (x, a) (tries j new) -> a_error a = true) -> ready conflict prog p' j.
Proof.
  intros prog w0 acts w p new w' p' S S' j [[x Px] C] R.
  destruct (sched_over _ _ _ _ _ _ _ _ S' acts new eq_refl) as (w1 & p1 & S1 & W). destruct (sched_fun _ _ _ _ _ S1 _ _ S) as [-> ->].
  split; [|intros i u v Hij Pu Pv Hc; apply (W i); eauto].
  destruct (nth_error prog j) as [x0|] eqn:Pj.
  2: { apply nth_short in Px. rewrite (sched_length _ _ _ _ _ _ _ _ S) in Px. apply nth_error_None in Pj. lia. }
  destruct (sched_life _ _ _ _ _ _ _ _ S _ _ Pj) as (o & O1 & O2). destruct (sched_life _ _ _ _ _ _ _ _ S' _ _ Pj) as (o' & O1' & O2').
  assert (o = Some x) by congruence. subst o. rewrite tries_app in O2'. rewrite O1'. pose proof (sched_still _ _ _ _ _ S _ _ _ S' j) as St.
  destruct (tries j new) as [|[y b] r _] using rev_ind.
  - exists x. rewrite <- O1', <- O1. exact (St eq_refl).
  - rewrite app_assoc in O2'. inversion O2' as [E|? ? ? ? H1 E1 Ag E|? ? ? H1 E1 E]; subst.
    + symmetry in E. apply app_eq_nil in E. destruct E. discriminate.
    + eauto.
    + apply app_inj_tail in E. destruct E as [_ E]. injection E as -> ->. rewrite (R y b) in E1; [discriminate|]. apply in_app_iff. right. now left.
Qed.

End Det.

(** At least one event for each instruction that was completed. *)
Lemma sched_counted : forall e conflict again prog w0 acts w p, scheduled e conflict again prog w0 acts w p -> Forall (fun o => o = None) p ->
  length prog + length (emitted (seen acts)) <= length (seen acts).
Proof.
  intros e conflict again prog w0 acts w p S Al.
  assert (Acc : forall j x0, nth_error prog j = Some x0 -> exists x a o, In (Try j x a o) acts /\ a_error a = false).
  { intros j x0 Pj. destruct (sched_life _ _ _ _ _ _ _ _ S _ _ Pj) as (o & O1 & O2). rewrite Forall_forall in Al.
    rewrite (Al o) in O2 by (eapply nth_error_In; eauto).
    assert (X : exists x a, In (x, a) (tries j acts) /\ a_error a = false).
    { inversion O2 as [E|l x a y H Er Ag E|l x a H Er E]. exists x, a. split; [apply in_app_iff; right; now left|exact Er]. }
    destruct X as (x & a & X & Er). unfold tries in X. apply in_flat_map in X. destruct X as ([i y b o'|s|] & X1 & X2); [|destruct X2..].
    destruct (Nat.eqb_spec i j) as [->|]; [|destruct X2]. destruct X2 as [X2|[]]. injection X2 as -> ->. exists x, a, o'. auto. }
  set (ids := flat_map (fun c => match c with Try i x a _ => if a_error a then [] else [i] | _ => [] end) acts).
  assert (Len : length (seen acts) = length ids + length (emitted (seen acts))).
  { unfold ids. clear. induction acts as [|[i x a o|s|] acts IH]; cbn [seen flat_map emitted length]; [reflexivity| | |exact IH].
    - fold (seen acts). destruct (a_error a); cbn [app emitted flat_map length]; [exact IH|]. fold (emitted (seen acts)). lia.
    - fold (seen acts). cbn [app emitted flat_map length]. fold (emitted (seen acts)). lia. }
  assert (Sub : incl (seq 0 (length prog)) ids).
  { intros j Hj. apply in_seq in Hj. destruct (nth_error prog j) as [x0|] eqn:Pj; [|apply nth_error_None in Pj; lia].
    destruct (Acc j x0 Pj) as (x & a & o & X & Er). unfold ids. apply in_flat_map. exists (Try j x a o). split; [exact X|]. rewrite Er. now left. }
  pose proof (NoDup_incl_length (seq_NoDup (length prog) 0) Sub) as Q. rewrite seq_length in Q. lia.
Qed.
