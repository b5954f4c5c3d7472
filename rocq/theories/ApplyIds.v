(** Ids under local operations. *)
From Verif Require Import Base PatchesModel LayoutModel LayoutSpec LayoutProofs InstrModel InstrSpec.
From Verif Require Import SliceModel SliceSpec SliceProofs RouterModel RouterSpec ApplyModel ApplySpec ApplyProofs ApplyBell.
Open Scope nat_scope.

(** The id is on at most one tile. *)
Definition single (s : slice) (id : N) : Prop := forall c c', carries s c id -> carries s c' id -> c = c'.
Definition absent_id (s : slice) (id : N) : Prop := forall c, ~ carries s c id.

Lemma opt_id_In : forall o x, In x (opt_id o) <-> o = Some x.
Proof. intros [y|] x; cbn; split; intro H; try tauto; try discriminate; [destruct H; [congruence|tauto]|left; congruence]. Qed.

(** A tile carrying [id] after an update was untouched, or was given it. *)
Lemma over2_carries : forall s s' a ta b tb c id, becomes s s' [(a, ta); (b, tb)] -> a <> b -> carries s' c id ->
  c = a /\ (exists p, ta = Some p /\ p_id (dp p) = Some id) \/ c = b /\ (exists p, tb = Some p /\ p_id (dp p) = Some id)
  \/ c <> a /\ c <> b /\ carries s c id.
Proof.
  intros s s' a ta b tb c id [B _] Hab (p & T & I). rewrite B in T. cbn [over] in T.
  destruct (cell_eqb a c) eqn:Ea; [apply cell_eqb_eq in Ea; subst; eauto|].
  destruct (cell_eqb b c) eqn:Eb; [apply cell_eqb_eq in Eb; subst; eauto 6|].
  right. right. split; [intros ->; rewrite (proj2 (cell_eqb_eq _ _) eq_refl) in Ea; discriminate|].
  split; [intros ->; rewrite (proj2 (cell_eqb_eq _ _) eq_refl) in Eb; discriminate|]. exists p. auto.
Qed.

Lemma local_ids_spec : forall edpc s s' l u, local_effect edpc s l u -> becomes s s' u ->
  (forall id, ~ In id (local_ids l) -> single s id -> single s' id)
  /\ (forall id, NoDup (local_ids l) -> absent_id s id -> single s' id)
  /\ (forall id c, carries s' c id -> (exists c', carries s c' id) \/ In id (local_ids l)).
Proof.
  intros edpc s s' l u H B.
  assert (Two : forall c d ta tb,
    (forall p id, ta = Some p -> p_id (dp p) = Some id -> carries s c id \/ In id (local_ids l)) ->
    (forall p id, tb = Some p -> p_id (dp p) = Some id ->
       carries s (step c d) id \/ In id (local_ids l)
       \/ carries s c id) ->
    (forall p q id, ta = Some p -> tb = Some q -> p_id (dp p) = Some id -> p_id (dp q) = Some id ->
       ~ In id (local_ids l) -> carries s c id /\ carries s (step c d) id) ->
    (forall p q id, NoDup (local_ids l) -> ta = Some p -> tb = Some q -> p_id (dp p) = Some id -> p_id (dp q) = Some id ->
       carries s c id \/ carries s (step c d) id) ->
    becomes s s' [(c, ta); (step c d, tb)] ->
    (forall id, ~ In id (local_ids l) -> single s id -> single s' id)
    /\ (forall id, NoDup (local_ids l) -> absent_id s id -> single s' id)
    /\ (forall id c, carries s' c id -> (exists c', carries s c' id) \/ In id (local_ids l))).
  { intros c d ta tb Ha Hb Hboth Hboth2 B2. pose proof (step_neq c d) as Hcd.
    assert (Hcd' : c <> step c d) by congruence.
    assert (Cases := over2_carries s s' c ta (step c d) tb). split; [|split].
    - intros id Hn Hs x y Hx Hy. destruct (Cases x id B2 Hcd' Hx) as [[-> (p & P1 & P2)]|[[-> (p & P1 & P2)]|(X1 & X2 & Hx')]];
        destruct (Cases y id B2 Hcd' Hy) as [[-> (q & Q1 & Q2)]|[[-> (q & Q1 & Q2)]|(Y1 & Y2 & Hy')]]; auto.
      + destruct (Hboth _ _ _ P1 Q1 P2 Q2 Hn) as [U V]. exfalso. apply Hcd'. apply Hs; auto.
      + destruct (Ha _ _ P1 P2) as [U|U]; [|contradiction]. apply Hs; auto.
      + destruct (Hboth _ _ _ Q1 P1 Q2 P2 Hn) as [U V]. exfalso. apply Hcd'. apply Hs; auto.
      + destruct (Hb _ _ P1 P2) as [U|[U|U]]; [apply Hs; auto|contradiction|]. exfalso. apply Y1. apply Hs; auto.
      + destruct (Ha _ _ Q1 Q2) as [U|U]; [|contradiction]. apply Hs; auto.
      + destruct (Hb _ _ Q1 Q2) as [U|[U|U]]; [apply Hs; auto|contradiction|]. exfalso. apply X1. apply Hs; auto.
    - intros id Hn Hs x y Hx Hy. destruct (Cases x id B2 Hcd' Hx) as [[-> (p & P1 & P2)]|[[-> (p & P1 & P2)]|(X1 & X2 & Hx')]];
        destruct (Cases y id B2 Hcd' Hy) as [[-> (q & Q1 & Q2)]|[[-> (q & Q1 & Q2)]|(Y1 & Y2 & Hy')]]; auto;
        try (exfalso; eapply Hs; eassumption).
      + destruct (Hboth2 _ _ _ Hn P1 Q1 P2 Q2) as [U|U]; exfalso; eapply Hs; eassumption.
      + destruct (Hboth2 _ _ _ Hn Q1 P1 Q2 P2) as [U|U]; exfalso; eapply Hs; eassumption.
    - intros id x Hx. destruct (Cases x id B2 Hcd' Hx) as [[-> (p & P1 & P2)]|[[-> (p & P1 & P2)]|(X1 & X2 & Hx')]]; eauto.
      + destruct (Ha _ _ P1 P2) as [U|U]; eauto.
      + destruct (Hb _ _ P1 P2) as [U|[U|U]]; eauto. }
  assert (Dup : forall (x : N) l1 l2, NoDup (l1 ++ l2) -> In x l1 -> In x l2 -> False).
  { intros x l1. induction l1 as [|y l1 IH]; cbn; intros l2 N I J; [auto|]. inversion N; subst.
    destruct I as [->|I]; [|eauto]. apply H2. apply in_app_iff. auto. }
  inversion H; subst; cbn [local_ids] in *.
  - assert (Cs : forall x k, carries s' x k -> x = c /\ id = Some k \/ x <> c /\ carries s x k).
    { intros x k (p & T & I). destruct B as [B _]. rewrite B in T. cbn [over] in T. destruct (cell_eqb c x) eqn:E.
      - apply cell_eqb_eq in E. subst x. injection T as <-. cbn in I. auto.
      - right. split; [intros ->; rewrite (proj2 (cell_eqb_eq _ _) eq_refl) in E; discriminate|]. exists p. auto. }
    split; [|split].
    + intros k Hn Hs x y Hx Hy. rewrite opt_id_In in Hn. apply Cs in Hx. apply Cs in Hy.
      destruct Hx as [[-> X]|[X1 X]]; [contradiction|]. destruct Hy as [[-> Y]|[Y1 Y]]; [contradiction|]. auto.
    + intros k _ Hs x y Hx Hy. apply Cs in Hx. apply Cs in Hy.
      destruct Hx as [[-> X]|[X1 X]]; [|exfalso; eapply Hs; eauto]. destruct Hy as [[-> Y]|[Y1 Y]]; [auto|exfalso; eapply Hs; eauto].
    + intros k x Hx. apply Cs in Hx as [[-> X]|[X1 X]]; [right; apply opt_id_In; auto|eauto].
  - apply (Two _ _ _ _) with (5 := B).
    + intros p id E I. injection E as <-. cbn in I. right. apply in_app_iff. left. apply opt_id_In. auto.
    + intros p id E I. injection E as <-. cbn in I. right. left. apply in_app_iff. right. apply opt_id_In. auto.
    + intros p q id E E' I I' Hn. injection E as <-. cbn in I. exfalso. apply Hn. apply in_app_iff. left. apply opt_id_In. auto.
    + intros p q id Hn E E' I I'. injection E as <-. injection E' as <-. cbn in I, I'. exfalso.
      eapply Dup; [exact Hn| |]; apply opt_id_In; eauto.
  - destruct H0 as [T0 _], H1 as [T1 _]. apply (Two _ _ _ _) with (5 := B).
    + intros p0 id E I. injection E as <-. left. exists p. auto.
    + intros p0 id E I. injection E as <-. left. exists q. auto.
    + intros p0 q0 id E E' I I' _. injection E as <-. injection E' as <-. split; [exists p|exists q]; auto.
    + intros p0 q0 id _ E E' I I'. injection E as <-. left. exists p. auto.
  - destruct H0 as [T0 _], H1 as [T1 _]. apply (Two _ _ _ _) with (5 := B).
    + intros p0 id E I. injection E as <-. left. exists p. auto.
    + intros p0 id E I. injection E as <-. left. exists q. auto.
    + intros p0 q0 id E E' I I' _. injection E as <-. injection E' as <-. split; [exists p|exists q]; auto.
    + intros p0 q0 id _ E E' I I'. injection E as <-. left. exists p. auto.
  - destruct H0 as [T0 _]. apply (Two _ _ _ _) with (5 := B).
    + intros p0 k E I. injection E as <-. left. exists p. auto.
    + intros p0 k E I. injection E as <-. cbn in I. right. left. apply opt_id_In. auto.
    + intros p0 q0 k E E' I I' Hn. injection E' as <-. exfalso. apply Hn. apply opt_id_In. auto.
    + intros p0 q0 k _ E E' I I'. injection E as <-. left. exists p. auto.
  - destruct H0 as [T0 _], H1 as [T1 _]. apply (Two _ _ _ _) with (5 := B).
    + intros p0 id E I. injection E as <-. left. exists p. auto.
    + intros p0 id E I. injection E as <-. left. exists q. auto.
    + intros p0 q0 id E E' I I' _. injection E as <-. injection E' as <-. split; [exists p|exists q]; auto.
    + intros p0 q0 id _ E E' I I'. injection E as <-. left. exists p. auto.
  - destruct H0 as [T0 _]. apply (Two _ _ _ _) with (5 := B).
    + intros p0 k E I. injection E as <-. cbn in I. discriminate.
    + intros p0 k E I. injection E as <-. cbn in I. right. destruct new_id as [x|]; [left; apply opt_id_In; auto|].
      right. exists p. auto.
    + intros p0 q0 k E E' I I' Hn. injection E as <-. cbn in I. discriminate.
    + intros p0 q0 k _ E E' I I'. injection E as <-. cbn in I. discriminate.
Qed.

Lemma ran_ids : forall edpc s ls s', ran edpc s ls s' ->
  (forall id, ~ In id (flat_map local_ids ls) -> single s id -> single s' id)
  /\ (forall id c, carries s' c id -> (exists c', carries s c' id) \/ In id (flat_map local_ids ls))
  /\ (forall id, NoDup (flat_map local_ids ls) -> absent_id s id -> single s' id).
Proof.
  intros edpc s ls s' H. induction H as [s|s l u s1 ls s' E B R (I1 & I2 & I3)].
  - split; [auto|]. split; [eauto|]. intros id _ A x y Hx. exfalso. eapply A; eauto.
  - destruct (local_ids_spec _ _ _ _ _ E B) as (L1 & L2 & L3). cbn [flat_map]. split; [|split].
    + intros id Hn Hs. rewrite in_app_iff in Hn. apply I1; auto.
    + intros id c Hc. rewrite in_app_iff. destruct (I2 id c Hc) as [(c' & H1)|H1]; auto. destruct (L3 id c' H1); auto.
    + intros id Hn Hs.
      assert (Na : NoDup (local_ids l)).
      { clear -Hn. induction (local_ids l) as [|y r IH]; [constructor|]. inversion Hn; subst. constructor; [|auto].
        intro. apply H1. apply in_app_iff. auto. }
      assert (Nb : NoDup (flat_map local_ids ls)).
      { clear -Hn. induction (local_ids l) as [|y r IH]; [auto|]. inversion Hn; subst. auto. }
      destruct (in_dec N.eq_dec id (local_ids l)) as [Hi|Hi].
      * apply I1; [|apply L2; auto]. intro J. clear -Hn Hi J. induction (local_ids l) as [|y r IH]; [auto|].
        inversion Hn; subst. destruct Hi as [->|Hi]; [apply H1; apply in_app_iff; auto|auto].
      * apply I3; auto. intros x Hx. destruct (L3 id x Hx) as [(c' & Q)|Q]; [exact (Hs c' Q)|contradiction].
Qed.
