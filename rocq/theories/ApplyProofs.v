From Verif Require Import Base PatchesModel LayoutModel LayoutSpec LayoutProofs InstrModel InstrSpec InstrProofs.
From Verif Require Import SliceModel SliceSpec SliceProofs RouterModel RouterSpec RouterProofs ApplyModel ApplySpec.
Local Open Scope Z_scope.

(** ** Composing changes *)

Lemma rest_same_refl : forall s, rest_same s s.
Proof. intros s. unfold rest_same. auto 10. Qed.

Lemma rest_same_trans : forall a b c, rest_same a b -> rest_same b c -> rest_same a c.
Proof. intros a b c (?&?&?&?&?&?) (?&?&?&?&?&?). unfold rest_same. intuition congruence. Qed.

Lemma over_app : forall u v s s' c, (forall c, tile_at s' c = over v s c) -> over u s' c = over (u ++ v) s c.
Proof. induction u as [|[c' t] u IH]; intros v s s' c H; cbn; auto. destruct (cell_eqb c' c); auto. Qed.

Lemma becomes_refl : forall s, becomes s s [].
Proof. intros s. split; [reflexivity|apply rest_same_refl]. Qed.

Lemma becomes_trans : forall a b c u v, becomes a b u -> becomes b c v -> becomes a c (v ++ u).
Proof.
  intros a b c u v [H1 H2] [H3 H4]. split; [|eapply rest_same_trans; eauto].
  intros x. rewrite H3. apply over_app. auto.
Qed.

Lemma becomes_put : forall far s c t, sized far s -> on_lattice far c -> becomes s (put s c t) [(c, t)].
Proof.
  intros far s c t Hs Ho. split; [|cbn; unfold rest_same; auto 10].
  intros c'. cbn. apply (tile_put far); auto.
Qed.

Lemma over_not_in : forall u s c, ~ In c (map fst u) -> over u s c = tile_at s c.
Proof.
  induction u as [|[c' t] u IH]; intros s c H; cbn in *; auto.
  destruct (cell_eqb c' c) eqn:E; [apply cell_eqb_eq in E; tauto|]. apply IH. tauto.
Qed.

Lemma becomes_ext : forall s s' u v, becomes s s' u -> (forall c, over u s c = over v s c) -> becomes s s' v.
Proof. intros s s' u v [H1 H2] H. split; auto. intros c. rewrite H1. auto. Qed.

(** ** Primitive operations *)

Lemma bind_ok : forall A B (x : outcome A) (f : A -> outcome B) b, bind x f = Ok b ->
  exists a, x = Ok a /\ f a = Ok b.
Proof. intros A B [a|e|u|] f b H; cbn in H; try discriminate. eauto. Qed.

Ltac bstep H := apply bind_ok in H; destruct H as (? & ? & H).

Lemma step_neq : forall c d, step c d <> c.
Proof. intros [r k] d H. destruct d; cbn in H; inversion H; lia. Qed.

Lemma eqb_step : forall c d, cell_eqb c (step c d) = false /\ cell_eqb (step c d) c = false.
Proof.
  intros c d. split; [destruct (cell_eqb_spec c (step c d)) as [E|] | destruct (cell_eqb_spec (step c d) c) as [E|]];
    auto; exfalso; eapply step_neq; eauto.
Qed.

Lemma boundary_ref_inv : forall far s a b r, sized far s -> boundary_ref s a b = Ok r ->
  on_lattice far a /\ r = match tile_at s a with
                          | None => None
                          | Some _ => match side_towards a b with Some d => Some (a, d) | None => None end
                          end.
Proof.
  intros far s a b r Hs H. unfold boundary_ref in H. bstep H.
  apply (patch_at_inv far) in H0 as [Ho ->]; auto. split; auto. congruence.
Qed.

Lemma read_ref_inv : forall far s c d b, sized far s -> read_ref s (c, d) = Ok b ->
  exists p, tile_at s c = Some p /\ b = side (db p) d.
Proof.
  intros far s c d b Hs H. unfold read_ref in H. cbn [fst snd] in H. bstep H.
  apply (patch_at_inv far) in H0 as [Ho ->]; auto.
  destruct (tile_at s c) as [p|]; [|discriminate]. exists p. split; congruence.
Qed.

Lemma write_ref_inv : forall far s c d b s', sized far s -> write_ref s (c, d) b = Ok s' ->
  exists p, tile_at s c = Some p /\ on_lattice far c
    /\ s' = put s c (Some (mkDP (dp p) (set_side (db p) d b))).
Proof.
  intros far s c d b s' Hs H. unfold write_ref in H. cbn [fst snd] in H. bstep H.
  apply (patch_at_inv far) in H0 as [Ho ->]; auto.
  destruct (tile_at s c) as [p|] eqn:E; [|discriminate]. exists p.
  apply (set_patch_inv far) in H as [_ ->]; auto.
Qed.

Lemma set_ref_active_inv : forall far s c d s', sized far s -> set_ref_active s (c, d) true = Ok s' ->
  exists p, tile_at s c = Some p /\ on_lattice far c /\ s' = put s c (Some (joined d p)).
Proof.
  intros far s c d s' Hs H. unfold set_ref_active in H. bstep H.
  apply (read_ref_inv far) in H0 as (p & Hp & ->); auto.
  apply (write_ref_inv far) in H as (p' & Hp' & Ho & ->); auto.
  exists p. split; auto. split; auto. unfold joined. congruence.
Qed.

Lemma set_ref_type_inv : forall far s c d t s', sized far s -> set_ref_type s (c, d) t = Ok s' ->
  exists p, tile_at s c = Some p /\ on_lattice far c
    /\ s' = put s c (Some (mkDP (dp p) (set_side (db p) d (mkB t (bactive (side (db p) d)))))).
Proof.
  intros far s c d t s' Hs H. unfold set_ref_type in H. bstep H.
  apply (read_ref_inv far) in H0 as (p & Hp & ->); auto.
  apply (write_ref_inv far) in H as (p' & Hp' & Ho & ->); auto.
  exists p. split; auto. split; auto. congruence.
Qed.

Lemma activate_inv : forall far s a b s', sized far s -> activate s a b = Ok s' ->
  exists d p, b = step a d /\ tile_at s a = Some p /\ on_lattice far a /\ s' = put s a (Some (joined d p)).
Proof.
  intros far s a b s' Hs H. unfold activate in H. bstep H.
  apply (boundary_ref_inv far) in H0 as [Ho ->]; auto. bstep H.
  destruct (tile_at s a) as [p|] eqn:E; cbn in H0; [|discriminate].
  destruct (side_towards a b) as [d|] eqn:E'; cbn in H0; [|discriminate].
  assert (x = (a, d)) by congruence. subst x.
  apply side_towards_iff in E'. apply (set_ref_active_inv far) in H as (p' & Hp & _ & ->); auto.
  exists d, p'. rewrite <- Hp, E. auto 10.
Qed.

Lemma activate_fail_inv : forall far s a b s', sized far s -> activate_or_fail s a b = Ok s' ->
  exists d p, b = step a d /\ tile_at s a = Some p /\ on_lattice far a /\ s' = put s a (Some (joined d p)).
Proof.
  intros far s a b s' Hs H. unfold activate_or_fail, boundary_ref_or_fail in H. bstep H.
  bstep H0. apply (boundary_ref_inv far) in H1 as [Ho ->]; auto.
  destruct (tile_at s a) as [p|] eqn:E; cbn in H0; [|discriminate].
  destruct (side_towards a b) as [d|] eqn:E'; cbn in H0; [|discriminate].
  assert (x = (a, d)) by congruence. subst x.
  apply side_towards_iff in E'. apply (set_ref_active_inv far) in H as (p' & Hp & _ & ->); auto.
  exists d, p'. rewrite <- Hp, E. auto 10.
Qed.

Lemma activate_fail_ok : forall far s a d p, sized far s -> tile_at s a = Some p ->
  activate_or_fail s a (step a d) = Ok (put s a (Some (joined d p))).
Proof.
  intros far s a d p Hs Hp. assert (Ho : on_lattice far a) by (eapply tile_on; eauto).
  unfold activate_or_fail, boundary_ref_or_fail, boundary_ref, set_ref_active, read_ref, write_ref.
  rewrite (patch_at_ok far) by auto. rewrite Hp. cbn [bind].
  assert (E : side_towards a (step a d) = Some d) by (apply side_towards_iff; auto). rewrite E.
  cbn [bind fst snd]. rewrite (patch_at_ok far) by auto. rewrite Hp. cbn [bind].
  rewrite (set_patch_ok far) by auto. reflexivity.
Qed.

Lemma place_square_inv : forall far s c id label s', sized far s -> place_square s c id label = Ok s' ->
  tile_at s c = None /\ on_lattice far c /\ s' = put s c (Some (square id (Some (lit label)))).
Proof.
  intros far s c id label s' Hs H. unfold place_square in H. bstep H. destruct x as [s1 c1].
  unfold place_single, basic_square_patch in H0. cbn [sp_cells sc_cell] in H0. bstep H0.
  unfold is_free in H1. bstep H1. apply (patch_at_inv far) in H2 as [Ho ->]; auto.
  destruct (tile_at s c) as [p|]; injection H1 as <-; cbn in H0; [discriminate|].
  bstep H0. apply (set_patch_inv far) in H1 as [_ ->]; auto. split; auto. split; auto.
  assert (s1 = s') by congruence. subst s1. unfold square. congruence.
Qed.

Lemma place_square_ok : forall far s c id label, sized far s -> on_lattice far c -> tile_at s c = None ->
  place_square s c id label = Ok (put s c (Some (square id (Some (lit label))))).
Proof.
  intros far s c id label Hs Ho Hn. unfold place_square. rewrite (place_basic_ok far); auto.
Qed.

Lemma set_activity_inv : forall far s c a s', sized far s -> set_activity s c a = Ok s' ->
  exists p, tile_at s c = Some p /\ on_lattice far c /\ s' = put s c (Some (doing a p)).
Proof.
  intros far s c a s' Hs H. unfold set_activity in H. bstep H.
  apply (patch_at_inv far) in H0 as [Ho ->]; auto. bstep H.
  destruct (tile_at s c) as [p|] eqn:E; cbn in H0; [|discriminate]. injection H0 as <-.
  apply (set_patch_inv far) in H as [_ ->]; auto. exists p. auto.
Qed.
Lemma set_activity_ok : forall far s c a p, sized far s -> tile_at s c = Some p ->
  set_activity s c a = Ok (put s c (Some (doing a p))).
Proof.
  intros far s c a p Hs Hp. assert (Ho : on_lattice far c) by (eapply tile_on; eauto).
  unfold set_activity. rewrite (patch_at_ok far), Hp by auto. cbn. apply (set_patch_ok far); auto.
Qed.

Lemma set_tile_id_inv : forall far s c id s', sized far s -> set_tile_id s c id = Ok s' ->
  exists p, tile_at s c = Some p /\ on_lattice far c /\ s' = put s c (Some (named id p)).
Proof.
  intros far s c id s' Hs H. unfold set_tile_id in H. bstep H.
  apply (patch_at_inv far) in H0 as [Ho ->]; auto. bstep H.
  destruct (tile_at s c) as [p|] eqn:E; cbn in H0; [|discriminate]. injection H0 as <-.
  apply (set_patch_inv far) in H as [_ ->]; auto. exists p. auto.
Qed.
Lemma set_tile_id_ok : forall far s c id p, sized far s -> tile_at s c = Some p ->
  set_tile_id s c id = Ok (put s c (Some (named id p))).
Proof.
  intros far s c id p Hs Hp. assert (Ho : on_lattice far c) by (eapply tile_on; eauto).
  unfold set_tile_id. rewrite (patch_at_ok far), Hp by auto. cbn. apply (set_patch_ok far); auto.
Qed.

Lemma is_active_idle : forall s c p, tile_at s c = Some p -> (dp_is_active p = false <-> idle s c p).
Proof.
  intros s c p Hp. unfold idle, dp_is_active, has_active_boundary, act_eqb.
  destruct (activity_eq_dec (p_act (dp p)) ANone) as [E|E].
  - split.
    + intros H. split; auto. split; auto. intros []; cbn;
        destruct (bactive (b_top (db p))), (bactive (b_bottom (db p))), (bactive (b_left (db p))),
          (bactive (b_right (db p))); auto; discriminate.
    + intros (_ & _ & H). pose proof (H DTop); pose proof (H DBottom); pose proof (H DLeft); pose proof (H DRight).
      cbn in *. rewrite H0, H1, H2, H3. reflexivity.
  - split; [discriminate|]. intros (_ & H & _). contradiction.
Qed.

Lemma unusable_inv : forall far s c b, sized far s -> unusable s c = Ok b ->
  on_lattice far c /\ (b = false <-> exists p, idle s c p).
Proof.
  intros far s c b Hs H. unfold unusable in H. bstep H. apply (patch_at_inv far) in H0 as [Ho ->]; auto.
  split; auto. destruct (tile_at s c) as [p|] eqn:E; injection H as <-.
  - rewrite (is_active_idle s c p E). split; [eauto|]. intros [q [Hq Hi]]. assert (p = q) by congruence. subst. split; auto.
  - split; [discriminate|]. intros [q [Hq _]]. congruence.
Qed.
Lemma unusable_ok : forall far s c p, sized far s -> idle s c p -> unusable s c = Ok false.
Proof.
  intros far s c p Hs H. pose proof H as [Hp _]. assert (Ho : on_lattice far c) by (eapply tile_on; eauto).
  unfold unusable. rewrite (patch_at_ok far), Hp by auto. cbn. f_equal.
  apply (is_active_idle s c p); auto.
Qed.

Lemma absent_inv : forall far s c b, sized far s -> absent s c = Ok b ->
  on_lattice far c /\ (b = true <-> tile_at s c = None).
Proof.
  intros far s c b Hs H. unfold absent in H. bstep H. apply (patch_at_inv far) in H0 as [Ho ->]; auto.
  split; auto. destruct (tile_at s c); injection H as <-; split; congruence.
Qed.
Lemma absent_ok : forall far s c p, sized far s -> tile_at s c = Some p -> absent s c = Ok false.
Proof.
  intros far s c p Hs Hp. assert (Ho : on_lattice far c) by (eapply tile_on; eauto).
  unfold absent. rewrite (patch_at_ok far), Hp by auto. reflexivity.
Qed.

Lemma is_free_inv : forall far s c b, sized far s -> is_free s c = Ok b ->
  on_lattice far c /\ (b = true <-> tile_at s c = None).
Proof.
  intros far s c b Hs H. unfold is_free in H. bstep H. apply (patch_at_inv far) in H0 as [Ho ->]; auto.
  split; auto. destruct (tile_at s c); injection H as <-; split; congruence.
Qed.
Lemma is_free_ok : forall far s c, sized far s -> on_lattice far c -> tile_at s c = None -> is_free s c = Ok true.
Proof. intros far s c Hs Ho Hn. unfold is_free. rewrite (patch_at_ok far), Hn by auto. reflexivity. Qed.

Lemma free_for_local_inv : forall far e s c b, sized far s -> free_for_local e s c = Ok b ->
  on_lattice far c /\ (b = true <-> claimable (e_edpc e) s c).
Proof.
  intros far e s c b Hs H. unfold free_for_local in H. destruct (e_edpc e) eqn:Ee.
  - unfold is_free_or_activity in H. bstep H. apply (patch_at_inv far) in H0 as [Ho ->]; auto.
    split; auto. unfold claimable. destruct (tile_at s c) as [p|] eqn:E; injection H as <-.
    + cbn. unfold act_eqb. destruct (activity_eq_dec (p_act (dp p)) AEDPC) as [e1|e1];
        [|destruct (activity_eq_dec (p_act (dp p)) AReserved) as [e2|e2]]; cbn.
      * split; auto. intros _. right. split; auto. exists p. auto.
      * split; auto. intros _. right. split; auto. exists p. auto.
      * split; [discriminate|]. intros [H|[_ [q [Hq [H|H]]]]]; congruence.
    + split; auto.
  - apply (is_free_inv far) in H as [Ho H]; auto. split; auto. rewrite H. unfold claimable.
    split; [auto|]. intros [?|[? _]]; congruence.
Qed.
Lemma free_for_local_ok : forall far e s c, sized far s -> on_lattice far c -> claimable (e_edpc e) s c ->
  free_for_local e s c = Ok true.
Proof.
  intros far e s c Hs Ho Hc. destruct (free_for_local e s c) as [b|x|u|] eqn:E.
  - apply (free_for_local_inv far) in E as [_ E]; auto. f_equal. tauto.
  - exfalso. unfold free_for_local, is_free_or_activity, is_free in E. destruct (e_edpc e);
      rewrite (patch_at_ok far) in E by auto; discriminate.
  - exfalso. unfold free_for_local, is_free_or_activity, is_free in E. destruct (e_edpc e);
      rewrite (patch_at_ok far) in E by auto; discriminate.
  - exfalso. unfold free_for_local, is_free_or_activity, is_free in E. destruct (e_edpc e);
      rewrite (patch_at_ok far) in E by auto; discriminate.
Qed.

Lemma vacate_inv : forall far e s c s', sized far s -> (e_edpc e = false -> tile_at s c = None) ->
  vacate_for_local e s c = Ok s' -> sized far s' /\ becomes s s' [(c, None)].
Proof.
  intros far e s c s' Hs Hc H. unfold vacate_for_local in H. destruct (e_edpc e) eqn:E.
  - apply (set_patch_inv far) in H as [Ho ->]; auto. split; [apply sized_put; auto|].
    apply (becomes_put far); auto.
  - injection H as <-. split; auto. specialize (Hc eq_refl).
    split; [|apply rest_same_refl]. intros c'. cbn. destruct (cell_eqb_spec c c') as [<-|]; auto.
Qed.
Lemma claim_none : forall e s c, claimable (e_edpc e) s c -> e_edpc e = false -> tile_at s c = None.
Proof. intros e s c [H|[H _]] E; congruence. Qed.
Lemma vacate_ok : forall far e s c, sized far s -> on_lattice far c -> exists s', vacate_for_local e s c = Ok s'.
Proof.
  intros far e s c Hs Ho. unfold vacate_for_local. destruct (e_edpc e); eauto.
  rewrite (set_patch_ok far) by auto. eauto.
Qed.

(** ** Local operations *)

Lemma becomes_step : forall far s s1 c t u, becomes s s1 u -> sized far s1 -> on_lattice far c ->
  becomes s (put s1 c t) ((c, t) :: u).
Proof.
  intros far s s1 c t u H Hs Ho. change ((c, t) :: u) with ([(c, t)] ++ u).
  eapply becomes_trans; eauto. apply (becomes_put far); auto.
Qed.

Lemma becomes_tile : forall s s' u c, becomes s s' u -> tile_at s' c = over u s c.
Proof. intros s s' u c [H _]. auto. Qed.

Lemma side_joined : forall p d d', side (db (joined d p)) d' =
  if dir_eqb d d' then mkB (btype (side (db p) d)) true else side (db p) d'.
Proof. intros p [] []; reflexivity. Qed.

Lemma step_not : forall c d, step (step c d) (dir_not d) = c.
Proof. intros [r k] []; cbn; f_equal; lia. Qed.

Lemma step_inj : forall c d d', step c d = step c d' -> d = d'.
Proof. intros [r k] [] [] H; cbn in H; inversion H; auto; lia. Qed.

Lemma back_dir : forall c d d', c = step (step c d) d' -> d' = dir_not d.
Proof. intros c d d' H. apply (step_inj (step c d)). rewrite <- H. symmetry. apply step_not. Qed.

Ltac over_tac c d :=
  let x := fresh "x" in intros x; cbn [over app];
  destruct (cell_eqb_spec c x); destruct (cell_eqb_spec (step c d) x); try reflexivity;
  exfalso; apply (step_neq c d); congruence.

Ltac eqbs c d := rewrite ?cell_eqb_refl, ?(proj1 (eqb_step c d)), ?(proj2 (eqb_step c d)).

Lemma both_active : forall far s c1 c2 s1 s2 p q, sized far s -> tile_at s c1 = Some p -> tile_at s c2 = Some q ->
  activate_or_fail s c1 c2 = Ok s1 -> activate_or_fail s1 c2 c1 = Ok s2 ->
  exists d, c2 = step c1 d /\ sized far s2
    /\ becomes s s2 [(c1, Some (joined d p)); (c2, Some (joined (dir_not d) q))].
Proof.
  intros far s c1 c2 s1 s2 p q Hs Hp Hq H1 H2.
  apply (activate_fail_inv far) in H1 as (d & p' & -> & Hp' & Ho & ->); auto.
  assert (p' = p) by congruence. subst p'.
  apply (activate_fail_inv far) in H2 as (d' & q' & Hb & Hq' & Ho' & ->); [|apply sized_put; auto].
  apply back_dir in Hb. subst d'.
  rewrite (tile_put_other far) in Hq' by (auto; intros X; eapply step_neq; eauto).
  assert (q' = q) by congruence. subst q'.
  exists d. split; auto. split; [repeat apply sized_put; auto|].
  eapply becomes_ext.
  - eapply becomes_step; eauto; [|apply sized_put; auto]. apply (becomes_put far); eauto.
  - over_tac c1 d.
Qed.

Lemma both_active_ok : forall far s c d p q, sized far s -> tile_at s c = Some p -> tile_at s (step c d) = Some q ->
  exists s1 s2, activate_or_fail s c (step c d) = Ok s1 /\ activate_or_fail s1 (step c d) c = Ok s2.
Proof.
  intros far s c d p q Hs Hp Hq. exists (put s c (Some (joined d p))). eexists. split.
  - apply (activate_fail_ok far); auto.
  - rewrite <- (step_not c d) at 3. apply (activate_fail_ok far); [apply sized_put; auto|].
    rewrite (tile_put_other far); eauto. + eapply tile_on; eauto. + intros X. eapply step_neq; eauto.
Qed.

Definition local_ok (far : cell) (e : env) (s : slice) (l : local_instr) (s' : slice) (err : bool) : Prop :=
  sized far s' /\ (forall c, In c (local_cells l) -> err = false -> on_lattice far c)
  /\ if err then s' = s else exists u, local_effect (e_edpc e) s l u /\ becomes s s' u.

Lemma idle_inv : forall far s c, sized far s -> unusable s c = Ok false -> exists p, idle s c p.
Proof. intros far s c Hs H. apply (unusable_inv far) in H as [_ H]; auto. apply H; auto. Qed.

Ltac okinv H := match type of H with Ok _ = Ok _ => let E := fresh in
  injection H as E; repeat match goal with X : _ = _ |- _ => progress (subst) end end.

(** Two idle patches are looked at and joined. *)
Definition pair_check (s : slice) (c1 c2 : cell) : outcome bool :=
  do a1 <- absent s c1 ;; if a1 : bool then Ok true else
  do a2 <- absent s c2 ;; if a2 : bool then Ok true else
  do b1 <- unusable s c1 ;; if b1 : bool then Ok true else
  unusable s c2.

Lemma pair_check_bind : forall B s c1 c2 (f g : outcome B),
  (do a1 <- absent s c1 ;; if a1 : bool then g else
   do a2 <- absent s c2 ;; if a2 : bool then g else
   do b1 <- unusable s c1 ;; if b1 : bool then g else
   do b2 <- unusable s c2 ;; if b2 : bool then g else f)
  = (do b <- pair_check s c1 c2 ;; if b : bool then g else f).
Proof.
  intros B s c1 c2 f g. unfold pair_check.
  destruct (absent s c1) as [[]| | |]; cbn; auto.
  destruct (absent s c2) as [[]| | |]; cbn; auto.
  destruct (unusable s c1) as [[]| | |]; cbn; auto.
Qed.

Lemma pair_check_inv : forall far s c1 c2, sized far s -> pair_check s c1 c2 = Ok false ->
  exists p q, idle s c1 p /\ idle s c2 q.
Proof.
  intros far s c1 c2 Hs H. unfold pair_check in H.
  bstep H. destruct x; [discriminate|]. bstep H. destruct x; [discriminate|].
  bstep H. destruct x; [discriminate|].
  apply (idle_inv far) in H2 as [p Hp]; auto. apply (idle_inv far) in H as [q Hq]; auto. eauto.
Qed.

Lemma pair_check_ok : forall far s c1 c2 p q, sized far s -> idle s c1 p -> idle s c2 q ->
  pair_check s c1 c2 = Ok false.
Proof.
  intros far s c1 c2 p q Hs Hp Hq. unfold pair_check.
  erewrite (absent_ok far), (absent_ok far), (unusable_ok far) by (try apply Hp; try apply Hq; eauto). cbn.
  eapply unusable_ok; eauto.
Qed.

Lemma put_step : forall far s s1 c t u, becomes s s1 u -> sized far s1 -> on_lattice far c ->
  sized far (put s1 c t) /\ becomes s (put s1 c t) ((c, t) :: u).
Proof. intros. split; [apply sized_put; auto|]. eapply becomes_step; eauto. Qed.

Ltac pstep E B S :=
  match type of E with ?y = put ?s1 ?c ?t =>
  match goal with Hz : sized ?far s1, Ho : on_lattice ?far c |- _ =>
    let B' := fresh "B" in
    destruct (put_step far _ s1 c t _ B Hz Ho) as [S B']; clear B; rename B' into B; subst y
  end end.

Lemma try_local_spec : forall far e s l s' err, sized far s -> try_local e s l = Ok (s', err) ->
  local_ok far e s l s' err.
Proof.
  intros far e s l s' err Hs H. unfold local_ok. destruct l as [id c|id1 id2 c c2|c c2|c c2|id c c2|c c2|c c2 id];
    cbn [try_local] in H; try rewrite pair_check_bind in H.
  - (* prepare Y *)
    bstep H. destruct x; cbn in H; [|discriminate]. bstep H. bstep H.
    apply (place_square_inv far) in H1 as (Hn & Ho & ->); auto.
    apply (set_activity_inv far) in H2 as (p & Hp & _ & ->); [|apply sized_put; auto].
    injection H as <- <-.
    rewrite (tile_put_same far) in Hp by auto. injection Hp as <-. rewrite put_put.
    split; [apply sized_put; auto|]. split; [intros ? [<-|[]]; auto|].
    eexists. split; [constructor; auto|]. apply (becomes_put far); auto.
  - (* Bell pair *)
    bstep H. destruct x; cbn in H; [|injection H as <- <-; split; auto; split; auto; discriminate].
    bstep H. destruct x; cbn in H; [|injection H as <- <-; split; auto; split; auto; discriminate].
    apply (free_for_local_inv far) in H0 as [Ho C1]; auto. apply (free_for_local_inv far) in H1 as [Ho2 C2]; auto.
    assert (C1' := proj1 C1 eq_refl). assert (C2' := proj1 C2 eq_refl). clear C1 C2.
    bstep H. apply (vacate_inv far) in H0 as [S1 B1]; auto; [|apply claim_none; auto].
    bstep H. apply (vacate_inv far) in H0 as [S2 B2]; auto.
    2: { intros E. rewrite (becomes_tile _ _ _ _ B1). cbn. destruct (cell_eqb c c2); auto. eapply claim_none; eauto. }
    pose proof (becomes_trans _ _ _ _ _ B1 B2) as B. cbn [app] in B.
    bstep H. apply (place_square_inv far) in H0 as (_ & _ & Eput); auto.
    pstep Eput B S3.
    bstep H. apply (place_square_inv far) in H0 as (N2 & _ & Eput); auto.
    rewrite (becomes_tile _ _ _ _ B) in N2. cbn [over] in N2.
    assert (Hne : c <> c2). { intros <-. rewrite cell_eqb_refl in N2. discriminate. }
    pstep Eput B S4.
    bstep H. bstep H.
    eapply (both_active far) in H1 as (d & -> & S5 & B5); try exact H0; eauto.
    2: { rewrite (becomes_tile _ _ _ _ B). cbn [over]. rewrite cell_eqb_refl.
         destruct (cell_eqb_spec c2 c); [congruence|]. reflexivity. }
    2: { rewrite (becomes_tile _ _ _ _ B). cbn [over]. rewrite cell_eqb_refl. reflexivity. }
    injection H as <- <-. split; auto. split; [intros ? [<-|[<-|[]]]; auto|].
    eexists. split; [apply le_bell_prepare; auto|].
    eapply becomes_ext; [eapply becomes_trans; [exact B|exact B5]|]. over_tac c d.
  - (* Bell measurement *)
    bstep H. destruct x; [injection H as <- <-; split; auto; split; auto; discriminate|].
    apply (pair_check_inv far) in H0 as (p & q & Ip & Iq); auto.
    bstep H. bstep H.
    eapply (both_active far) in H1 as (d & -> & S5 & B5); try exact H0; try apply Ip; try apply Iq; eauto.
    assert (Ho : on_lattice far c) by (eapply tile_on; [|apply Ip]; auto).
    assert (Ho2 : on_lattice far (step c d)) by (eapply tile_on; [|apply Iq]; auto).
    bstep H. apply (set_activity_inv far) in H1 as (p1 & Hp1 & _ & Eput); auto.
    rewrite (becomes_tile _ _ _ _ B5) in Hp1. cbn [over] in Hp1. rewrite cell_eqb_refl in Hp1. injection Hp1 as <-.
    pstep Eput B5 S6. rename B5 into B.
    bstep H. apply (set_activity_inv far) in H1 as (p1 & Hp1 & _ & Eput); auto.
    rewrite (becomes_tile _ _ _ _ B) in Hp1. cbn [over] in Hp1. revert Hp1. eqbs c d. intros Hp1. injection Hp1 as <-.
    pstep Eput B S7.
    injection H as <- <-. split; auto. split; [intros ? [<-|[<-|[]]]; auto|].
    eexists. split; [apply le_bell_measure; eauto|].
    eapply becomes_ext; [exact B|]. over_tac c d.
  - (* two patch measurement *)
    bstep H. destruct x; [injection H as <- <-; split; auto; split; auto; discriminate|].
    apply (pair_check_inv far) in H0 as (p & q & Ip & Iq); auto.
    bstep H. bstep H.
    eapply (both_active far) in H1 as (d & -> & S5 & B5); try exact H0; try apply Ip; try apply Iq; eauto.
    assert (Ho : on_lattice far c) by (eapply tile_on; [|apply Ip]; auto).
    assert (Ho2 : on_lattice far (step c d)) by (eapply tile_on; [|apply Iq]; auto).
    injection H as <- <-. split; auto. split; [intros ? [<-|[<-|[]]]; auto|].
    eexists. split; [apply le_two_patch; eauto|]. auto.
  - (* extend *)
    bstep H. destruct x; [injection H as <- <-; split; auto; split; auto; discriminate|].
    apply (idle_inv far) in H0 as [p Ip]; auto.
    bstep H. destruct x; cbn in H; [|injection H as <- <-; split; auto; split; auto; discriminate].
    apply (free_for_local_inv far) in H0 as [Ho2 C2]; auto.
    assert (C2' := proj1 C2 eq_refl). clear C2.
    assert (Ho : on_lattice far c) by (eapply tile_on; [|apply Ip]; auto).
    bstep H. apply (vacate_inv far) in H0 as [S1 B]; auto; [|apply claim_none; auto].
    bstep H. apply (place_square_inv far) in H0 as (_ & _ & Eput); auto.
    pstep Eput B S3.
    bstep H. bstep H.
    pose proof H0 as Hd. apply (activate_fail_inv far) in Hd as (d0 & p0 & Hd & _); auto.
    assert (Hne : c2 <> c) by (rewrite Hd; intros X; symmetry in X; eapply step_neq; eauto).
    assert (T1 : tile_at (put x c2 (Some (square id (Some (lit "Extended"))))) c = Some p).
    { rewrite (becomes_tile _ _ _ _ B). cbn [over]. destruct (cell_eqb_spec c2 c); [congruence|]. apply Ip. }
    assert (T2 : tile_at (put x c2 (Some (square id (Some (lit "Extended"))))) c2
                 = Some (square id (Some (lit "Extended")))).
    { rewrite (becomes_tile _ _ _ _ B). cbn [over]. rewrite cell_eqb_refl. reflexivity. }
    destruct (both_active far _ _ _ _ _ _ _ S3 T2 T1 H0 H1) as (d & E & S5 & B5).
    assert (E2 : c2 = step c (dir_not d)) by (rewrite E; symmetry; apply step_not).
    clear Hd. subst c2. assert (d = dir_not (dir_not d)) as Hdd by (destruct d; reflexivity).
    remember (dir_not d) as d'. rewrite Hdd in B5. clear d Heqd' Hdd E d0 p0.
    injection H as <- <-. split; auto. split; [intros ? [<-|[<-|[]]]; auto|].
    eexists. split; [apply le_extend; eauto|].
    eapply becomes_ext; [eapply becomes_trans; [exact B|exact B5]|]. over_tac c d'.
  - (* merge *)
    bstep H. destruct x; [injection H as <- <-; split; auto; split; auto; discriminate|].
    apply (pair_check_inv far) in H0 as (p & q & Ip & Iq); auto.
    bstep H. bstep H.
    eapply (both_active far) in H1 as (d & -> & S5 & B5); try exact H0; try apply Ip; try apply Iq; eauto.
    assert (Ho : on_lattice far c) by (eapply tile_on; [|apply Ip]; auto).
    assert (Ho2 : on_lattice far (step c d)) by (eapply tile_on; [|apply Iq]; auto).
    bstep H. apply (set_activity_inv far) in H1 as (p1 & Hp1 & _ & Eput); auto.
    rewrite (becomes_tile _ _ _ _ B5) in Hp1. cbn [over] in Hp1. revert Hp1. eqbs c d. intros Hp1. injection Hp1 as <-.
    pstep Eput B5 S6. rename B5 into B.
    injection H as <- <-. split; auto. split; [intros ? [<-|[<-|[]]]; auto|].
    eexists. split; [apply le_merge; eauto|].
    eapply becomes_ext; [exact B|]. over_tac c d.
  - (* move *)
    bstep H. destruct x; [injection H as <- <-; split; auto; split; auto; discriminate|].
    apply (idle_inv far) in H0 as [p Ip]; auto.
    bstep H. destruct x; cbn in H; [|injection H as <- <-; split; auto; split; auto; discriminate].
    apply (free_for_local_inv far) in H0 as [Ho2 C2]; auto.
    assert (C2' := proj1 C2 eq_refl). clear C2.
    assert (Ho : on_lattice far c) by (eapply tile_on; [|apply Ip]; auto).
    bstep H. apply (vacate_inv far) in H0 as [S1 B]; auto; [|apply claim_none; auto].
    bstep H. apply (patch_at_inv far) in H0 as [_ ->]; auto.
    apply bind_ok in H as (id' & Hid & H).
    bstep H. apply (place_square_inv far) in H0 as (_ & _ & Eput); auto.
    rename x into s1.
    rewrite (becomes_tile _ _ _ _ B) in Hid.
    pstep Eput B S3.
    bstep H. bstep H.
    pose proof H0 as Hd. apply (activate_fail_inv far) in Hd as (d0 & p0 & Hd & _); auto.
    assert (Hne : c2 <> c) by (rewrite Hd; intros X; eapply step_neq; eauto).
    cbn [over] in Hid. destruct (cell_eqb_spec c2 c) as [|_]; [congruence|]. rewrite (proj1 Ip) in Hid. cbn in Hid.
    assert (Eid : id' = match id with Some x => Some x | None => p_id (dp p) end) by (destruct id; congruence).
    clear Hid.
    assert (T1 : tile_at (put s1 c2 (Some (square id' (Some (lit "Move"))))) c = Some p).
    { rewrite (becomes_tile _ _ _ _ B). cbn [over]. destruct (cell_eqb_spec c2 c); [congruence|]. apply Ip. }
    assert (T2 : tile_at (put s1 c2 (Some (square id' (Some (lit "Move"))))) c2
                 = Some (square id' (Some (lit "Move")))).
    { rewrite (becomes_tile _ _ _ _ B). cbn [over]. rewrite cell_eqb_refl. reflexivity. }
    destruct (both_active far _ _ _ _ _ _ _ S3 T1 T2 H0 H1) as (d & E & S5 & B5). clear Hd d0 p0 T1 T2. subst c2.
    pose proof (becomes_trans _ _ _ _ _ B B5) as B6. clear B5. cbn [app] in B6.
    bstep H. apply (set_activity_inv far) in H2 as (p1 & Hp1 & _ & Eput); auto.
    rewrite (becomes_tile _ _ _ _ B6) in Hp1. cbn [over] in Hp1. revert Hp1. eqbs c d. intros Hp1. injection Hp1 as <-.
    pstep Eput B6 S6.
    bstep H. apply (set_tile_id_inv far) in H2 as (p1 & Hp1 & _ & Eput); auto.
    rewrite (becomes_tile _ _ _ _ B6) in Hp1. cbn [over] in Hp1. revert Hp1. eqbs c d. intros Hp1. injection Hp1 as <-.
    pstep Eput B6 S7.
    injection H as <- <-. split; auto. split; [intros ? [<-|[<-|[]]]; auto|].
    eexists. split; [apply le_move; eauto|]. rewrite <- Eid.
    eapply becomes_ext; [exact B6|]. over_tac c d.
Qed.

(** Whenever a local operation applies, it succeeds. *)
Lemma try_local_applies : forall far e s l u, sized far s ->
  (forall c, In c (local_cells l) -> on_lattice far c) -> local_effect (e_edpc e) s l u ->
  exists s', try_local e s l = Ok (s', false).
Proof.
  intros far e s l u Hs Ho H. inversion H; subst; cbn [try_local]; rewrite ?pair_check_bind; cbn [local_cells In] in Ho.
  - rewrite (is_free_ok far) by auto. cbn. erewrite (place_square_ok far) by auto. cbn.
    erewrite (set_activity_ok far); [cbn; eauto|apply sized_put; auto|apply (tile_put_same far); auto].
  - erewrite (free_for_local_ok far), (free_for_local_ok far) by auto. cbn.
    destruct (vacate_ok far e s c Hs) as [s1 E1]; auto. rewrite E1. cbn.
    apply (vacate_inv far) in E1 as [S1 B1]; auto; [|apply claim_none; auto].
    destruct (vacate_ok far e s1 (step c d) S1) as [s2 E2]; auto. rewrite E2. cbn.
    apply (vacate_inv far) in E2 as [S2 B2]; auto.
    2: { intros E. rewrite (becomes_tile _ _ _ _ B1). cbn. eqbs c d. eapply claim_none; eauto. }
    pose proof (becomes_trans _ _ _ _ _ B1 B2) as B. cbn [app] in B.
    rewrite (place_square_ok far); auto. 2: { rewrite (becomes_tile _ _ _ _ B). cbn. eqbs c d. reflexivity. }
    cbn [bind].
    destruct (put_step far _ s2 c (Some (square id1 (Some (lit "Bell 1")))) _ B S2) as [S3 B3]; auto.
    rewrite (place_square_ok far); auto. 2: { rewrite (becomes_tile _ _ _ _ B3). cbn. eqbs c d. reflexivity. }
    cbn [bind].
    destruct (put_step far _ _ (step c d) (Some (square id2 (Some (lit "Bell 2")))) _ B3 S3) as [S4 B4]; auto.
    destruct (both_active_ok far _ c d (square id1 (Some (lit "Bell 1"))) (square id2 (Some (lit "Bell 2"))) S4) as (s3 & s4 & E3 & E4).
    { rewrite (becomes_tile _ _ _ _ B4). cbn. eqbs c d. reflexivity. }
    { rewrite (becomes_tile _ _ _ _ B4). cbn. eqbs c d. reflexivity. }
    rewrite E3. cbn [bind]. rewrite E4. cbn. eauto.
  - erewrite (pair_check_ok far) by eauto. cbn [bind].
    destruct (both_active_ok far _ c d p q Hs) as (s3 & s4 & E3 & E4); [apply H0|apply H1|].
    rewrite E3. cbn [bind]. rewrite E4. cbn [bind].
    eapply (both_active far) in E4 as (d' & Ed & S5 & B5); try exact E3; try apply H0; try apply H1; eauto.
    erewrite (set_activity_ok far); eauto.
    2: { rewrite (becomes_tile _ _ _ _ B5). cbn. eqbs c d. reflexivity. }
    cbn [bind]. erewrite (set_activity_ok far); [cbn; eauto|apply sized_put; auto|].
    rewrite (tile_put_other far); auto. 2: { intros X. symmetry in X. eapply step_neq; eauto. }
    rewrite (becomes_tile _ _ _ _ B5). cbn. eqbs c d. reflexivity.
  - erewrite (pair_check_ok far) by eauto. cbn [bind].
    destruct (both_active_ok far _ c d p q Hs) as (s3 & s4 & E3 & E4); [apply H0|apply H1|].
    rewrite E3. cbn [bind]. rewrite E4. cbn [bind]. eauto.
  - erewrite (unusable_ok far) by eauto. cbn [bind].
    erewrite (free_for_local_ok far) by auto. cbn [bind negb].
    destruct (vacate_ok far e s (step c d) Hs) as [s1 E1]; auto. rewrite E1. cbn [bind].
    apply (vacate_inv far) in E1 as [S1 B]; auto; [|apply claim_none; auto].
    rewrite (place_square_ok far); auto. 2: { rewrite (becomes_tile _ _ _ _ B). cbn. eqbs c d. reflexivity. }
    cbn [bind].
    destruct (put_step far _ s1 (step c d) (Some (square id (Some (lit "Extended")))) _ B S1) as [S2 B2]; auto.
    destruct (both_active_ok far _ (step c d) (dir_not d) (square id (Some (lit "Extended"))) p S2) as (s3 & s4 & E3 & E4).
    { rewrite (becomes_tile _ _ _ _ B2). cbn. eqbs c d. reflexivity. }
    { rewrite step_not, (becomes_tile _ _ _ _ B2). cbn. eqbs c d. apply H0. }
    rewrite step_not in E3, E4. rewrite E3. cbn [bind]. rewrite E4. cbn [bind]. eauto.
  - erewrite (pair_check_ok far) by eauto. cbn [bind].
    destruct (both_active_ok far _ c d p q Hs) as (s3 & s4 & E3 & E4); [apply H0|apply H1|].
    rewrite E3. cbn [bind]. rewrite E4. cbn [bind].
    eapply (both_active far) in E4 as (d' & Ed & S5 & B5); try exact E3; try apply H0; try apply H1; eauto.
    erewrite (set_activity_ok far); eauto; [cbn; eauto|].
    rewrite (becomes_tile _ _ _ _ B5). cbn. eqbs c d. reflexivity.
  - erewrite (unusable_ok far) by eauto. cbn [bind].
    erewrite (free_for_local_ok far) by auto. cbn [bind negb].
    destruct (vacate_ok far e s (step c d) Hs) as [s1 E1]; auto. rewrite E1. cbn [bind].
    apply (vacate_inv far) in E1 as [S1 B]; auto; [|apply claim_none; auto].
    rewrite (patch_at_ok far), (becomes_tile _ _ _ _ B) by auto. cbn [bind over]. eqbs c d.
    rewrite (proj1 H0).
    assert (Eid : exists id, match new_id with Some x => Ok (Some x)
                             | None => do p0 <- deref (Some p);; Ok (p_id (dp p0)) end = Ok id)
      by (destruct new_id; cbn; eauto).
    destruct Eid as [id ->]. cbn [bind].
    rewrite (place_square_ok far); auto. 2: { rewrite (becomes_tile _ _ _ _ B). cbn. eqbs c d. reflexivity. }
    cbn [bind].
    destruct (put_step far _ s1 (step c d) (Some (square id (Some (lit "Move")))) _ B S1) as [S2 B2]; auto.
    destruct (both_active_ok far _ c d p (square id (Some (lit "Move"))) S2) as (s3 & s4 & E3 & E4).
    { rewrite (becomes_tile _ _ _ _ B2). cbn. eqbs c d. apply H0. }
    { rewrite (becomes_tile _ _ _ _ B2). cbn. eqbs c d. reflexivity. }
    rewrite E3. cbn [bind]. rewrite E4. cbn [bind].
    eapply (both_active far) in E4 as (d' & Ed & S5 & B5); try exact E3; eauto.
    2: { rewrite (becomes_tile _ _ _ _ B2). cbn. eqbs c d. apply H0. }
    2: { rewrite (becomes_tile _ _ _ _ B2). cbn. eqbs c d. reflexivity. }
    erewrite (set_activity_ok far); eauto.
    2: { rewrite (becomes_tile _ _ _ _ B5). cbn. eqbs c d. reflexivity. }
    cbn [bind]. erewrite (set_tile_id_ok far); [cbn; eauto|apply sized_put; auto|].
    apply (tile_put_same far); auto.
Qed.

Lemma try_local_error : forall far e s l s', sized far s -> try_local e s l = Ok (s', true) ->
  s' = s /\ forall u, ~ local_effect (e_edpc e) s l u.
Proof.
  intros far e s l s' Hs H. pose proof (try_local_spec far _ _ _ _ _ Hs H) as (_ & _ & E). split; auto.
  intros u Hu. inversion Hu; subst; cbn [try_local] in H; rewrite ?pair_check_bind in H.
  - bstep H. destruct x; [|discriminate]. cbn in H. bstep H. bstep H. discriminate.
  - bstep H. apply (free_for_local_inv far) in H2 as [_ H2]; auto. rewrite (proj2 H2 H0) in H. cbn in H.
    bstep H. apply (free_for_local_inv far) in H3 as [_ H3]; auto. rewrite (proj2 H3 H1) in H. cbn in H.
    do 6 bstep H. discriminate.
  - erewrite (pair_check_ok far) in H by eauto. cbn [bind] in H. do 4 bstep H. discriminate.
  - erewrite (pair_check_ok far) in H by eauto. cbn [bind] in H. do 2 bstep H. discriminate.
  - erewrite (unusable_ok far) in H by eauto. cbn [bind] in H. bstep H.
    apply (free_for_local_inv far) in H2 as [_ H2]; auto. rewrite (proj2 H2 H1) in H. cbn [negb] in H.
    do 4 bstep H. discriminate.
  - erewrite (pair_check_ok far) in H by eauto. cbn [bind] in H. do 3 bstep H. discriminate.
  - erewrite (unusable_ok far) in H by eauto. cbn [bind] in H. bstep H.
    apply (free_for_local_inv far) in H2 as [_ H2]; auto. rewrite (proj2 H2 H1) in H. cbn [negb] in H.
    do 8 bstep H. discriminate.
Qed.

(** ** Pieces of instructions *)

Lemma place_single_inv : forall far s p sc s' c, sized far s -> sp_cells p = Single sc ->
  place_single s p false = Ok (s', c) ->
  c = sc_cell sc /\ tile_at s c = None /\ on_lattice far c /\ s' = put s c (Some (mkDP (sp_patch p) (sc_b sc))).
Proof.
  intros far s p sc s' c Hs E H. unfold place_single in H. rewrite E in H. bstep H.
  apply (is_free_inv far) in H0 as [Ho Hf]; auto. destruct x; cbn in H; [|discriminate].
  assert (Hn : tile_at s (sc_cell sc) = None) by (apply Hf; auto).
  unfold from_sparse_patch in H. rewrite E in H. cbn in H. bstep H.
  apply (set_patch_inv far) in H0 as [_ ->]; auto.
  assert (sc_cell sc = c) by congruence. subst c. assert (s' = put s (sc_cell sc) (Some (mkDP (sp_patch p) (sc_b sc))))
    by congruence. auto.
Qed.

Lemma act_eqb_neq : forall a b, a <> b -> act_eqb a b = false.
Proof. intros a b H. unfold act_eqb. destruct (activity_eq_dec a b); congruence. Qed.

Lemma act_eqb_eq : forall a b, act_eqb a b = true <-> a = b.
Proof. intros a b. unfold act_eqb. destruct (activity_eq_dec a b); split; congruence. Qed.

Lemma mark_cells_plain : forall L act opid all todo far s label k prev s' cells', sized far s -> act <> AEDPC ->
  mark_cells L act opid all s label k prev todo = Ok (s', cells') ->
  cells' = todo /\ sized far s' /\ NoDup (map sc_cell todo)
  /\ (forall sc, In sc todo -> tile_at s (sc_cell sc) = None /\ on_lattice far (sc_cell sc))
  /\ becomes s s' (rev (map (routing act opid) todo)).
Proof.
  intros L act opid all. induction todo as [|sc todo IH]; intros far s label k prev s' cells' Hs Hact H;
    cbn [mark_cells] in H.
  - injection H as <- <-. split; auto. split; auto. split; [constructor|]. split; [intros ? []|].
    apply becomes_refl.
  - bstep H. apply (patch_at_inv far) in H0 as [Ho ->]; auto.
    destruct (tile_at s (sc_cell sc)) as [p|] eqn:Et; rewrite (act_eqb_neq _ _ Hact) in H; [discriminate|].
    bstep H. destruct x as [[s1 label1] sc1]. bstep H. destruct x as [s2 rest'].
    bstep H0. unfold place_routing, place_sparse in H2. cbn [sp_cells] in H2. bstep H2. destruct x0 as [s3 c3].
    eapply (place_single_inv far) in H3 as (-> & _ & _ & E3); auto. 2: reflexivity. cbn in E3.
    assert (x = s3) by congruence. subst x s3. injection H0 as <- <- <-.
    injection H as <- <-.
    destruct (IH far _ _ _ _ _ _ (sized_put _ _ _ _ Hs) Hact H1) as (-> & S' & N' & F' & B').
    split; auto. split; auto.
    assert (Hni : ~ In (sc_cell sc) (map sc_cell todo)).
    { intros Hin. apply in_map_iff in Hin as (sc' & E & Hin). apply F' in Hin as [Hin _].
      rewrite E, (tile_put_same far) in Hin by auto. discriminate. }
    split; [constructor; auto|]. split.
    + intros sc' [<-|Hin]; auto. pose proof (F' _ Hin) as [F1 F2]. split; auto.
      rewrite (tile_put_other far) in F1; auto. intros E. apply Hni. rewrite E. apply in_map. auto.
    + cbn [map rev]. eapply becomes_trans; eauto. apply (becomes_put far); auto.
Qed.

Lemma mark_region_plain : forall far L s r act s' r', sized far s -> act <> AEDPC ->
  mark_routing_region L s r act = Ok (s', r') ->
  r' = r /\ sized far s' /\ NoDup (map sc_cell (rg_cells r))
  /\ (forall sc, In sc (rg_cells r) -> tile_at s (sc_cell sc) = None /\ on_lattice far (sc_cell sc))
  /\ becomes s s' (rev (map (routing act (rg_id r)) (rg_cells r))).
Proof.
  intros far L s [cells id] act s' r' Hs Ha H. unfold mark_routing_region in H. cbn in *. bstep H.
  destruct x as [s1 cells1]. apply (mark_cells_plain _ _ _ _ _ far) in H0 as (-> & S & N & F & B); auto.
  assert (r' = mkRegion cells id) by congruence. assert (s1 = s') by congruence. subst. auto 10.
Qed.

Lemma becomes_changed : forall s s' u, becomes s s' u -> changed s s' u (s_magic s) (s_yavail s).
Proof. intros s s' u [H (?&?&?&?&?&?)]. unfold changed. auto 10. Qed.

Lemma stitch_inv : forall far s a b p q cells s', sized far s -> tile_at s a = Some p -> tile_at s b = Some q ->
  stitch_boundaries s a b cells = Ok s' ->
  exists da db, step a da = match cells with [] => b | first :: _ => sc_cell (last cells first) end
    /\ step b db = match cells with [] => a | first :: _ => sc_cell first end
    /\ sized far s'
    /\ becomes s s' [join_side b db (over [join_side a da (Some p)] s b); join_side a da (Some p)].
Proof.
  intros far s a b p q cells s' Hs Hp Hq H.
  assert (G : forall x y, (do s1 <- activate s a x ;; activate s1 b y) = Ok s' ->
    exists da db, step a da = x /\ step b db = y /\ sized far s'
    /\ becomes s s' [join_side b db (over [join_side a da (Some p)] s b); join_side a da (Some p)]).
  { intros x y G. bstep G. apply (activate_inv far) in H0 as (da & p' & -> & Hp' & Ho & ->); auto.
    assert (p' = p) by congruence. subst p'.
    apply (activate_inv far) in G as (db & q' & -> & Hq' & Ho' & ->); [|apply sized_put; auto].
    exists da, db. split; auto. split; auto. split; [repeat apply sized_put; auto|].
    unfold join_side. cbn [over].
    rewrite (tile_put far) in Hq' by auto.
    destruct (cell_eqb a b) eqn:E.
    - injection Hq' as <-. eapply becomes_step; eauto; [|apply sized_put; auto]. apply (becomes_put far); auto.
    - rewrite Hq'. eapply becomes_step; eauto; [|apply sized_put; auto]. apply (becomes_put far); auto. }
  unfold stitch_boundaries in H. destruct cells as [|f r]; apply G in H; auto.
Qed.

Lemma sits_carries : forall s id c p, sits s id c p -> carries s c id.
Proof. intros s id c p [H1 H2]. exists p. auto. Qed.

Lemma merge_inv : forall far e w source sop target top w' ok, sized far (w_slice w) ->
  merge_patches e w source sop target top = Ok (w', ok) ->
  sized far (w_slice w') /\
  if ok then exists reg u, e_route e (w_cache w) (w_slice w) source sop target top = Ok (Some reg, w_cache w')
        /\ merging (if e_opids e then Some (w_ops w) else rg_id reg) (w_slice w) source target (rg_cells reg) u
        /\ becomes (w_slice w) (w_slice w') u
  else w_slice w' = w_slice w.
Proof.
  intros far e w source sop target top w' ok Hs H. unfold merge_patches in H.
  apply bind_ok in H as (p & Hp & H). destruct (get_patch_by_id (w_slice w) source) as [p0|] eqn:Gp; [|discriminate].
  cbn in Hp. injection Hp as ->.
  apply bind_ok in H as (busy & Hb & H). destruct busy.
  { injection H as <- <-. split; auto. }
  destruct (dp_is_active p) eqn:Ap; [discriminate|].
  apply bind_ok in Hb as (q & Hq & Hb). destruct (get_patch_by_id (w_slice w) target) as [q0|] eqn:Gq; [|discriminate].
  cbn in Hq. injection Hq as ->. injection Hb as Aq.
  apply bind_ok in H as ([r cache] & Hr & H). destruct r as [reg|].
  2: { injection H as <- <-. cbn. split; auto. }
  apply (get_patch_by_id_tile far) in Gp as (a & Ga & Ta & Ia & Oa); auto.
  apply (get_patch_by_id_tile far) in Gq as (b & Gb & Tb & Ib & Ob); auto.
  rewrite Ga, Gb in H. cbn [deref bind] in H. bstep H.
  eapply (stitch_inv far) in H0 as (da & db & D1 & D2 & S1 & B1); eauto.
  bstep H. destruct x0 as [s2 r2]. eapply (mark_region_plain far) in H0 as (_ & S2 & ND & F & B2); auto; [|discriminate].
  injection H as <- <-. cbn [w_slice w_cache]. split; auto.
  exists reg. eexists. split; [exact Hr|]. split.
  2: { eapply becomes_trans; [exact B1|exact B2]. }
  assert (EC : rg_cells (if e_opids e then mkRegion (rg_cells reg) (Some (w_ops w)) else reg) = rg_cells reg)
    by (destruct (e_opids e); reflexivity).
  assert (EI : rg_id (if e_opids e then mkRegion (rg_cells reg) (Some (w_ops w)) else reg)
               = if e_opids e then Some (w_ops w) else rg_id reg) by (destruct (e_opids e); reflexivity).
  rewrite EC in *. rewrite EI.
  eapply merging_intro with (q := q); try apply (is_active_idle _ _ _ Ta); try apply (is_active_idle _ _ _ Tb); auto;
    try (split; auto).
  intros sc Hin. destruct (F sc Hin) as [F1 F2].
  rewrite (becomes_tile _ _ _ _ B1) in F1. unfold join_side in F1. cbn [over] in F1.
  destruct (cell_eqb_spec b (sc_cell sc)) as [E|E].
  - exfalso. subst b. destruct (cell_eqb_spec a (sc_cell sc)); [discriminate|]. rewrite Tb in F1. discriminate.
  - destruct (cell_eqb_spec a (sc_cell sc)); [discriminate|auto].
Qed.

Lemma failed_inv : forall w o a, failed w o = Ok a -> a_world a = w /\ a_op a = o /\ a_error a = true /\ a_follow a = [].
Proof. intros w o a H. unfold failed in H. bstep H. injection H as <-. auto. Qed.

Lemma done_inv : forall w o a, done_ w o = Ok a -> a_world a = w /\ a_op a = o /\ a_error a = false /\ a_follow a = [].
Proof. intros w o a H. unfold done_ in H. injection H as <-. auto. Qed.

Lemma boundary_between_inv : forall far s a b r, sized far s -> boundary_between s a b = Ok r ->
  match r with
  | Some x => exists p d, tile_at s a = Some p /\ b = step a d /\ x = side (db p) d
  | None => True
  end.
Proof.
  intros far s a b r Hs H. unfold boundary_between in H. bstep H.
  apply (boundary_ref_inv far) in H0 as [Ho ->]; auto.
  destruct (tile_at s a) as [p|] eqn:E; [|injection H as <-; auto].
  destruct (side_towards a b) as [d|] eqn:Ed; [|injection H as <-; auto].
  apply side_towards_iff in Ed. bstep H. apply (read_ref_inv far) in H0 as (p' & Hp & ->); auto.
  injection H as <-. exists p', d. rewrite <- Hp, E. auto.
Qed.

Lemma btype_eqb_eq : forall a b, btype_eqb a b = true <-> a = b.
Proof. intros [] []; cbn; split; congruence. Qed.

Lemma first_next_to_inv : forall far s n o l c, sized far s -> first_next_to s n o l = Ok (Some c) ->
  shows s n c o /\ tile_at s c = None.
Proof.
  intros far s n o l c Hs. induction l as [|x l IH]; intros H; cbn [first_next_to] in H; [discriminate|].
  bstep H. apply (boundary_between_inv far) in H0; auto. apply bind_ok in H as (ok & Hok & H).
  destruct ok; [|auto]. injection H as <-.
  destruct x0 as [bd|]; [|discriminate]. destruct H0 as (p & d & Tp & Ex & ->).
  bstep Hok. destruct (btype_eqb _ _) eqn:Eb; [|discriminate]. apply btype_eqb_eq in Eb.
  apply (is_free_inv far) in Hok as [_ Hf]; auto. split; [|apply Hf; auto].
  exists p, d, x0. split; auto. split; auto. split; auto.
  destruct o; cbn in H; try discriminate; injection H as <-; constructor.
Qed.

Lemma first_free_inv : forall far s l c, sized far s -> first_free s l = Ok (Some c) ->
  exists before later, l = before ++ c :: later /\ (forall c', In c' before -> tile_at s c' <> None)
    /\ tile_at s c = None.
Proof.
  intros far s l c Hs. induction l as [|x l IH]; intros H; cbn [first_free] in H; [discriminate|].
  bstep H. apply (is_free_inv far) in H0 as [Ho Hf]; auto. destruct x0.
  - injection H as <-. exists [], l. split; auto. split; [intros ? []|]. apply Hf; auto.
  - destruct (IH H) as (b & r & -> & H1 & H2). exists (x :: b), r. split; auto. split; auto.
    intros c' [<-|Hin]; auto. intros E. apply Hf in E. discriminate.
Qed.

Lemma last_free_inv : forall far s l acc c, sized far s ->
  foldM (fun acc c => do f <- is_free s c ;; Ok (if f : bool then Some c else acc)) l acc = Ok (Some c) ->
  acc = Some c \/ In c l /\ tile_at s c = None.
Proof.
  intros far s l. induction l as [|x l IH]; intros acc c Hs H; cbn [foldM] in H; [left; congruence|].
  bstep H. bstep H0. apply (is_free_inv far) in H1 as [_ Hf]; auto. injection H0 as <-.
  apply IH in H as [H|[H1 H2]]; auto; [|right; split; auto; right; auto].
  destruct x1; auto. injection H as <-. right. split; [left; auto|apply Hf; auto].
Qed.

Lemma neighbours_step : forall L c n, on_lattice (l_furthest L) c -> In n (neighbours L c) -> exists d, n = step c d.
Proof.
  intros L c n Ho H. apply neighbours_in_iff in H as [H _]; [|unfold on_lattice in Ho; unfold in_box; cbn; lia]. apply adjacent_step in H as [d H]. eauto.
Qed.

Lemma join_tiles_inv : forall a d l, join_tiles a (step a d) = Ok l ->
  l = [rotating a d; rotating (step a d) (dir_not d)].
Proof.
  intros a d l H. unfold join_tiles, set_boundary_with in H. cbn [sc_cell sc_b] in H.
  rewrite (proj2 (side_towards_iff a (step a d) d) eq_refl) in H.
  assert (E : side_towards (step a d) a = Some (dir_not d)) by (apply side_towards_iff; symmetry; apply step_not).
  rewrite E in H. cbn [deref bind] in H. injection H as <-. reflexivity.
Qed.

Lemma l1_dist : forall a b, l1 a b = dist a b.
Proof. intros a b. unfold l1, dist. lia. Qed.

(** The search for the nearest tile among those that qualify. *)
Lemma nearest_fold : forall n (P : cell -> Prop) (f : option (Z * cell) -> cell -> outcome (option (Z * cell)))
  l best res,
  (forall b c r, In c l -> f b c = Ok r ->
     (P c /\ r = match b with None => Some (dist c n, c)
                 | Some (d, _) => if dist c n <? d then Some (dist c n, c) else b end) \/ (~ P c /\ r = b)) ->
  foldM f l best = Ok (Some res) ->
  (forall d c, best = Some (d, c) -> d = dist c n) ->
  fst res = dist (snd res) n
  /\ (best = Some res \/ In (snd res) l /\ P (snd res))
  /\ (forall d c, best = Some (d, c) -> fst res <= d)
  /\ (forall c, In c l -> P c -> fst res <= dist c n).
Proof.
  intros n P f l. induction l as [|x l IH]; intros best res Hf H Hb; cbn [foldM] in H.
  - assert (best = Some res) by congruence. subst best. destruct res as [d c]. cbn.
    rewrite (Hb d c eq_refl). split; auto. split; auto. split; [|intros ? []].
    intros d' c' E. injection E as <- <-. lia.
  - bstep H. apply Hf in H0; [|left; auto].
    assert (Hb' : forall d c, x0 = Some (d, c) -> d = dist c n).
    { intros d c E. destruct H0 as [[_ ->]|[_ ->]]; auto.
      destruct best as [[d0 c0]|].
      - destruct (dist x n <? d0); [congruence|apply Hb; congruence].
      - congruence. }
    destruct (IH x0 res) as (R1 & R2 & R3 & R4); auto.
    { intros b c r Hin. apply Hf. right. auto. }
    split; auto. destruct H0 as [[HP ->]|[HP ->]].
    + split; [|split].
      * destruct R2 as [R2|[R2 R2']]; [|right; split; auto; right; auto].
        destruct best as [[d0 c0]|].
        -- destruct (dist x n <? d0); [|auto]. injection R2 as <-. right. cbn. auto.
        -- injection R2 as <-. right. cbn. auto.
      * intros d c ->. destruct (dist x n <? d) eqn:E.
        -- apply Z.ltb_lt in E. specialize (R3 _ _ eq_refl). lia.
        -- apply (R3 _ _ eq_refl).
      * intros c [<-|Hin] Hc; auto. destruct best as [[d0 c0]|].
        -- destruct (dist x n <? d0) eqn:E; specialize (R3 _ _ eq_refl); auto. apply Z.ltb_ge in E. lia.
        -- apply (R3 _ _ eq_refl).
    + split; [|split]; auto.
      * destruct R2 as [R2|[R2 R2']]; auto. right. split; auto. right. auto.
      * intros c [<-|Hin] Hc; auto. contradiction.
Qed.

Lemma nearest_step_inv : forall s near n b c r, get_cell_by_id s near = Some n -> nearest_step s near b c = Ok r ->
  r = match b with None => Some (dist c n, c)
      | Some (d, _) => if dist c n <? d then Some (dist c n, c) else b end.
Proof.
  intros s near n b c r Hn H. unfold nearest_step in H. rewrite Hn in H. cbn [value_ bind] in H.
  rewrite l1_dist in H. congruence.
Qed.

Lemma smooth_fold : forall far s c l acc n, sized far s -> foldM (smooth_neighbour s c) l acc = Ok (Some n) ->
  acc = Some n \/ shows s c n PZ /\ tile_at s n = None.
Proof.
  intros far s c l. induction l as [|x l IH]; intros acc n Hs H; cbn [foldM] in H; [left; congruence|].
  bstep H. apply IH in H as [->|H]; auto. unfold smooth_neighbour in H0. bstep H0.
  apply (is_free_inv far) in H as [_ Hf]; auto. destruct x0; cbn in H0; [|injection H0 as ->; auto].
  bstep H0. apply (boundary_between_inv far) in H; auto. bstep H0. destruct x0 as [bd|]; [|discriminate].
  cbn in H1. injection H1 as <-. destruct H as (p & d & Tp & Ex & ->).
  destruct (btype_eqb _ _) eqn:E; [|left; congruence]. injection H0 as <-. apply btype_eqb_eq in E.
  right. split; [|apply Hf; auto]. exists p, d, BSmooth. split; auto. split; auto. split; auto. constructor.
Qed.

(** Clearing a region and placing patches. *)
Lemma clear_inv : forall far cells s s', sized far s ->
  foldM (fun s sc => set_patch s (sc_cell sc) None) cells s = Ok s' ->
  sized far s' /\ becomes s s' (map (fun sc => (sc_cell sc, None)) cells).
Proof.
  intros far cells. induction cells as [|sc cells IH]; intros s s' Hs H; cbn [foldM] in H.
  - injection H as <-. split; auto. apply becomes_refl.
  - bstep H. apply (set_patch_inv far) in H0 as [Ho ->]; auto.
    apply IH in H as [S' B']; [|apply sized_put; auto]. split; auto.
    eapply becomes_ext; [eapply becomes_trans; [apply (becomes_put far); eauto|exact B']|].
    intros c. cbn [map over].
    assert (G : forall l s, over (map (fun sc => (sc_cell sc, None)) l ++ [(sc_cell sc, None)]) s c
      = if cell_eqb (sc_cell sc) c then None else over (map (fun sc => (sc_cell sc, None)) l) s c).
    { clear. induction l as [|y l IH]; intros s; cbn [map app over]; auto. rewrite IH.
      destruct (cell_eqb (sc_cell y) c), (cell_eqb (sc_cell sc) c); auto. }
    apply G.
Qed.

Lemma place_one_inv : forall far s p s', sized far s -> place_sparse s p false = Ok s' ->
  sized far s' /\ NoDup (map fst (placed p))
  /\ (forall c, In c (map fst (placed p)) -> tile_at s c = None) /\ becomes s s' (rev (placed p)).
Proof.
  intros far s p s' Hs H. unfold place_sparse in H. unfold placed. destruct (sp_cells p) as [sc|l] eqn:E.
  - bstep H. destruct x as [s1 c1]. apply (place_single_inv far _ _ sc) in H0 as (-> & Hn & Ho & ->); auto.
    injection H as <-. split; [apply sized_put; auto|]. split; [repeat constructor; auto|].
    split; [intros c [<-|[]]; auto|]. apply (becomes_put far); auto.
  - clear E. revert s s' Hs H. induction l as [|sc l IH]; intros s s' Hs H; cbn [foldM] in H.
    + injection H as <-. split; auto. split; [constructor|]. split; [intros ? []|]. apply becomes_refl.
    + bstep H. bstep H0. destruct x0 as [s1 c1].
      eapply (place_single_inv far) in H1 as (-> & Hn & Ho & E1); auto. 2: reflexivity. cbn in E1.
      assert (x = s1) by congruence. subst x s1. clear H0.
      apply IH in H as (S' & N' & F' & B'); [|apply sized_put; auto].
      assert (Hni : ~ In (sc_cell sc) (map fst (map (fun sc0 => (sc_cell sc0,
        Some (mkDP (mkPatch TDistillation ANone None None None) (sc_b sc0)))) l))).
      { intros Hin. apply F' in Hin. rewrite (tile_put_same far) in Hin by auto. discriminate. }
      split; auto. split; [cbn; constructor; auto|]. split.
      * intros c [<-|Hin]; auto. pose proof (F' c Hin) as F1. rewrite (tile_put_other far) in F1; auto.
        intros <-. apply Hni. auto.
      * cbn [map rev]. eapply becomes_trans; [apply (becomes_put far); eauto|exact B'].
Qed.

Lemma place_all_inv : forall far l s s' all, sized far s -> place_all s l = Ok (s', all) ->
  sized far s' /\ (all = true -> NoDup (map fst (flat_map placed l))
    /\ (forall c, In c (map fst (flat_map placed l)) -> tile_at s c = None)
    /\ becomes s s' (rev (flat_map placed l)))
  /\ rest_same s s'
  /\ (forall c p, tile_at s c = Some p -> tile_at s' c = Some p).
Proof.
  intros far l. induction l as [|p l IH]; intros s s' all Hs H; cbn [place_all] in H.
  - injection H as <- <-. split; auto. split; [|split; [apply rest_same_refl|auto]].
    intros _. split; [constructor|]. split; [intros ? []|]. apply becomes_refl.
  - bstep H. destruct x.
    { injection H as <- <-. split; auto. split; [discriminate|]. split; [apply rest_same_refl|auto]. }
    bstep H. apply (place_one_inv far) in H1 as (S1 & N1 & F1 & B1); auto.
    apply IH in H as (S2 & A2 & R2 & K2); auto. split; auto.
    assert (TM : forall c, In c (map fst (placed p)) -> tile_at x c <> None).
    { intros c Hc. rewrite (becomes_tile _ _ _ _ B1).
      assert (G : forall u, (forall y, In y u -> snd y <> None) -> In c (map fst u) -> over u s c <> None).
      { clear. induction u as [|[c' t] u IH]; intros Hu Hin; [destruct Hin|]. cbn [over].
        destruct (cell_eqb_spec c' c) as [->|E]; [apply (Hu (c, t)); left; auto|].
        apply IH; [intros y Hy; apply Hu; right; auto|]. destruct Hin as [Hin|Hin]; auto. contradiction. }
      apply G.
      - intros y Hy. apply in_rev in Hy. unfold placed in Hy. destruct (sp_cells p).
        + destruct Hy as [<-|[]]. discriminate.
        + apply in_map_iff in Hy as (z & <- & _). discriminate.
      - rewrite map_rev. apply in_rev. rewrite rev_involutive. auto. }
    split; [|split].
    + intros Ha. destruct (A2 Ha) as (N2 & F2 & B2). cbn [flat_map]. rewrite map_app. split; [|split].
      * apply NoDup_app_intro; auto. intros c H1 H2. apply (TM c); auto.
      * intros c Hc. apply in_app_iff in Hc as [Hc|Hc]; auto.
        assert (E : ~ In c (map fst (rev (placed p)))).
        { rewrite map_rev, <- in_rev. intros X. apply (TM c); auto. }
        apply F2 in Hc. rewrite (becomes_tile _ _ _ _ B1), over_not_in in Hc; auto.
      * rewrite rev_app_distr. eapply becomes_trans; eauto.
    + eapply rest_same_trans; eauto. apply B1.
    + intros c q Hq. apply K2. rewrite (becomes_tile _ _ _ _ B1), over_not_in; auto.
      rewrite map_rev, <- in_rev. intros X. apply F1 in X. congruence.
Qed.
