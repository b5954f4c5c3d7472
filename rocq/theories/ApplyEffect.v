(** The effect of every instruction, derived from the model. *)
From Verif Require Import Base PatchesModel LayoutModel LayoutSpec LayoutProofs InstrModel InstrSpec InstrProofs.
From Verif Require Import SliceModel SliceSpec SliceProofs RouterModel RouterSpec RouterProofs ApplyModel ApplySpec ApplyProofs.
Local Open Scope Z_scope.

Definition good (far : cell) (e : env) (w : world) (o : operation) (a : applied) : Prop :=
  sized far (w_slice (a_world a)) /\
  (a_error a = false -> exists u m y, effect e w o u m y (a_follow a)
     /\ changed (w_slice w) (w_slice (a_world a)) u m y).

Lemma changed_refl : forall s, changed s s [] (s_magic s) (s_yavail s).
Proof. intros s. apply becomes_changed, becomes_refl. Qed.

Lemma failed_good : forall far e w w' o o' a, sized far (w_slice w') -> failed w' o = Ok a -> good far e w o' a.
Proof.
  intros far e w w' o o' a Hs H. apply failed_inv in H as (E1 & _ & E & _). unfold good. rewrite E1. split; auto. congruence.
Qed.

Lemma done_good : forall far e w w' o o' a u m y, sized far (w_slice w') -> done_ w' o = Ok a ->
  effect e w o' u m y [] -> changed (w_slice w) (w_slice w') u m y -> good far e w o' a.
Proof.
  intros far e w w' o o' a u m y Hs H He Hc. apply done_inv in H as (E1 & _ & E & E2). unfold good. rewrite E1, E2. split; auto. intros _. eauto.
Qed.

Lemma sits_get : forall far s t c, sized far s -> get_cell_by_id s t = Some c ->
  exists p, sits s t c p /\ get_patch_by_id s t = Some p /\ on_lattice far c.
Proof.
  intros far s t c Hs H. apply (get_cell_by_id_Some far) in H as ((p & Hp & Hi) & Ho & Hg); auto.
  exists p. rewrite Hg. split; [split|]; auto.
Qed.

Lemma measure_good : forall far e w b n t a, sized far (w_slice w) ->
  apply_measure w (Measure t b n) t = Ok a -> good far e w (Measure t b n) a.
Proof.
  intros far e w b n t a Hs H. unfold apply_measure in H.
  destruct (get_cell_by_id (w_slice w) t) as [c|] eqn:E; [|eapply failed_good; eauto].
  apply (sits_get far) in E as (p & Hp & _ & Ho); auto. bstep H.
  apply (set_activity_inv far) in H0 as (p' & Hp' & _ & ->); auto.
  assert (p' = p) by (destruct Hp; congruence). subst p'.
  eapply done_good; [|exact H|apply ef_measure; eauto|]; cbn [w_slice with_slice].
  - apply sized_put. auto.
  - apply becomes_changed, (becomes_put far); auto.
Qed.

Lemma single_good : forall far e w t o dg a, sized far (w_slice w) ->
  apply_single e w (SingleOp t o dg) t o = Ok a -> good far e w (SingleOp t o dg) a.
Proof.
  intros far e w t o dg a Hs H. unfold apply_single in H.
  destruct (get_cell_by_id (w_slice w) t) as [c|] eqn:E; [|eapply failed_good; eauto].
  apply (sits_get far) in E as (p & Hp & Hg & Ho); auto. rewrite Hg in H.
  assert (G : forall b, (if dp_is_active p then failed w (SingleOp t o dg) else b) = Ok a ->
    (idle (w_slice w) c p -> b = Ok a -> good far e w (SingleOp t o dg) a) -> good far e w (SingleOp t o dg) a).
  { intros b Hb HG. destruct (dp_is_active p) eqn:Ea; [eapply failed_good; eauto|]. apply HG; auto.
    apply (is_active_idle _ _ _ (proj1 Hp)); auto. }
  destruct o.
  all: try (apply G in H; auto; intros Hi Hd; eapply done_good; [exact Hs|exact Hd|
    eapply ef_pauli; eauto; discriminate|apply changed_refl]).
  - (* H *)
    apply G in H; auto. intros Hi Hd. bstep Hd. apply (set_patch_inv far) in H0 as [_ ->]; auto.
    eapply done_good; [|exact Hd|eapply ef_hadamard; eauto|]; cbn [w_slice with_slice].
    + apply sized_put. auto.
    + apply becomes_changed, (becomes_put far); auto.
  - (* S *)
    clear G. destruct (e_edpc e) eqn:Ee; [discriminate|]. bstep H. destruct x as [w' ok].
    apply (merge_inv far) in H0 as [S' H0]; auto. destruct ok; cbn [negb] in H; [|eapply failed_good; eauto].
    destruct H0 as (reg & u & Hr & Hm & Hb). injection H as <-. split; auto. cbn. intros _.
    exists u. do 2 eexists. split; [eapply ef_phase; eauto|]. apply becomes_changed. auto.
Qed.

Lemma multi_good : forall far e w obs neg l a, sized far (w_slice w) ->
  apply_multi e w obs neg l = Ok a -> good far e w (MultiMeasure obs neg l) a.
Proof.
  intros far e w obs neg l a Hs H. unfold apply_multi in H.
  destruct obs as [|[x px] [|[y py] [|? ?]]]; try discriminate.
  destruct (has_patch (w_slice w) x); cbn [negb] in H; [|eapply failed_good; eauto].
  destruct (has_patch (w_slice w) y); cbn [negb] in H; [|eapply failed_good; eauto].
  destruct (e_local e) eqn:El; cbn [negb] in H.
  - destruct (get_cell_by_id (w_slice w) x) as [cx|] eqn:Ex; [|discriminate].
    destruct (get_cell_by_id (w_slice w) y) as [cy|] eqn:Ey; [|discriminate]. cbn [value_ bind] in H.
    apply (sits_get far) in Ex as (p & Hp & _ & Ho); auto. apply (sits_get far) in Ey as (q & Hq & _ & Ho'); auto.
    bstep H. bstep H. bstep H. destruct x2 as [s' err]. apply (try_local_spec far) in H2 as (S' & _ & E'); auto.
    injection H as <-. split; auto. cbn. intros ->. destruct E' as (u & Hu & Hb).
    exists u. do 2 eexists. split; [eapply ef_multi_local; eauto|]. apply becomes_changed. auto.
  - destruct (e_edpc e) eqn:Ee; [discriminate|]. bstep H. destruct x0 as [w' ok].
    apply (merge_inv far) in H0 as [S' H0]; auto. destruct ok; cbn [negb] in H; [|eapply failed_good; eauto].
    destruct H0 as (reg & u & Hr & Hm & Hb).
    eapply done_good; [exact S'|exact H|eapply ef_multi; eauto|]. apply becomes_changed. auto.
Qed.

Lemma init_good : forall far e w t st place a, sized far (w_slice w) ->
  apply_init e w t st place = Ok a -> good far e w (Init t st place) a.
Proof.
  intros far e w t st place a Hs H. unfold apply_init in H. apply bind_ok in H as (loc & Hl & H).
  destruct loc as [c|]; [|eapply failed_good; eauto].
  bstep H. apply (place_square_inv far) in H0 as (Hn & Ho & ->); auto.
  bstep H. apply (set_tile_id_inv far) in H0 as (p & Hp & _ & ->); [|apply sized_put; auto].
  rewrite (tile_put_same far) in Hp by auto. injection Hp as <-. rewrite put_put in H.
  assert (Hc : changed (w_slice w) (put (w_slice w) c (Some (square (Some t) (Some (lit "Init")))))
    [(c, Some (square (Some t) (Some (lit "Init"))))] (s_magic (w_slice w)) (s_yavail (w_slice w))).
  { apply becomes_changed, (becomes_put far); auto. }
  destruct place as [x|].
  - unfold place_ancilla_next_to in Hl. destruct (get_cell_by_id (w_slice w) (pnt_target x)) as [n|] eqn:En; [|discriminate].
    cbn [value_ bind] in Hl. apply (first_next_to_inv far) in Hl as [Hsh _]; auto.
    eapply done_good; [|exact H|eapply ef_init_near; eauto|]; cbn [w_slice with_slice].
    + apply sized_put; auto.
    + apply (get_cell_by_id_Some far) in En as [En _]; auto.
    + exact Hc.
  - apply (first_free_inv far) in Hl as (b & r & E & Hb & _); auto.
    eapply done_good; [|exact H|eapply ef_init; eauto|]; cbn [w_slice with_slice]; auto. apply sized_put; auto.
Qed.

Lemma rotate_good : forall e w t a, sized (l_furthest (e_layout e)) (w_slice w) ->
  apply_rotate e w t = Ok a -> good (l_furthest (e_layout e)) e w (Rotate t) a.
Proof.
  intros e w t a Hs H. unfold apply_rotate in H. set (far := l_furthest (e_layout e)) in *.
  destruct (get_cell_by_id (w_slice w) t) as [c|] eqn:E; [|eapply failed_good; eauto].
  apply (sits_get far) in E as (p & Hp & Hg & Ho); auto.
  apply bind_ok in H as (nb & Hnb & H). destruct nb as [n|]; [|eapply failed_good; eauto].
  unfold last_free in Hnb. apply (last_free_inv far) in Hnb as [Hnb|[Hin Hn]]; auto; [discriminate|].
  apply neighbours_step in Hin as [d ->]; auto.
  bstep H. apply (patch_at_inv far) in H0 as [_ ->]; auto. rewrite (proj1 Hp) in H. cbn [deref bind] in H.
  set (p' := if act_eqb (p_act (dp p)) AUnitary then set_act p ANone else p) in H.
  unfold litinski_rotation in H. cbn [to_sparse_patch sp_cells sc_cell] in H.
  bstep H. bstep H0. apply join_tiles_inv in H1. subst x0. injection H0 as <-.
  bstep H. apply (set_patch_inv far) in H0 as [_ ->]; auto.
  bstep H. destruct x as [s2 reg'].
  eapply (mark_region_plain far) in H0 as (-> & S2 & ND & F & B); [|apply sized_put; auto|discriminate].
  injection H as <-. split; auto. cbn [a_error a_follow a_world w_slice with_slice]. intros _.
  do 3 eexists. split.
  - assert (EF : forall x y, x = y -> effect e w (Rotate t)
      [routing ARotation None (rotating c d); routing ARotation None (rotating (step c d) (dir_not d))]
      (s_magic (w_slice w)) (s_yavail (w_slice w)) x -> effect e w (Rotate t)
      [routing ARotation None (rotating c d); routing ARotation None (rotating (step c d) (dir_not d))]
      (s_magic (w_slice w)) (s_yavail (w_slice w)) y) by (intros ? ? ->; auto).
    eapply EF; [|eapply ef_rotate; eauto].
    change (3 - 1)%N with 2%N. do 3 f_equal. subst p'.
    destruct (act_eqb (p_act (dp p)) AUnitary); cbn; rewrite ?(proj2 Hp); reflexivity.
  - apply becomes_changed.
    eapply becomes_ext; [eapply becomes_trans; [apply (becomes_put far); eauto|exact B]|].
    cbn [rg_cells rg_id map rev app]. unfold routing. cbn [sc_cell sc_b rotating]. over_tac c d.
Qed.

Lemma magic_good : forall far e w t near a, sized far (w_slice w) ->
  apply_magic e w t near = Ok a -> good far e w (MagicRequest t near) a.
Proof.
  intros far e w t near a Hs H. unfold apply_magic in H. destruct (l_times (e_layout e)) as [|t0 ts]; [discriminate|].
  destruct (s_magic (w_slice w)) as [|m0 ms] eqn:Em; [eapply failed_good; eauto|]. rewrite <- Em in H.
  bstep H. destruct x as [[d c]|]; [|discriminate]. cbn [value_ bind snd] in H.
  assert (Hn : exists n, get_cell_by_id (w_slice w) near = Some n).
  { destruct (get_cell_by_id (w_slice w) near) eqn:E; eauto. rewrite Em in H0. cbn in H0.
    unfold nearest_step in H0. rewrite E in H0. discriminate. }
  destruct Hn as [n Hn].
  eapply (nearest_fold n (fun c => In c (s_magic (w_slice w)))) in H0 as (R1 & R2 & _ & R4); auto.
  2: { intros b c' r Hin Hc'. left. split; auto. eapply nearest_step_inv; eauto. }
  2: (intros; discriminate).
  destruct R2 as [R2|[_ R2]]; [discriminate|]. cbn [fst snd] in *.
  bstep H. apply (patch_at_inv far) in H0 as [Ho ->]; auto. destruct (tile_at (w_slice w) c) as [p|] eqn:Tp; [|discriminate].
  cbn [value_ bind] in H. bstep H. apply (set_patch_inv far) in H0 as [_ ->]; auto.
  eapply done_good; [|exact H|eapply (ef_magic e w t near n c p); eauto|]; cbn [w_slice with_slice].
  - eapply sized_cells; [|apply sized_put; eauto]. reflexivity.
  - apply (get_cell_by_id_Some far) in Hn as [Hn _]; auto.
  - split; auto. intros c' Hc'. specialize (R4 c' Hc' Hc'). lia.
  - destruct (becomes_put far (w_slice w) c
      (Some (mkDP (mkPatch TQubit ANone (Some t) (p_label (dp p)) (p_op (dp p))) (db p))) Hs Ho) as [B1 (B2&B3&B4&B5&B6&B7)].
    unfold changed. cbn [s_magic s_yavail s_timers s_crossing s_rough s_smooth with_magic]. auto 10.
Qed.

Lemma y_good : forall far e w t near l a, sized far (w_slice w) ->
  apply_y e w t near l = Ok a -> good far e w (YRequest t near l) a.
Proof.
  intros far e w t near l a Hs H. unfold apply_y in H.
  destruct (get_cell_by_id (w_slice w) t) as [c|] eqn:E.
  - apply (sits_get far) in E as (p & Hp & Hg & Ho); auto. bstep H.
    apply (set_tile_id_inv far) in H0 as (p' & Hp' & _ & ->); auto.
    assert (p' = p) by (destruct Hp; congruence). subst p'.
    eapply done_good; [|exact H|eapply ef_y_return; eauto|]; cbn [w_slice with_slice].
    + eapply sized_cells; [|apply sized_put; eauto]. reflexivity.
    + destruct (becomes_put far (w_slice w) c (Some (named None p)) Hs Ho) as [B1 (B2&B3&B4&B5&B6&B7)].
      unfold changed. cbn [s_magic s_yavail s_timers s_crossing s_rough s_smooth with_yavail]. auto 10.
  - pose proof (proj1 (get_cell_by_id_None far _ _ Hs) E) as E0. clear E.
    destruct (negb (e_local e && e_twists e) && negb (N.eqb (s_yavail (w_slice w)) 0)) eqn:Ec.
    + apply andb_true_iff in Ec as [Ec1 Ec2]. apply negb_true_iff in Ec1, Ec2. apply N.eqb_neq in Ec2.
      bstep H. destruct x as [[d c]|]; [|injection H as <-; split; auto; discriminate].
      set (P := fun c => In c (l_ystates (e_layout e)) /\ exists p, idle (w_slice w) c p /\ p_id (dp p) = None).
      assert (Hn : exists n, get_cell_by_id (w_slice w) near = Some n).
      { destruct (get_cell_by_id (w_slice w) near) eqn:En; eauto. exfalso.
        assert (G : forall ys acc r, (forall d c, acc <> Some (d, c)) -> foldM (nearest_y (w_slice w) near) ys acc = Ok r ->
          forall d c, r <> Some (d, c)).
        { induction ys as [|y ys IH]; intros acc r Ha Hf; cbn [foldM] in Hf; [injection Hf as <-; auto|].
          bstep Hf. eapply IH; [|exact Hf]. unfold nearest_y in H1. bstep H1. bstep H1.
          destruct (p_id (dp x1)); [injection H1 as <-; auto|].
          destruct (dp_is_active x1); [injection H1 as <-; auto|].
          unfold nearest_step in H1. rewrite En in H1. discriminate. }
        eapply G; [|exact H0|]; eauto. discriminate. }
      destruct Hn as [n Hn].
      eapply (nearest_fold n P) in H0 as (R1 & R2 & _ & R4); auto.
      2: { intros b c' r Hin Hc'. unfold nearest_y in Hc'. bstep Hc'.
           apply (patch_at_inv far) in H1 as [Ho' ->]; auto. bstep Hc'.
           destruct (tile_at (w_slice w) c') as [p|] eqn:Tp; cbn in H1; [|discriminate]. injection H1 as <-.
           destruct (p_id (dp p)) eqn:Ei.
           - right. split; [|congruence]. intros (_ & q & (Tq & _) & Iq). congruence.
           - destruct (dp_is_active p) eqn:Ea.
             + right. split; [|congruence]. intros (_ & q & Hq & Iq). assert (q = p) by (destruct Hq; congruence).
               subst q. apply (is_active_idle _ _ _ Tp) in Hq. congruence.
             + left. split; [|eapply nearest_step_inv; eauto]. split; auto. exists p. split; auto.
               apply (is_active_idle _ _ _ Tp). auto. }
      2: (intros; discriminate).
      destruct R2 as [R2|[_ R2]]; [discriminate|]. cbn [fst snd] in *.
      bstep H. apply (set_tile_id_inv far) in H0 as (p & Hp & Ho & ->); auto.
      eapply done_good; [|exact H|eapply (ef_y_take e w t near l n c p); eauto|]; cbn [w_slice with_slice].
      * eapply sized_cells; [|apply sized_put; eauto]. reflexivity.
      * intros [E1 E2]. rewrite E1, E2 in Ec1. discriminate.
      * apply (get_cell_by_id_Some far) in Hn as [Hn _]; auto.
      * split; auto. intros c' Hc'. specialize (R4 c' (proj1 Hc') Hc'). lia.
      * destruct (becomes_put far (w_slice w) c (Some (named (Some t) p)) Hs Ho) as [B1 (B2&B3&B4&B5&B6&B7)].
        unfold changed. cbn [s_magic s_yavail s_timers s_crossing s_rough s_smooth with_yavail].
        rewrite B4. unfold u32_dec. apply N.eqb_neq in Ec2. rewrite Ec2. auto 10.
    + destruct (e_twists e) eqn:Et; [|injection H as <-; split; auto; discriminate].
      destruct (get_cell_by_id (w_slice w) near) as [c|] eqn:En; [|discriminate]. cbn [value_ bind] in H.
      apply bind_ok in H as (nb & Hnb & H). destruct nb as [n|]; [|eapply failed_good; eauto].
      apply (smooth_fold far) in Hnb as [Hnb|[Hsh Hn]]; auto; [discriminate|].
      bstep H. destruct x as [s' err]. pose proof H0 as H0'. apply (try_local_spec far) in H0 as (S' & _ & E'); auto.
      destruct err.
      { exfalso. cbn [try_local] in H0'. bstep H0'. destruct x; [|discriminate]. cbn in H0'. do 2 bstep H0'. discriminate. }
      destruct E' as (u & Hu & Hb). inversion Hu; subst.
      eapply done_good; [|exact H|eapply (ef_y_twist e w t near l c n); eauto|]; cbn [w_slice with_slice]; auto.
      * destruct (e_local e); auto. cbn in Ec. right. apply negb_false_iff in Ec. apply N.eqb_eq in Ec. auto.
      * apply (get_cell_by_id_Some far) in En as [En _]; auto.
      * apply becomes_changed. auto.
Qed.

Lemma busy_good : forall far e w reg steps after a, sized far (w_slice w) ->
  apply_busy w reg steps after = Ok a -> good far e w (Busy reg steps after) a.
Proof.
  intros far e w reg steps after a Hs H. unfold apply_busy in H. destruct (N.eqb_spec steps 0) as [->|Hne].
  - bstep H. unfold clear_routing_region in H0. apply (clear_inv far) in H0 as [S1 B1]; auto.
    bstep H. destruct x0 as [s2 all]. apply (place_all_inv far) in H0 as (S2 & A2 & _); auto.
    destruct all; [|eapply failed_good; [|exact H]; auto].
    destruct (A2 eq_refl) as (N2 & F2 & B2).
    eapply done_good; [|exact H|eapply ef_busy_done; eauto|]; cbn [w_slice with_slice]; auto.
    + intros c Hc. rewrite <- (becomes_tile _ _ _ _ B1). auto.
    + apply becomes_changed. eapply becomes_trans; eauto.
  - bstep H. injection H as <-. split; auto. cbn. intros _. do 3 eexists. split; [apply ef_busy_wait; lia|].
    apply changed_refl.
Qed.

Definition bell_op (o : operation) : Prop :=
  match o with BellInit _ _ _ _ _ _ | BellCNOT _ _ _ _ _ _ _ _ => True | _ => False end.

Lemma apply_good : forall e w i a, sized (l_furthest (e_layout e)) (w_slice w) -> ~ bell_op (op i) ->
  try_apply e w i = Ok a -> good (l_furthest (e_layout e)) e w (op i) a.
Proof.
  intros e w i a Hs Hb H. unfold try_apply in H. destruct (op i); try (exfalso; apply Hb; exact I); try discriminate.
  - eapply measure_good; eauto.
  - eapply multi_good; eauto.
  - eapply init_good; eauto.
  - eapply magic_good; eauto.
  - eapply y_good; eauto.
  - eapply single_good; eauto.
  - eapply rotate_good; eauto.
  - eapply busy_good; eauto.
  - eapply done_good; [exact Hs|exact H|apply ef_reset|apply changed_refl].
Qed.
