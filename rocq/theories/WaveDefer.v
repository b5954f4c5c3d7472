(** What is attempted again within a slice when crossing routes are in use. *)
From Verif Require Import Base PatchesModel LayoutModel InstrModel SliceModel ApplyModel ApplyProofs ApplyEffect RunModel RunSpec RunProofs WaveSpec.
Open Scope nat_scope.

(** Found a route, not cut up yet *)
Definition found (i : instr) : Prop := match op i with BellCNOT _ _ _ _ (Some _) None _ _ => True | _ => False end.
(** Cut up, nothing done yet *)
Definition cut_up (i : instr) : Prop :=
  match op i with BellCNOT _ _ _ _ (Some _) (Some _) (Some [_; _; _; _]) (Some O) => True | _ => False end.
Lemma found_route : forall i, found i \/ cut_up i -> on_route i.
Proof. intros [[] w c]; unfold found, cut_up, on_route; cbn; try tauto. destruct route; tauto. Qed.

(** Only an instruction that has just found a route is refused and comes again. *)
Lemma refused_follow : forall e w i a, orderly i -> try_apply e w i = Ok a -> a_error a = true -> a_follow a <> [] -> found (tried i a).
Proof.
  intros e w [o wt cl] a Or H Er Nf.
  assert (F : forall w' o', failed w' o' = Ok a -> found (tried (mkI o wt cl) a)) by (intros w' o' X; apply failed_inv in X; tauto).
  assert (D : forall w' o', done_ w' o' = Ok a -> found (tried (mkI o wt cl) a)) by (intros w' o' X; apply done_inv in X; tauto).
  destruct o; cbn [try_apply InstrModel.op wait clients] in H; try discriminate.
  - unfold apply_measure in H. destruct (get_cell_by_id (w_slice w) target); [bstep H|]; eauto.
  - unfold apply_multi in H. destruct observable as [|[x px] [|[y py] [|? ?]]]; try discriminate.
    repeat (match type of H with context[if ?b then _ else _] => destruct b end; cbn [negb] in H; eauto; try discriminate).
    + crawl H. destruct b; cbn [negb] in H; eauto.
    + crawl H. injection H as <-. cbn in Nf. congruence.
  - unfold apply_init in H. bstep H. destruct x; eauto. bstep H. bstep H. eauto.
  - unfold apply_bell_init in H.
    repeat (match type of H with (if ?b then _ else _) = _ => destruct b end; cbn [negb] in H; eauto; try discriminate).
    destruct counter as [[f s]|].
    + repeat bstep H. destruct x0 as [[s' i] all]. injection H as <-. cbn in Er. discriminate.
    + bstep H. destruct x as [r cache]. destruct r; eauto. destruct (Nat.ltb (length (rg_cells r)) 2); eauto.
      bstep H. destruct x as [la lb]. repeat bstep H. destruct x0 as [[s' i] all]. injection H as <-. cbn in Er. discriminate.
  - unfold apply_magic in H. destruct (l_times (e_layout e)); try discriminate. destruct (s_magic (w_slice w)); eauto.
    repeat bstep H. eauto.
  - unfold apply_y in H. destruct (get_cell_by_id (w_slice w) target); [bstep H; eauto|].
    destruct (negb (e_local e && e_twists e) && negb (N.eqb (s_yavail (w_slice w)) 0)).
    + bstep H. destruct x as [[z c]|]; [bstep H; eauto|]. injection H as <-. cbn in Nf. congruence.
    + destruct (e_twists e); [|injection H as <-; cbn in Nf; congruence]. bstep H. bstep H. destruct x0; eauto. bstep H. destruct x0. eauto.
  - unfold apply_single in H. destruct (get_cell_by_id (w_slice w) target), (get_patch_by_id (w_slice w) target); eauto.
    destruct op; try (match type of H with (if dp_is_active _ then _ else _) = _ => destruct (dp_is_active d); [eauto|try (bstep H); eauto] end).
    destruct (e_edpc e); try discriminate. bstep H. destruct x as [w' ok]. destruct ok; cbn [negb] in H; eauto.
    injection H as <-. cbn in Er. discriminate.
  - unfold apply_rotate in H. destruct (get_cell_by_id (w_slice w) target); eauto. bstep H. destruct x; eauto.
    repeat bstep H. destruct x1; try discriminate. bstep H. destruct x1. injection H as <-. cbn in Er. discriminate.
  - unfold apply_busy in H. destruct (N.eqb steps_to_clear 0).
    + repeat bstep H. destruct x0 as [s2 all]. destruct all; eauto.
    + repeat bstep H. injection H as <-. cbn in Er. discriminate.
  - unfold apply_cnot in H.
    destruct (e_local e); cbn [negb] in H; try discriminate.
    destruct (get_patch_by_id (w_slice w) control); eauto. destruct (get_patch_by_id (w_slice w) target); eauto.
    destruct (dp_is_active d); eauto. destruct (dp_is_active d0); eauto.
    assert (L : forall w' ro cs se, cnot_locals e control target side1 side2 wt cl w' ro cs se phase = Ok a -> False).
    { intros w' ro cs se X. unfold cnot_locals in X. repeat bstep X. destruct x2 as [[s' i] all]. injection X as <-. cbn in Er. discriminate. }
    destruct (e_edpc e).
    + destruct route as [reg|].
      * destruct counters as [cs|].
        -- unfold cnot_phase in H. repeat bstep H. destruct x4 as [[s' i] all]. destruct all; cbn [negb] in H; [|injection H as <-; cbn in Er; discriminate].
           bstep H. match type of H with (if ?b then _ else _) = _ => destruct b end; injection H as <-; cbn in Er; discriminate.
        -- unfold cnot_decompose in H. bstep H. destruct x as [p1 p2]. eauto.
      * unfold cnot_find_route in H. bstep H. destruct x as [r cache]. destruct r as [reg|]; [|eauto]. destruct (Nat.ltb _ _); [discriminate|].
        repeat bstep H. destruct x1 as [s' reg']. bstep H. injection H as <-. cbn. unfold orderly, found in *. cbn in *. destruct counters; tauto.
    + unfold cnot_plain in H. destruct counters as [cs|]; [destruct (L _ _ _ _ H)|].
      bstep H. destruct x as [r cache]. destruct r as [reg|]; [|eauto].
      destruct (Nat.ltb _ _); try discriminate. repeat bstep H. match type of H with (let '(_, _) := ?y in _) = _ => destruct y as [la lb] end. destruct (L _ _ _ _ H).
  - eauto.
Qed.

Lemma found_again : forall e w i a, e_edpc e = true -> found i -> try_apply e w i = Ok a ->
  a_error a = true /\ a_follow a = [] /\ (found (tried i a) \/ cut_up (tried i a)).
Proof.
  intros e w [o wt cl] a Ed F H. unfold found in F. destruct o; cbn in F; try tauto. destruct route as [reg|]; [|tauto]. destruct counters; [tauto|]. clear F.
  cbn [try_apply InstrModel.op wait clients] in H. unfold apply_cnot in H. destruct (e_local e); cbn [negb] in H; try discriminate.
  assert (G : forall w', failed w' (cnot_op control target side1 side2 (Some reg) None local_sets phase) = Ok a ->
     a_error a = true /\ a_follow a = [] /\ (found (tried (mkI (BellCNOT control target side1 side2 (Some reg) None local_sets phase) wt cl) a) \/ cut_up (tried (mkI (BellCNOT control target side1 side2 (Some reg) None local_sets phase) wt cl) a))).
  { intros w' X. apply failed_inv in X. destruct X as (_ & Eo & -> & ->). unfold found, cut_up, tried. rewrite Eo. cbn. auto. }
  destruct (get_patch_by_id (w_slice w) control); [|exact (G _ H)]. destruct (get_patch_by_id (w_slice w) target); [|exact (G _ H)].
  destruct (dp_is_active d); [exact (G _ H)|]. destruct (dp_is_active d0); [exact (G _ H)|]. rewrite Ed in H.
  unfold cnot_decompose in H. bstep H. destruct x as [p1 p2]. apply failed_inv in H. destruct H as (_ & Eo & -> & ->). unfold found, cut_up, tried. rewrite Eo. cbn. auto.
Qed.

Lemma cut_again : forall e w i a, e_edpc e = true -> cut_up i -> try_apply e w i = Ok a ->
  if a_error a then a_follow a = [] /\ cut_up (tried i a) else a_follow a = [tried i a].
Proof.
  intros e w [o wt cl] a Ed F H. unfold cut_up in F. destruct o; cbn in F; try tauto.
  destruct route as [reg|]; [|tauto]. destruct counters as [cs|]; [|tauto].
  destruct local_sets as [[|l0 [|l1 [|l2 [|l3 [|? ?]]]]]|]; try tauto. destruct phase as [[|?]|]; try tauto. clear F.
  cbn [try_apply InstrModel.op wait clients] in H. unfold apply_cnot in H. destruct (e_local e); cbn [negb] in H; try discriminate.
  assert (G : forall w', failed w' (cnot_op control target side1 side2 (Some reg) (Some cs) (Some [l0; l1; l2; l3]) (Some 0)) = Ok a ->
     if a_error a then a_follow a = [] /\ cut_up (tried (mkI (BellCNOT control target side1 side2 (Some reg) (Some cs) (Some [l0; l1; l2; l3]) (Some 0)) wt cl) a)
     else a_follow a = [tried (mkI (BellCNOT control target side1 side2 (Some reg) (Some cs) (Some [l0; l1; l2; l3]) (Some 0)) wt cl) a]).
  { intros w' X. apply failed_inv in X. destruct X as (_ & Eo & -> & ->). unfold found, cut_up, tried. rewrite Eo. cbn. auto. }
  destruct (get_patch_by_id (w_slice w) control); [|exact (G _ H)]. destruct (get_patch_by_id (w_slice w) target); [|exact (G _ H)].
  destruct (dp_is_active d); [exact (G _ H)|]. destruct (dp_is_active d0); [exact (G _ H)|]. rewrite Ed in H.
  unfold cnot_phase in H. cbn [value_ bind Nat.eqb idx] in H. bstep H. cbn in H. bstep H. destruct x0 as [[s' i] all].
  destruct all; cbn in H; injection H as <-; reflexivity.
Qed.

Ltac fin F D H Or := first [injection H as <-; exact Logic.I | injection H as <-; exact Or | exact (F _ _ H Logic.I) | exact (F _ _ H Or) | exact (D _ _ H Logic.I) | exact (D _ _ H Or)].
Lemma orderly_kept : forall e w i a, e_edpc e = true -> orderly i -> try_apply e w i = Ok a -> orderly (tried i a) /\ Forall orderly (a_follow a).
Proof.
  intros e w [o wt cl] a Ed Or H.
  assert (G : orderly (tried (mkI o wt cl) a)).
  { assert (F : forall w' o', failed w' o' = Ok a -> orderly (mkI o' wt cl) -> orderly (tried (mkI o wt cl) a)) by (intros w' o' X O; apply failed_inv in X; destruct X as (_ & <- & _); exact O).
  assert (D : forall w' o', done_ w' o' = Ok a -> orderly (mkI o' wt cl) -> orderly (tried (mkI o wt cl) a)) by (intros w' o' X O; apply done_inv in X; destruct X as (_ & <- & _); exact O).
  destruct o; cbn [try_apply InstrModel.op wait clients] in H; try discriminate.
  - unfold apply_measure in H. destruct (get_cell_by_id (w_slice w) target); [bstep H|]; try fin F D H Or.
  - unfold apply_multi in H. destruct observable as [|[x px] [|[y py] [|? ?]]]; try discriminate.
    repeat (match type of H with context[if ?b then _ else _] => destruct b end; cbn [negb] in H; try fin F D H Or; try discriminate).
    crawl H. destruct b; cbn [negb] in H; try fin F D H Or.
  - unfold apply_init in H. bstep H. destruct x; try fin F D H Or. bstep H. bstep H. try fin F D H Or.
  - unfold apply_bell_init in H.
    repeat (match type of H with (if ?b then _ else _) = _ => destruct b end; cbn [negb] in H; try fin F D H Or; try discriminate).
    destruct counter as [[f s]|].
    + repeat bstep H. destruct x0 as [[s' i] all]. injection H as <-. exact Logic.I.
    + bstep H. destruct x as [r cache]. destruct r; try fin F D H Or. destruct (Nat.ltb (length (rg_cells r)) 2); try fin F D H Or.
      bstep H. destruct x as [la lb]. repeat bstep H. destruct x0 as [[s' i] all]. injection H as <-. exact Logic.I.
  - unfold apply_magic in H. destruct (l_times (e_layout e)); try discriminate. destruct (s_magic (w_slice w)); try fin F D H Or.
    repeat bstep H. try fin F D H Or.
  - unfold apply_y in H. destruct (get_cell_by_id (w_slice w) target); [bstep H; try fin F D H Or|].
    destruct (negb (e_local e && e_twists e) && negb (N.eqb (s_yavail (w_slice w)) 0)).
    + bstep H. destruct x as [[z c]|]; [bstep H; try fin F D H Or|]. injection H as <-. exact Logic.I.
    + destruct (e_twists e); [|injection H as <-; exact Logic.I]. bstep H. bstep H. destruct x0; try fin F D H Or. bstep H. destruct x0. try fin F D H Or.
  - unfold apply_single in H. destruct (get_cell_by_id (w_slice w) target), (get_patch_by_id (w_slice w) target); try fin F D H Or.
    destruct op; try (match type of H with (if dp_is_active _ then _ else _) = _ => destruct (dp_is_active d); [try fin F D H Or|try (bstep H); try fin F D H Or] end).
    destruct (e_edpc e); discriminate.
  - unfold apply_rotate in H. destruct (get_cell_by_id (w_slice w) target); try fin F D H Or. bstep H. destruct x; try fin F D H Or.
    repeat bstep H. destruct x1; try discriminate. bstep H. destruct x1. injection H as <-. exact Logic.I.
  - unfold apply_busy in H. destruct (N.eqb steps_to_clear 0).
    + repeat bstep H. destruct x0 as [s2 all]. destruct all; try fin F D H Or.
    + repeat bstep H. injection H as <-. exact Logic.I.
  - unfold apply_cnot in H.
    destruct (e_local e); cbn [negb] in H; try discriminate.
    destruct (get_patch_by_id (w_slice w) control); try fin F D H Or. destruct (get_patch_by_id (w_slice w) target); try fin F D H Or.
    destruct (dp_is_active d); try fin F D H Or. destruct (dp_is_active d0); try fin F D H Or.
    rewrite Ed in H.
    destruct route as [reg|].
      * destruct counters as [cs|].
        -- unfold cnot_phase in H. repeat bstep H. destruct x4 as [[s' i] all]. destruct all; cbn [negb] in H; [|injection H as <-; exact Logic.I].
           bstep H. match type of H with (if ?b then _ else _) = _ => destruct b end; injection H as <-; exact Logic.I.
        -- unfold cnot_decompose in H. bstep H. destruct x as [p1 p2]. try fin F D H Or.
      * unfold cnot_find_route in H. bstep H. destruct x as [r cache]. destruct r as [reg|]; [|try fin F D H Or]. destruct (Nat.ltb _ _); [discriminate|].
        repeat bstep H. destruct x1 as [s' reg']. bstep H. injection H as <-. cbn. unfold orderly, found in *. cbn in *. destruct counters; tauto.
  - try fin F D H Or. }
  split; [exact G|]. destruct (follow_shape _ _ _ _ H) as [-> | (j & -> & _ & [-> | [(t & ->) | (r & n & p & ->)]])]; constructor; auto; exact Logic.I.
Qed.
