(** Properties of applying one instruction: C28, C32, C33, C35, C37, C48. *)
From Verif Require Import Base TextModel PatchesModel LayoutModel LayoutSpec LayoutProofs InstrModel InstrSpec InstrProofs.
From Verif Require Import SliceModel SliceSpec SliceProofs SliceProps RouterModel RouterSpec RouterProofs RouterProps.
From Verif Require Import ApplyModel ApplySpec ApplyProofs ApplyEffect ApplyBell ApplyIds BellSpec BellProofs BellIds.
Open Scope nat_scope.

(** ** C32: failing leaves the slice alone *)

(** The two instructions that may have done something although they failed. *)
Definition may_leave_traces (e : env) (o : operation) : Prop :=
  match o with
  | Busy _ steps _ => steps = 0%N
  | BellCNOT _ _ _ _ None _ _ _ => e_edpc e = true
  | _ => False
  end.

Theorem C32_unchanged_partial : forall e w i a, sized (l_furthest (e_layout e)) (w_slice w) ->
  try_apply e w i = Ok a -> a_error a = true -> ~ may_leave_traces e (op i) ->
  w_slice (a_world a) = w_slice w /\ a_follow a = [].
Proof.
  intros e w [o wt cl] a Hs H He Ht. set (far := l_furthest (e_layout e)) in *. cbn [op] in Ht.
  assert (F : forall w' o', failed w' o' = Ok a -> w_slice w' = w_slice w -> w_slice (a_world a) = w_slice w /\ a_follow a = []).
  { intros w' o' HF Ew. apply failed_inv in HF as (E1 & _ & _ & E2). rewrite E1. auto. }
  assert (D : forall w' o', done_ w' o' = Ok a -> w_slice (a_world a) = w_slice w /\ a_follow a = []).
  { intros w' o' HD. apply done_inv in HD as (_ & _ & E & _). congruence. }
  destruct o; cbn [try_apply InstrModel.op wait clients] in H; try discriminate.
  - unfold apply_measure in H. destruct (get_cell_by_id (w_slice w) target); [bstep H|]; eauto.
  - unfold apply_multi in H. destruct observable as [|[x px] [|[y py] [|? ?]]]; try discriminate.
    destruct (has_patch (w_slice w) x); cbn [negb] in H; [|eauto].
    destruct (has_patch (w_slice w) y); cbn [negb] in H; [|eauto].
    destruct (e_local e) eqn:El; cbn [negb] in H.
    + do 4 bstep H. bstep H. destruct x4 as [s' err]. injection H as <-. cbn in He. subst err.
      apply (try_local_error far) in H4 as [-> _]; auto.
    + destruct (e_edpc e); [discriminate|]. bstep H. destruct x0 as [w' ok].
      apply (merge_inv far) in H0 as [_ H0]; auto. destruct ok; cbn [negb] in H; eauto.
  - unfold apply_init in H. bstep H. destruct x; [|eauto]. do 2 bstep H. eauto.
  - apply (bell_init_good far) in H as (_ & B & _); auto. destruct (B He) as [B'|(_ & reg & opid & _ & _ & X)]; [auto|].
    destruct X as (? & ? & ? & ? & ? & ? & ? & X & _). discriminate.
  - unfold apply_magic in H. destruct (l_times (e_layout e)); [discriminate|]. destruct (s_magic (w_slice w)); [eauto|].
    do 5 bstep H. eauto.
  - unfold apply_y in H. destruct (get_cell_by_id (w_slice w) target); [bstep H; eauto|].
    destruct (negb (e_local e && e_twists e) && negb (N.eqb (s_yavail (w_slice w)) 0)).
    + bstep H. destruct x as [[d c]|]; [bstep H; eauto|injection H as <-; auto].
    + destruct (e_twists e); [|injection H as <-; auto]. do 2 bstep H. destruct x0; [|eauto]. bstep H. destruct x0. eauto.
  - unfold apply_single in H. destruct (get_cell_by_id (w_slice w) target) as [c|]; [|eauto].
    destruct (get_patch_by_id (w_slice w) target) as [p|]; [|eauto].
    assert (G : forall b, (if dp_is_active p then failed w (SingleOp target op is_dagger) else b) = Ok a ->
      (b = Ok a -> w_slice (a_world a) = w_slice w /\ a_follow a = []) -> w_slice (a_world a) = w_slice w /\ a_follow a = []).
    { intros b Hb K. destruct (dp_is_active p); eauto. }
    destruct op; try (apply G in H; eauto; fail).
    + apply G in H; auto. intro K. bstep K. eauto.
    + destruct (e_edpc e); [discriminate|]. bstep H. destruct x as [w' ok].
      apply (merge_inv far) in H0 as [_ H0]; auto. destruct ok; cbn [negb] in H; [|eauto].
      injection H as <-. discriminate.
  - unfold apply_rotate in H. destruct (get_cell_by_id (w_slice w) target); [|eauto].
    bstep H. destruct x as [n|]; [|eauto]. do 4 bstep H. destruct x1; try discriminate. bstep H. destruct x1.
    injection H as <-. discriminate.
  - unfold apply_busy in H. destruct (N.eqb_spec steps_to_clear 0); [exfalso; apply Ht; auto|].
    bstep H. injection H as <-. discriminate.
  - apply (cnot_good far) in H as (_ & B & _); auto. destruct (B He) as [B'|(Ee & reg & opid & _ & _ & X)]; [auto|].
    destruct X as (? & ? & ? & ? & ? & ? & ? & X & _). injection X as -> -> -> -> -> -> -> ->. exfalso. apply Ht. exact Ee.
  - eauto.
Qed.
Print Assumptions C32_unchanged_partial.

(** What the two may have done: a region that cannot be replaced by its patches has
    been cleared all the same and some of the patches may be in place; and a
    crossing route has been marked. *)
Theorem C32_busy_traces : forall e w wt cl reg after a, sized (l_furthest (e_layout e)) (w_slice w) ->
  try_apply e w (mkI (Busy reg 0 after) wt cl) = Ok a ->
  rest_same (w_slice w) (w_slice (a_world a))
  /\ forall c p, ~ In c (map sc_cell (rg_cells reg)) -> tile_at (w_slice w) c = Some p -> tile_at (w_slice (a_world a)) c = Some p.
Proof.
  intros e w wt cl reg after a Hs H. cbn [try_apply op] in H. unfold apply_busy in H. cbn [N.eqb] in H.
  bstep H. unfold clear_routing_region in H0. apply (clear_inv (l_furthest (e_layout e))) in H0 as [S1 B1]; auto.
  bstep H. destruct x0 as [s2 all]. apply (place_all_inv (l_furthest (e_layout e))) in H0 as (S2 & _ & R2 & K2); auto.
  assert (E : w_slice (a_world a) = s2).
  { destruct all; [apply done_inv in H as (E & _)|apply failed_inv in H as (E & _)]; rewrite E; reflexivity. }
  rewrite E. split.
  - eapply rest_same_trans; [apply B1|exact R2].
  - intros c p Hc Hp. apply K2. rewrite (becomes_tile _ _ _ _ B1), over_not_in; auto. intro J. apply Hc.
    unfold cleared in J. rewrite ?map_rev, map_map in J. cbn [fst] in J. rewrite <- ?in_rev in J. exact J.
Qed.
Print Assumptions C32_busy_traces.

Theorem C32_crossing_traces : forall e w wt cl c t s1 s2 cs sets ph a, sized (l_furthest (e_layout e)) (w_slice w) ->
  try_apply e w (mkI (BellCNOT c t s1 s2 None cs sets ph) wt cl) = Ok a -> a_error a = true ->
  w_slice (a_world a) = w_slice w /\ a_follow a = []
  \/ exists reg opid, a_follow a = [mkI (BellCNOT c t s1 s2 (Some reg) cs sets ph) wt cl]
     /\ marked opid (map sc_cell (rg_cells reg)) (w_slice w) (w_slice (a_world a)).
Proof.
  intros e w wt cl c t s1 s2 cs sets ph a Hs H He. cbn [try_apply op wait clients] in H.
  apply (cnot_good (l_furthest (e_layout e))) in H as (_ & B & _); auto.
  destruct (B He) as [B'|(_ & reg & opid & F & M & c0 & t0 & s10 & s20 & cs0 & se0 & ph0 & X & Y)]; [left; auto|right].
  injection X as <- <- <- <- <- <- <-. exists reg, opid. split; [|auto]. rewrite F, Y. reflexivity.
Qed.
Print Assumptions C32_crossing_traces.

(** ** C33: what is changed *)

(** Exactly what an instruction does when it can be applied. *)
Theorem C33_effect : forall e w i a, sized (l_furthest (e_layout e)) (w_slice w) -> ~ bell_op (op i) ->
  try_apply e w i = Ok a -> a_error a = false ->
  exists u m y, effect e w (op i) u m y (a_follow a) /\ changed (w_slice w) (w_slice (a_world a)) u m y.
Proof. intros e w i a Hs Hb H He. apply (apply_good e w i a Hs Hb H). auto. Qed.
Print Assumptions C33_effect.

(** The tiles an instruction may touch although something is on them. *)
Definition own (e : env) (w : world) (o : operation) (c : cell) : Prop :=
  let s := w_slice w in
  match o with
  | Measure t _ _ | SingleOp t _ _ | Rotate t => carries s c t
  | MultiMeasure obs _ _ => exists id, In id (map fst obs) /\ carries s c id
  | MagicRequest _ _ => In c (s_magic s)
  | YRequest t _ _ => carries s c t \/ In c (l_ystates (e_layout e))
  | Busy reg _ _ => In c (map sc_cell (rg_cells reg))
  | BellInit _ _ l1 l2 _ None => exists reg cache,
      e_route e (w_cache w) s (pnt_target l1) (pnt_op l1) (pnt_target l2) (pnt_op l2) = Ok (Some reg, cache)
      /\ In c (map sc_cell (rg_cells reg))
  | BellCNOT control target _ _ _ None _ _ => carries s c control \/ carries s c target
      \/ exists reg cache, e_route e (w_cache w) s control PZ target PX = Ok (Some reg, cache)
                          /\ In c (map sc_cell (rg_cells reg))
  | BellInit _ _ _ _ _ (Some _) | BellCNOT _ _ _ _ _ (Some _) _ _ =>
      exists l, In l (pending (e_edpc e) o) /\ In c (local_cells l)
  | _ => False
  end.

Lemma todo_own : forall e w o todo c, planned e w o todo -> In c (flat_map local_cells todo) -> own e w o c.
Proof.
  intros e w o todo c P Hc. destruct o; try destruct P; apply in_flat_map in Hc as (l & Hl & Hc).
  - destruct counter; [destruct P|]. destruct P as (reg & cache & la & lb & Er & Ec & ->). exists reg, cache. split; auto.
    assert (Hlen : 2 <= length (map sc_cell (rg_cells reg))).
    { destruct (Nat.le_gt_cases 2 (length (rg_cells reg))); [rewrite map_length; auto|].
      unfold compile_bell in Ec. destruct (Nat.leb_spec (length (rg_cells reg) - 1) 0); [discriminate|lia]. }
    replace (length (rg_cells reg) - 1) with (length (map sc_cell (rg_cells reg)) - 1) in Ec by (rewrite map_length; reflexivity).
    destruct (pair_todo _ _ _ _ _ Hlen Ec) as (C & _). eauto.
  - destruct counters; [destruct P|]. destruct P as (reg & cache & cc & ct & la & lb & Er & Hlen & (pc & C1 & _) & (pt & C2 & _) & Ec & ->).
    apply sits_carries in C1, C2. assert (L4 : 4 <= length (ct :: map sc_cell (rg_cells reg) ++ [cc])).
    { cbn [length]. rewrite app_length, map_length. cbn [length]. lia. }
    destruct (cnot_todo _ _ _ _ _ L4 Ec) as (C & _).
    specialize (C _ _ Hl Hc). destruct C as [<-|C]; [right; left; auto|]. apply in_app_iff in C as [C|[<-|[]]]; [|left; auto].
    right. right. exists reg, cache. auto.
Qed.

Lemma merging_cells : forall opid s a b cells u c, merging opid s a b cells u -> In c (map fst u) ->
  carries s c a \/ carries s c b \/ tile_at s c = None.
Proof.
  intros opid s a b cells u c M Hc. destruct M as [ca p cb q da db_ Ha _ Hb _ _ _ _ F].
  rewrite map_app, in_app_iff in Hc. destruct Hc as [Hc|[<-|[<-|[]]]].
  - rewrite map_rev, <- in_rev, map_map in Hc. apply in_map_iff in Hc as (sc & <- & Hsc). right. right. apply F. auto.
  - right. left. exists q. apply Hb.
  - left. exists p. apply Ha.
Qed.
Lemma over_cleared : forall reg s c, over (cleared reg) s c = None -> In c (map sc_cell (rg_cells reg)) \/ tile_at s c = None.
Proof.
  intros reg s c H. destruct (in_dec (fun a b => match cell_eqb_spec a b with ReflectT _ h => left h | ReflectF _ h => right h end)
    c (map sc_cell (rg_cells reg))) as [I|I]; auto. right. rewrite over_not_in in H; auto.
  intro J. apply I. unfold cleared in J. rewrite map_map in J. exact J.
Qed.

Lemma effect_cells : forall e w o u m y f c, effect e w o u m y f -> In c (map fst u) ->
  own e w o c \/ tile_at (w_slice w) c = None.
Proof.
  intros e w o u m y f c E Hc.
  destruct E; subst s; cbn [map fst] in Hc; try destruct Hc as [<-|[]]; try destruct Hc; cbn [own]; auto.
  all: try (left; exists p; split; apply H; fail).
  - destruct (merging_cells _ _ _ _ _ _ _ H1 Hc) as [C|[C|C]]; auto.
  - destruct (merging_cells _ _ _ _ _ _ _ H2 Hc) as [C|[C|C]]; auto; left; eexists; (split; [|exact C]); cbn; auto.
  - apply local_effect_cells in H2. rewrite H2 in Hc. left. cbn [local_cells] in Hc. destruct Hc as [<-|[<-|[]]].
    + exists a. split; [cbn; auto|]. exists p. apply H0.
    + exists b. split; [cbn; auto|]. exists q. apply H1.
  - cbn in H1. subst c. auto.
  - destruct H1.
  - left. apply H0.
  - left. left. exists p. apply H.
  - left. right. apply H3.
  - rewrite map_app, in_app_iff in Hc. destruct Hc as [Hc|Hc].
    + rewrite map_rev, <- in_rev in Hc. apply over_cleared. auto.
    + left. unfold cleared in Hc. rewrite map_map in Hc. exact Hc.
Qed.

(** Every instruction, applied or not, keeps the lattice and the factory timers. *)
Theorem C33_timers : forall e w i a, sized (l_furthest (e_layout e)) (w_slice w) -> try_apply e w i = Ok a ->
  sized (l_furthest (e_layout e)) (w_slice (a_world a)) /\ s_timers (w_slice (a_world a)) = s_timers (w_slice w).
Proof.
  intros e w i a Hs H. set (far := l_furthest (e_layout e)) in *.
  assert (B : forall o wt cl, bell_good far e w o wt cl a ->
    sized far (w_slice (a_world a)) /\ s_timers (w_slice (a_world a)) = s_timers (w_slice w)).
  { intros o wt cl (S' & G1 & G2). split; auto. destruct (a_error a).
    - destruct (G1 eq_refl) as [[-> _]|(_ & reg & opid & _ & (_ & _ & _ & T & _) & _)]; auto.
    - destruct (G2 eq_refl) as (todo & rest & _ & (done & _ & R & _) & _). apply ran_frame in R as [(_ & T & _) _]. auto. }
  destruct i as [o wt cl]. destruct o eqn:Eo.
  5: (eapply B, bell_init_good; eauto; exact H). 10: (eapply B, cnot_good; eauto; exact H).
  all: pose proof H as H'; apply apply_good in H'; [|auto|cbn; auto]; destruct H' as [S' G]; split; auto;
    (destruct (a_error a) eqn:Ea; [|destruct (G eq_refl) as (u & m & y & _ & (_ & _ & _ & T & _)); exact T]).
  all: pose proof (C32_unchanged_partial e w _ a Hs H Ea) as U; try (rewrite (proj1 (U (fun x => x))); reflexivity).
  destruct (N.eq_dec steps_to_clear 0) as [->|Hne].
  - apply C32_busy_traces in H as [(_ & T & _) _]; auto.
  - rewrite (proj1 (U Hne)). reflexivity.
Qed.
Print Assumptions C33_timers.

(** A patch on a tile that is not the instruction's own is exactly as before. *)
Theorem C33_others : forall e w i a c p, sized (l_furthest (e_layout e)) (w_slice w) -> try_apply e w i = Ok a ->
  a_error a = false -> tile_at (w_slice w) c = Some p -> ~ own e w (op i) c -> tile_at (w_slice (a_world a)) c = Some p.
Proof.
  intros e w i a c p Hs H He Hp Ho. set (far := l_furthest (e_layout e)) in *.
  assert (B : forall wt cl, bell_op (op i) -> bell_good far e w (op i) wt cl a -> tile_at (w_slice (a_world a)) c = Some p).
  { intros wt cl Hb (_ & _ & G2). destruct (G2 He) as (todo & rest & Pl & (done & Et & R & _) & _).
    apply ran_frame in R as [_ R]. rewrite R; auto. intro J. apply Ho.
    assert (J' : In c (flat_map local_cells todo)) by (rewrite Et, flat_map_app; apply in_app_iff; auto).
    assert (Pe : todo = pending (e_edpc e) (op i) -> ~ unstarted (op i) -> own e w (op i) c).
    { intros -> Un. apply in_flat_map in J' as (l & L1 & L2). destruct (op i); try destruct Hb; cbn [own unstarted] in *.
      - destruct counter; [eauto|tauto].
      - destruct counters; [eauto|tauto]. }
    destruct (e_edpc e); destruct Pl as [[_ Pl]|[Un ->]]; auto; eapply todo_own; eauto. }
  destruct i as [o wt cl]. destruct o eqn:Eo.
  5: (eapply B; [exact I|eapply bell_init_good; eauto; exact H]). 10: (eapply B; [exact I|eapply cnot_good; eauto; exact H]).
  all: apply C33_effect in H; [|auto|cbn; auto|auto]; destruct H as (u & m & y & E & (T & _)); rewrite T;
    rewrite over_not_in; auto; intro J; destruct (effect_cells _ _ _ _ _ _ _ _ E J) as [K|K]; [contradiction|congruence].
Qed.
Print Assumptions C33_others.

(** ** C28: every id is on at most one tile *)

(** The local operations of the phases after the current one. *)
Definition later (edpc : bool) (o : operation) : list local_instr :=
  match o with
  | BellCNOT _ _ _ _ _ (Some _) (Some sets) phase =>
      if edpc then concat (skipn (S (match phase with Some x => x | None => 0 end)) sets) else []
  | _ => []
  end.
(** The ids an instruction puts on the lattice, other than by moving them. *)
Definition brings (edpc : bool) (o : operation) : list N :=
  match o with
  | Init t _ _ => [t]
  | MagicRequest t _ => [t]
  | Busy _ steps after => flat_map (fun p => match sp_cells p with Single _ => opt_id (p_id (sp_patch p)) | Multi _ => [] end) after
  | BellInit s1 s2 _ _ _ None => [s1; s2]
  | BellCNOT _ _ s1 s2 _ None _ _ => [s1; s2]
  | BellInit _ _ _ _ _ (Some _) | BellCNOT _ _ _ _ _ (Some _) _ _ =>
      flat_map local_ids (pending edpc o ++ later edpc o)
  | _ => []
  end.

Lemma over_cases : forall u s c p, over u s c = Some p -> In (c, Some p) u \/ tile_at s c = Some p.
Proof.
  induction u as [|[c' t] u IH]; intros s c p H; cbn [over] in H; auto.
  destruct (cell_eqb c' c) eqn:E; [apply cell_eqb_eq in E; subst; left; cbn; auto|].
  destruct (IH _ _ _ H); [left; cbn|]; auto.
Qed.

Lemma unique_same : forall s s', unique_ids s -> (forall c id, carries s' c id -> carries s c id) -> unique_ids s'.
Proof. intros s s' U H c c' id A B. apply (U c c' id); auto. Qed.
Lemma unique_new : forall s s' c0 t, unique_ids s -> absent_id s t ->
  (forall c id, carries s' c id -> carries s c id \/ c = c0 /\ id = t) -> unique_ids s'.
Proof.
  intros s s' c0 t U F H c c' id A B.
  destruct (H _ _ A) as [A'|[-> ->]], (H _ _ B) as [B'|[-> E]]; subst; auto.
  - apply (U c c' id); auto.
  - exfalso. eapply F; eauto.
  - exfalso. eapply F; eauto.
Qed.

Lemma merging_ids : forall opid s a b cells u c p, merging opid s a b cells u -> over u s c = Some p ->
  forall id, p_id (dp p) = Some id -> carries s c id.
Proof.
  intros opid s a b cells u c p M H id Hid. apply over_cases in H as [H|H]; [|exists p; auto].
  destruct M as [ca pa cb q da db_ Ha _ Hb _ _ _ _ F]. apply in_app_iff in H as [H|[H|[H|[]]]].
  - rewrite <- in_rev in H. apply in_map_iff in H as (sc & E & _). injection E as <- <-. discriminate.
  - unfold join_side in H. injection H as <- H. cbn [over] in H. destruct (cell_eqb ca cb) eqn:O.
    + apply cell_eqb_eq in O. subst cb. injection H as <-. cbn [joined dp] in Hid. exists pa. split; [apply Ha|auto].
    + destruct (tile_at s cb) as [q'|] eqn:O'; [|discriminate]. injection H as <-. exists q'. auto.
  - unfold join_side in H. injection H as <- <-. cbn [joined dp] in Hid. exists pa. split; [apply Ha|auto].
Qed.

Lemma placed_ids : forall after c p id, In (c, Some p) (flat_map placed after) -> p_id (dp p) = Some id ->
  exists x, In x after /\ p_id (sp_patch x) = Some id /\ exists sc, sp_cells x = Single sc /\ c = sc_cell sc.
Proof.
  intros after c p id H Hid. apply in_flat_map in H as (x & Hx & H). exists x. split; auto. unfold placed in H.
  destruct (sp_cells x) as [sc|l] eqn:E.
  - destruct H as [H|[]]. injection H as <- <-. split; [auto|]. exists sc. auto.
  - apply in_map_iff in H as (sc & H & _). injection H as <- <-. discriminate.
Qed.
Lemma busy_unique : forall after c c' p p' id,
  NoDup (flat_map (fun p => match sp_cells p with Single _ => opt_id (p_id (sp_patch p)) | Multi _ => [] end) after) ->
  In (c, Some p) (flat_map placed after) -> In (c', Some p') (flat_map placed after) ->
  p_id (dp p) = Some id -> p_id (dp p') = Some id -> c = c'.
Proof.
  intros after c c' p p' id Nd H H' Hi Hi'.
  destruct (placed_ids _ _ _ _ H Hi) as (x & X1 & X2 & sc & X3 & ->).
  destruct (placed_ids _ _ _ _ H' Hi') as (y & Y1 & Y2 & sc' & Y3 & ->). clear H H' Hi Hi' p p'.
  induction after as [|z after IH]; [destruct X1|]. cbn [flat_map] in Nd.
  assert (N2 : NoDup (flat_map (fun p => match sp_cells p with Single _ => opt_id (p_id (sp_patch p)) | Multi _ => [] end) after)).
  { clear -Nd. induction (match sp_cells z with Single _ => opt_id (p_id (sp_patch z)) | Multi _ => [] end); auto. inversion Nd; auto. }
  assert (In_ : forall v scv, In v after -> p_id (sp_patch v) = Some id -> sp_cells v = Single scv ->
    In id (flat_map (fun p => match sp_cells p with Single _ => opt_id (p_id (sp_patch p)) | Multi _ => [] end) after)).
  { intros v scv V1 V2 V3. apply in_flat_map. exists v. rewrite V3, V2. cbn. auto. }
  destruct X1 as [->|X1], Y1 as [->|Y1].
  - congruence.
  - exfalso. rewrite X3, X2 in Nd. cbn in Nd. inversion Nd; subst. eauto.
  - exfalso. rewrite Y3, Y2 in Nd. cbn in Nd. inversion Nd; subst. eauto.
  - auto.
Qed.

Lemma effect_unique : forall e w o u m y f s', effect e w o u m y f -> changed (w_slice w) s' u m y ->
  unique_ids (w_slice w) -> NoDup (brings (e_edpc e) o) -> (forall id, In id (brings (e_edpc e) o) -> absent_id (w_slice w) id) ->
  unique_ids s'.
Proof.
  intros e w o u m y f s' E (T & _) U Nd Fr.
  assert (K : forall c id, carries s' c id -> exists p, over u (w_slice w) c = Some p /\ p_id (dp p) = Some id).
  { intros c id (p & P & I). rewrite T in P. eauto. }
  assert (Old : (forall c p, In (c, Some p) u -> forall id, p_id (dp p) = Some id -> carries (w_slice w) c id) -> unique_ids s').
  { intros H. apply (unique_same (w_slice w)); auto. intros c id Hc. apply K in Hc as (p & O & I).
    apply over_cases in O as [O|O]; [eauto|exists p; auto]. }
  assert (New : forall c0 t, absent_id (w_slice w) t ->
     (forall c p, In (c, Some p) u -> c = c0 /\ p_id (dp p) = Some t) -> unique_ids s').
  { intros c0 t F H. apply (unique_new (w_slice w) s' c0 t); auto. intros c id Hc. apply K in Hc as (p & O & I).
    apply over_cases in O as [O|O]; [|left; exists p; auto]. right. destruct (H _ _ O). split; [auto|congruence]. }
  destruct E; subst s; cbn [brings] in *.
  - apply Old. intros x q [O|[]] id I. injection O as <- <-. exists p. split; [apply H|auto].
  - apply Old. intros x q [].
  - apply Old. intros x q [O|[]] id I. injection O as <- <-. exists p. split; [apply H|auto].
  - apply (unique_same (w_slice w)); auto. intros x k Hk. apply K in Hk as (q & O & I). eapply merging_ids; eauto.
  - apply (unique_same (w_slice w)); auto. intros x k Hk. apply K in Hk as (q & O & I). eapply merging_ids; eauto.
  - inversion H2 as [| | |? d p0 q0 I0 I1| | |]; subst. apply Old. intros z r [O|[O|[]]] id I; injection O as <- <-.
    + exists p0. split; [apply I0|exact I].
    + exists q0. split; [apply I1|exact I].
  - apply (New c t); [apply Fr; cbn; auto|]. intros z r [O|[]]. injection O as <- <-. auto.
  - apply (New c t); [apply Fr; cbn; auto|]. intros z r [O|[]]. injection O as <- <-. auto.
  - apply Old. intros x q [O|[O|[]]] id I; injection O as <- <-; discriminate.
  - apply (New c t); [apply Fr; cbn; auto|]. intros z r [O|[]]. injection O as <- <-. auto.
  - apply Old. intros x q [O|[]] id I. injection O as <- <-. discriminate.
  - apply (New c t); [exact H1|]. intros z r [O|[]]. injection O as <- <-. auto.
  - apply (New c t); [exact H1|]. intros z r [O|[]]. injection O as <- <-. auto.
  - apply Old. intros x q [].
  - intros x x' id Hx Hx'. apply K in Hx as (p & O & I). apply K in Hx' as (p' & O' & I').
    assert (G : forall z q, over (rev (flat_map placed after) ++ cleared reg) (w_slice w) z = Some q ->
      In (z, Some q) (flat_map placed after) \/ tile_at (w_slice w) z = Some q).
    { intros z q Q. apply over_cases in Q as [Q|Q]; auto. apply in_app_iff in Q as [Q|Q]; [rewrite <- in_rev in Q; auto|].
      apply in_map_iff in Q as (sc & Q & _). discriminate. }
    assert (Ab : forall z q k, In (z, Some q) (flat_map placed after) -> p_id (dp q) = Some k -> absent_id (w_slice w) k).
    { intros z q k Q Qi. destruct (placed_ids _ _ _ _ Q Qi) as (v & V1 & V2 & sc & V3 & _). apply Fr.
      apply in_flat_map. exists v. rewrite V3, V2. cbn. auto. }
    apply G in O. apply G in O'. destruct O as [O|O], O' as [O'|O'].
    + eapply busy_unique; eauto.
    + exfalso. eapply (Ab _ _ _ O I x'). exists p'. auto.
    + exfalso. eapply (Ab _ _ _ O' I' x). exists p. auto.
    + apply (U x x' id); [exists p|exists p']; auto.
  - apply Old. intros x q [].
Qed.

Lemma prefix_nodup : forall A (a b : list A), NoDup (a ++ b) -> NoDup a /\ NoDup b /\ forall x, In x a -> In x b -> False.
Proof.
  intros A a. induction a as [|x a IH]; intros b H; [split; [constructor|]; auto|].
  inversion H; subst. destruct (IH b H3) as (N1 & N2 & D). split; [|split; auto].
  - constructor; auto. intro. apply H2. apply in_app_iff. auto.
  - intros y [<-|Hy] Hb; [apply H2; apply in_app_iff; auto|eauto].
Qed.

(** What a Bell operation does now brings no other ids than it should. *)
Lemma todo_brings : forall e w o todo, bell_op o ->
  unstarted o /\ planned e w o todo \/ ~ unstarted o /\ todo = pending (e_edpc e) o ->
  (forall id, In id (flat_map local_ids todo) -> In id (brings (e_edpc e) o))
  /\ (NoDup (brings (e_edpc e) o) -> NoDup (flat_map local_ids todo)).
Proof.
  intros e w o todo Hb [[Un P]|[Un ->]].
  - destruct o; try destruct Hb.
    + destruct counter; [destruct P|]. destruct P as (reg & cache & la & lb & Er & Ec & ->).
      assert (Hlen : 2 <= length (map sc_cell (rg_cells reg))).
      { destruct (Nat.le_gt_cases 2 (length (rg_cells reg))); [rewrite map_length; auto|].
        unfold compile_bell in Ec. destruct (Nat.leb_spec (length (rg_cells reg) - 1) 0); [discriminate|lia]. }
      replace (length (rg_cells reg) - 1) with (length (map sc_cell (rg_cells reg)) - 1) in Ec by (rewrite map_length; reflexivity).
      destruct (pair_todo _ _ _ _ _ Hlen Ec) as (_ & I & N). cbn [brings]. split.
      * intros id Hi. cbn. destruct (I id Hi); auto.
      * intro Nd. apply N. intros ->. inversion Nd; subst. cbn in *. tauto.
    + destruct counters; [destruct P|]. destruct P as (reg & cache & cc & ct & la & lb & Er & Hlen & C1 & C2 & Ec & ->).
      assert (L4 : 4 <= length (ct :: map sc_cell (rg_cells reg) ++ [cc])).
      { cbn [length]. rewrite app_length, map_length. cbn [length]. lia. }
      destruct (cnot_todo _ _ _ _ _ L4 Ec) as (_ & I & N). cbn [brings]. split.
      * intros id Hi. cbn. destruct (I id Hi); auto.
      * intro Nd. apply N. intros ->. inversion Nd; subst. cbn in *. tauto.
  - destruct o; try destruct Hb.
    + destruct counter; [|exfalso; apply Un; exact I]. cbn [brings]. rewrite flat_map_app.
      split; [intros id Hi; apply in_app_iff; auto|intro Nd; apply prefix_nodup in Nd; tauto].
    + destruct counters; [|exfalso; apply Un; exact I]. cbn [brings]. rewrite flat_map_app.
      split; [intros id Hi; apply in_app_iff; auto|intro Nd; apply prefix_nodup in Nd; tauto].
Qed.

Definition fresh_for (e : env) (s : slice) (o : operation) : Prop :=
  NoDup (brings (e_edpc e) o) /\ forall id, In id (brings (e_edpc e) o) -> absent_id s id.

(** If every id is on at most one tile and the ids an instruction brings in are
    new, the same holds after it, whether it could be applied or not (a region
    that cannot be replaced by its patches excepted, see C32). *)
Lemma applied_unique : forall e w i a, sized (l_furthest (e_layout e)) (w_slice w) -> try_apply e w i = Ok a ->
  a_error a = false -> unique_ids (w_slice w) -> fresh_for e (w_slice w) (op i) -> unique_ids (w_slice (a_world a)).
Proof.
  intros e w i a Hs H He U [Nd Fr]. set (far := l_furthest (e_layout e)) in *.
  assert (B : forall wt cl, bell_op (op i) -> bell_good far e w (op i) wt cl a -> unique_ids (w_slice (a_world a))).
  { intros wt cl Hb (_ & _ & G2). destruct (G2 He) as (todo & rest & Pl & (done & Et & R & _) & _).
    assert (Pl' : unstarted (op i) /\ planned e w (op i) todo \/ ~ unstarted (op i) /\ todo = pending (e_edpc e) (op i))
      by (destruct (e_edpc e); auto).
    destruct (todo_brings e w (op i) todo Hb Pl') as [I N]. specialize (N Nd). subst todo. rewrite flat_map_app in N, I.
    destruct (prefix_nodup _ _ _ N) as (N1 & _ & _). destruct (ran_ids _ _ _ _ R) as (R1 & R2 & R3).
    intros c c' id. destruct (in_dec N.eq_dec id (flat_map local_ids done)) as [J|J].
    - apply R3; auto. apply Fr, I. apply in_app_iff. auto.
    - apply R1; auto. intros x y. apply U. }
  destruct i as [o wt cl]. destruct o eqn:Eo.
  5: (eapply B; [exact I|eapply bell_init_good; eauto; exact H]). 10: (eapply B; [exact I|eapply cnot_good; eauto; exact H]).
  all: apply C33_effect in H; [|auto|cbn; auto|auto]; destruct H as (u & m & y & E & T); eapply effect_unique; eauto.
Qed.
Theorem C28_instruction : forall e w i a, sized (l_furthest (e_layout e)) (w_slice w) -> try_apply e w i = Ok a ->
  (a_error a = true -> forall reg after, op i <> Busy reg 0 after) ->
  unique_ids (w_slice w) -> fresh_for e (w_slice w) (op i) -> unique_ids (w_slice (a_world a)).
Proof.
  intros e w i a Hs H Hn U Fr. destruct (a_error a) eqn:He; [|eapply applied_unique; eauto].
  assert (D : ~ may_leave_traces e (op i) \/ exists c t s1 s2 cs sets ph, op i = BellCNOT c t s1 s2 None cs sets ph).
  { destruct (op i) eqn:Eo; try (left; intros []; fail).
    - left. intro E. cbn in E. subst. eapply (Hn eq_refl). reflexivity.
    - destruct route; [left; intros []|right; repeat eexists]. }
  destruct D as [D|(c & t & s1 & s2 & cs & sets & ph & D)].
  - destruct (C32_unchanged_partial e w i a Hs H He D) as [-> _]. exact U.
  - destruct i as [o wt cl]. cbn [op] in D. subst o.
    destruct (C32_crossing_traces _ _ _ _ _ _ _ _ _ _ _ _ Hs H He) as [[-> _]|(reg & opid & _ & M1 & M2 & _)]; [exact U|].
    apply (unique_same (w_slice w)); auto. intros x id (p & P1 & P2). destruct (tile_at (w_slice w) x) as [q|] eqn:Tq.
    + destruct (M1 _ _ Tq) as [b Hb]. rewrite P1 in Hb. injection Hb as ->. exists q. auto.
    + destruct (M2 _ Tq) as [Hx|[_ [b Hb]]]; [congruence|]. rewrite P1 in Hb. injection Hb as ->. discriminate.
Qed.
Print Assumptions C28_instruction.
