(** Running the two layers of a long-range Bell operation. *)
From Verif Require Import Base PatchesModel LayoutModel LayoutSpec InstrModel InstrSpec InstrProofs.
From Verif Require Import SliceModel SliceSpec SliceProofs RouterModel RouterSpec.
From Verif Require Import ApplyModel ApplySpec ApplyProofs ApplyBell BellSpec BellProofs.
Open Scope nat_scope.

(** ** Operations on disjoint tiles *)
Lemma local_effect_det : forall edpc s l u u', local_effect edpc s l u -> local_effect edpc s l u' -> u = u'.
Proof.
  intros edpc s l u u' H H'.
  inversion H; subst; inversion H'; subst; try reflexivity;
  repeat match goal with
  | E : step ?c ?d = step ?c ?d' |- _ => apply step_inj in E; subst
  | A : idle ?s ?c ?p, B : idle ?s ?c ?q |- _ =>
      assert (p = q) by (destruct A as [A0 _], B as [B0 _]; congruence); subst; clear B
  end; reflexivity.
Qed.

Lemma local_effect_tiles : forall edpc s s' l u, local_effect edpc s l u ->
  (forall c, In c (local_cells l) -> tile_at s' c = tile_at s c) -> local_effect edpc s' l u.
Proof.
  intros edpc s s' l u H E.
  inversion H; subst; cbn [local_cells In] in E; constructor; unfold idle, claimable in *; rewrite E by auto; auto.
Qed.

Lemma over_in : forall u s c t, NoDup (map fst u) -> In (c, t) u -> over u s c = t.
Proof.
  induction u as [|[c' t'] u IH]; intros s c t Hn Hi; [destruct Hi|]. cbn in Hn. inversion Hn; subst.
  cbn [over]. destruct (cell_eqb c' c) eqn:E.
  - apply cell_eqb_eq in E. subst c'. destruct Hi as [Hi|Hi]; [congruence|].
    exfalso. apply H1. apply in_map_iff. exists (c, t). auto.
  - apply IH; auto. destruct Hi as [Hi|Hi]; auto. assert (c' = c) by congruence. subst.
    assert (cell_eqb c c = true) by (apply cell_eqb_eq; auto). congruence.
Qed.

Lemma over_same_tiles : forall u s s' c, tile_at s c = tile_at s' c -> over u s c = over u s' c.
Proof. induction u as [|[c' t] u IH]; intros s s' c H; cbn; auto. destruct (cell_eqb c' c); auto. Qed.

(** Operations that are all possible at the start and touch different tiles can
    be applied one after the other, and each has the effect it has on its own. *)
Lemma run_disjoint : forall far e ls s i, sized far s -> NoDup (flat_map local_cells ls) ->
  (forall l, In l ls -> exists u, local_effect (e_edpc e) s l u) ->
  (forall c, In c (flat_map local_cells ls) -> on_lattice far c) ->
  exists s', run_locals e s ls i = Ok (s', i + length ls, true) /\ sized far s' /\ rest_same s s'
    /\ (forall l u c, In l ls -> local_effect (e_edpc e) s l u -> In c (local_cells l) -> tile_at s' c = over u s c)
    /\ (forall c, ~ In c (flat_map local_cells ls) -> tile_at s' c = tile_at s c).
Proof.
  intros far e ls. induction ls as [|l ls IH]; intros s i Hs Hn Ha Ho; cbn [run_locals flat_map] in *.
  - exists s. rewrite Nat.add_0_r. split; auto. split; auto. split; [apply rest_same_refl|]. split; [intros ? ? ? []|auto].
  - destruct (Ha l (or_introl eq_refl)) as [u Hu].
    destruct (try_local_applies far e s l u Hs) as [s1 E1]; auto.
    { intros c Hc. apply Ho. rewrite in_app_iff. auto. }
    destruct (try_local_spec far _ _ _ _ _ Hs E1) as (S1 & _ & (u' & Hu' & B1)).
    assert (u' = u) by (eapply local_effect_det; eauto). subst u'. rewrite E1. cbn [bind].
    assert (D : forall c, In c (local_cells l) -> ~ In c (flat_map local_cells ls)).
    { intros c H1 H2. clear - Hn H1 H2. induction (local_cells l) as [|x r IHr]; [destruct H1|]. cbn in Hn. inversion Hn; subst.
      destruct H1 as [->|H1]; [apply H3; rewrite in_app_iff; auto|auto]. }
    assert (Same : forall c, ~ In c (local_cells l) -> tile_at s1 c = tile_at s c).
    { intros c Hc. rewrite (becomes_tile _ _ _ _ B1). apply over_not_in. erewrite local_effect_cells by eauto. auto. }
    assert (Inls : forall l' c, In l' ls -> In c (local_cells l') -> In c (flat_map local_cells ls)).
    { intros l' c H1 H2. apply in_flat_map. eauto. }
    destruct (IH s1 (S i)) as (s' & E' & S' & R' & T' & F'); auto.
    + clear - Hn. induction (local_cells l) as [|x r IHr]; auto. cbn in Hn. inversion Hn; auto.
    + intros l' Hl'. destruct (Ha l' (or_intror Hl')) as [v Hv]. exists v. eapply local_effect_tiles; eauto.
      intros c Hc. apply Same. intro Hc'. apply (D c Hc'). eauto.
    + intros c Hc. apply Ho. rewrite in_app_iff. auto.
    + exists s'. rewrite E'. split; [cbn [length]; replace (i + S (length ls)) with (S i + length ls) by lia; reflexivity|]. split; auto.
      split; [eapply rest_same_trans; [apply B1|auto]|]. split.
      * intros l' v c [<-|Hl'] Hv Hc.
        -- assert (v = u) by (eapply local_effect_det; eauto). subst v. rewrite F' by (apply D; auto).
           apply becomes_tile. auto.
        -- assert (Nc : forall c, In c (local_cells l') -> ~ In c (local_cells l)) by (intros x H1 H2; apply (D x H2); eauto).
           rewrite (T' l' v c Hl'); auto.
           ++ apply over_same_tiles. apply Same. auto.
           ++ eapply local_effect_tiles; eauto.
      * intros c Hc. rewrite in_app_iff in Hc. rewrite F' by tauto. apply Same. tauto.
Qed.

(** ** Pairs of adjacent tiles *)

(** A half of a Bell pair, as it is put down or joined. *)
Definition half (id : option N) (x : tile) : Prop :=
  exists p, x = Some p /\ p_type (dp p) = TQubit /\ p_act (dp p) = ANone /\ p_id (dp p) = id /\ p_op (dp p) = None
    /\ forall d, btype (side (db p) d) = btype (side (db (square None None)) d).
Definition gone (x : tile) : Prop := exists p, x = Some p /\ p_act (dp p) = AMeasurement.

Lemma half_joined : forall id lab d, half id (Some (joined d (square id lab))).
Proof.
  intros id lab d. eexists. split; [reflexivity|]. cbn [joined dp db square p_type p_act p_id p_op].
  do 4 (split; [reflexivity|]). intro d'. rewrite side_set_side. destruct d, d'; reflexivity.
Qed.

Lemma adjacent_neq : forall x y, adjacent x y -> cell_eqb x y = false.
Proof.
  intros x y H. destruct (cell_eqb x y) eqn:E; auto. apply cell_eqb_eq in E. subst. unfold adjacent in H. lia.
Qed.
Lemma cell_eqb_refl : forall x, cell_eqb x x = true.
Proof. intro x. apply cell_eqb_eq. auto. Qed.

Ltac pair_tac H := apply adjacent_neq in H; cbn [over]; rewrite ?cell_eqb_refl, ?H.
Lemma eff_prepare : forall edpc s i j x y, adjacent x y -> claimable edpc s x -> claimable edpc s y ->
  exists u, local_effect edpc s (LBellPrepare i j x y) u /\ half i (over u s x) /\ half j (over u s y).
Proof.
  intros edpc s i j x y H Hx Hy. pose proof H as H'. apply adjacent_step in H' as [d ->].
  eexists. split; [apply le_bell_prepare; auto|]. pair_tac H. split; apply half_joined.
Qed.
Lemma eff_measure : forall edpc s x y p q, adjacent x y -> idle s x p -> idle s y q ->
  exists u, local_effect edpc s (LBellMeasure x y) u /\ gone (over u s x) /\ gone (over u s y).
Proof.
  intros edpc s x y p q H Hx Hy. pose proof H as H'. apply adjacent_step in H' as [d ->].
  eexists. split; [eapply le_bell_measure; eauto|]. pair_tac H. split; eexists; split; reflexivity.
Qed.
Lemma eff_merge : forall edpc s x y p q, adjacent x y -> idle s x p -> idle s y q ->
  exists u d, local_effect edpc s (LMergeContract x y) u /\ over u s x = Some (joined d p) /\ gone (over u s y).
Proof.
  intros edpc s x y p q H Hx Hy. pose proof H as H'. apply adjacent_step in H' as [d ->].
  eexists _, d. split; [eapply le_merge; eauto|]. pair_tac H. split; [reflexivity|]. eexists; split; reflexivity.
Qed.
Lemma eff_extend : forall edpc s x y p, adjacent x y -> idle s x p -> claimable edpc s y ->
  exists u d, local_effect edpc s (LExtendSplit None x y) u /\ over u s x = Some (joined d p) /\ half None (over u s y).
Proof.
  intros edpc s x y p H Hx Hy. pose proof H as H'. apply adjacent_step in H' as [d ->].
  eexists _, d. split; [eapply le_extend; eauto|]. pair_tac H. split; [reflexivity|]. apply half_joined.
Qed.
Lemma eff_move : forall edpc s x y p, adjacent x y -> idle s x p -> claimable edpc s y ->
  exists u, local_effect edpc s (LMove x y None) u /\ gone (over u s x) /\ half (p_id (dp p)) (over u s y).
Proof.
  intros edpc s x y p H Hx Hy. pose proof H as H'. apply adjacent_step in H' as [d ->].
  eexists. split; [eapply le_move; eauto|]. pair_tac H. split; [eexists; split; reflexivity|]. apply half_joined.
Qed.

(** The operation uses exactly the two tiles. *)
Definition on_both (l : local_instr) (a b : cell) : Prop := forall c, In c (local_cells l) <-> c = a \/ c = b.
Ltac both_tac := let c := fresh "c" in intro c; cbn [local_cells In]; split; intuition.

(** ** One direction: the near end is tile 0 *)
Section Forward.
Variables (t : lrb) (n : nat) (at_ : nat -> cell) (ids : cell -> option N) (s : slice).

Definition act_on (k : nat) (l : local_instr) : Prop :=
  if Nat.odd n && (k =? 0) then
    l = if producing t then LMove (at_ 1) (at_ 0) None else LMove (at_ 0) (at_ 1) None
  else match t, k =? n - 2 with
    | LRMerge, true => l = LMergeContract (at_ (k + 1)) (at_ k)
    | LRSplit, true => l = LExtendSplit None (at_ (k + 1)) (at_ k)
    | _, _ => exists x y, either (at_ k) (at_ (k + 1)) x y
        /\ if in_first t n false k then exists i j, l = LBellPrepare i j x y /\ (t = LRPrep -> i = ids x /\ j = ids y)
           else l = LBellMeasure x y
    end.

Definition the_half (c : cell) (x : tile) : Prop :=
  exists id, half id x /\ (t = LRPrep -> id = ids c).
Definition kept (c : cell) (x : tile) : Prop := exists p d, idle s c p /\ x = Some (joined d p).

(** After the first layer. *)
Definition T1 (j : nat) (x : tile) : Prop :=
  if j =? 0 then
    match producing t, Nat.odd n with
    | true, true | false, false => x = tile_at s (at_ 0)
    | true, false => the_half (at_ 0) x
    | false, true => gone x
    end
  else if j =? n - 1 then
    match t with
    | LRPrep => the_half (at_ j) x
    | LRSplit => kept (at_ j) x
    | _ => x = tile_at s (at_ j)
    end
  else the_half (at_ j) x.

End Forward.

Lemma adj : forall n at_ k x y, segment_path n at_ -> k + 1 < n -> either (at_ k) (at_ (k + 1)) x y -> adjacent x y.
Proof. intros n at_ k x y [_ Hstep] Hk [[-> ->]|[-> ->]]; [|apply adjacent_sym]; apply Hstep; auto. Qed.

Ltac dif := repeat match goal with
  | |- context [Nat.eqb ?a ?b] => destruct (Nat.eqb_spec a b); try (exfalso; lia)
  end.

Ltac fin0 k := repeat match goal with e : k = 0 |- _ => rewrite e in *; clear e end; auto.

Lemma layer1_link : forall t n at_ ids edpc s k l, 2 <= n -> segment_path n at_ -> segment_ready edpc s t n false at_ ->
  k + 1 < n -> in_first t n false k = true -> act_on t n at_ ids k l ->
  exists u, local_effect edpc s l u /\ T1 t n at_ ids s k (over u s (at_ k))
    /\ T1 t n at_ ids s (k + 1) (over u s (at_ (k + 1))) /\ on_both l (at_ k) (at_ (k + 1)).
Proof.
  intros t n at_ ids edpc s k l Hn Hpath Hready Hk Hf Ha. pose proof Hready as (Hin & Hnear & Hfar).
  pose proof (proj2 Hpath) as Hstep.
  unfold act_on in Ha. rewrite Hf in Ha.
  assert (Prep : (exists x y, either (at_ k) (at_ (k + 1)) x y
        /\ exists i j, l = LBellPrepare i j x y /\ (t = LRPrep -> i = ids x /\ j = ids y)) ->
      claimable edpc s (at_ k) -> claimable edpc s (at_ (k + 1)) ->
      exists u, local_effect edpc s l u /\ the_half t ids (at_ k) (over u s (at_ k))
        /\ the_half t ids (at_ (k + 1)) (over u s (at_ (k + 1))) /\ on_both l (at_ k) (at_ (k + 1))).
  { intros (x & y & E & i & j & -> & Hi) C1 C2. pose proof (adj n at_ k x y Hpath Hk E) as A.
    assert (Cx : claimable edpc s x /\ claimable edpc s y) by (destruct E as [[-> ->]|[-> ->]]; auto).
    destruct (eff_prepare edpc s i j x y A) as (u & U & H1 & H2); try tauto.
    exists u. split; auto. unfold the_half. destruct E as [[-> ->]|[-> ->]].
    - split; [exists i; split; auto; intro; apply Hi; auto|]. split; [exists j; split; auto; intro; apply Hi; auto|].
      both_tac.
    - split; [exists j; split; auto; intro; apply Hi; auto|]. split; [exists i; split; auto; intro; apply Hi; auto|].
      both_tac. }
  assert (C : forall j, j < n -> (0 < j \/ producing t = true) -> (j + 1 < n \/ t = LRPrep) -> claimable edpc s (at_ j)).
  { intros j Hj H1 H2. unfold near_end, far_end in *. cbn in Hnear, Hfar.
    destruct (Nat.eq_dec j 0) as [->|J0].
    - destruct H1 as [H1|H1]; [lia|]. rewrite H1 in Hnear. auto.
    - destruct (Nat.eq_dec j (n - 1)) as [->|J1]; [|apply Hin; lia].
      destruct H2 as [H2|H2]; [lia|]. subst t. exact Hfar. }
  assert (P0 : producing t = false -> exists p, idle s (at_ 0) p).
  { intro E. unfold near_end in Hnear. rewrite E in Hnear. auto. }
  assert (P1 : t <> LRPrep -> exists p, idle s (at_ (n - 1)) p).
  { intro E. unfold far_end in Hfar. destruct t; auto. contradiction. }
  assert (Ext : l = LExtendSplit None (at_ (k + 1)) (at_ k) -> k = n - 2 -> t = LRSplit -> claimable edpc s (at_ k) ->
      exists u, local_effect edpc s l u /\ the_half t ids (at_ k) (over u s (at_ k))
        /\ kept s (at_ (k + 1)) (over u s (at_ (k + 1))) /\ on_both l (at_ k) (at_ (k + 1))).
  { intros -> Q -> Hc. destruct P1 as [p Hp]; [discriminate|]. replace (n - 1) with (k + 1) in Hp by lia.
    destruct (eff_extend edpc s (at_ (k + 1)) (at_ k) p) as (u & d & U & H1 & H2); auto.
    { apply adjacent_sym. apply Hstep; auto. }
    exists u. split; auto. split; [exists None; split; auto; discriminate|]. split; [exists p, d; auto|]. both_tac. }
  assert (Mov : l = LMove (at_ 0) (at_ 1) None -> k = 0 -> producing t = false -> claimable edpc s (at_ (k + 1)) ->
      exists u, local_effect edpc s l u /\ gone (over u s (at_ k))
        /\ the_half t ids (at_ (k + 1)) (over u s (at_ (k + 1))) /\ on_both l (at_ k) (at_ (k + 1))).
  { intros -> -> Hp Hc. destruct (P0 Hp) as [p Hi]. cbn [Nat.add] in *.
    destruct (eff_move edpc s (at_ 0) (at_ 1) p) as (u & U & H1 & H2); auto.
    { apply (Hstep 0). auto. }
    exists u. split; auto. split; auto. split; [eexists; split; eauto; intro; subst; discriminate|]. both_tac. }
  unfold T1. unfold in_first in Hf. rewrite even_odd in Hf.
  destruct (parity n) as [(h & Eh & Ho)|(h & Eh & Ho)]; rewrite Ho in *;
  destruct (parity k) as [(m & Em & Hm)|(m & Em & Hm)]; rewrite Hm in *; cbn [andb negb] in Ha, Hf;
  destruct t; cbn [producing negb] in *; try discriminate Hf;
  repeat match type of Ha with context [Nat.eqb ?a ?b] =>
     let Q := fresh "Q" in destruct (Nat.eqb_spec a b) as [Q|Q]; cbn [andb] in Ha; try (exfalso; lia) end.
  all: match type of Ha with
    | ex _ => destruct Prep as (u & U & H1 & H2 & H3); [exact Ha| | |]
    | _ = LExtendSplit _ _ _ => destruct Ext as (u & U & H1 & H2 & H3); [exact Ha|lia|reflexivity| |]
    | _ => destruct Mov as (u & U & H1 & H2 & H3); [exact Ha|lia|reflexivity| |]
    end.
  all: try (apply C; [lia|first [right; reflexivity|left; lia]|first [right; reflexivity|left; lia]]).
  all: exists u; split; [exact U|]; split; [|split; [|exact H3]]; try clear Prep; try clear Ext; try clear Mov; clear C P0 P1 Ha Hin Hnear Hfar Hstep Hready Hpath; dif; fin0 k.
Qed.

(** ** Between the layers *)
Definition the_rest (t : lrb) (ids : cell -> option N) (c : cell) (x : tile) : Prop :=
  exists id, resting id x /\ (t = LRPrep -> id = ids c).
Definition set_aside (edpc : bool) (x : tile) : Prop :=
  x = None \/ edpc = true /\ exists p, x = Some p /\ (p_act (dp p) = AEDPC \/ p_act (dp p) = AReserved).

Definition A1 (t : lrb) (n : nat) (at_ : nat -> cell) (ids : cell -> option N) (edpc : bool) (s : slice) (j : nat) (x : tile)
  : Prop :=
  if j =? 0 then
    match producing t, Nat.odd n with
    | true, true => set_aside edpc x
    | false, false => x = tile_at s (at_ 0)
    | true, false => the_rest t ids (at_ 0) x
    | false, true => x = None
    end
  else if j =? n - 1 then
    match t with
    | LRPrep => the_rest t ids (at_ j) x
    | _ => x = tile_at s (at_ j)
    end
  else the_rest t ids (at_ j) x.

Lemma bounds_ext : forall a b : bounds, (forall d, side a d = side b d) -> a = b.
Proof.
  intros [a1 a2 a3 a4] [b1 b2 b3 b4] H.
  pose proof (H DTop). pose proof (H DBottom). pose proof (H DLeft). pose proof (H DRight). cbn in *. congruence.
Qed.
Lemma boundary_ext : forall a b : boundary, btype a = btype b -> bactive a = bactive b -> a = b.
Proof. intros [] []; cbn; intros; congruence. Qed.

Lemma not_consumed_none : ~ consumed ANone.
Proof. intros [H|H]; discriminate. Qed.
Lemma keeps_none : ~ keeps_joins ANone.
Proof. intros [H|[H|H]]; discriminate. Qed.

Lemma later_half : forall id x x', half id x -> later x x' -> resting id x'.
Proof.
  intros id x x' (p & -> & Ht & Ha & Hi & Hop & Hb) [[Hc _]|(_ & p' & -> & S1 & S2 & S3 & S4 & S5 & S6 & S7)].
  - rewrite Ha in Hc. destruct (not_consumed_none Hc).
  - exists p'. split; auto. rewrite Ha in *. cbn in S5. repeat (split; [congruence|]).
    apply bounds_ext. intro d. apply boundary_ext; [rewrite S6; auto|].
    specialize (S7 d). destruct (bactive (side (db p') d)); [|destruct d; reflexivity].
    destruct (proj1 S7 eq_refl) as [K _]. destruct (keeps_none K).
Qed.
Lemma later_gone : forall x x', gone x -> later x x' -> x' = None.
Proof.
  intros x x' (p & -> & Ha) [[_ H]|[Hn _]]; auto. exfalso. apply Hn. left. auto.
Qed.
Lemma later_same : forall p p', p_act (dp p) = ANone -> (forall d, bactive (side (db p) d) = false) ->
  forall d0, same_patch_later (joined d0 p) p' \/ same_patch_later p p' -> p' = p.
Proof.
  intros p p' Ha Hb d0 H.
  assert (S : p_type (dp p') = p_type (dp p) /\ p_id (dp p') = p_id (dp p) /\ p_label (dp p') = p_label (dp p)
     /\ p_op (dp p') = p_op (dp p) /\ p_act (dp p') = ANone /\ (forall d, btype (side (db p') d) = btype (side (db p) d))
     /\ forall d, bactive (side (db p') d) = false).
  { destruct H as [(S1&S2&S3&S4&S5&S6&S7)|(S1&S2&S3&S4&S5&S6&S7)]; cbn [joined dp] in *; rewrite Ha in *.
    - do 5 (split; [auto|]). split.
      + intro d. rewrite S6. cbn [joined db]. rewrite side_set_side. destruct d0, d; reflexivity.
      + intro d. specialize (S7 d). destruct (bactive (side (db p') d)); auto. destruct (keeps_none (proj1 (proj1 S7 eq_refl))).
    - do 5 (split; [auto|]). split; auto.
      intro d. specialize (S7 d). destruct (bactive (side (db p') d)); auto. destruct (keeps_none (proj1 (proj1 S7 eq_refl))). }
  destruct S as (S1&S2&S3&S4&S5&S6&S7).
  destruct p as [[ty ac id lab opn] b], p' as [[ty' ac' id' lab' opn'] b']; cbn in *. subst.
  f_equal. apply bounds_ext. intro d. apply boundary_ext; auto. rewrite S7, Hb. auto.
Qed.
Lemma later_idle : forall s c p x', idle s c p -> later (tile_at s c) x' -> x' = tile_at s c.
Proof.
  intros s c p x' (H1 & H2 & H3) H. rewrite H1 in *. destruct H as [[Hc _]|(_ & p' & -> & S)].
  - rewrite H2 in Hc. destruct (not_consumed_none Hc).
  - f_equal. eapply (later_same p p' H2 H3 DTop). auto.
Qed.
Lemma later_kept : forall s c x x', kept s c x -> later x x' -> x' = tile_at s c.
Proof.
  intros s c x x' (p & d & (H1 & H2 & H3) & ->) H. rewrite H1. destruct H as [[Hc _]|(_ & p' & -> & S)].
  - cbn in Hc. rewrite H2 in Hc. destruct (not_consumed_none Hc).
  - f_equal. eapply (later_same p p' H2 H3 d). auto.
Qed.
Lemma later_aside : forall edpc x x', set_aside edpc x -> later x x' -> set_aside edpc x'.
Proof.
  intros edpc x x' [->|(He & p & -> & Ha)] H.
  - left. exact H.
  - right. split; auto. destruct H as [[Hc _]|(_ & p' & -> & S)].
    + exfalso. destruct Hc, Ha; congruence.
    + exists p'. split; auto. destruct S as (_&_&_&_&S&_). rewrite S. destruct Ha as [->| ->]; cbn; auto.
Qed.
Lemma later_the_half : forall t ids c x x', the_half t ids c x -> later x x' -> the_rest t ids c x'.
Proof. intros t ids c x x' (id & H & Hi) L. exists id. split; auto. eapply later_half; eauto. Qed.

Lemma age1 : forall t n at_ ids edpc s j x x', 2 <= n -> j < n -> segment_ready edpc s t n false at_ ->
  T1 t n at_ ids s j x -> later x x' -> A1 t n at_ ids edpc s j x'.
Proof.
  intros t n at_ ids edpc s j x x' Hn Hj (Hin & Hnear & Hfar) H L. unfold T1, A1 in *.
  unfold near_end, far_end, end_ready in *.
  destruct (Nat.eqb_spec j 0) as [->|J0].
  - destruct (producing t), (Nat.odd n); subst.
    + eapply later_aside; eauto.
    + eapply later_the_half; eauto.
    + eapply later_gone; eauto.
    + destruct Hnear as [p Hp]. eapply later_idle; eauto.
  - destruct (Nat.eqb_spec j (n - 1)) as [->|J1]; [|eapply later_the_half; eauto].
    destruct t; cbn [far_makes] in Hfar.
    + eapply later_the_half; eauto.
    + subst x. destruct Hfar as [p Hp]. eapply later_idle; eauto.
    + subst x. destruct Hfar as [p Hp]. eapply later_idle; eauto.
    + eapply later_kept; eauto.
Qed.

(** ** After the second layer *)
Definition T2 (t : lrb) (n : nat) (at_ : nat -> cell) (ids : cell -> option N) (s : slice) (j : nat) (x : tile) : Prop :=
  if j =? 0 then
    if producing t then the_half t (fun c => if Nat.odd n then ids (at_ 1) else ids c) (at_ 0) x else gone x \/ x = None
  else if j =? n - 1 then
    match t with
    | LRPrep => the_half t ids (at_ j) x
    | LRMeasure => gone x
    | LRMerge => kept s (at_ j) x
    | LRSplit => x = tile_at s (at_ j)
    end
  else gone x.

Lemma resting_half : forall id x, resting id x -> half id x.
Proof.
  intros id x (p & -> & H1 & H2 & H3 & H4 & H5). exists p. rewrite H5. auto 10.
Qed.
Lemma resting_idle : forall s c id, resting id (tile_at s c) -> exists p, idle s c p /\ p_id (dp p) = id.
Proof.
  intros s c id (p & H & H1 & H2 & H3 & H4 & H5). exists p. split; auto. split; auto. split; auto.
  intro d. rewrite H5. destruct d; reflexivity.
Qed.

Lemma layer2_link : forall t n at_ ids edpc s s2 k l, 2 <= n -> segment_path n at_ -> segment_ready edpc s t n false at_ ->
  (forall j, j < n -> A1 t n at_ ids edpc s j (tile_at s2 (at_ j))) ->
  k + 1 < n -> in_first t n false k = false -> act_on t n at_ ids k l ->
  exists u, local_effect edpc s2 l u /\ T2 t n at_ ids s k (over u s2 (at_ k))
    /\ T2 t n at_ ids s (k + 1) (over u s2 (at_ (k + 1))) /\ on_both l (at_ k) (at_ (k + 1)).
Proof.
  intros t n at_ ids edpc s s2 k l Hn Hpath Hready Hold Hk Hf Ha. pose proof Hready as (Hin & Hnear & Hfar).
  pose proof (proj2 Hpath) as Hstep.
  unfold act_on in Ha. rewrite Hf in Ha.
  (* every tile measured in the second layer is occupied and idle *)
  assert (I : forall j, j < n -> (0 < j \/ producing t = false /\ Nat.odd n = false) ->
     exists p, idle s2 (at_ j) p /\ (t = LRPrep -> p_id (dp p) = ids (at_ j))
       /\ (j = n - 1 -> t = LRMerge -> tile_at s (at_ j) = Some p /\ idle s (at_ j) p)).
  { intros j Hj H. specialize (Hold j Hj). unfold A1 in Hold. unfold near_end, far_end, end_ready in *.
    assert (R : the_rest t ids (at_ j) (tile_at s2 (at_ j)) -> exists p, idle s2 (at_ j) p
              /\ (t = LRPrep -> p_id (dp p) = ids (at_ j))).
    { intros (id & Hr & Hi). apply resting_idle in Hr as (p & Hp & E). exists p. split; auto. intro. rewrite E. auto. }
    assert (Same : forall p, idle s (at_ j) p -> tile_at s2 (at_ j) = tile_at s (at_ j) -> idle s2 (at_ j) p).
    { intros p (I1 & I2 & I3) E. split; [congruence|auto]. }
    destruct (Nat.eqb_spec j 0) as [J0|J0].
    - subst j. destruct H as [H|[H1 H2]]; [lia|]. rewrite H1, H2 in Hold. rewrite H1 in Hnear. destruct Hnear as [p Hp].
      exists p. split; [auto|]. split; [intro; subst; discriminate|]. intros; lia.
    - destruct (Nat.eqb_spec j (n - 1)) as [J1|J1].
      + subst j. destruct t; cbn [far_makes] in Hfar.
        * destruct (R Hold) as (p & Hp & Hi). exists p. split; auto. split; auto. intros; discriminate.
        * destruct Hfar as [p Hp]. exists p. split; auto. split; intros; discriminate.
        * destruct Hfar as [p Hp]. exists p. split; auto. split; [discriminate|]. intros _ _. split; auto. apply Hp.
        * destruct Hfar as [p Hp]. exists p. split; auto. split; intros; discriminate.
      + destruct (R Hold) as (p & Hp & Hi). exists p. split; auto. split; auto. intros; contradiction. }
  assert (Meas : (exists x y, either (at_ k) (at_ (k + 1)) x y /\ l = LBellMeasure x y) ->
      (0 < k \/ producing t = false /\ Nat.odd n = false) ->
      exists u, local_effect edpc s2 l u /\ gone (over u s2 (at_ k)) /\ gone (over u s2 (at_ (k + 1)))
        /\ on_both l (at_ k) (at_ (k + 1))).
  { intros (x & y & E & ->) H0. pose proof (adj n at_ k x y Hpath Hk E) as A.
    destruct (I k ltac:(lia) H0) as (p & Hp & _). destruct (I (k + 1) ltac:(lia) ltac:(left; lia)) as (q & Hq & _).
    assert (X : exists p q, idle s2 x p /\ idle s2 y q) by (destruct E as [[-> ->]|[-> ->]]; eauto).
    destruct X as (px & py & Hx & Hy). destruct (eff_measure edpc s2 x y px py A Hx Hy) as (u & U & H1 & H2).
    exists u. split; auto. destruct E as [[-> ->]|[-> ->]]; split; auto; split; auto; both_tac. }
  assert (Mer : l = LMergeContract (at_ (k + 1)) (at_ k) -> k = n - 2 -> t = LRMerge ->
      (0 < k \/ producing t = false /\ Nat.odd n = false) ->
      exists u, local_effect edpc s2 l u /\ gone (over u s2 (at_ k)) /\ kept s (at_ (k + 1)) (over u s2 (at_ (k + 1)))
        /\ on_both l (at_ k) (at_ (k + 1))).
  { intros -> Q Et H0. destruct (I k ltac:(lia) H0) as (p & Hp & _).
    destruct (I (k + 1) ltac:(lia) ltac:(left; lia)) as (q & Hq & _ & Hs). destruct (Hs ltac:(lia) Et) as [_ Hsi].
    destruct (eff_merge edpc s2 (at_ (k + 1)) (at_ k) q p) as (u & d & U & H1 & H2); auto.
    { apply adjacent_sym. apply Hstep; auto. }
    exists u. split; auto. split; auto. split; [exists q, d; auto|]. both_tac. }
  assert (Mov : l = LMove (at_ 1) (at_ 0) None -> k = 0 -> producing t = true -> Nat.odd n = true ->
      exists u, local_effect edpc s2 l u
        /\ the_half t (fun _ => ids (at_ 1)) (at_ 0) (over u s2 (at_ k)) /\ gone (over u s2 (at_ (k + 1)))
        /\ on_both l (at_ k) (at_ (k + 1))).
  { intros -> -> Hp Ho. destruct (I 1 ltac:(lia) ltac:(lia)) as (p & Hi & Hid & _).
    assert (Hc : claimable edpc s2 (at_ 0)).
    { specialize (Hold 0 ltac:(lia)). unfold A1 in Hold. cbn in Hold. rewrite Hp, Ho in Hold. exact Hold. }
    destruct (eff_move edpc s2 (at_ 1) (at_ 0) p) as (u & U & H1 & H2); auto.
    { apply adjacent_sym. apply (Hstep 0). auto. }
    exists u. split; auto. cbn [Nat.add]. split; [exists (p_id (dp p)); split; auto|]. split; auto. both_tac. }
  unfold T2. unfold in_first in Hf. rewrite even_odd in Hf.
  destruct (parity n) as [(h & Eh & Ho)|(h & Eh & Ho)]; rewrite Ho in *;
  destruct (parity k) as [(m & Em & Hm)|(m & Em & Hm)]; rewrite Hm in *; cbn [andb negb] in Ha, Hf;
  destruct t; cbn [producing negb] in *; try discriminate Hf;
  repeat match type of Ha with context [Nat.eqb ?a ?b] =>
     let Q := fresh "Q" in destruct (Nat.eqb_spec a b) as [Q|Q]; cbn [andb] in Ha; try (exfalso; lia) end.
  all: match type of Ha with
    | ex _ => destruct Meas as (u & U & H1 & H2 & H3); [exact Ha| |]
    | _ = LMergeContract _ _ => destruct Mer as (u & U & H1 & H2 & H3); [exact Ha|lia|reflexivity| |]
    | _ => destruct Mov as (u & U & H1 & H2 & H3); [exact Ha|lia|reflexivity|reflexivity|]
    end.
  all: try first [left; lia|right; split; reflexivity].
  all: exists u; split; [exact U|]; split; [|split; [|exact H3]];
    try clear Meas; try clear Mer; try clear Mov; clear I Ha Hin Hnear Hfar Hstep Hready Hpath Hold; dif; fin0 k.
Qed.

(** ** A layer as a whole *)
Definition at_work (x : tile) : Prop :=
  forall p, x = Some p -> p_act (dp p) = ANone -> exists d, bactive (side (db p) d) = true.
Lemma joined_at_work : forall d p, at_work (Some (joined d p)).
Proof.
  intros d p q E Ha. injection E as <-. exists d. cbn [joined db]. rewrite side_set_side. destruct d; reflexivity.
Qed.
Lemma joined_at_work' : forall d p a i, at_work (Some (named i (doing a (joined d p)))).
Proof.
  intros d p a i q E Ha. injection E as <-. exists d. cbn [named doing joined db]. rewrite side_set_side. destruct d; reflexivity.
Qed.
Lemma joined_at_work'' : forall d p a, at_work (Some (doing a (joined d p))).
Proof.
  intros d p a q E Ha. injection E as <-. exists d. cbn [doing joined db]. rewrite side_set_side. destruct d; reflexivity.
Qed.
Lemma local_effect_works : forall edpc s l u c, local_effect edpc s l u -> (forall id d, l <> LPrepareY id d) ->
  In c (local_cells l) -> at_work (over u s c).
Proof.
  intros edpc s l u c H Hy Hc. inversion H; subst; [destruct (Hy _ _ eq_refl)|..]; cbn [local_cells In] in Hc; cbn [over];
    (destruct Hc as [<-|[<-|[]]];
     [rewrite cell_eqb_refl|destruct (cell_eqb _ _) eqn:E; [apply cell_eqb_eq in E|rewrite cell_eqb_refl]]);
    auto using joined_at_work, joined_at_work', joined_at_work''.
Qed.
Lemma local_effect_nodup : forall edpc s l u, local_effect edpc s l u -> NoDup (local_cells l).
Proof.
  intros edpc s l u H.
  assert (P : forall c d, NoDup [c; step c d]).
  { intros c d. constructor; [|constructor; [intros []|constructor]]. intros [E|[]]. revert E. apply step_neq. }
  inversion H; subst; cbn [local_cells]; auto. constructor; [intros []|constructor].
Qed.

Lemma links_nodup : forall (at_ : nat -> cell) n (links : list nat) (ops : list local_instr),
  (forall i j, i < n -> j < n -> at_ i = at_ j -> i = j) ->
  Forall2 (fun k l => k + 1 < n /\ NoDup (local_cells l) /\ on_both l (at_ k) (at_ (k + 1))) links ops ->
  NoDup links -> (forall k k', In k links -> In k' links -> k <> k' + 1) ->
  NoDup (flat_map local_cells ops).
Proof.
  intros at_ n links ops Hinj F. induction F as [|k l links ops (Hk & N & Hi) F IH]; intros Hn Ha; cbn; [constructor|].
  inversion Hn; subst. apply NoDup_app_intro; auto.
  - apply IH; auto. intros. apply Ha; cbn; auto.
  - intros c Hc Hc'. apply in_flat_map in Hc' as (l' & Hl' & Hc').
    assert (E : exists k', In k' links /\ k' + 1 < n /\ on_both l' (at_ k') (at_ (k' + 1))).
    { clear - F Hl'. induction F as [|x y links ops (h1 & h2 & h3) F IH]; [destruct Hl'|]. destruct Hl' as [<-|Hl'].
      - exists x. cbn. auto.
      - destruct (IH Hl') as (k' & ? & ?). exists k'. cbn. auto. }
    destruct E as (k' & Hk' & Hl & Hi'). apply Hi in Hc. apply Hi' in Hc'.
    assert (k <> k') by (intro; subst; contradiction).
    pose proof (Ha k k' (or_introl eq_refl) (or_intror Hk')). pose proof (Ha k' k (or_intror Hk') (or_introl eq_refl)).
    destruct Hc as [Hc|Hc]; destruct Hc' as [Hc'|Hc']; rewrite Hc in Hc'; apply Hinj in Hc'; lia.
Qed.

Lemma forall2_in_l : forall (A B : Type) (R : A -> B -> Prop) la lb a, Forall2 R la lb -> In a la -> exists b, In b lb /\ R a b.
Proof.
  intros A B R la lb a F. induction F as [|x y la lb H F IH]; intros Hi; [destruct Hi|]. destruct Hi as [<-|Hi].
  - exists y. cbn. auto.
  - destruct (IH Hi) as (b & ? & ?). exists b. cbn. auto.
Qed.
Lemma forall2_in_r : forall (A B : Type) (R : A -> B -> Prop) la lb b, Forall2 R la lb -> In b lb -> exists a, In a la /\ R a b.
Proof.
  intros A B R la lb b F. induction F as [|x y la lb H F IH]; intros Hi; [destruct Hi|]. destruct Hi as [<-|Hi].
  - exists x. cbn. auto.
  - destruct (IH Hi) as (a & ? & ?). exists a. cbn. auto.
Qed.

Lemma one_layer : forall far e n at_ s (act : nat -> local_instr -> Prop) (sel : nat -> bool) (T : nat -> tile -> Prop) ls i,
  2 <= n -> segment_path n at_ -> (forall k, k < n -> on_lattice far (at_ k)) -> sized far s ->
  (forall k, sel (k + 1) = negb (sel k)) -> on_links sel act n ls ->
  (forall k l, k + 1 < n -> sel k = true -> act k l ->
     exists u, local_effect (e_edpc e) s l u /\ T k (over u s (at_ k)) /\ T (k + 1) (over u s (at_ (k + 1)))
       /\ on_both l (at_ k) (at_ (k + 1))) ->
  (sel 0 = false -> T 0 (tile_at s (at_ 0))) -> (sel (n - 2) = false -> T (n - 1) (tile_at s (at_ (n - 1)))) ->
  exists s', run_locals e s ls i = Ok (s', i + length ls, true) /\ sized far s' /\ rest_same s s'
    /\ (forall c, (forall k, k < n -> c <> at_ k) -> tile_at s' c = tile_at s c)
    /\ (forall j, j < n -> T j (tile_at s' (at_ j)))
    /\ forall k, k + 1 < n -> sel k = true -> at_work (tile_at s' (at_ k)) /\ at_work (tile_at s' (at_ (k + 1))).
Proof.
  intros far e n at_ s act sel T ls i Hn [Hinj Hstep] Hon Hs Halt (links & F & N & Hl) HL H0 H1.
  assert (F' : Forall2 (fun k l => k + 1 < n /\ sel k = true /\ act k l) links ls).
  { clear - F Hl. assert (G : forall k, In k links -> k + 1 < n /\ sel k = true) by (intros k; apply Hl). clear Hl.
    induction F as [|k l links ls H F IH]; constructor.
    - destruct (G k (or_introl eq_refl)). auto.
    - apply IH. intros. apply G. cbn. auto. }
  assert (Op : forall l, In l ls -> exists k u, k + 1 < n /\ sel k = true /\ act k l /\ local_effect (e_edpc e) s l u
     /\ T k (over u s (at_ k)) /\ T (k + 1) (over u s (at_ (k + 1))) /\ on_both l (at_ k) (at_ (k + 1))).
  { intros l Hi. destruct (forall2_in_r _ _ _ _ _ _ F' Hi) as (k & _ & K1 & K2 & K3).
    destruct (HL k l K1 K2 K3) as (u & U & A & B & C). exists k, u. auto 10. }
  assert (Cells : forall c, In c (flat_map local_cells ls) -> exists k, k + 1 < n /\ sel k = true /\ (c = at_ k \/ c = at_ (k + 1))).
  { intros c Hc. apply in_flat_map in Hc as (l & Hi & Hc). destruct (Op l Hi) as (k & u & K1 & K2 & _ & _ & _ & _ & K).
    apply K in Hc. exists k. intuition. }
  destruct (run_disjoint far e ls s i Hs) as (s' & E & S' & R & Ti & Fr).
  - eapply (links_nodup at_ n links); auto.
    + clear - F' HL. induction F' as [|k l links ls (K1 & K2 & K3) F IH]; constructor; auto.
      destruct (HL k l K1 K2 K3) as (u & U & _ & _ & C). split; auto. split; auto. eapply local_effect_nodup; eauto.
    + intros k k' Hk Hk' ->. apply Hl in Hk, Hk'. rewrite Halt in Hk. destruct (sel k'); cbn in Hk; intuition discriminate.
  - intros l Hi. destruct (Op l Hi) as (k & u & _ & _ & _ & U & _). eauto.
  - intros c Hc. apply Cells in Hc as (k & K1 & _ & [->| ->]); apply Hon; lia.
  - exists s'. split; auto. split; auto. split; auto. split.
    + intros c Hc. apply Fr. intro Hc'. apply Cells in Hc' as (k & K1 & _ & [->| ->]); eapply Hc; try reflexivity; lia.
    + assert (Touch : forall k j, k + 1 < n -> sel k = true -> (j = k \/ j = k + 1) -> T j (tile_at s' (at_ j))).
      { intros k j K1 K2 Hj. destruct (forall2_in_l _ _ _ _ _ k F') as (l & Hi & _ & _ & K3); [apply Hl; auto|].
        destruct (HL k l K1 K2 K3) as (u & U & A & B & C).
        assert (Hc : tile_at s' (at_ j) = over u s (at_ j)).
        { apply (Ti l u); auto. apply C. destruct Hj as [->| ->]; auto. }
        rewrite Hc. destruct Hj as [->| ->]; auto. }
      assert (Free : forall j, j < n -> (forall k, k + 1 < n -> sel k = true -> j <> k /\ j <> k + 1) ->
                tile_at s' (at_ j) = tile_at s (at_ j)).
      { intros j Hj H. apply Fr. intro Hc. apply Cells in Hc as (k & K1 & K2 & K3). destruct (H k K1 K2) as [Q1 Q2].
        destruct K3 as [K3|K3]; apply Hinj in K3; lia. }
      assert (Work : forall k, k + 1 < n -> sel k = true -> at_work (tile_at s' (at_ k)) /\ at_work (tile_at s' (at_ (k + 1)))).
      { intros k K1 K2. destruct (forall2_in_l _ _ _ _ _ k F') as (l & Hi & _ & _ & K3); [apply Hl; auto|].
        destruct (HL k l K1 K2 K3) as (u & U & A & B & C).
        assert (Y : forall id d, l <> LPrepareY id d).
        { intros id d ->. assert (at_ k = at_ (k + 1)); [|apply Hinj in H; lia].
          assert (X1 : In (at_ k) [d]) by (apply C; auto). assert (X2 : In (at_ (k + 1)) [d]) by (apply C; auto).
          destruct X1 as [<-|[]]. destruct X2 as [X2|[]]. auto. }
        assert (I1 : In (at_ k) (local_cells l)) by (apply C; auto). assert (I2 : In (at_ (k + 1)) (local_cells l)) by (apply C; auto).
        rewrite (Ti l u _ Hi U I1), (Ti l u _ Hi U I2). split; eapply local_effect_works; eauto. }
      split; [|exact Work].
      intros j Hj. destruct (Nat.eq_dec j 0) as [J0|J0].
      * subst j. destruct (sel 0) eqn:E0; [apply (Touch 0 0); auto; lia|]. rewrite Free; auto.
        intros k K1 K2. split; [intro; subst; congruence|lia].
      * destruct (sel (j - 1)) eqn:Ej; [apply (Touch (j - 1) j); auto; lia|].
        destruct (Nat.eq_dec j (n - 1)) as [J1|J1].
        -- rewrite J1. rewrite Free; [apply H1; replace (n - 2) with (j - 1) by lia; auto|lia|].
           intros k K1 K2. split; [lia|]. intro. assert (k = j - 1) by lia. subst k. congruence.
        -- apply (Touch j j); auto; [lia|]. replace j with (j - 1 + 1) at 1 by lia. rewrite Halt, Ej. reflexivity.
Qed.
