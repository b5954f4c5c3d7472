(** Long-range Bell operations from beginning to end. *)
From Verif Require Import Base PatchesModel LayoutModel LayoutSpec InstrModel InstrSpec InstrProofs.
From Verif Require Import SliceModel SliceSpec SliceProofs RouterModel RouterSpec.
From Verif Require Import ApplyModel ApplySpec ApplyProofs ApplyBell BellSpec BellProofs BellRun.
Open Scope nat_scope.

(** ** A local operation on neighbouring tiles applies or is refused *)
Lemma absent_total : forall far s c, sized far s -> on_lattice far c ->
  absent s c = Ok (match tile_at s c with None => true | Some _ => false end).
Proof. intros far s c Hs Ho. unfold absent. rewrite (patch_at_ok far) by auto. reflexivity. Qed.
Lemma unusable_total : forall far s c, sized far s -> on_lattice far c ->
  (exists p, idle s c p) /\ unusable s c = Ok false \/ (forall p, ~ idle s c p) /\ unusable s c = Ok true.
Proof.
  intros far s c Hs Ho. unfold unusable. rewrite (patch_at_ok far) by auto. cbn [bind].
  destruct (tile_at s c) as [p|] eqn:E.
  - pose proof (is_active_idle s c p E) as I. destruct (dp_is_active p).
    + right. split; auto. intros q Hq. assert (q = p) by (destruct Hq; congruence). subst q. apply I in Hq. discriminate.
    + left. split; auto. exists p. apply I. auto.
  - right. split; auto. intros q [Hq _]. congruence.
Qed.
Lemma free_total : forall far e s c, sized far s -> on_lattice far c ->
  claimable (e_edpc e) s c /\ free_for_local e s c = Ok true \/ ~ claimable (e_edpc e) s c /\ free_for_local e s c = Ok false.
Proof.
  intros far e s c Hs Ho.
  assert (T : exists b, free_for_local e s c = Ok b).
  { unfold free_for_local, is_free_or_activity, is_free. destruct (e_edpc e); rewrite (patch_at_ok far) by auto; cbn; eauto. }
  destruct T as [b T]. pose proof (proj2 (free_for_local_inv far _ _ _ _ Hs T)) as I. destruct b.
  - left. split; auto. apply I. auto.
  - right. split; auto. intro C. apply I in C. discriminate.
Qed.

Definition pairwise (l : local_instr) : Prop :=
  match local_cells l with [a; b] => adjacent a b | _ => False end.
Lemma try_local_total : forall far e s l, sized far s -> (forall c, In c (local_cells l) -> on_lattice far c) -> pairwise l ->
  (exists u, local_effect (e_edpc e) s l u) \/ try_local e s l = Ok (s, true).
Proof.
  intros far e s l Hs Ho Hp. destruct l as [id c|i j a b|a b|a b|i a b|a b|a b i]; unfold pairwise in Hp; cbn [local_cells] in *;
    [contradiction|..];
    pose proof (Ho a ltac:(cbn; auto)) as Oa; pose proof (Ho b ltac:(cbn; auto)) as Ob; cbn [try_local];
    apply adjacent_step in Hp as [d ->].
  - destruct (free_total far e s a Hs Oa) as [[Ca ->]|[Ca ->]]; cbn; auto.
    destruct (free_total far e s (step a d) Hs Ob) as [[Cb ->]|[Cb ->]]; cbn; auto. left. eexists. apply le_bell_prepare; auto.
  - rewrite (absent_total far), (absent_total far) by auto. cbn [bind].
    destruct (unusable_total far s a Hs Oa) as [[[p Ia] ->]|[Ia ->]]; destruct (unusable_total far s (step a d) Hs Ob) as [[[q Ib] ->]|[Ib ->]];
      try (destruct (tile_at s a), (tile_at s (step a d)); cbn; auto; fail). left. eexists. eapply le_bell_measure; eauto.
  - rewrite (absent_total far), (absent_total far) by auto. cbn [bind].
    destruct (unusable_total far s a Hs Oa) as [[[p Ia] ->]|[Ia ->]]; destruct (unusable_total far s (step a d) Hs Ob) as [[[q Ib] ->]|[Ib ->]];
      try (destruct (tile_at s a), (tile_at s (step a d)); cbn; auto; fail). left. eexists. eapply le_two_patch; eauto.
  - destruct (unusable_total far s a Hs Oa) as [[[p Ia] ->]|[Ia ->]]; cbn; auto.
    destruct (free_total far e s (step a d) Hs Ob) as [[Cb ->]|[Cb ->]]; cbn; auto. left. eexists. eapply le_extend; eauto.
  - rewrite (absent_total far), (absent_total far) by auto. cbn [bind].
    destruct (unusable_total far s a Hs Oa) as [[[p Ia] ->]|[Ia ->]]; destruct (unusable_total far s (step a d) Hs Ob) as [[[q Ib] ->]|[Ib ->]];
      try (destruct (tile_at s a), (tile_at s (step a d)); cbn; auto; fail). left. eexists. eapply le_merge; eauto.
  - destruct (unusable_total far s a Hs Oa) as [[[p Ia] ->]|[Ia ->]]; cbn; auto.
    destruct (free_total far e s (step a d) Hs Ob) as [[Cb ->]|[Cb ->]]; cbn; auto. left. eexists. eapply le_move; eauto.
Qed.

(** The tiles that must hold an idle patch. *)
Definition needs (l : local_instr) : list cell :=
  match l with
  | LBellMeasure a b | LTwoPatchMeasure a b | LMergeContract a b => [a; b]
  | LMove a _ _ | LExtendSplit _ a _ => [a]
  | LBellPrepare _ _ _ _ | LPrepareY _ _ => []
  end.
Lemma needs_idle : forall edpc s l u c, local_effect edpc s l u -> In c (needs l) -> exists p, idle s c p.
Proof. intros edpc s l u c H Hc. inversion H; subst; cbn in Hc; intuition; subst; eauto. Qed.
Lemma at_work_idle : forall s c p, at_work (tile_at s c) -> ~ idle s c p.
Proof. intros s c p H (E & Ha & Hb). destruct (H p E Ha) as [d Hd]. rewrite Hb in Hd. discriminate. Qed.
Lemma waits : forall far e s l r i c, sized far s -> (forall c, In c (local_cells l) -> on_lattice far c) -> pairwise l ->
  In c (needs l) -> at_work (tile_at s c) -> run_locals e s (l :: r) i = Ok (s, i, false).
Proof.
  intros far e s l r i c Hs Ho Hp Hc Hw. cbn [run_locals]. destruct (try_local_total far e s l Hs Ho Hp) as [[u U]| ->]; auto.
  exfalso. apply (needs_idle _ _ _ _ _ U) in Hc as [p Hi]. exact (at_work_idle _ _ _ Hw Hi).
Qed.

Lemma two_layers : forall far e n at_ s (act : nat -> local_instr -> Prop) (sel : nat -> bool) (T1 A1 T2 : nat -> tile -> Prop)
  la lb i j,
  2 <= n -> segment_path n at_ -> (forall k, k < n -> on_lattice far (at_ k)) -> sized far s ->
  (forall k, sel (k + 1) = negb (sel k)) -> on_links sel act n la -> on_links (fun k => negb (sel k)) act n lb ->
  (forall k l, k + 1 < n -> sel k = true -> act k l ->
     exists u, local_effect (e_edpc e) s l u /\ T1 k (over u s (at_ k)) /\ T1 (k + 1) (over u s (at_ (k + 1)))
       /\ on_both l (at_ k) (at_ (k + 1))) ->
  (sel 0 = false -> T1 0 (tile_at s (at_ 0))) -> (sel (n - 2) = false -> T1 (n - 1) (tile_at s (at_ (n - 1)))) ->
  (forall j x x', j < n -> T1 j x -> later x x' -> A1 j x') ->
  (forall s2 k l, (forall j, j < n -> A1 j (tile_at s2 (at_ j))) -> k + 1 < n -> sel k = false -> act k l ->
     exists u, local_effect (e_edpc e) s2 l u /\ T2 k (over u s2 (at_ k)) /\ T2 (k + 1) (over u s2 (at_ (k + 1)))
       /\ on_both l (at_ k) (at_ (k + 1))) ->
  (forall x, sel 0 = true -> A1 0 x -> T2 0 x) -> (forall x, sel (n - 2) = true -> A1 (n - 1) x -> T2 (n - 1) x) ->
  (forall k l, k + 1 < n -> sel k = false -> act k l -> pairwise l /\ on_both l (at_ k) (at_ (k + 1))
     /\ exists k', k' + 1 < n /\ sel k' = true /\ (In (at_ k') (needs l) \/ In (at_ (k' + 1)) (needs l))) \/ n = 2 ->
  exists s1, run_locals e s la i = Ok (s1, i + length la, true) /\ sized far s1 /\ rest_same s s1
    /\ (forall c, (forall k, k < n -> c <> at_ k) -> tile_at s1 c = tile_at s c)
    /\ (3 <= n -> forall j', lb <> [] -> run_locals e s1 lb j' = Ok (s1, j', false))
    /\ forall s2, sized far s2 -> (forall k, k < n -> later (tile_at s1 (at_ k)) (tile_at s2 (at_ k))) ->
       (forall k, k < n -> A1 k (tile_at s2 (at_ k))) /\
       exists s3, run_locals e s2 lb j = Ok (s3, j + length lb, true) /\ sized far s3 /\ rest_same s2 s3
         /\ (forall c, (forall k, k < n -> c <> at_ k) -> tile_at s3 c = tile_at s2 c)
         /\ forall k, k < n -> T2 k (tile_at s3 (at_ k)).
Proof.
  intros far e n at_ s act sel T1 A1 T2 la lb i j Hn Hp Hon Hs Halt Hla Hlb HL1 U0 U1 Age HL2 V0 V1 HW.
  destruct (one_layer far e n at_ s act sel T1 la i) as (s1 & E1 & S1 & R1 & F1 & H1 & W1); auto.
  exists s1. split; auto. split; auto. split; auto. split; auto. split.
  { intros H3 j' Hne. destruct HW as [HW|HW]; [|lia]. destruct Hlb as (links & F & _ & I). destruct F as [|k l links lb D F]; [contradiction|].
    destruct (proj1 (I k) (or_introl eq_refl)) as [Hk Hsel]. apply negb_true_iff in Hsel.
    destruct (HW k l Hk Hsel D) as (P & B & k' & K1 & K2 & K3). destruct (W1 k' K1 K2) as [X Y].
    destruct K3 as [K3|K3]; (eapply (waits far); [auto| |auto|exact K3|auto]); intros c Hc; apply B in Hc as [->| ->]; apply Hon; lia. }
  intros s2 S2 Hl.
  assert (HA : forall k, k < n -> A1 k (tile_at s2 (at_ k))) by (intros k Hk; eapply Age; eauto).
  split; [exact HA|].
  destruct (one_layer far e n at_ s2 act (fun k => negb (sel k)) T2 lb j) as (s3 & E3 & S3 & R3 & F3 & H3 & _); auto.
  - intro k. rewrite Halt. auto.
  - intros k l Hk Hsel Ha. apply negb_true_iff in Hsel. apply HL2; auto.
  - intro H. apply negb_false_iff in H. apply V0; auto. apply HA. lia.
  - intro H. apply negb_false_iff in H. apply V1; auto. apply HA. lia.
  - exists s3. auto 10.
Qed.

(** ** One long-range operation *)
Lemma in_first_alt : forall t n k, in_first t n false (k + 1) = negb (in_first t n false k).
Proof.
  intros t n k. unfold in_first. rewrite Nat.add_1_r, !even_odd, Nat.odd_succ, even_odd.
  destruct (producing t), (Nat.odd n), (Nat.odd k); reflexivity.
Qed.

Lemma forward_run : forall far e t n at_ ids s la lb i j,
  2 <= n -> segment_path n at_ -> (forall k, k < n -> on_lattice far (at_ k)) -> sized far s ->
  segment_ready (e_edpc e) s t n false at_ ->
  on_links (in_first t n false) (act_on t n at_ ids) n la ->
  on_links (fun k => negb (in_first t n false k)) (act_on t n at_ ids) n lb ->
  exists s1, run_locals e s la i = Ok (s1, i + length la, true) /\ sized far s1 /\ rest_same s s1
    /\ (forall c, (forall k, k < n -> c <> at_ k) -> tile_at s1 c = tile_at s c)
    /\ (3 <= n -> forall j', lb <> [] -> run_locals e s1 lb j' = Ok (s1, j', false))
    /\ forall s2, sized far s2 -> (forall k, k < n -> later (tile_at s1 (at_ k)) (tile_at s2 (at_ k))) ->
       exists s3, run_locals e s2 lb j = Ok (s3, j + length lb, true) /\ sized far s3 /\ rest_same s2 s3
         /\ (forall c, (forall k, k < n -> c <> at_ k) -> tile_at s3 c = tile_at s2 c)
         /\ forall k, k < n -> T2 t n at_ ids s k (tile_at s3 (at_ k)).
Proof.
  intros far e t n at_ ids s la lb i j Hn Hp Hon Hs Hr Hla Hlb.
  destruct (two_layers far e n at_ s (act_on t n at_ ids) (in_first t n false) (T1 t n at_ ids s)
           (A1 t n at_ ids (e_edpc e) s) (T2 t n at_ ids s) la lb i j) as (s1 & E1 & S1 & R1 & F1 & W1 & N1); auto.
  - intro k. apply in_first_alt.
  - intros k l. apply layer1_link; auto.
  - intro H. unfold T1. cbn [Nat.eqb]. unfold in_first in H. cbn in H.
    destruct (producing t), (Nat.odd n); cbn in H; try discriminate; auto.
  - intro H. unfold T1. destruct (Nat.eqb_spec (n - 1) 0); [lia|]. rewrite Nat.eqb_refl.
    unfold in_first in H. rewrite even_odd in H.
    destruct (parity n) as [(h & Eh & Ho)|(h & Eh & Ho)]; destruct (parity (n - 2)) as [(m & Em & Hm)|(m & Em & Hm)];
      try (exfalso; lia); rewrite Ho, Hm in H; cbn in H; destruct t; auto; discriminate.
  - intros. eapply age1; eauto.
  - intros. eapply layer2_link; eauto.
  - intros x H. unfold A1, T2. cbn [Nat.eqb]. unfold in_first in H. cbn in H.
    destruct (producing t) eqn:Et, (Nat.odd n) eqn:Eo; cbn in H; try discriminate; auto.
    intros (id & Hid & Hi). exists id. split; auto. apply resting_half; auto.
  - intros x H. unfold A1, T2. destruct (Nat.eqb_spec (n - 1) 0); [lia|]. rewrite Nat.eqb_refl.
    unfold in_first in H. rewrite even_odd in H.
    destruct (parity n) as [(h & Eh & Ho)|(h & Eh & Ho)]; destruct (parity (n - 2)) as [(m & Em & Hm)|(m & Em & Hm)];
      try (exfalso; lia); rewrite Ho, Hm in H; cbn in H; destruct t; try discriminate; auto;
      intros (id & Hid & Hi); exists id; split; auto; apply resting_half; auto.
  - destruct (Nat.eq_dec n 2) as [N2|N2]; [auto|left]. intros k l Hk Hsel D.
    assert (Adj : forall x y, either (at_ k) (at_ (k + 1)) x y -> adjacent x y) by (intros; eapply adj; eauto).
    pose proof (proj2 Hp k Hk) as A. pose proof (proj1 (adjacent_sym _ _) A) as A'.
    assert (Alt : k = 0 /\ in_first t n false 1 = true \/ 0 < k /\ in_first t n false (k - 1) = true).
    { destruct (Nat.eq_dec k 0) as [->|K].
      - left. split; auto. pose proof (in_first_alt t n 0) as Q. cbn [Nat.add] in Q. rewrite Q, Hsel. auto.
      - right. split; [lia|]. pose proof (in_first_alt t n (k - 1)) as Q. replace (k - 1 + 1) with k in Q by lia.
        rewrite Q in Hsel. apply negb_false_iff in Hsel. auto. }
    assert (Both : forall x y, either (at_ k) (at_ (k + 1)) x y -> (forall c, In c [x; y] -> In c (needs l)) ->
       exists k', k' + 1 < n /\ in_first t n false k' = true /\ (In (at_ k') (needs l) \/ In (at_ (k' + 1)) (needs l))).
    { intros x y E N. destruct Alt as [[-> Q]|[K Q]].
      - exists 1. split; [lia|]. split; auto. left. apply N. destruct E as [[-> ->]|[-> ->]]; cbn; auto.
      - exists (k - 1). split; [lia|]. split; auto. right. apply N. replace (k - 1 + 1) with k by lia.
        destruct E as [[-> ->]|[-> ->]]; cbn; auto. }
    unfold act_on in D. rewrite Hsel in D.
    assert (Meas : (exists x y, either (at_ k) (at_ (k + 1)) x y /\ l = LBellMeasure x y) ->
       pairwise l /\ on_both l (at_ k) (at_ (k + 1)) /\
       exists k', k' + 1 < n /\ in_first t n false k' = true /\ (In (at_ k') (needs l) \/ In (at_ (k' + 1)) (needs l))).
    { intros (x & y & E & ->). split; [apply Adj; auto|]. split; [destruct E as [[-> ->]|[-> ->]]; both_tac|].
      apply (Both x y E). auto. }
    destruct (Nat.odd n && (k =? 0)) eqn:Em.
    + apply andb_true_iff in Em as [Eo Ek]. apply Nat.eqb_eq in Ek. subst k. cbn [Nat.add] in *.
      assert (Hpr : producing t = true).
      { unfold in_first in Hsel. rewrite Eo in Hsel. cbn in Hsel. destruct (producing t); auto; discriminate. }
      rewrite Hpr in D. subst l. split; [exact A'|]. split; [both_tac|]. destruct Alt as [[_ Q]|[Q _]]; [|lia].
      exists 1. split; [lia|]. split; auto. left. cbn. auto.
    + destruct t; destruct (Nat.eqb_spec k (n - 2)) as [K|K]; auto.
      * subst l. split; [exact A'|]. split; [both_tac|]. apply (Both (at_ (k + 1)) (at_ k)); [right; auto|auto].
      * exfalso. unfold in_first in Hsel. rewrite even_odd in Hsel. cbn in Hsel.
        destruct (parity n) as [(h & Eh & Ho)|(h & Eh & Ho)]; destruct (parity k) as [(m & Em' & Hm)|(m & Em' & Hm)];
          rewrite Ho, Hm in Hsel; cbn in Hsel; try discriminate; lia.
  - exists s1. do 5 (split; [auto|]). intros s2 S2 L2. apply N1; auto.
Qed.

(** Both directions are the same seen from the near end. *)
Definition from_near (n : nat) (reverse : bool) (at_ : nat -> cell) : nat -> cell :=
  if reverse then fun k => at_ (n - 1 - k) else at_.
Definition half_ids (n : nat) (reverse : bool) (side1 side2 : option N) (at_ : nat -> cell) (c : cell) : option N :=
  if cell_eqb c (at_ (if Nat.odd n && negb reverse then 1 else 0)) then side2
  else if cell_eqb c (at_ (n - 1 - (if Nat.odd n && reverse then 1 else 0))) then side1
  else None.

Lemma link_act : forall t n reverse side1 side2 k1 k2 at_ k l, 2 <= n -> segment_path n at_ -> k + 1 < n ->
  link_does t n reverse side1 side2 k1 k2 at_ k l ->
  act_on t n (from_near n reverse at_) (half_ids n reverse side1 side2 at_) (if reverse then n - 2 - k else k) l.
Proof.
  intros t n reverse side1 side2 k1 k2 at_ k l Hn [Hinj _] Hk H.
  unfold link_does, act_on, from_near, move_link, far_link in *.
  assert (Flip : in_first t n reverse k = in_first t n false (if reverse then n - 2 - k else k)).
  { destruct reverse; auto. unfold in_first. rewrite !even_odd.
    destruct (parity n) as [(h & Eh & Ho)|(h & Eh & Ho)]; destruct (parity k) as [(m & Em & Hm)|(m & Em & Hm)];
      destruct (parity (n - 2 - k)) as [(q & Eq & Hq)|(q & Eq & Hq)]; rewrite Ho, Hm, Hq; cbn; auto; exfalso; lia. }
  assert (Ids : forall i j x y, t = LRPrep -> in_first t n reverse k = true ->
     not_move n reverse k ->
     either (at_ k) (at_ (k + 1)) x y -> x = at_ k -> prep_ids n reverse side1 side2 k i j ->
     i = half_ids n reverse side1 side2 at_ x /\ j = half_ids n reverse side1 side2 at_ y).
  { intros i j x y -> Hf Hm E -> [-> ->].
    assert (y = at_ (k + 1)).
    { destruct E as [[_ ->]|[E ->]]; auto. }
    subst y. unfold half_ids, in_first, not_move in *. cbn [producing] in Hf. rewrite even_odd in Hf.
    assert (Eq : forall a b, a < n -> b < n -> cell_eqb (at_ a) (at_ b) = (a =? b)).
    { intros a b Ha Hb. destruct (Nat.eqb_spec a b) as [->|Hab]; [apply cell_eqb_refl|].
      destruct (cell_eqb (at_ a) (at_ b)) eqn:E'; auto. apply cell_eqb_eq in E'. apply Hinj in E'; auto. contradiction. }
    destruct (parity n) as [(h & Eh & Ho)|(h & Eh & Ho)]; destruct (parity k) as [(m & Em & Hm')|(m & Em & Hm')];
      rewrite Ho, Hm' in *; destruct reverse; cbn [andb negb] in *; try discriminate; rewrite !Eq by lia;
      try specialize (Hm eq_refl);
      (split; [destruct (Nat.eqb_spec k 0), (Nat.eqb_spec k 1) || idtac|]);
      repeat match goal with |- context [Nat.eqb ?a ?b] => destruct (Nat.eqb_spec a b); try (exfalso; lia) end; auto. }
  assert (Move : match (if Nat.odd n then Some (if reverse then n - 2 else 0) else None) with
     | Some m => k =? m | None => false end = Nat.odd n && ((if reverse then n - 2 - k else k) =? 0)).
  { destruct (Nat.odd n); auto. cbn [andb]. destruct reverse; auto.
    destruct (Nat.eqb_spec k (n - 2)), (Nat.eqb_spec (n - 2 - k) 0); auto; lia. }
  assert (Far : (k =? (if reverse then 0 else n - 2)) = ((if reverse then n - 2 - k else k) =? n - 2)).
  { destruct reverse; auto. destruct (Nat.eqb_spec k 0), (Nat.eqb_spec (n - 2 - k) (n - 2)); auto; lia. }
  rewrite Move in H.
  destruct (Nat.odd n && ((if reverse then n - 2 - k else k) =? 0)) eqn:Em.
  - apply andb_true_iff in Em as [_ Em]. apply Nat.eqb_eq in Em. subst l.
    destruct reverse.
    + replace (n - 1 - 1) with k by lia. replace (n - 1 - 0) with (k + 1) by lia. auto.
    + subst k. auto.
  - rewrite Far in H.
    assert (Gen : (exists x y, either (at_ k) (at_ (k + 1)) x y
        /\ (if in_first t n reverse k
            then exists i j, l = LBellPrepare i j x y /\ ids_at side1 side2 k1 k2 k i j
                   /\ (t = LRPrep -> x = at_ k /\ prep_ids n reverse side1 side2 k i j)
            else l = LBellMeasure x y)) ->
      exists x y, either ((if reverse then fun k0 => at_ (n - 1 - k0) else at_) (if reverse then n - 2 - k else k))
                         ((if reverse then fun k0 => at_ (n - 1 - k0) else at_) ((if reverse then n - 2 - k else k) + 1)) x y
        /\ (if in_first t n false (if reverse then n - 2 - k else k)
            then exists i j, l = LBellPrepare i j x y
              /\ (t = LRPrep -> i = half_ids n reverse side1 side2 at_ x /\ j = half_ids n reverse side1 side2 at_ y)
            else l = LBellMeasure x y)).
    { intros (x & y & E & P). exists x, y. split.
      - destruct reverse; auto. replace (n - 1 - (n - 2 - k)) with (k + 1) by lia.
        replace (n - 1 - (n - 2 - k + 1)) with k by lia. unfold either in *. tauto.
      - rewrite <- Flip. destruct (in_first t n reverse k) eqn:Ef; auto. destruct P as (i & j & -> & _ & P).
        exists i, j. split; auto. intro Et. destruct (P Et) as [P1 P2]. apply Ids; auto.
        unfold not_move. intros Ho ->. rewrite Ho in Em. cbn [andb] in Em. apply Nat.eqb_neq in Em. destruct reverse; lia. }
    assert (Out : (if reverse then fun k0 => at_ (n - 1 - k0) else at_) ((if reverse then n - 2 - k else k) + 1)
                  = at_ (if reverse then k else k + 1)).
    { destruct reverse; auto. f_equal. lia. }
    assert (Inn : (if reverse then fun k0 => at_ (n - 1 - k0) else at_) (if reverse then n - 2 - k else k)
                  = at_ (if reverse then k + 1 else k)).
    { destruct reverse; auto. f_equal. lia. }
    destruct t; destruct ((if reverse then n - 2 - k else k) =? n - 2) eqn:Ef; auto; rewrite Out, Inn; auto.
Qed.

Lemma from_near_path : forall n reverse at_, segment_path n at_ -> segment_path n (from_near n reverse at_).
Proof.
  intros n [|] at_ [Hi Ha]; [|split; auto]. split; cbn [from_near].
  - intros i j Hi' Hj H. apply Hi in H; lia.
  - intros k Hk. specialize (Ha (n - 2 - k) ltac:(lia)). replace (n - 2 - k + 1) with (n - 1 - k) in Ha by lia.
    replace (n - 1 - (k + 1)) with (n - 2 - k) by lia. unfold adjacent in *. lia.
Qed.
Lemma from_near_ready : forall edpc s t n reverse at_, 2 <= n -> segment_ready edpc s t n reverse at_ ->
  segment_ready edpc s t n false (from_near n reverse at_).
Proof.
  intros edpc s t n [|] at_ Hn (H1 & H2 & H3); [|split; auto]. unfold segment_ready, near_end, far_end in *.
  cbn [from_near]. split; [intros k Hk Hk'; apply H1; lia|].
  rewrite Nat.sub_0_r, Nat.sub_diag. auto.
Qed.
Lemma on_links_near : forall t n reverse side1 side2 k1 k2 at_ (b : bool) ops, 2 <= n -> segment_path n at_ ->
  on_links (fun k => if b then in_first t n reverse k else negb (in_first t n reverse k))
    (link_does t n reverse side1 side2 k1 k2 at_) n ops ->
  on_links (fun k => if b then in_first t n false k else negb (in_first t n false k))
    (act_on t n (from_near n reverse at_) (half_ids n reverse side1 side2 at_)) n ops.
Proof.
  intros t n reverse side1 side2 k1 k2 at_ b ops Hn Hp (links & Hf & Hnd & Hin).
  set (m := fun k => if reverse then n - 2 - k else k).
  assert (Hlt : forall k, In k links -> k + 1 < n) by (intros k Hk; apply Hin in Hk; tauto).
  assert (Flip : forall k, k + 1 < n -> in_first t n reverse k = in_first t n false (m k)).
  { intros k Hk. unfold m. destruct reverse; auto. unfold in_first. rewrite !even_odd.
    destruct (parity n) as [(h & Eh & Ho)|(h & Eh & Ho)]; destruct (parity k) as [(q & Em & Hm)|(q & Em & Hm)];
      destruct (parity (n - 2 - k)) as [(r & Eq & Hq)|(r & Eq & Hq)]; rewrite Ho, Hm, Hq; cbn; auto; exfalso; lia. }
  exists (map m links). split; [|split].
  - clear Hnd Hin. induction Hf as [|k l links ops Hd Hf IH]; cbn [map]; constructor.
    + apply link_act with (k1 := k1) (k2 := k2); auto. apply Hlt. left; auto.
    + apply IH. intros k' Hk'. apply Hlt. right; auto.
  - clear Hf Hin. induction links as [|k links IH]; cbn [map]; constructor; inversion Hnd; subst.
    + intro Hi. apply in_map_iff in Hi as (k' & E & Hi). assert (k' = k); [|congruence].
      pose proof (Hlt k' (or_intror Hi)). pose proof (Hlt k (or_introl eq_refl)). unfold m in E. destruct reverse; lia.
    + apply IH; auto. intros k' Hk'. apply Hlt. right; auto.
  - intro k. rewrite in_map_iff. split.
    + intros (k' & <- & Hk'). apply Hin in Hk' as [Hk' Hs]. rewrite Flip in Hs by auto. split; auto.
      unfold m. destruct reverse; lia.
    + intros [Hk Hs]. exists (m k). assert (m k + 1 < n) by (unfold m; destruct reverse; lia).
      assert (m (m k) = k) by (unfold m; destruct reverse; lia).
      split; auto. apply Hin. split; auto. rewrite Flip by auto. rewrite H0. auto.
Qed.

Theorem segment_run : forall far e t n reverse side1 side2 k1 k2 at_ s la lb i j,
  2 <= n -> segment_path n at_ -> (forall k, k < n -> on_lattice far (at_ k)) -> sized far s ->
  segment_ready (e_edpc e) s t n reverse at_ ->
  on_links (in_first t n reverse) (link_does t n reverse side1 side2 k1 k2 at_) n la ->
  on_links (fun k => negb (in_first t n reverse k)) (link_does t n reverse side1 side2 k1 k2 at_) n lb ->
  exists s1, run_locals e s la i = Ok (s1, i + length la, true) /\ sized far s1 /\ rest_same s s1
    /\ (forall c, (forall k, k < n -> c <> at_ k) -> tile_at s1 c = tile_at s c)
    /\ (3 <= n -> forall j', lb <> [] -> run_locals e s1 lb j' = Ok (s1, j', false))
    /\ forall s2, sized far s2 -> (forall k, k < n -> later (tile_at s1 (at_ k)) (tile_at s2 (at_ k))) ->
       exists s3, run_locals e s2 lb j = Ok (s3, j + length lb, true) /\ sized far s3 /\ rest_same s2 s3
         /\ (forall c, (forall k, k < n -> c <> at_ k) -> tile_at s3 c = tile_at s2 c)
         /\ forall s4, (forall k, k < n -> later (tile_at s3 (at_ k)) (tile_at s4 (at_ k))) ->
            segment_done s s4 t n reverse side1 side2 at_.
Proof.
  intros far e t n reverse side1 side2 k1 k2 at_ s la lb i j Hn Hp Hon Hs Hr Hla Hlb.
  assert (Off : forall (P : cell -> Prop), (forall k, k < n -> P (at_ k)) <-> (forall k, k < n -> P (from_near n reverse at_ k))).
  { intro P. destruct reverse; [|tauto]. cbn [from_near]. split; intros H k Hk; [apply H; lia|].
    replace k with (n - 1 - (n - 1 - k)) by lia. apply H. lia. }
  destruct (forward_run far e t n (from_near n reverse at_) (half_ids n reverse side1 side2 at_) s la lb i j)
    as (s1 & E1 & S1 & R1 & F1 & W1 & H1); auto.
  - apply from_near_path; auto.
  - apply Off. auto.
  - apply from_near_ready; auto.
  - apply (on_links_near t n reverse side1 side2 k1 k2 at_ true); auto.
  - apply (on_links_near t n reverse side1 side2 k1 k2 at_ false); auto.
  - exists s1. do 3 (split; [auto|]). split.
    { intros c Hc. apply F1. apply (Off (fun x => c <> x)). auto. }
    split; auto.
    intros s2 S2 L2. destruct (H1 s2 S2) as (s3 & E3 & S3 & R3 & F3 & H3).
    { apply (Off (fun x => later (tile_at s1 x) (tile_at s2 x))). auto. }
    exists s3. do 3 (split; [auto|]). split.
    { intros c Hc. apply F3. apply (Off (fun x => c <> x)). auto. }
    intros s4 L4.
    assert (L4' : forall k, k < n -> later (tile_at s3 (from_near n reverse at_ k)) (tile_at s4 (from_near n reverse at_ k))).
    { apply (Off (fun x => later (tile_at s3 x) (tile_at s4 x))). auto. }
    pose proof (from_near_ready _ _ _ _ _ _ Hn Hr) as Hr'.
    set (a := from_near n reverse at_) in *.
    assert (In_ : forall k, 0 < k -> k + 1 < n -> tile_at s4 (a k) = None).
    { intros k H0 Hk. specialize (H3 k ltac:(lia)). specialize (L4' k ltac:(lia)). unfold T2 in H3.
      destruct (Nat.eqb_spec k 0); [lia|]. destruct (Nat.eqb_spec k (n - 1)); [lia|]. eapply later_gone; eauto. }
    pose proof (H3 0 ltac:(lia)) as Z3. pose proof (L4' 0 ltac:(lia)) as ZL.
    pose proof (H3 (n - 1) ltac:(lia)) as N3. pose proof (L4' (n - 1) ltac:(lia)) as NL.
    unfold T2 in Z3, N3. cbn [Nat.eqb] in Z3. destruct (Nat.eqb_spec (n - 1) 0); [lia|]. rewrite Nat.eqb_refl in N3.
    assert (Eq : forall x y, x < n -> y < n -> cell_eqb (at_ x) (at_ y) = (x =? y)).
    { intros x y Ha Hb. destruct (Nat.eqb_spec x y) as [->|Hab]; [apply cell_eqb_refl|].
      destruct (cell_eqb (at_ x) (at_ y)) eqn:E'; auto. apply cell_eqb_eq in E'. apply (proj1 Hp) in E'; auto. contradiction. }
    assert (Ids : t = LRPrep -> resting (if reverse then side1 else side2) (tile_at s4 (a 0))
              /\ resting (if reverse then side2 else side1) (tile_at s4 (a (n - 1)))).
    { intros ->. cbn [producing] in Z3.
      destruct (later_the_half _ _ _ _ _ Z3 ZL) as (i0 & R0 & I0). specialize (I0 eq_refl).
      destruct (later_the_half _ _ _ _ _ N3 NL) as (i1 & R1' & I1). specialize (I1 eq_refl).
      assert (i0 = (if reverse then side1 else side2) /\ i1 = (if reverse then side2 else side1)); [|destruct H as [Ha Hb]; rewrite <- Ha, <- Hb; split; assumption].
      subst i0 i1. unfold a, half_ids, from_near.
      destruct (parity n) as [(h & Eh & Ho)|(h & Eh & Ho)]; rewrite Ho; destruct reverse; cbn [andb negb]; rewrite !Eq by lia;
      (split;  repeat match goal with |- context [Nat.eqb ?a ?b] => destruct (Nat.eqb_spec a b); try (exfalso; lia) end; auto). }
    assert (Near : match t with LRPrep => True | LRMeasure | LRMerge => tile_at s4 (a 0) = None
                          | LRSplit => some_resting (tile_at s4 (a 0)) end).
    { destruct t; cbn [producing] in Z3; auto.
      - destruct Z3 as [Z3|Z3]; [exact (later_gone _ _ Z3 ZL)|rewrite Z3 in ZL; exact ZL].
      - destruct Z3 as [Z3|Z3]; [exact (later_gone _ _ Z3 ZL)|rewrite Z3 in ZL; exact ZL].
      - destruct (later_the_half _ _ _ _ _ Z3 ZL) as (i0 & R0 & _). exists i0; auto. }
    assert (Far : match t with LRPrep => True | LRMeasure => tile_at s4 (a (n - 1)) = None
                          | _ => tile_at s4 (a (n - 1)) = tile_at s (a (n - 1)) end).
    { destruct t; auto.
      - exact (later_gone _ _ N3 NL).
      - exact (later_kept _ _ _ _ N3 NL).
      - rewrite N3 in NL. destruct Hr' as (_ & _ & [p Hp']). eapply later_idle; eauto. }
    split.
    + intros k H0 Hk. unfold a in In_. destruct reverse; cbn [from_near] in In_; auto.
      replace k with (n - 1 - (n - 1 - k)) by lia. apply In_; lia.
    + unfold near_end, far_end. unfold a, from_near in *. destruct t, reverse; rewrite ?Nat.sub_0_r, ?Nat.sub_diag in *; auto; try tauto.
      all: split; auto; apply Ids; auto.
Qed.
