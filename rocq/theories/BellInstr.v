(** Bell pair and CNOT instructions along a route. *)
From Verif Require Import Base PatchesModel LayoutModel LayoutSpec InstrModel InstrSpec InstrProofs.
From Verif Require Import SliceModel SliceSpec SliceProofs SliceProps RouterModel RouterSpec RouterProofs.
From Verif Require Import ApplyModel ApplySpec ApplyProofs ApplyBell BellSpec BellProofs BellRun BellWhole BellCnot.
Open Scope nat_scope.

(** ** Routes as segments *)
Lemma consecutive_nth : forall A (R : A -> A -> Prop) d l k, consecutive R l -> k + 1 < length l -> R (nth k l d) (nth (k + 1) l d).
Proof.
  intros A R d l. induction l as [|a l IH]; intros k H Hk; [cbn in Hk; lia|]. destruct l as [|b l]; [cbn in Hk; lia|].
  destruct H as [H1 H2]. destruct k as [|k]; [exact H1|]. cbn [Nat.add nth]. apply (IH k H2). cbn [length] in *. lia.
Qed.
Lemma usable_claimable : forall edpc s c, usable edpc s c -> claimable edpc s c.
Proof.
  intros edpc s c H. unfold usable in H. destruct (tile_at s c) as [p|] eqn:E; [right|left; auto].
  destruct H as [H1 H2]. split; auto. exists p. auto.
Qed.
Lemma list_path : forall l, NoDup l -> consecutive adjacent l -> segment_path (length l) (seg l 0).
Proof.
  intros l N C. split.
  - intros i j Hi Hj E. unfold seg in E. cbn [Nat.add] in E. eapply NoDup_nth in E; eauto.
  - intros k Hk. unfold seg. cbn [Nat.add]. apply consecutive_nth; auto.
Qed.
Lemma consecutive_part : forall A (R : A -> A -> Prop) a l b, consecutive R (a :: l ++ [b]) -> consecutive R l.
Proof.
  intros A R a l b H. assert (C : forall l b, consecutive R (l ++ [b]) -> consecutive R l).
  { clear. induction l as [|x l IH]; intros b H; [exact I|]. destruct l as [|y l]; [exact I|]. destruct H as [H1 H2]. split; eauto. }
  destruct l as [|x l]; [exact I|]. destruct H as [_ H]. eapply C; eauto.
Qed.

Lemma route_whole : forall edpc L s src sop tgt top cells, is_route edpc L s src sop tgt top cells -> src <> tgt ->
  let all := tgt :: map sc_cell cells ++ [src] in
  segment_path (length all) (seg all 0).
Proof.
  intros edpc L s src sop tgt top cells ((Hc & _) & Hn & Hs & Ht & _ & _) Hne all.
  rewrite <- in_rev in Hs, Ht. apply list_path.
  - unfold all. constructor.
    + rewrite in_app_iff. cbn. intuition.
    + apply NoDup_app_intro; [rewrite <- (rev_involutive (map _ _)); apply NoDup_rev; auto|constructor; [intros []|constructor]|].
      intros x Hx [<-|[]]. auto.
  - replace all with (rev (src :: rev (map sc_cell cells) ++ [tgt])).
    + apply consecutive_rev. eapply consecutive_impl; [|exact Hc]. intros a b _ _ [A _]. apply adjacent_sym. auto.
    + cbn [rev]. rewrite rev_app_distr, rev_involutive. reflexivity.
Qed.
Lemma route_inner : forall edpc L s src sop tgt top cells, is_route edpc L s src sop tgt top cells ->
  let l := map sc_cell cells in
  segment_path (length l) (seg l 0)
  /\ forall k, k < length l -> claimable edpc s (seg l 0 k) /\ on_lattice (l_furthest L) (seg l 0 k).
Proof.
  intros edpc L s src sop tgt top cells ((Hc & Ho) & Hn & Hs & Ht & Hu & _) l. split.
  - apply list_path.
    + unfold l. rewrite <- (rev_involutive (map _ _)). apply NoDup_rev. auto.
    + unfold l. rewrite <- (rev_involutive (map _ _)). apply consecutive_rev.
      apply consecutive_part in Hc. eapply consecutive_impl; [|exact Hc]. intros a b _ _ [A _]. apply adjacent_sym. auto.
  - intros k Hk. assert (Hi : In (seg l 0 k) (rev l)) by (rewrite <- in_rev; apply nth_In; auto). split.
    + apply usable_claimable. rewrite Forall_forall in Hu. apply Hu. exact Hi.
    + rewrite Forall_forall in Ho. apply Ho. exact Hi.
Qed.

(** ** From slice to slice *)
Lemma later_advance : forall L s s' c, layout_wf L -> sized (l_furthest L) s -> length (s_timers s) = length (l_times L) ->
  advance_slice L s = Ok s' -> ~ In c (l_reserved L) -> (forall q, In q (l_queues L) -> ~ In c q) ->
  later (tile_at s c) (tile_at s' c).
Proof.
  intros L s s' c W Hs Hl E Hr Hq.
  assert (V : vacated s c -> tile_at s' c = None).
  { intro V. destruct (C34_vacated L s s' c W Hs Hl E V) as [[H _]|[(_ & _ & [H|(q & H1 & H2)])|[_ H]]]; auto; try contradiction.
    exfalso. eapply Hq; eauto. }
  destruct (C34_survivors L s W Hs Hl) as (s1 & E1 & _ & _ & _ & H). assert (s1 = s') by congruence. subst s1.
  destruct (tile_at s c) as [p|] eqn:T; cbn [later].
  - assert (D : consumed (p_act (dp p)) \/ ~ consumed (p_act (dp p))).
    { unfold consumed. destruct (p_act (dp p)); intuition discriminate. }
    destruct D as [D|D]; [left|right]; split; auto. apply V. right. eauto.
  - apply V. left. auto.
Qed.

(** ** Running one instruction *)
Lemma run_app : forall e la lb s i s1 k, run_locals e s la i = Ok (s1, k, true) ->
  run_locals e s (la ++ lb) i = run_locals e s1 lb k.
Proof.
  intros e la. induction la as [|l la IH]; intros lb s i s1 k H; cbn [run_locals app] in *.
  - injection H as -> ->. reflexivity.
  - destruct (try_local e s l) as [[s' []]| | |]; cbn [bind] in *; try discriminate. auto.
Qed.
Lemma skipn_len : forall A (a b : list A), skipn (length a) (a ++ b) = b.
Proof. intros A a b. induction a; cbn; auto. Qed.

Lemma bell_pair_run : forall L e w wt cl s1 s2 l1 l2 loc reg cache a b,
  let s := w_slice w in let far := l_furthest L in
  e_local e = true -> sized far s ->
  has_patch s (pnt_target l1) = true -> has_patch s (pnt_target l2) = true ->
  e_route e (w_cache w) s (pnt_target l1) (pnt_op l1) (pnt_target l2) (pnt_op l2) = Ok (Some reg, cache) ->
  is_route (e_edpc e) L s a (pnt_op l1) b (pnt_op l2) (rg_cells reg) -> 2 <= length (rg_cells reg) ->
  let n := length (rg_cells reg) in
  let at_ := seg (map sc_cell (rg_cells reg)) 0 in
  exists a1, try_apply e w (mkI (BellInit s1 s2 l1 l2 loc None) wt cl) = Ok a1 /\ a_error a1 = false
    /\ sized far (w_slice (a_world a1)) /\ rest_same s (w_slice (a_world a1))
    /\ (forall c, (forall k, k < n -> c <> at_ k) -> tile_at (w_slice (a_world a1)) c = tile_at s c)
    /\ (n = 2 -> a_follow a1 = []
          /\ forall s4, (forall k, k < n -> later (tile_at (w_slice (a_world a1)) (at_ k)) (tile_at s4 (at_ k))) ->
             segment_done s s4 LRPrep n false (Some s1) (Some s2) at_)
    /\ (3 <= n -> exists i2, a_follow a1 = [i2] /\ wait i2 = wt /\ clients i2 = cl
          /\ forall w2, sized far (w_slice w2) ->
             has_patch (w_slice w2) (pnt_target l1) = true -> has_patch (w_slice w2) (pnt_target l2) = true ->
             (forall k, k < n -> later (tile_at (w_slice (a_world a1)) (at_ k)) (tile_at (w_slice w2) (at_ k))) ->
             exists a2, try_apply e w2 i2 = Ok a2 /\ a_error a2 = false /\ a_follow a2 = []
               /\ sized far (w_slice (a_world a2)) /\ rest_same (w_slice w2) (w_slice (a_world a2))
               /\ (forall c, (forall k, k < n -> c <> at_ k) -> tile_at (w_slice (a_world a2)) c = tile_at (w_slice w2) c)
               /\ forall s4, (forall k, k < n -> later (tile_at (w_slice (a_world a2)) (at_ k)) (tile_at s4 (at_ k))) ->
                  segment_done s s4 LRPrep n false (Some s1) (Some s2) at_).
Proof.
  intros L e w wt cl s1 s2 l1 l2 loc reg cache a b s far Hloc Hs P1 P2 Er Hr Hn n at_.
  destruct (route_inner _ _ _ _ _ _ _ _ Hr) as [Hp Hk].
  set (route := map sc_cell (rg_cells reg)) in *.
  assert (Ln : length route = n) by apply map_length. rewrite Ln in Hp, Hk. fold at_ in Hp, Hk.
  destruct (compile_shape LRPrep ([], []) route 0 (n - 1) false (Some s1) (Some s2)) as (la & lb & Ec & Ha & Hb); [lia|].
  replace (n - 1 - 0 + 1) with n in Ha, Hb by lia. cbn [fst snd app] in Ec.
  assert (Rd : segment_ready (e_edpc e) s LRPrep n false at_).
  { split; [|split]; [intros k K1 K2|..]; cbn; apply Hk; unfold near_end, far_end; lia. }
  assert (On : forall k, k < n -> on_lattice far (at_ k)) by (intros; apply Hk; auto).
  destruct (segment_run far e LRPrep n false (Some s1) (Some s2) _ _ at_ s la lb 0 (length la) Hn Hp On Hs Rd Ha Hb)
    as (t1 & R1 & S1 & Q1 & F1 & W1 & N1).
  cbn [try_apply op wait clients]. unfold apply_bell_init. fold s. rewrite Hloc, P1, P2. cbn [negb].
  rewrite Er. cbn [bind w_cache]. fold n. destruct (Nat.ltb_spec n 2); [lia|]. fold route. rewrite Ec. cbn [bind value_ skipn w_slice].
  rewrite (run_app _ _ _ _ _ _ _ R1).
  assert (Empty : n = 2 -> lb = []).
  { intro N2. destruct Hb as (links & F & _ & I). destruct F as [|k x links lb D F]; auto. exfalso.
    destruct (proj1 (I k) (or_introl eq_refl)) as [K1 K2]. assert (k = 0) by lia. subst k. rewrite N2 in K2. cbn in K2. discriminate. }
  assert (NonEmpty : 3 <= n -> lb <> []).
  { intros N3 ->. destruct Hb as (links & F & _ & I). inversion F; subst links.
    assert (X : exists k, k + 1 < n /\ negb (in_first LRPrep n false k) = true).
    { destruct (in_first LRPrep n false 0) eqn:E0.
      - exists 1. split; [lia|]. pose proof (in_first_alt LRPrep n 0) as Q. cbn [Nat.add] in Q. rewrite Q, E0. reflexivity.
      - exists 0. split; [lia|]. rewrite E0. reflexivity. }
    destruct X as (k & X). apply I in X. contradiction. }
  destruct (Nat.eq_dec n 2) as [N2|N2].
  - pose proof (Empty N2) as El. rewrite El in *. cbn [run_locals bind].
    eexists. split; [reflexivity|]. cbn [a_error a_world a_follow w_slice with_slice].
    do 4 (split; [auto|]). split; [|lia]. intros _. split; auto. intros s4 L4.
    assert (Er2 : exists x y, route = [x; y]).
    { assert (X : forall l : list cell, length l = 2 -> exists x y, l = [x; y]).
      { intros [|x [|y [|z l]]] E; try discriminate. eauto. }
      apply X. congruence. }
    destruct Er2 as (x & y & Er2).
    assert (Ela : la = [LBellPrepare (Some s2) (Some s1) x y]).
    { rewrite Er2, N2 in Ec. cbn in Ec. injection Ec as <-. reflexivity. }
    assert (Ax : at_ 0 = x /\ at_ 1 = y) by (unfold at_; rewrite Er2; auto). destruct Ax as [Ax Ay].
    assert (Adj : adjacent x y) by (rewrite <- Ax, <- Ay; apply (proj2 Hp 0); lia).
    destruct (eff_prepare (e_edpc e) s (Some s2) (Some s1) x y Adj) as (u & U & V1 & V2).
    { rewrite <- Ax. apply Hk. lia. }
    { rewrite <- Ay. apply Hk. lia. }
    rewrite Ela in R1. cbn [run_locals] in R1. destruct (try_local e s (LBellPrepare (Some s2) (Some s1) x y)) as [[t []]| | |] eqn:Et;
      cbn [bind] in R1; try discriminate. injection R1 as ->.
    destruct (try_local_spec far _ _ _ _ _ Hs Et) as (_ & _ & u' & U' & B).
    assert (u' = u) by (eapply local_effect_det; eauto). subst u'.
    split; [intros; lia|].
    pose proof (L4 0 ltac:(lia)) as L0. pose proof (L4 1 ltac:(lia)) as L1. replace (n - 1) with 1 by lia.
    rewrite (becomes_tile _ _ _ _ B) in L0. rewrite (becomes_tile _ _ _ _ B) in L1. rewrite Ax in L0. rewrite Ay in L1. rewrite Ax, Ay. split; eapply later_half; eauto.
  - assert (N3 : 3 <= n) by lia. rewrite (W1 N3 _ (NonEmpty N3)). cbn [bind].
    eexists. split; [reflexivity|]. cbn [a_error a_world a_follow w_slice with_slice].
    do 4 (split; [auto|]). split; [lia|]. intros _. eexists. split; [reflexivity|]. split; auto. split; auto.
    intros w2 S2 P1' P2' L2. destruct (N1 (w_slice w2) S2 L2) as (t3 & R3 & S3 & Q3 & F3 & D3).
    cbn [try_apply op wait clients]. unfold apply_bell_init. rewrite Hloc, P1', P2'. cbn [negb bind value_].
    cbn [Nat.add]. rewrite skipn_len, R3. cbn [bind].
    eexists. split; [reflexivity|]. cbn [a_error a_world a_follow w_slice with_slice]. auto 10.
Qed.

Lemma cnot_instr_run : forall L e w wt cl c t s1 s2 route sets phase reg cache a b,
  let s := w_slice w in let far := l_furthest L in
  e_local e = true -> e_edpc e = false -> sized far s -> c <> t ->
  get_cell_by_id s c = Some a -> get_cell_by_id s t = Some b ->
  (exists p, idle s a p) -> (exists p, idle s b p) ->
  e_route e (w_cache w) s c PZ t PX = Ok (Some reg, cache) ->
  is_route false L s a PZ b PX (rg_cells reg) -> 2 <= length (rg_cells reg) ->
  let n := length (rg_cells reg) + 2 in
  let at_ := seg (b :: map sc_cell (rg_cells reg) ++ [a]) 0 in
  exists a1, try_apply e w (mkI (BellCNOT c t s1 s2 route None sets phase) wt cl) = Ok a1 /\ a_error a1 = false
    /\ sized far (w_slice (a_world a1)) /\ rest_same s (w_slice (a_world a1))
    /\ (forall x, (forall k, k < n -> x <> at_ k) -> tile_at (w_slice (a_world a1)) x = tile_at s x)
    /\ (forall s2, sized far s2 ->
          (forall k, k < n -> later (tile_at (w_slice (a_world a1)) (at_ k)) (tile_at s2 (at_ k))) ->
          tile_at s2 a = tile_at s a /\ tile_at s2 b = tile_at s b)
    /\ exists i2, a_follow a1 = [i2] /\ wait i2 = wt /\ clients i2 = cl
       /\ forall w2, sized far (w_slice w2) ->
          get_cell_by_id (w_slice w2) c = Some a -> get_cell_by_id (w_slice w2) t = Some b ->
          (forall k, k < n -> later (tile_at (w_slice (a_world a1)) (at_ k)) (tile_at (w_slice w2) (at_ k))) ->
          exists a2, try_apply e w2 i2 = Ok a2 /\ a_error a2 = false /\ a_follow a2 = []
            /\ sized far (w_slice (a_world a2)) /\ rest_same (w_slice w2) (w_slice (a_world a2))
            /\ (forall x, (forall k, k < n -> x <> at_ k) -> tile_at (w_slice (a_world a2)) x = tile_at (w_slice w2) x)
            /\ forall s4, (forall k, k < n -> later (tile_at (w_slice (a_world a2)) (at_ k)) (tile_at s4 (at_ k))) ->
               cnot_done s s4 n at_.
Proof.
  intros L e w wt cl c t s1 s2 route sets phase reg cache a b s far Hloc He Hs Hct Ga Gb [pa Ia] [pb Ib] Er Hr Hn n at_.
  destruct (get_cell_by_id_Some far s c a Hs Ga) as ((qa & Ta & Da) & Oa & Pa).
  destruct (get_cell_by_id_Some far s t b Hs Gb) as ((qb & Tb & Db) & Ob & Pb).
  assert (Hab : a <> b). { intro E. subst b. rewrite Ta in Tb. injection Tb as <-. congruence. }
  pose proof (route_whole _ _ _ _ _ _ _ _ Hr Hab) as Hp. destruct (route_inner _ _ _ _ _ _ _ _ Hr) as [_ Hk].
  set (cells := map sc_cell (rg_cells reg)) in *. set (all := b :: cells ++ [a]) in *.
  assert (Ll : length cells = length (rg_cells reg)) by apply map_length.
  assert (Ln : length all = n) by (unfold all; cbn [length]; rewrite app_length; cbn [length]; unfold n; lia).
  cbv zeta in Hp. rewrite Ln in Hp. fold at_ in Hp.
  assert (A0 : at_ 0 = b) by reflexivity.
  assert (An : at_ (n - 1) = a).
  { unfold at_, seg, all. cbn [Nat.add]. replace (n - 1) with (S (length cells)) by (unfold n; lia). cbn [nth].
    rewrite app_nth2, Nat.sub_diag by lia. reflexivity. }
  assert (Ai : forall k, 0 < k -> k + 1 < n -> at_ k = seg cells 0 (k - 1) /\ k - 1 < length cells).
  { intros k K1 K2. unfold n in K2. split; [|lia]. unfold at_, seg, all. destruct k as [|k]; [lia|]. cbn [Nat.add nth].
    rewrite app_nth1 by lia. rewrite Nat.sub_succ, Nat.sub_0_r. reflexivity. }
  assert (On : forall k, k < n -> on_lattice far (at_ k)).
  { intros k K. destruct (Nat.eq_dec k 0) as [->|K0]; [rewrite A0; auto|].
    destruct (Nat.eq_dec k (n - 1)) as [->|K1]; [rewrite An; auto|].
    destruct (Ai k ltac:(lia) ltac:(lia)) as [-> Hk']. apply Hk. auto. }
  assert (Rd : cnot_ready (e_edpc e) s n at_).
  { split; [|split].
    - intros k K1 K2. destruct (Ai k K1 K2) as [-> Hk']. rewrite He. apply Hk. auto.
    - rewrite A0. eauto.
    - rewrite An. eauto. }
  destruct (cnot_shape all s1 s2) as (la & lb & Ec & Ha & Hb); [rewrite Ln; unfold n; lia|]. rewrite Ln in Ha, Hb. fold at_ in Ha, Hb.
  destruct (cnot_run far e n s1 s2 _ _ at_ s la lb 0 (length la) ltac:(unfold n; lia) Hp On Hs Rd Ha Hb)
    as (t1 & R1 & S1 & Q1 & F1 & W1 & N0 & N1).
  assert (Act : forall s' id x p, sized far s' -> get_cell_by_id s' id = Some x -> idle s' x p ->
     exists q, get_patch_by_id s' id = Some q /\ dp_is_active q = false).
  { intros s' id x p Hs' G I. destruct (get_cell_by_id_Some far s' id x Hs' G) as (_ & _ & E). exists p. split; [rewrite E; apply I|].
    apply (is_active_idle s' x p); [apply I|auto]. }
  assert (NonEmpty : lb <> []).
  { intros ->. destruct Hb as (links & F & _ & I). inversion F; subst links.
    assert (X : 0 + 1 < n /\ negb (Nat.odd 0) = true) by (split; [unfold n; lia|reflexivity]). apply I in X. contradiction. }
  cbn [try_apply op wait clients]. unfold apply_cnot. fold s. rewrite Hloc, He. cbn [negb].
  destruct (Act s c a pa Hs Ga Ia) as (xa & -> & ->). destruct (Act s t b pb Hs Gb Ib) as (xb & -> & ->).
  unfold cnot_plain. fold s. rewrite Er. cbn [bind]. destruct (Nat.ltb_spec (length (rg_cells reg)) 2); [lia|].
  rewrite Ga, Gb. cbn [value_ bind with_ends rg_cells map sc_cell]. rewrite map_app. cbn [map sc_cell]. fold cells. fold all.
  rewrite Ec. cbn [bind]. unfold cnot_locals. cbn [idx nth_error bind value_ snd skipn w_slice].
  rewrite (run_app _ _ _ _ _ _ _ R1). rewrite (W1 ltac:(unfold n; lia) _ NonEmpty). cbn [bind].
  eexists. split; [reflexivity|]. cbn [a_error a_world a_follow w_slice with_slice].
  do 4 (split; [auto|]). split.
  { intros s0 S0 L0. destruct (N0 s0 S0 L0) as [Z0 Z1]. rewrite A0 in Z0. rewrite An in Z1. auto. }
  eexists. split; [reflexivity|]. split; auto. split; auto.
  intros w2 S2 Ga' Gb' L2. destruct (N1 (w_slice w2) S2 L2) as (t3 & R3 & S3 & Q3 & F3 & D3).
  (* the ends are idle again *)
  assert (I2 : exists p q, idle (w_slice w2) a p /\ idle (w_slice w2) b q).
  { destruct (N0 (w_slice w2) S2 L2) as [Z0 Z1]. rewrite A0 in Z0. rewrite An in Z1.
    exists pa, pb. destruct Ia as (X1 & X2), Ib as (Y1 & Y2). split; (split; [congruence|auto]). }
  destruct I2 as (p2 & q2 & Ia2 & Ib2).
  unfold cnot_op. cbn [try_apply op wait clients]. unfold apply_cnot. rewrite Hloc, He. cbn [negb].
  destruct (Act _ c a p2 S2 Ga' Ia2) as (ya & -> & ->). destruct (Act _ t b q2 S2 Gb' Ib2) as (yb & -> & ->).
  unfold cnot_plain, cnot_locals. cbn [idx nth_error bind value_ snd set_row Nat.add].
  rewrite skipn_len, R3. cbn [bind].
  eexists. split; [reflexivity|]. cbn [a_error a_world a_follow w_slice with_slice]. auto 10.
Qed.
