(** CNOTs by Bell pairs, from beginning to end. *)
From Verif Require Import Base PatchesModel LayoutModel LayoutSpec InstrModel InstrSpec InstrProofs.
From Verif Require Import SliceModel SliceSpec SliceProofs RouterModel RouterSpec.
From Verif Require Import ApplyModel ApplySpec ApplyProofs ApplyBell BellSpec BellProofs BellRun BellWhole.
Open Scope nat_scope.

Lemma covers_app : forall (does : nat -> local_instr -> Prop) (P Q : nat -> Prop) a b,
  covers does P a -> covers does Q b -> (forall k, P k -> ~ Q k) -> covers does (fun k => P k \/ Q k) (a ++ b).
Proof.
  intros does P Q a b (la & Fa & Na & Ia) (lb & Fb & Nb & Ib) H. exists (la ++ lb). split; [apply Forall2_app; auto|]. split.
  - apply NoDup_app_intro; auto. intros k Hk Hk'. apply Ia in Hk. apply Ib in Hk'. eapply H; eauto.
  - intro k. rewrite in_app_iff, Ia, Ib. tauto.
Qed.
Lemma covers_shift : forall (does does' : nat -> local_instr -> Prop) sel n start ops, on_links sel does n ops ->
  (forall k l, k + 1 < n -> sel k = true -> does k l -> does' (start + k) l) ->
  covers does' (fun k => start <= k /\ k - start + 1 < n /\ sel (k - start) = true) ops.
Proof.
  intros does does' sel n start ops (links & F & N & I) H. exists (map (fun k => start + k) links). split; [|split].
  - assert (G : forall k, In k links -> k + 1 < n /\ sel k = true) by (intro; apply I). clear I N.
    induction F as [|k l links ops D F IH]; cbn [map]; constructor.
    + destruct (G k (or_introl eq_refl)). apply H; auto.
    + apply IH. intros. apply G. right; auto.
  - apply FinFun.Injective_map_NoDup; auto. intros x y E. lia.
  - intro k. rewrite in_map_iff. split.
    + intros (k' & <- & Hk). apply I in Hk. replace (start + k' - start) with k' by lia. split; [lia|auto].
    + intros (H1 & H2 & H3). exists (k - start). split; [lia|]. apply I. auto.
Qed.
Lemma covers_links : forall does (P : nat -> Prop) sel n ops, covers does P ops ->
  (forall k, P k <-> k + 1 < n /\ sel k = true) -> on_links sel does n ops.
Proof. intros does P sel n ops (links & F & N & I) H. exists links. split; auto. split; auto. intro k. rewrite I. auto. Qed.

Definition cnot_k1 (n : nat) : nat := if Nat.odd n then n - 4 else n - 3.
Lemma odd_iff : forall k, Nat.odd k = true <-> k mod 2 = 1.
Proof. intro k. destruct (parity k) as [(m & E & ->)|(m & E & ->)]; split; intros; try discriminate; try lia; auto. Qed.
Lemma even_iff : forall k, Nat.even k = true <-> k mod 2 = 0.
Proof. intro k. rewrite even_odd. destruct (parity k) as [(m & E & ->)|(m & E & ->)]; cbn [negb]; split; intros; try discriminate; try lia; auto. Qed.

Lemma in_first_mod : forall t n reverse k, in_first t n reverse k = true <->
  (k + (if Nat.odd n && negb reverse then 1 else 0) + (if producing t then 0 else 1)) mod 2 = 0.
Proof.
  intros t n reverse k. unfold in_first. rewrite even_odd.
  assert (M : Nat.odd k = true /\ k mod 2 = 1 \/ Nat.odd k = false /\ k mod 2 = 0).
  { destruct (parity k) as [(m & E & ->)|(m & E & ->)]; [right|left]; split; auto; lia. }
  destruct M as [[-> M]|[-> M]]; destruct (Nat.odd n && negb reverse), (producing t); cbn [negb];
    split; intro; try discriminate; try reflexivity; try (exfalso; lia); lia.
Qed.

Lemma piece : forall (does : nat -> local_instr -> Prop) t l route start stop reverse i1 i2, start < stop < length route ->
  let n := stop - start + 1 in
  let q := (if Nat.odd n && negb reverse then 1 else 0) + (if producing t then 0 else 1) in
  (forall k x, start + k < stop -> link_does t n reverse i1 i2 (pos1 t n reverse) (pos2 t n reverse) (seg route start) k x ->
     does (start + k) x) ->
  exists la lb, compile_bell t l route start stop reverse i1 i2 = Ok (fst l ++ la, snd l ++ lb)
    /\ covers does (fun k => start <= k < stop /\ (k - start + q) mod 2 = 0) la
    /\ covers does (fun k => start <= k < stop /\ (k - start + q) mod 2 = 1) lb.
Proof.
  intros does t l route start stop reverse i1 i2 H n q Hd.
  destruct (compile_shape t l route start stop reverse i1 i2 H) as (la & lb & E & A & B).
  exists la, lb. split; auto. split.
  - eapply covers_ext; [apply (covers_shift _ does _ _ start _ A)|].
    + intros k x Hk _ D. apply Hd; auto. lia.
    + intro k. cbn beta. rewrite in_first_mod. fold n. unfold q. lia.
  - eapply covers_ext; [apply (covers_shift _ does _ _ start _ B)|].
    + intros k x Hk _ D. apply Hd; auto. lia.
    + intro k. cbn beta. rewrite negb_true_iff.
      assert (X : in_first t n reverse (k - start) = false <-> (k - start + q) mod 2 = 1).
      { pose proof (in_first_mod t n reverse (k - start)) as M. unfold q. rewrite Nat.add_assoc.
        destruct (in_first t n reverse (k - start)); split; intros; try discriminate; auto.
        - pose proof (proj1 M eq_refl). lia.
        - assert (~ ((k - start + (if Nat.odd n && negb reverse then 1 else 0) + (if producing t then 0 else 1)) mod 2 = 0))
            by (intro Q; apply M in Q; discriminate). lia. }
      fold n. rewrite X. unfold n. lia.
Qed.

Lemma cnot_shape : forall route side1 side2, 4 <= length route ->
  let n := length route in
  let does := cnot_link side1 side2 (cnot_k1 n) 1 n (seg route 0) in
  exists la lb, compile_cnot ([], []) route side1 side2 = Ok (la, lb)
    /\ on_links Nat.odd does n la /\ on_links (fun k => negb (Nat.odd k)) does n lb.
Proof.
  intros route side1 side2 H n does. unfold compile_cnot. fold n. rewrite even_odd.
  assert (Sg : forall a k, seg route a k = seg route 0 (a + k)) by reflexivity.
  assert (Fin : forall (P : nat -> Prop) ops (b : bool), covers does P ops ->
     (forall k, P k <-> k + 1 < n /\ k mod 2 = if b then 1 else 0) ->
     on_links (fun k => if b then Nat.odd k else negb (Nat.odd k)) does n ops).
  { intros P ops b C E. eapply covers_links; eauto. intro k. rewrite E. destruct b; [rewrite odd_iff; tauto|].
    rewrite <- even_odd, even_iff. tauto. }
  assert (Inner : forall a k i j x y, 0 < a + k -> a + k < n - 2 -> (a + k) mod 2 = 1 ->
     either (seg route a k) (seg route a (k + 1)) x y ->
     ids_at (Some side1) (Some side2) (cnot_k1 n) 1 (a + k) i j -> does (a + k) (LBellPrepare i j x y)).
  { intros a k i j x y K1 K2 K3 E I. unfold does, cnot_link. destruct (Nat.eqb_spec (a + k) 0); [lia|].
    destruct (Nat.eqb_spec (a + k) (n - 2)); [lia|]. rewrite (proj2 (odd_iff _) K3). exists x, y.
    rewrite !(Sg a) in E. rewrite <- Nat.add_assoc. split; auto. exists i, j. auto. }
  assert (InnerM : forall a k x y, 0 < a + k -> a + k < n - 2 -> (a + k) mod 2 = 0 ->
     either (seg route a k) (seg route a (k + 1)) x y -> does (a + k) (LBellMeasure x y)).
  { intros a k x y K1 K2 K3 E. unfold does, cnot_link. destruct (Nat.eqb_spec (a + k) 0); [lia|].
    destruct (Nat.eqb_spec (a + k) (n - 2)); [lia|]. destruct (Nat.odd (a + k)) eqn:O; [apply odd_iff in O; lia|]. exists x, y.
    rewrite !(Sg a) in E. rewrite <- Nat.add_assoc. split; auto. }
  assert (Shift : forall a i j k k1 k2 k1' k2', ids_at (Some side1) (Some side2) k1 k2 k i j ->
     (k = k1 -> a + k = k1') -> (k = k2 -> a + k = k2') ->
     ids_at (Some side1) (Some side2) k1' k2' (a + k) i j).
  { unfold ids_at. intros a i j k k1 k2 k1' k2' I E1 E2.
    destruct I as [[[I1|[I1 Q1]] [I2|[I2 Q2]]]|(I1 & Q1 & I2)]; auto 10. }
  destruct (parity n) as [(h & Eh & Ho)|(h & Eh & Ho)]; rewrite Ho; cbn [negb].
  - (* even *)
    destruct (piece does LRMerge ([], []) route (n - 2) (n - 1) false None None) as (a1 & b1 & E1 & A1 & B1); [fold n; lia| |].
    { replace (n - 1 - (n - 2) + 1) with 2 by lia. intros k x Hk D. assert (k = 0) by lia. subst k. cbn in D.
      unfold does, cnot_link. destruct (Nat.eqb_spec (n - 2 + 0) 0); [lia|]. rewrite Nat.add_0_r, Nat.eqb_refl, even_odd, Ho.
      rewrite !(Sg (n - 2)), Nat.add_0_r in D. replace (n - 2 + 1) with (n - 1) in D by lia. exact D. }
    rewrite E1. cbn [bind]. clear E1.
    match goal with |- context [compile_bell LRMerge ?l _ _ _ _ _ _] =>
      destruct (piece does LRMerge l route 0 1 true None None) as (a2 & b2 & E2 & A2 & B2); [fold n; lia| |] end.
    { intros k x Hk D. assert (k = 0) by lia. subst k. exact D. }
    rewrite E2. cbn [bind]. clear E2.
    assert (On : Nat.odd (n - 2) = false) by (destruct (Nat.odd (n - 2)) eqn:E; auto; apply odd_iff in E; lia).
    match goal with |- context [compile_bell LRPrep ?l _ _ _ _ _ _] =>
      destruct (piece does LRPrep l route 1 (n - 2) true (Some side1) (Some side2)) as (a3 & b3 & E3 & A3 & B3); [fold n; lia| |] end.
    { replace (n - 2 - 1 + 1) with (n - 2) by lia. intros k x Hk D. unfold link_does, move_link in D. rewrite On in D.
      destruct D as (c & d & E & D). pose proof (in_first_mod LRPrep (n - 2) true k) as M. rewrite On in M. cbn [andb negb producing] in M.
      destruct (in_first LRPrep (n - 2) true k).
      - destruct D as (i & j & -> & I & _). pose proof (proj1 M eq_refl). apply Inner; auto; try lia.
        apply (Shift 1 i j k _ _ _ _ I); unfold pos1, pos2, odd1, cnot_k1; rewrite ?On, ?Ho; lia.
      - subst x. apply InnerM; auto; try lia. }
    rewrite E3. clear E3. replace (n - 2 - 1 + 1) with (n - 2) in A3, B3 by lia. replace (n - 1 - (n - 2) + 1) with 2 in A1, B1 by lia.
    rewrite On in A3, B3. cbn [Nat.odd Nat.even negb andb producing Nat.sub Nat.add] in A1, A2, A3, B1, B2, B3.
    do 2 eexists. split; [reflexivity|]. cbn [fst snd app]. split.
    + apply (Fin _ _ true (covers_app _ _ _ _ _ (covers_app _ _ _ _ _ A1 A2 ltac:(cbn beta; intros; lia)) A3 ltac:(cbn beta; intros; lia))).
      intro k. cbn beta. lia.
    + apply (Fin _ _ false (covers_app _ _ _ _ _ (covers_app _ _ _ _ _ B1 B2 ltac:(cbn beta; intros; lia)) B3 ltac:(cbn beta; intros; lia))).
      intro k. cbn beta. lia.
  - (* odd *)
    destruct (piece does LRSplit ([], []) route (n - 2) (n - 1) false None None) as (a1 & b1 & E1 & A1 & B1); [fold n; lia| |].
    { replace (n - 1 - (n - 2) + 1) with 2 by lia. intros k x Hk D. assert (k = 0) by lia. subst k. cbn in D.
      unfold does, cnot_link. destruct (Nat.eqb_spec (n - 2 + 0) 0); [lia|]. rewrite Nat.add_0_r, Nat.eqb_refl, even_odd, Ho.
      rewrite !(Sg (n - 2)), Nat.add_0_r in D. replace (n - 2 + 1) with (n - 1) in D by lia. exact D. }
    rewrite E1. cbn [bind]. clear E1.
    assert (On : Nat.odd (n - 1) = false) by (destruct (Nat.odd (n - 1)) eqn:E; auto; apply odd_iff in E; lia).
    match goal with |- context [compile_bell LRMerge ?l _ _ _ _ _ _] =>
      destruct (piece does LRMerge l route 0 (n - 2) true (Some side1) (Some side2)) as (a3 & b3 & E3 & A3 & B3); [fold n; lia| |] end.
    { replace (n - 2 - 0 + 1) with (n - 1) by lia. intros k x Hk D. unfold link_does, move_link in D. rewrite On in D.
      cbn [far_link] in D. destruct (Nat.eqb_spec k 0) as [K|K].
      - subst k. exact D.
      - destruct D as (c & d & E & D). pose proof (in_first_mod LRMerge (n - 1) true k) as M. rewrite On in M. cbn [andb negb producing] in M.
        destruct (in_first LRMerge (n - 1) true k).
        + destruct D as (i & j & -> & I & _). pose proof (proj1 M eq_refl). apply Inner; auto; try lia.
          apply (Shift 0 i j k _ _ _ _ I); unfold pos1, pos2, odd1, cnot_k1; rewrite ?On, ?Ho; lia.
        + subst x. apply InnerM; auto; try lia. }
    rewrite E3. clear E3. replace (n - 2 - 0 + 1) with (n - 1) in A3, B3 by lia. replace (n - 1 - (n - 2) + 1) with 2 in A1, B1 by lia.
    rewrite On in A3, B3. cbn [Nat.odd Nat.even negb andb producing Nat.sub Nat.add] in A1, A3, B1, B3.
    do 2 eexists. split; [reflexivity|]. cbn [fst snd app]. split.
    + apply (Fin _ _ true (covers_app _ _ _ _ _ A1 A3 ltac:(cbn beta; intros; lia))). intro k. cbn beta. lia.
    + apply (Fin _ _ false (covers_app _ _ _ _ _ B1 B3 ltac:(cbn beta; intros; lia))). intro k. cbn beta. lia.
Qed.

Definition C1 (n : nat) (at_ : nat -> cell) (s : slice) (j : nat) (x : tile) : Prop :=
  if j =? 0 then x = tile_at s (at_ 0)
  else if j =? n - 1 then if Nat.odd n then kept s (at_ (n - 1)) x else x = tile_at s (at_ (n - 1))
  else exists id, half id x.
Definition C1' (n : nat) (at_ : nat -> cell) (s : slice) (j : nat) (x : tile) : Prop :=
  if j =? 0 then x = tile_at s (at_ 0)
  else if j =? n - 1 then x = tile_at s (at_ (n - 1)) else some_resting x.
Definition C2 (n : nat) (at_ : nat -> cell) (s : slice) (j : nat) (x : tile) : Prop :=
  if j =? 0 then kept s (at_ 0) x
  else if j =? n - 1 then if Nat.odd n then x = tile_at s (at_ (n - 1)) else kept s (at_ (n - 1)) x
  else gone x.

Lemma cnot_run : forall far e n side1 side2 k1 k2 at_ s la lb i j,
  4 <= n -> segment_path n at_ -> (forall k, k < n -> on_lattice far (at_ k)) -> sized far s ->
  cnot_ready (e_edpc e) s n at_ ->
  on_links Nat.odd (cnot_link side1 side2 k1 k2 n at_) n la ->
  on_links (fun k => negb (Nat.odd k)) (cnot_link side1 side2 k1 k2 n at_) n lb ->
  exists s1, run_locals e s la i = Ok (s1, i + length la, true) /\ sized far s1 /\ rest_same s s1
    /\ (forall c, (forall k, k < n -> c <> at_ k) -> tile_at s1 c = tile_at s c)
    /\ (3 <= n -> forall j', lb <> [] -> run_locals e s1 lb j' = Ok (s1, j', false))
    /\ (forall s2, sized far s2 -> (forall k, k < n -> later (tile_at s1 (at_ k)) (tile_at s2 (at_ k))) ->
         tile_at s2 (at_ 0) = tile_at s (at_ 0) /\ tile_at s2 (at_ (n - 1)) = tile_at s (at_ (n - 1)))
    /\ forall s2, sized far s2 -> (forall k, k < n -> later (tile_at s1 (at_ k)) (tile_at s2 (at_ k))) ->
       exists s3, run_locals e s2 lb j = Ok (s3, j + length lb, true) /\ sized far s3 /\ rest_same s2 s3
         /\ (forall c, (forall k, k < n -> c <> at_ k) -> tile_at s3 c = tile_at s2 c)
         /\ forall s4, (forall k, k < n -> later (tile_at s3 (at_ k)) (tile_at s4 (at_ k))) ->
            cnot_done s s4 n at_.
Proof.
  intros far e n side1 side2 k1 k2 at_ s la lb i j Hn Hp Hon Hs (Hin & [p0 H0] & [p1 H1]) Hla Hlb.
  pose proof (proj2 Hp) as Hstep.
  destruct (two_layers far e n at_ s (cnot_link side1 side2 k1 k2 n at_) Nat.odd (C1 n at_ s) (C1' n at_ s) (C2 n at_ s) la lb i j)
    as (s1 & E1 & S1 & R1 & F1 & W1 & N1); auto; try lia.
  - intro k. rewrite Nat.add_1_r, Nat.odd_succ. apply even_odd.
  - (* first layer *)
    intros k l Hk Ho D. pose proof (proj1 (odd_iff k) Ho) as Hm. unfold cnot_link in D. rewrite Ho in D.
    destruct (Nat.eqb_spec k 0); [lia|]. destruct (Nat.eqb_spec k (n - 2)) as [K|K].
    + assert (On : Nat.odd n = true) by (apply odd_iff; lia). rewrite even_odd, On in D. cbn [negb] in D. subst l.
      destruct (eff_extend (e_edpc e) s (at_ (n - 1)) (at_ (n - 2)) p1) as (u & d & U & V1 & V2); auto.
      { apply adjacent_sym. replace (n - 1) with (n - 2 + 1) by lia. apply Hstep. lia. }
      { apply Hin; lia. }
      exists u. split; auto. unfold C1. replace (k + 1) with (n - 1) by lia. rewrite K.
      destruct (Nat.eqb_spec (n - 2) 0); [lia|]. destruct (Nat.eqb_spec (n - 2) (n - 1)); [lia|].
      destruct (Nat.eqb_spec (n - 1) 0); [lia|]. rewrite Nat.eqb_refl, On. split; [eauto|]. split; [exists p1, d; auto|]. both_tac.
    + destruct D as (x & y & E & a & b & -> & _). pose proof (adj n at_ k x y Hp Hk E) as A.
      assert (Cx : claimable (e_edpc e) s x /\ claimable (e_edpc e) s y).
      { destruct E as [[-> ->]|[-> ->]]; split; apply Hin; lia. }
      destruct (eff_prepare (e_edpc e) s a b x y A) as (u & U & V1 & V2); try tauto.
      exists u. split; auto. unfold C1. destruct (Nat.eqb_spec k 0); [lia|]. destruct (Nat.eqb_spec k (n - 1)); [lia|].
      destruct (Nat.eqb_spec (k + 1) 0); [lia|]. destruct (Nat.eqb_spec (k + 1) (n - 1)); [lia|].
      destruct E as [[-> ->]|[-> ->]]; split; eauto; split; eauto; both_tac.
  - intros _. reflexivity.
  - intro O. unfold C1. destruct (Nat.eqb_spec (n - 1) 0); [lia|]. rewrite Nat.eqb_refl.
    destruct (Nat.odd n) eqn:On; auto. exfalso. apply odd_iff in On.
    assert (Nat.odd (n - 2) = true) by (apply odd_iff; lia). congruence.
  - intros q x x' Hq T L. unfold C1, C1' in *. destruct (Nat.eqb_spec q 0) as [Q|Q].
    + subst x. exact (later_idle _ _ _ _ H0 L).
    + destruct (Nat.eqb_spec q (n - 1)) as [Q'|Q'].
      * destruct (Nat.odd n); [exact (later_kept _ _ _ _ T L)|]. subst x. exact (later_idle _ _ _ _ H1 L).
      * destruct T as [id T]. exists id. exact (later_half _ _ _ T L).
  - (* second layer *)
    intros s2 k l HA Hk Ho D.
    assert (Hm : k mod 2 = 0) by (destruct (parity k) as [(m & E & O)|(m & E & O)]; [lia|congruence]).
    assert (I : forall q, 0 < q -> q + 1 < n -> exists p, idle s2 (at_ q) p).
    { intros q Q1 Q2. specialize (HA q ltac:(lia)). unfold C1' in HA. destruct (Nat.eqb_spec q 0); [lia|].
      destruct (Nat.eqb_spec q (n - 1)); [lia|]. destruct HA as [id HA]. apply resting_idle in HA as (p & HA & _). eauto. }
    assert (I0 : idle s2 (at_ 0) p0).
    { specialize (HA 0 ltac:(lia)). cbn in HA. destruct H0 as (X & Y & Z). split; [congruence|auto]. }
    assert (I1 : idle s2 (at_ (n - 1)) p1).
    { specialize (HA (n - 1) ltac:(lia)). unfold C1' in HA. destruct (Nat.eqb_spec (n - 1) 0); [lia|].
      rewrite Nat.eqb_refl in HA. destruct H1 as (X & Y & Z). split; [congruence|auto]. }
    unfold cnot_link in D. rewrite Ho in D. destruct (Nat.eqb_spec k 0) as [K|K].
    + subst k l. cbn [Nat.add] in *. destruct (I 1) as [q Hq]; try lia.
      destruct (eff_merge (e_edpc e) s2 (at_ 0) (at_ 1) p0 q) as (u & d & U & V1 & V2); auto.
      { apply (Hstep 0). auto. }
      exists u. split; auto. unfold C2. dif. split; [exists p0, d; auto|]. split; auto. both_tac.
    + destruct (Nat.eqb_spec k (n - 2)) as [K'|K'].
      * assert (On : Nat.odd n = false) by (destruct (parity n) as [(m & E & O)|(m & E & O)]; auto; lia).
        rewrite even_odd, On in D. cbn [negb] in D. subst l. destruct (I (n - 2)) as [q Hq]; try lia.
        destruct (eff_merge (e_edpc e) s2 (at_ (n - 1)) (at_ (n - 2)) p1 q) as (u & d & U & V1 & V2); auto.
        { apply adjacent_sym. replace (n - 1) with (n - 2 + 1) by lia. apply Hstep. lia. }
        exists u. split; auto. unfold C2. replace (k + 1) with (n - 1) by lia. rewrite K'.
        destruct (Nat.eqb_spec (n - 2) 0); [lia|]. destruct (Nat.eqb_spec (n - 2) (n - 1)); [lia|].
        destruct (Nat.eqb_spec (n - 1) 0); [lia|]. rewrite Nat.eqb_refl, On. split; auto. split; [exists p1, d; auto|]. both_tac.
      * destruct D as (x & y & E & ->). pose proof (adj n at_ k x y Hp Hk E) as A.
        destruct (I k) as [p Hp']; try lia. destruct (I (k + 1)) as [q Hq]; try lia.
        assert (X : exists p q, idle s2 x p /\ idle s2 y q) by (destruct E as [[-> ->]|[-> ->]]; eauto).
        destruct X as (px & py & Hx & Hy). destruct (eff_measure (e_edpc e) s2 x y px py A Hx Hy) as (u & U & V1 & V2).
        exists u. split; auto. unfold C2. destruct (Nat.eqb_spec k 0); [lia|]. destruct (Nat.eqb_spec k (n - 1)); [lia|].
        destruct (Nat.eqb_spec (k + 1) 0); [lia|]. destruct (Nat.eqb_spec (k + 1) (n - 1)); [lia|].
        destruct E as [[-> ->]|[-> ->]]; split; auto; split; auto; both_tac.
  - cbn. discriminate.
  - intros x O. unfold C1', C2. destruct (Nat.eqb_spec (n - 1) 0); [lia|]. rewrite Nat.eqb_refl.
    assert (On : Nat.odd n = true) by (apply odd_iff; apply odd_iff in O; lia). rewrite On. auto.
  - left. intros k l Hk Ho D.
    assert (Hm : k mod 2 = 0) by (destruct (parity k) as [(m & E & O)|(m & E & O)]; [lia|congruence]).
    pose proof (Hstep k Hk) as A. pose proof (proj1 (adjacent_sym _ _) A) as A'.
    assert (Both : forall x y, either (at_ k) (at_ (k + 1)) x y -> (forall c, In c [x; y] -> In c (needs l)) ->
       exists k', k' + 1 < n /\ Nat.odd k' = true /\ (In (at_ k') (needs l) \/ In (at_ (k' + 1)) (needs l))).
    { intros x y E N. destruct (Nat.eq_dec k 0) as [->|K].
      - exists 1. split; [lia|]. split; auto. left. apply N. destruct E as [[-> ->]|[-> ->]]; cbn; auto.
      - exists (k - 1). split; [lia|]. split; [apply odd_iff; lia|]. right. apply N. replace (k - 1 + 1) with k by lia.
        destruct E as [[-> ->]|[-> ->]]; cbn; auto. }
    unfold cnot_link in D. rewrite Ho in D. destruct (Nat.eqb_spec k 0) as [K|K].
    + subst k l. split; [exact A|]. split; [both_tac|]. apply (Both (at_ 0) (at_ 1)); [left; auto|auto].
    + destruct (Nat.eqb_spec k (n - 2)) as [K'|K'].
      * assert (On : Nat.odd n = false) by (destruct (parity n) as [(m & E & O)|(m & E & O)]; auto; lia).
        rewrite even_odd, On in D. cbn [negb] in D. subst l. replace (n - 1) with (k + 1) by lia. rewrite <- K'.
        split; [exact A'|]. split; [both_tac|].
        destruct (Both (at_ (k + 1)) (at_ k)) as (k' & X); [right; auto| |].
        { replace (n - 1) with (k + 1) by lia. rewrite <- K'. auto. }
        exists k'. replace (n - 1) with (k + 1) in X by lia. rewrite <- K' in X. exact X.
      * destruct D as (x & y & E & ->). split; [exact (adj n at_ k x y Hp Hk E)|].
        split; [destruct E as [[-> ->]|[-> ->]]; both_tac|]. apply (Both x y E). auto.
  - exists s1. do 4 (split; [auto|]). split; [intros; apply W1; auto; lia|]. split.
    { intros s2 S2 L2. destruct (N1 s2 S2 L2) as (HA & _). pose proof (HA 0 ltac:(lia)) as X. pose proof (HA (n - 1) ltac:(lia)) as Y.
      unfold C1' in X, Y. cbn in X. destruct (Nat.eqb_spec (n - 1) 0); [lia|]. rewrite Nat.eqb_refl in Y. auto. }
    intros s2 S2 L2. destruct (N1 s2 S2 L2) as (_ & s3 & E3 & S3 & R3 & F3 & T3).
    exists s3. do 4 (split; [auto|]). intros s4 L4. split; [|split].
    + intros k K1 K2. pose proof (T3 k ltac:(lia)) as T. unfold C2 in T. destruct (Nat.eqb_spec k 0); [lia|].
      destruct (Nat.eqb_spec k (n - 1)); [lia|]. exact (later_gone _ _ T (L4 k ltac:(lia))).
    + pose proof (T3 0 ltac:(lia)) as T. cbn in T. exact (later_kept _ _ _ _ T (L4 0 ltac:(lia))).
    + pose proof (T3 (n - 1) ltac:(lia)) as T. pose proof (L4 (n - 1) ltac:(lia)) as L. unfold C2 in T.
      destruct (Nat.eqb_spec (n - 1) 0); [lia|]. rewrite Nat.eqb_refl in T. destruct (Nat.odd n).
      * rewrite T in L. exact (later_idle _ _ _ _ H1 L).
      * exact (later_kept _ _ _ _ T L).
Qed.
