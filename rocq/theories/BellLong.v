(** Long-range operations as wholes. *)
From Verif Require Import Base PatchesModel LayoutModel InstrModel StabSpec StabProofs.
From Verif Require Import SliceModel RouterModel ApplyModel BellSpec BellStabSpec BellStab BellChain.
Open Scope nat_scope.

Lemma odd_shift k i : Nat.odd (k + 2 * i) = Nat.odd k. Proof. apply Nat.odd_add_mul_2. Qed.
Lemma odd_cases k : (Nat.odd k = true /\ exists h, k = 2 * h + 1) \/ (Nat.odd k = false /\ exists h, k = 2 * h).
Proof.
  destruct (Nat.odd k) eqn:E; [left|right]; split; auto.
  - apply Nat.odd_spec in E. destruct E as (h & ->). eauto.
  - rewrite <- Nat.negb_even, Bool.negb_false_iff in E. apply Nat.even_spec in E. destruct E as (h & ->). eauto.
Qed.

(** ** Orders *)
Definition ordered (n : nat) (sel : nat -> bool) (ks : list nat) : Prop :=
  NoDup ks /\ (forall k, In k ks <-> k + 1 < n) /\ (forall k j, nearby k j -> k + 1 < n -> j + 1 < n -> sel k = true -> before k j ks).
Lemma sweep_order m i k j : nearby k j -> i <= k < i + 2 * m -> i <= j < i + 2 * m -> Nat.odd k = negb (Nat.odd i) -> before k j (sweep i m).
Proof. intros Nb Hk Hj O. apply sweep_before; auto. rewrite Nat.odd_add, O. destruct (Nat.odd i); reflexivity. Qed.
Lemma nodup_snoc (l : list nat) x : NoDup l -> ~ In x l -> NoDup (l ++ [x]).
Proof. intros N H. apply NoDup_Add with (a := x) (l := l); [rewrite <- (app_nil_r l) at 1; apply Add_app|auto]. Qed.

Ltac order_start := unfold ordered; split; [|split];
  [repeat first [apply NoDup_cons|apply sweep_nodup|apply nodup_snoc]; cbn [In app]; rewrite ?in_app_iff, ?sweep_in; cbn [In]; lia
  |intros k; cbn [In app]; rewrite ?in_app_iff, ?sweep_in; cbn [In]; lia
  |intros k j Nb Hk Hj O].
Lemma order_a m n sel : n = 2 * m + 2 -> (forall k, sel k = negb (Nat.odd k)) -> ordered n sel (0 :: sweep 1 m).
Proof.
  intros E Hs. order_start. rewrite Hs in O. unfold nearby in Nb. destruct k as [|k].
  - apply before_head, sweep_in. lia.
  - destruct j as [|j].
    + replace k with 0 in O by lia. discriminate.
    + apply before_cons, sweep_order; try lia; auto. now destruct (Nat.odd (S k)).
Qed.
Lemma order_b m n sel : n = 2 * m + 3 -> (forall k, sel k = Nat.odd k) -> ordered n sel ((1 :: sweep 2 m) ++ [0]).
Proof.
  intros E Hs. order_start. rewrite Hs in O. unfold nearby in Nb. destruct k as [|[|k]]; [discriminate| |].
  - cbn [app]. apply before_head, in_app_iff. rewrite sweep_in. cbn [In]. lia.
  - apply before_app_l, before_cons. destruct j as [|[|j]]; [lia| |apply sweep_order; try lia; auto].
    replace (S (S k)) with 2 in O by lia. discriminate.
Qed.
Lemma order_c m n sel : n = 2 * m + 2 -> (forall k, sel k = Nat.odd k) -> ordered n sel (sweep 0 m ++ [n - 2]).
Proof.
  intros E Hs. order_start. rewrite Hs in O. unfold nearby in Nb.
  assert (Lk : k < 2 * m) by (destruct (odd_cases k) as [[_ (h & ->)]|[E1 _]]; [lia|congruence]).
  destruct (Nat.eq_dec j (n - 2)) as [->|D]; [apply before_across; [apply sweep_in; lia|now left]|].
  apply before_app_l, sweep_order; try lia; auto.
Qed.
Lemma order_d m n sel : n = 2 * m + 3 -> (forall k, sel k = negb (Nat.odd k)) -> ordered n sel (0 :: sweep 1 m ++ [n - 2]).
Proof.
  intros E Hs. order_start. rewrite Hs in O. unfold nearby in Nb. destruct k as [|k].
  - apply before_head, in_app_iff. rewrite sweep_in. cbn [In]. lia.
  - assert (Lk : S k < 2 * m + 1) by (destruct (odd_cases (S k)) as [[E1 _]|[_ (h & Eh)]]; [rewrite E1 in O; discriminate|lia]).
    apply before_cons. destruct j as [|j]; [replace k with 0 in O by lia; discriminate|].
    destruct (Nat.eq_dec (S j) (n - 2)) as [->|D]; [apply before_across; [apply sweep_in; lia|now left]|].
    apply before_app_l, sweep_order; try lia; auto. now destruct (Nat.odd (S k)).
Qed.

Section Long.
Variables (patch : cell -> N) (shows : cell -> cell -> pauli) (n : nat) (nm : nat -> N).
Notation act := (local_act patch shows).
Notation run := (local_run patch shows).
Hypothesis inj : forall i j, i < n -> j < n -> nm i = nm j -> i = j.
Notation ne := (nm_ne n nm inj).
Variable f : nat -> local_instr.
Variable G : gset.
Hypotheses (X : ext G) (U : inner_unused n nm G).
Ltac dis := try (apply ne; lia).
Ltac un := try (apply U; lia).
Definition passes (i m : nat) : Prop := forall t, t < m -> pairs_up nm (i + 2 * t + 1) (act (f (i + 2 * t + 1))) /\ measures nm (i + 2 * t) (act (f (i + 2 * t))).

Lemma pair_unused a b q H : a <> b -> ext H -> q <> a -> q <> b -> unused q H -> unused q (bell_pair a b H).
Proof. intros D XH Da Db V. now apply (ker_unused a b); auto using ker_pair. Qed.

Lemma long_pair_even m : n = 2 * m + 2 -> unused (nm 0) G -> unused (nm (n - 1)) G -> pairs_up nm 0 (act (f 0)) -> passes 1 m ->
  same (run (map f (0 :: sweep 1 m)) G) (bell_pair (nm 0) (nm (n - 1)) G).
Proof.
  intros E U0 Un H0 P. cbn [map local_run].
  assert (U1 : forall k, 0 < k -> k < n -> unused (nm k) G) by (intros k K0 K1; destruct (Nat.eq_dec k (n - 1)) as [->|]; [auto|apply U; lia]).
  eapply same_trans; [apply run_same_sets, H0; auto; cbn [Nat.add]; apply U1; lia|]. cbn [Nat.add].
  eapply same_trans; [apply (teleports patch shows n nm inj); auto; [lia|apply pair_ext|intros k Hk; apply pair_unused; auto; dis; apply U1; lia]|].
  replace (n - 1) with (1 + 2 * m) by lia. apply (carry_pair n nm inj); auto; try lia; [intros k Hk; apply U1; lia|intros k Hk; dis|apply U1; lia].
Qed.
Lemma long_pair_odd m : n = 2 * m + 3 -> unused (nm 0) G -> unused (nm (n - 1)) G -> pairs_up nm 1 (act (f 1)) -> passes 2 m ->
  (forall H, act (f 0) H = move (nm 1) (nm 0) H) ->
  same (run (map f ((1 :: sweep 2 m) ++ [0])) G) (bell_pair (nm 0) (nm (n - 1)) G).
Proof.
  intros E U0 Un H1 P H0.
  assert (U1 : forall k, k < n -> unused (nm k) G) by (intros [|k] K; auto; destruct (Nat.eq_dec (S k) (n - 1)) as [->|]; [auto|apply U; lia]).
  assert (C : same (run (map f (1 :: sweep 2 m)) G) (bell_pair (nm 1) (nm (n - 1)) G)).
  { cbn [map local_run]. eapply same_trans; [apply run_same_sets, H1; auto; cbn [Nat.add]; apply U1; lia|]. cbn [Nat.add].
    eapply same_trans; [apply (teleports patch shows n nm inj); auto; [lia|apply pair_ext|intros k Hk; apply pair_unused; auto; dis; apply U1; lia]|].
    replace (n - 1) with (2 + 2 * m) by lia. apply (carry_pair n nm inj); auto; try lia; try (apply U1; lia); intros k Hk; first [apply U1; lia|apply ne; lia]. }
  rewrite run_cat. eapply same_trans; [apply run_same_sets, C|]. cbn [map local_run]. rewrite H0.
  eapply same_trans; [apply move_iff; dis; [apply pair_ext|apply pair_unused; auto; dis]|].
  eapply same_trans; [apply same_act_rename, bell_pair_sym; auto; dis; apply U1; lia|].
  eapply same_trans; [apply rename_pair; auto; dis; apply U1; lia|]. apply bell_pair_sym; auto; dis; apply U1; lia.
Qed.

(** What is at the near end is brought next to the far end. *)
Lemma brought_even m : n = 2 * m + 2 -> passes 0 m -> same (run (map f (sweep 0 m)) G) (carry nm 0 m G).
Proof. intros E P. apply (teleports patch shows n nm inj); auto; [lia|]. intros k Hk. apply U; lia. Qed.
Lemma brought_odd m : n = 2 * m + 3 -> passes 1 m -> (forall H, act (f 0) H = move (nm 0) (nm 1) H) ->
  same (run (map f (0 :: sweep 1 m)) G) (rename (nm 0) (nm (n - 2)) G).
Proof.
  intros E P H0. cbn [map local_run]. rewrite H0. eapply same_trans; [apply run_same_sets, move_iff; auto; dis; apply U; lia|].
  eapply same_trans; [apply (teleports patch shows n nm inj); auto; [lia|now apply rename_ext|intros k Hk; apply rename_unused; dis; apply U; lia]|].
  replace (n - 2) with (1 + 2 * m) by lia. apply (carry_after n nm inj); auto; try lia; try (apply U; lia); intros k Hk; first [apply U; lia|apply ne; lia].
Qed.
Lemma long_measure_even m : n = 2 * m + 2 -> passes 0 m -> measures nm (n - 2) (act (f (n - 2))) ->
  same (run (map f (sweep 0 m ++ [n - 2])) G) (bell_measure (nm 0) (nm (n - 1)) G).
Proof.
  intros E P H. rewrite run_cat. eapply same_trans; [apply run_same_sets, brought_even; auto|]. cbn [map local_run].
  eapply same_trans; [apply H; now apply carry_ext|]. replace (n - 2 + 1) with (n - 1) by lia. replace (n - 2) with (0 + 2 * m) by lia.
  apply (carry_measure n nm inj); auto; try lia; intros k Hk; first [apply U; lia|apply ne; lia].
Qed.
Lemma long_measure_odd m : n = 2 * m + 3 -> passes 1 m -> (forall H, act (f 0) H = move (nm 0) (nm 1) H) -> measures nm (n - 2) (act (f (n - 2))) ->
  same (run (map f (0 :: sweep 1 m ++ [n - 2])) G) (bell_measure (nm 0) (nm (n - 1)) G).
Proof.
  intros E P H0 H. rewrite app_comm_cons, run_cat. eapply same_trans; [apply run_same_sets, brought_odd with (m := m); auto|]. cbn [map local_run].
  eapply same_trans; [apply H; now apply rename_ext|]. replace (n - 2 + 1) with (n - 1) by lia. apply rename_measure; auto; dis. apply U; lia.
Qed.
Lemma long_merge_even m p q : n = 2 * m + 2 -> xz q -> passes 0 m -> (forall H, act (f (n - 2)) H = merge (nm (n - 1)) (nm (n - 2)) p q H) ->
  same (run (map f (sweep 0 m ++ [n - 2])) G) (merge (nm (n - 1)) (nm 0) p q G).
Proof.
  intros E Q P H. rewrite run_cat. eapply same_trans; [apply run_same_sets, brought_even; auto|]. cbn [map local_run]. rewrite H.
  replace (n - 2) with (0 + 2 * m) by lia. apply (carry_merge n nm inj); auto; try lia; intros k Hk; first [apply U; lia|apply ne; lia].
Qed.
Lemma long_merge_odd m p q : n = 2 * m + 3 -> xz q -> passes 1 m -> (forall H, act (f 0) H = move (nm 0) (nm 1) H) ->
  (forall H, act (f (n - 2)) H = merge (nm (n - 1)) (nm (n - 2)) p q H) ->
  same (run (map f (0 :: sweep 1 m ++ [n - 2])) G) (merge (nm (n - 1)) (nm 0) p q G).
Proof.
  intros E Q P H0 H. rewrite app_comm_cons, run_cat. eapply same_trans; [apply run_same_sets, brought_odd with (m := m); auto|]. cbn [map local_run].
  rewrite H. apply rename_merge; auto; dis. apply U; lia.
Qed.
(** A patch split off at the start is passed to the end. *)
Lemma long_split_even m p q : n = 2 * m + 2 -> xz q -> unused (nm (n - 1)) G -> passes 1 m -> (forall H, act (f 0) H = split_off (nm 0) (nm 1) p q H) ->
  same (run (map f (0 :: sweep 1 m)) G) (split_off (nm 0) (nm (n - 1)) p q G).
Proof.
  intros E Q Un P H. cbn [map local_run]. rewrite H.
  assert (U1 : forall k, 0 < k -> k < n -> unused (nm k) G) by (intros k K0 K1; destruct (Nat.eq_dec k (n - 1)) as [->|]; [auto|apply U; lia]).
  eapply same_trans; [apply (teleports patch shows n nm inj); auto; [lia|apply ext_measure|]|].
  - intros k Hk. apply (ker_unused (nm 0) (nm 1)); auto; dis; [apply ker_split, ne; lia|apply U1; lia].
  - replace (n - 1) with (1 + 2 * m) by lia. apply (carry_split n nm inj); auto; try lia; try (apply U1; lia); intros k Hk; first [apply U1; lia|apply ne; lia].
Qed.
Lemma long_split_odd m p q : n = 2 * m + 3 -> xz q -> unused (nm (n - 1)) G -> passes 1 m -> (forall H, act (f 0) H = split_off (nm 0) (nm 1) p q H) ->
  (forall H, act (f (n - 2)) H = move (nm (n - 2)) (nm (n - 1)) H) ->
  same (run (map f (0 :: sweep 1 m ++ [n - 2])) G) (split_off (nm 0) (nm (n - 1)) p q G).
Proof.
  intros E Q Un P H H'. rewrite app_comm_cons, run_cat.
  assert (C : same (run (map f (0 :: sweep 1 m)) G) (split_off (nm 0) (nm (n - 2)) p q G)).
  { cbn [map local_run]. rewrite H. eapply same_trans; [apply (teleports patch shows n nm inj); auto; [lia|apply ext_measure|]|].
    - intros k Hk. apply (ker_unused (nm 0) (nm 1)); auto; dis; [apply ker_split, ne; lia|apply U; lia].
    - replace (n - 2) with (1 + 2 * m) by lia. apply (carry_split n nm inj); auto; try lia; try (apply U; lia); intros k Hk; first [apply U; lia|apply ne; lia]. }
  eapply same_trans; [apply run_same_sets, C|]. cbn [map local_run]. rewrite H'.
  eapply same_trans; [apply move_iff; dis; [apply ext_measure|apply (ker_unused (nm 0) (nm (n - 2))); auto; dis; apply ker_split, ne; lia]|].
  apply rename_split; auto; dis. apply U; lia.
Qed.
End Long.
