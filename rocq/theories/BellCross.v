(** CNOTs compiled segment by segment in two phases, for routes that cross others. *)
From Verif Require Import Base PatchesModel LayoutModel InstrModel StabSpec StabProofs.
From Verif Require Import SliceModel RouterModel ApplyModel BellSpec BellProofs BellProps BellStabSpec BellStab BellChain BellLong BellStabProps.
From Verif Require Import InstrProofs SliceSpec SliceProofs ApplySpec ApplyProofs ApplyBell BellIds.
Open Scope nat_scope.

(** ** Chains that begin with a split *)
Lemma order_e m n sel : n = 2 * m + 4 -> (forall k, sel k = negb (Nat.odd k)) -> ordered n sel (0 :: sweep 1 m ++ [n - 2; n - 3]).
Proof.
  intros E Hs.
  assert (Es : forall i, sweep i (m + 1) = sweep i m ++ [i + 2 * m + 1; i + 2 * m]).
  { clear. induction m as [|m IH]; intros i; cbn [sweep app Nat.add]; [replace (i + 2 * 0) with i by lia; now rewrite Nat.add_1_r|].
    rewrite IH. now replace (S (S i) + 2 * m) with (i + 2 * S m) by lia. }
  specialize (Es 1). replace (1 + 2 * m + 1) with (n - 2) in Es by lia. replace (1 + 2 * m) with (n - 3) in Es by lia.
  rewrite <- Es. apply order_a; [lia|exact Hs].
Qed.

Section Split.
Variables (patch : cell -> N) (shows : cell -> cell -> pauli) (n : nat) (nm : nat -> N).
Notation act := (local_act patch shows).
Notation run := (local_run patch shows).
Hypothesis inj : forall i j, i < n -> j < n -> nm i = nm j -> i = j.
Notation ne := (nm_ne n nm inj).
Variables (f : nat -> local_instr) (G : gset) (p P q Q : pauli).
Hypotheses (X : ext G) (U : inner_unused n nm G) (HP : xz P) (HQ : xz Q).
Hypothesis first : forall H, act (f 0) H = split_off (nm 0) (nm 1) p P H.

Lemma split_far m : 1 + 2 * m + 1 < n -> passes patch shows nm f 1 m ->
  same (run (map f (0 :: sweep 1 m)) G) (split_off (nm 0) (nm (1 + 2 * m)) p P G).
Proof.
  intros Hm Pa. cbn [map local_run]. rewrite first.
  eapply same_trans; [apply (teleports patch shows n nm inj); [exact Pa|lia|apply ext_measure|]|].
  - intros k Hk. apply (ker_unused (nm 0) (nm 1)); try (apply ne; lia); auto; [apply ker_split, ne; lia|apply U; lia].
  - apply (carry_split n nm inj); auto; try lia; try (apply U; lia); intros k Hk; first [apply U; lia|apply ne; lia].
Qed.
Lemma chain_split_merge m : n = 2 * m + 3 -> passes patch shows nm f 1 m ->
  (forall H, act (f (n - 2)) H = merge (nm (n - 1)) (nm (n - 2)) q Q H) ->
  same (run (map f (0 :: sweep 1 m ++ [n - 2])) G) (couple (negb (pauli_eqb P Q)) (nm 0) (nm (n - 1)) p q G).
Proof.
  intros Hn Pa Hf. change (0 :: sweep 1 m ++ [n - 2]) with ((0 :: sweep 1 m) ++ [n - 2]). rewrite run_cat.
  eapply same_trans; [apply run_same_sets, (split_far m); auto; lia|].
  cbn [map local_run]. rewrite Hf. replace (1 + 2 * m) with (n - 2) by lia. apply merge_split; auto; try (apply ne; lia). apply U; lia.
Qed.
Lemma chain_split_split m : n = 2 * m + 4 -> passes patch shows nm f 1 m -> measures nm (n - 3) (act (f (n - 3))) ->
  (forall H, act (f (n - 2)) H = split_off (nm (n - 1)) (nm (n - 2)) q Q H) ->
  same (run (map f (0 :: sweep 1 m ++ [n - 2; n - 3])) G) (couple (negb (pauli_eqb P Q)) (nm 0) (nm (n - 1)) p q G).
Proof.
  intros Hn Pa Hm Hf. change (0 :: sweep 1 m ++ [n - 2; n - 3]) with ((0 :: sweep 1 m) ++ [n - 2; n - 3]). rewrite run_cat.
  eapply same_trans; [apply run_same_sets, (split_far m); auto; lia|].
  cbn [map local_run]. rewrite Hf. eapply same_trans; [apply Hm, ext_measure|].
  replace (n - 3 + 1) with (n - 2) by lia. replace (1 + 2 * m) with (n - 3) by lia.
  eapply same_trans; [apply split_measure; auto; try (apply ne; lia); [apply ext_measure|]|].
  - apply (ker_unused (nm 0) (nm (n - 3))); try (apply ne; lia); auto; [apply ker_split, ne; lia|apply U; lia].
  - apply merge_split; auto; try (apply ne; lia). apply U; lia.
Qed.
End Split.

(** ** Steps on different tiles commute *)
Section Disjoint.
Variables (patch : cell -> N) (shows : cell -> cell -> pauli).
Notation act := (local_act patch shows).
Notation run := (local_run patch shows).
Definition within (S : N -> Prop) (l : local_instr) : Prop := exists a b, S a /\ S b /\ ker a b (act l).

Lemma within_ext S l G : within S l -> ext G -> ext (act l G).
Proof. intros (a & b & _ & _ & K) X. eapply ker_ext; eauto. Qed.
Lemma runs_ext_within S l : Forall (within S) l -> forall G, ext G -> ext (run l G).
Proof. induction 1 as [|x l Hx _ IH]; intros G X; [exact X|]. cbn [local_run]. eapply IH, within_ext; eauto. Qed.
Lemma one_past (S T : N -> Prop) x l : (forall a b, S a -> T b -> a <> b) -> within S x -> Forall (within T) l -> forall G, ext G ->
  same (run l (act x G)) (act x (run l G)).
Proof.
  intros D Hx F. induction F as [|y l Hy F IH]; intros G X; [apply same_refl|]. cbn [local_run].
  eapply same_trans; [apply run_same_sets|apply IH; eapply within_ext; eauto].
  destruct Hx as (a & b & Sa & Sb & Kx), Hy as (c & d & Tc & Td & Ky).
  apply (ker_commute c d a b); auto; apply not_eq_sym; auto.
Qed.
Lemma all_past (S T : N -> Prop) l l' : (forall a b, S a -> T b -> a <> b) -> Forall (within S) l -> Forall (within T) l' -> forall G, ext G ->
  same (run (l ++ l') G) (run (l' ++ l) G).
Proof.
  intros D F F'. induction F as [|x l Hx F IH]; intros G X; [rewrite app_nil_r; apply same_refl|]. cbn [app local_run].
  eapply same_trans; [apply IH; eapply within_ext; eauto|]. rewrite !run_app. cbn [local_run].
  apply run_same_sets. eapply one_past; eauto.
Qed.

(** Layers of pieces that are pairwise apart, piece by piece *)
Definition piece := (nat * layers)%type.
Definition firsts (l : list piece) := flat_map (fun x => fst (snd x)) l.
Definition seconds (l : list piece) := flat_map (fun x => snd (snd x)) l.
Definition wholes (l : list piece) := flat_map (fun x => fst (snd x) ++ snd (snd x)) l.
Variable area : nat -> N -> Prop.
Definition fits_area (x : piece) : Prop := Forall (within (area (fst x))) (fst (snd x) ++ snd (snd x)).
Lemma within_weaken (S T : N -> Prop) l : (forall a, S a -> T a) -> within S l -> within T l.
Proof. intros H (a & b & Sa & Sb & K). exists a, b. auto. Qed.
Lemma gather l : NoDup (map fst l) -> (forall i j a b, In i (map fst l) -> In j (map fst l) -> i <> j -> area i a -> area j b -> a <> b) ->
  Forall fits_area l -> forall G, ext G -> same (run (firsts l ++ seconds l) G) (run (wholes l) G).
Proof.
  induction l as [|x l IH]; intros N D F G X; [apply same_refl|].
  apply NoDup_cons_iff in N. destruct N as [Nx N]. inversion F as [|? ? Fx Fl]; subst.
  apply Forall_app in Fx. destruct Fx as [Fa Fb].
  cbn [firsts seconds wholes flat_map]. fold (firsts l) (seconds l) (wholes l). rewrite <- !app_assoc, run_app, (run_app patch shows (fst (snd x))).
  set (G1 := run (fst (snd x)) G). assert (X1 : ext G1) by (unfold G1; eapply runs_ext_within; eauto).
  assert (Fo : Forall (within (fun b => exists j, In j (map fst l) /\ area j b)) (firsts l)).
  { apply Forall_forall. intros y Hy. unfold firsts in Hy. apply in_flat_map in Hy. destruct Hy as (z & Hz & Hy).
    rewrite Forall_forall in Fl. specialize (Fl z Hz). unfold fits_area in Fl. rewrite Forall_forall in Fl. specialize (Fl y ltac:(apply in_app_iff; auto)).
    eapply within_weaken; [|exact Fl]. intros b Hb. exists (fst z). split; [now apply in_map|exact Hb]. }
  rewrite app_assoc, run_app. eapply same_trans; [apply run_same_sets|].
  - eapply same_sym, (all_past (area (fst x)) (fun b => exists j, In j (map fst l) /\ area j b)); eauto.
    intros a b Ha (j & Hj & Hb). apply (D (fst x) j); auto; [now left|now right|]. intros <-. contradiction.
  - rewrite <- run_app, <- app_assoc, run_app. rewrite (run_app patch shows (snd (snd x))). apply IH; auto.
    + intros i j a b Hi Hj. apply D; now right.
    + eapply runs_ext_within; eauto.
Qed.
End Disjoint.

(** ** Pieces that each act like one step on two nodes *)
Section Contract.
Variables (patch : cell -> N) (shows shows' : cell -> cell -> pauli) (f : nat -> local_instr) (nd : nat -> N) (needs : nat -> N -> Prop).
Notation run := (local_run patch shows).
Notation act' := (local_act patch shows').
Notation run' := (local_run patch shows').
Definition like_step (x : piece) : Prop :=
  forall G, ext G -> (forall q, needs (fst x) q -> unused q G) -> same (run (fst (snd x) ++ snd (snd x)) G) (act' (f (fst x)) G).
Lemma steps_keep is q : (forall i, In i is -> ker (nd i) (nd (i + 1)) (act' (f i)) /\ q <> nd i /\ q <> nd (i + 1)) ->
  forall G, ext G -> ext (run' (map f is) G) /\ (unused q G -> unused q (run' (map f is) G)).
Proof.
  induction is as [|i is IH]; intros H G X; [auto|]. cbn [map local_run].
  destruct (H i (or_introl eq_refl)) as (K & D1 & D2).
  assert (X' : ext (act' (f i) G)) by (eapply ker_ext; eauto).
  destruct (IH (fun j Hj => H j (or_intror Hj)) _ X') as [A B]. split; [exact A|]. intros U. apply B. eapply ker_unused; eauto.
Qed.
Lemma pieces_run l : NoDup (map fst l) ->
  (forall i j q, In i (map fst l) -> In j (map fst l) -> i <> j -> needs j q -> q <> nd i /\ q <> nd (i + 1)) ->
  (forall i, In i (map fst l) -> ker (nd i) (nd (i + 1)) (act' (f i))) -> Forall like_step l ->
  forall G, ext G -> (forall i q, In i (map fst l) -> needs i q -> unused q G) ->
  same (run (wholes l) G) (run' (map f (map fst l)) G).
Proof.
  induction l as [|x l IH]; intros N D K F G X U; [apply same_refl|].
  apply NoDup_cons_iff in N. destruct N as [Nx N]. inversion F as [|? ? Fx Fl]; subst.
  cbn [wholes flat_map map local_run]. fold (wholes l). rewrite run_app.
  eapply same_trans; [apply run_same_sets, Fx; [exact X|]|].
  - intros q Hq. apply (U (fst x)); [now left|exact Hq].
  - pose proof (K (fst x) (or_introl eq_refl)) as Kx. apply IH; auto.
    + intros i j q Hi Hj. apply D; now right.
    + intros i Hi. apply K. now right.
    + eapply ker_ext; eauto.
    + intros i q Hi Hq. destruct (D (fst x) i q (or_introl eq_refl) (or_intror Hi)) as [D1 D2]; [intros <-; contradiction|exact Hq|].
      eapply ker_unused; eauto. apply (U i); [now right|exact Hq].
Qed.
End Contract.

(** ** A chain of contracted segments *)
(** What the segment [i] of [k] is compiled to; [now] says whether it is in the first phase. *)
Definition kind (k : nat) (now : bool) (i : nat) : lrb :=
  if (i =? 0) || (i =? k - 1) then (if now then LRSplit else LRMerge) else (if now then LRPrep else LRMeasure).
Definition as_step (t : lrb) (near far : cell) : local_instr :=
  match t with
  | LRPrep => LBellPrepare None None near far | LRMeasure => LBellMeasure near far
  | LRMerge => LMergeContract far near | LRSplit => LExtendSplit None far near
  end.
Section Nodes.
Variables (patch : cell -> N) (shows : cell -> cell -> pauli) (k : nat) (nc : nat -> cell) (sel : nat -> bool).
Hypotheses (Hk : 2 <= k) (Alt : forall i, sel (S i) = negb (sel i)).
Hypothesis inj : forall i j, i < k + 1 -> j < k + 1 -> patch (nc i) = patch (nc j) -> i = j.
Definition near_node (i : nat) : nat := if i =? 0 then i + 1 else i.
Definition far_node (i : nat) : nat := if i =? 0 then i else i + 1.
Definition node_step (i : nat) : local_instr := as_step (kind k (sel i) i) (nc (near_node i)) (nc (far_node i)).
Notation nm := (fun i => patch (nc i)).
Notation act := (local_act patch shows).
Notation run := (local_run patch shows).
Lemma node_ne i j : i < k + 1 -> j < k + 1 -> i <> j -> patch (nc i) <> patch (nc j).
Proof. intros Hi Hj D E. apply D. auto. Qed.
Lemma node_on i : i < k -> ker (patch (nc i)) (patch (nc (i + 1))) (act (node_step i)).
Proof.
  intros Hi. unfold node_step, near_node, far_node. destruct (Nat.eqb_spec i 0) as [->|D].
  - apply ker_sym; [apply node_ne; lia|]. destruct (kind _ _ _); cbn [as_step local_act].
    + apply ker_pair, node_ne; lia. 
    + apply ker_bell_measure, node_ne; lia.
    + apply ker_sym; [apply node_ne; lia|apply ker_merge, node_ne; lia].
    + apply ker_sym; [apply node_ne; lia|apply ker_split, node_ne; lia].
  - destruct (kind _ _ _); cbn [as_step local_act].
    + apply ker_pair, node_ne; lia. 
    + apply ker_bell_measure, node_ne; lia.
    + apply ker_sym; [apply node_ne; lia|apply ker_merge, node_ne; lia].
    + apply ker_sym; [apply node_ne; lia|apply ker_split, node_ne; lia].
Qed.
Lemma sel_odd i : sel i = xorb (sel 0) (Nat.odd i).
Proof. induction i as [|i IH]; [now rewrite xorb_false_r|]. rewrite Alt, IH, Nat.odd_succ, <- Nat.negb_odd. now destruct (sel 0), (Nat.odd i). Qed.
Lemma node_first : node_step 0 = as_step (if sel 0 then LRSplit else LRMerge) (nc 1) (nc 0).
Proof. reflexivity. Qed.
Lemma node_last : node_step (k - 1) = as_step (if sel (k - 1) then LRSplit else LRMerge) (nc (k - 1)) (nc k).
Proof.
  unfold node_step, kind, near_node, far_node. rewrite Nat.eqb_refl, orb_true_r, (proj2 (Nat.eqb_neq (k - 1) 0)) by lia.
  now replace (k - 1 + 1) with k by lia.
Qed.
Lemma node_mid i : 0 < i -> i + 1 < k -> node_step i = as_step (if sel i then LRPrep else LRMeasure) (nc i) (nc (i + 1)).
Proof. intros H0 H1. unfold node_step, kind, near_node, far_node. now rewrite (proj2 (Nat.eqb_neq i 0)), (proj2 (Nat.eqb_neq i (k - 1))) by lia. Qed.

Lemma node_layers ks : ordered (k + 1) sel ks -> forall G, ext G ->
  same (run (map node_step (filter sel (seq 0 k)) ++ map node_step (filter (fun i => negb (sel i)) (seq 0 k))) G) (run (map node_step ks) G).
Proof.
  intros (N & I & B) G X.
  assert (O : forall sel', on_links sel' (fun i l => l = node_step i) (k + 1) (map node_step (filter sel' (seq 0 k)))).
  { intros sel'. exists (filter sel' (seq 0 k)). split; [|split].
    - induction (filter sel' (seq 0 k)); constructor; auto.
    - apply NoDup_filter, seq_NoDup.
    - intros i. rewrite filter_In, in_seq. split; intros [? ?]; split; auto; lia. }
  destruct (layers_run patch shows (k + 1) nm inj _ sel _ _ ks (O sel) (O (fun i => negb (sel i))) Alt) as (g & Hg & S1); auto.
  - intros i l Hi ->. apply node_on. lia.
  - eapply same_trans; [apply S1, X|]. replace (map g ks) with (map node_step ks); [apply same_refl|].
    apply map_ext_in. intros i Hi. symmetry. apply Hg, I, Hi.
Qed.

Variables (G : gset).
Hypotheses (X : ext G) (U : forall i, 0 < i -> i < k -> unused (patch (nc i)) G).
Hypotheses (HP : xz (shows (nc 1) (nc 0))) (HQ : xz (shows (nc (k - 1)) (nc k))).
Lemma nodes_couple :
  same (run (map node_step (filter sel (seq 0 k)) ++ map node_step (filter (fun i => negb (sel i)) (seq 0 k))) G)
    (couple (negb (pauli_eqb (shows (nc 1) (nc 0)) (shows (nc (k - 1)) (nc k)))) (patch (nc 0)) (patch (nc k)) (shows (nc 0) (nc 1)) (shows (nc k) (nc (k - 1))) G).
Proof.
  set (n := k + 1).
  assert (Ui : inner_unused n nm G) by (intros i H0 H1; apply U; unfold n in *; lia).
  assert (Mid : forall i, 0 < i -> i + 1 < k -> if sel i then pairs_up nm i (act (node_step i)) else measures nm i (act (node_step i))).
  { intros i H0 H1. rewrite node_mid by auto. destruct (sel i); intros H XH; intros; apply same_refl. }
  assert (Up : forall i, 0 < i -> i + 1 < k -> sel i = true -> pairs_up nm i (act (node_step i))) by (intros i H0 H1 Hs; pose proof (Mid i H0 H1) as M; now rewrite Hs in M).
  assert (Me : forall i, 0 < i -> i + 1 < k -> sel i = false -> measures nm i (act (node_step i))) by (intros i H0 H1 Hs; pose proof (Mid i H0 H1) as M; now rewrite Hs in M).
  assert (F0 : forall H, act (node_step 0) H = if sel 0 then split_off (nm 0) (nm 1) (shows (nc 0) (nc 1)) (shows (nc 1) (nc 0)) H
     else merge (nm 0) (nm 1) (shows (nc 0) (nc 1)) (shows (nc 1) (nc 0)) H) by (intros H; rewrite node_first; now destruct (sel 0)).
  assert (Fl : forall H, act (node_step (n - 2)) H = if sel (k - 1) then split_off (nm (n - 1)) (nm (n - 2)) (shows (nc k) (nc (k - 1))) (shows (nc (k - 1)) (nc k)) H
     else merge (nm (n - 1)) (nm (n - 2)) (shows (nc k) (nc (k - 1))) (shows (nc (k - 1)) (nc k)) H).
  { intros H. replace (n - 2) with (k - 1) by (unfold n; lia). replace (n - 1) with k by (unfold n; lia). rewrite node_last. now destruct (sel (k - 1)). }
  assert (En : patch (nc k) = nm (n - 1)) by (now replace (n - 1) with k by (unfold n; lia)). rewrite En.
  pose proof (node_layers) as NL. fold n in NL. pose proof inj as inj'. fold n in inj'.
  assert (So := sel_odd). assert (Sl : sel (k - 1) = xorb (sel 0) (negb (Nat.odd k))).
  { rewrite So. f_equal. destruct k as [|k']; [lia|]. replace (S k' - 1) with k' by lia. now rewrite Nat.odd_succ, <- Nat.negb_odd, negb_involutive. }
  rewrite Sl in Fl.
  destruct (sel 0) eqn:S0; destruct (odd_cases k) as [(Ok & h & Eh)|(Ok & h & Eh)]; rewrite Ok in Fl; cbn [negb xorb] in Fl.
  - (* split first, split last *)
    destruct h as [|m]; [lia|]. eapply same_trans; [apply (NL _ (order_e m n sel ltac:(unfold n; lia) (fun i => eq_trans (So i) eq_refl))); exact X|].
    apply (chain_split_split patch shows n nm inj' node_step G) with (m := m); auto; try (unfold n; lia).
    + intros t Ht. split; [apply Up|apply Me]; try lia; rewrite So; [replace (1 + 2 * t + 1) with (0 + 2 * (t + 1)) by lia|]; now rewrite odd_shift.
    + apply Me; try (unfold n; lia). replace (n - 3) with (1 + 2 * m) by (unfold n; lia). rewrite So. now rewrite odd_shift.
  - (* split first, merge last *)
    destruct h as [|m]; [lia|]. eapply same_trans; [apply (NL _ (order_d m n sel ltac:(unfold n; lia) (fun i => eq_trans (So i) eq_refl))); exact X|].
    apply (chain_split_merge patch shows n nm inj' node_step G) with (m := m); auto; try (unfold n; lia).
    intros t Ht. split; [apply Up|apply Me]; try lia; rewrite So; [replace (1 + 2 * t + 1) with (0 + 2 * (t + 1)) by lia|]; now rewrite odd_shift.
  - (* merge first, merge last *)
    destruct h as [|m]; [lia|]. destruct (order_even n m ltac:(unfold n; lia)) as (N1 & I1 & B1).
    eapply same_trans; [apply NL; [|exact X]; split; [exact N1|split; [exact I1|]]|].
    { intros i j Nb Hi Hj Hs. apply B1; auto. rewrite So in Hs. now destruct (Nat.odd i). }
    apply (chain_even patch shows n nm inj' node_step) with (m := m); auto; try (unfold n; lia).
    + apply Up; try lia. now rewrite So.
    + intros t Ht. split; [apply Up|apply Me]; try lia; rewrite So; [replace (2 + 2 * t + 1) with (1 + 2 * (t + 1)) by lia|replace (2 + 2 * t) with (0 + 2 * (t + 1)) by lia]; now rewrite odd_shift.
  - (* merge first, split last *)
    destruct h as [|[|m]]; [lia| |].
    + assert (Ek : k = 2) by lia. assert (E3 : n = 3) by (unfold n; lia).
      destruct (order_b 0 n sel ltac:(lia) (fun i => eq_trans (So i) (xorb_false_l _))) as (N1 & I1 & B1). cbn [sweep app] in N1, I1, B1.
      eapply same_trans; [apply NL; [|exact X]; split; [exact N1|split; [exact I1|exact B1]]|].
      replace (n - 1) with 2 by lia. apply (chain_three patch shows n nm inj' node_step); auto.
      intros H. rewrite E3 in Fl. cbn [Nat.sub] in Fl. exact (Fl H).
    + destruct (order_odd n m ltac:(unfold n; lia)) as (N1 & I1 & B1).
      eapply same_trans; [apply NL; [|exact X]; split; [exact N1|split; [exact I1|]]|].
      { intros i j Nb Hi Hj Hs. apply B1; auto. rewrite So in Hs. now destruct (Nat.odd i). }
      apply (chain_odd patch shows n nm inj' node_step) with (m := m); auto; try (unfold n; lia).
      * apply Up; try lia. now rewrite So.
      * intros t Ht. split; [apply Up|apply Me]; try lia; rewrite So; [replace (2 + 2 * t + 1) with (1 + 2 * (t + 1)) by lia|replace (2 + 2 * t) with (0 + 2 * (t + 1)) by lia]; now rewrite odd_shift.
      * apply Me; try (unfold n; lia). replace (n - 3) with (0 + 2 * (m + 1)) by (unfold n; lia). rewrite So. now rewrite odd_shift.
Qed.
End Nodes.

(** ** What the decomposition compiles *)
Lemma label_changes_alternate : forall s cells cur i l last x, label_changes s cur i cells = Ok (l, last) ->
  forall j a t b t', nth_error ((x, cur) :: l) j = Some (a, t) -> nth_error ((x, cur) :: l) (j + 1) = Some (b, t') -> t <> t'.
Proof.
  intros s cells. induction cells as [|c [|d rest] IH]; intros cur i l last x H j a t b t' Ha Hb; cbn [label_changes] in H.
  - injection H as <- <-. destruct j as [|j]; cbn in Hb; [discriminate|]. destruct (j + 1); discriminate.
  - injection H as <- <-. destruct j as [|j]; cbn in Hb; [discriminate|]. destruct (j + 1); discriminate.
  - bstep H. rename x0 into u. destruct (btype_eqb u cur) eqn:Eq; [eapply IH; eauto|]. bstep H. destruct x0 as [l' last']. injection H as <- <-.
    destruct j as [|j].
    + cbn in Ha, Hb. injection Ha as <- <-. injection Hb as <- <-. intros <-. destruct cur; discriminate.
    + cbn [nth_error Nat.add] in Ha, Hb. eapply (IH _ _ _ _ i); eauto.
Qed.
Lemma label_changes_none : forall s cells cur i last, label_changes s cur i cells = Ok ([], last) -> last = cur.
Proof.
  intros s cells. induction cells as [|c [|d rest] IH]; intros cur i last H; cbn [label_changes] in H; try congruence.
  bstep H. destruct (btype_eqb x cur); [eauto|]. bstep H. destruct x0. discriminate.
Qed.

Section Shape.
Variables (route : list cell) (s1 s2 : N) (ends : list (nat * boundary_type)).
Definition end_at (i : nat) : nat := fst (nth i ends (0, BLabel1)).
Definition first_phase (i : nat) : bool := match nth_error ends i with Some (_, BLabel1) => true | _ => false end.
(** Segment [i] of [k], from its layers *)
Definition segment_ok (k : nat) (x : piece) : Prop :=
  let i := fst x in let t := kind k (first_phase i) i in
  let n := end_at (i + 1) - end_at i + 1 in
  i < k /\ end_at i < end_at (i + 1) < length route
  /\ exists side1 side2 k1 k2, let does := link_does t n (i =? 0) side1 side2 k1 k2 (seg route (end_at i)) in
     on_links (in_first t n (i =? 0)) does n (fst (snd x)) /\ on_links (fun j => negb (in_first t n (i =? 0) j)) does n (snd (snd x)).
Definition compiled (k : nat) (pre : list nat) (ph : layers * layers) : Prop :=
  exists l1 l2, map fst l1 = filter first_phase pre /\ map fst l2 = filter (fun i => negb (first_phase i)) pre
    /\ Forall (segment_ok k) l1 /\ Forall (segment_ok k) l2 /\ ph = ((firsts l1, seconds l1), (firsts l2, seconds l2))
    /\ (forall i, In i pre -> exists a t, nth_error ends i = Some (a, t) /\ (t = BLabel1 \/ t = BLabel2)).
Hypotheses (Rs : rising 0 (map fst ends)) (Bd : forall k, In k (map fst ends) -> k < length route).
Lemma compiled_step : forall pre i ph ph', 2 <= length ends -> compiled (length ends - 1) pre ph ->
  edpc_segment route s1 s2 (length ends) ends ph i = Ok ph' -> compiled (length ends - 1) (pre ++ [i]) ph'.
Proof.
  intros pre i ph ph' He (l1 & l2 & M1 & M2 & F1 & F2 & -> & Lb) E. unfold edpc_segment in E.
  apply bind_ok in E as ([a t] & Ea & E). apply bind_ok in E as ([b tb] & Eb & E).
  assert (Na : nth_error ends i = Some (a, t)) by (unfold idx in Ea; destruct (nth_error ends i); congruence).
  assert (Nb : nth_error ends (i + 1) = Some (b, tb)) by (unfold idx in Eb; destruct (nth_error ends (i + 1)); congruence).
  assert (Hab : a < b < length route).
  { split.
    - eapply rising_nth; [exact Rs|apply (map_nth_error fst) in Na; exact Na|apply (map_nth_error fst) in Nb; exact Nb].
    - apply Bd. apply in_map_iff. exists (b, tb). split; auto. eapply nth_error_In; eauto. }
  assert (Ei : end_at i = a) by (unfold end_at; now rewrite (nth_error_nth _ _ _ Na)).
  assert (Ej : end_at (i + 1) = b) by (unfold end_at; now rewrite (nth_error_nth _ _ _ Nb)).
  assert (Li : i < length ends - 1) by (assert (i + 1 < length ends) by (apply nth_error_Some; congruence); lia).
  assert (Lb' : t = BLabel1 \/ t = BLabel2 -> forall j, In j (pre ++ [i]) -> exists a t, nth_error ends j = Some (a, t) /\ (t = BLabel1 \/ t = BLabel2)).
  { intros Ht j Hj. apply in_app_iff in Hj as [Hj|[<-|[]]]; [auto|]. eauto. }
  assert (Ok1 : forall t0 p reverse side1 side2 p', compile_bell t0 p route a b reverse side1 side2 = Ok p' -> reverse = (i =? 0) ->
     t0 = kind (length ends - 1) (first_phase i) i ->
     exists la lb, p' = (fst p ++ la, snd p ++ lb) /\ segment_ok (length ends - 1) (i, (la, lb))).
  { intros t0 p reverse side1 side2 p' Ec -> ->.
    destruct (compile_shape (kind (length ends - 1) (first_phase i) i) p route a b (i =? 0) side1 side2 Hab) as (la & lb & E' & A & B).
    rewrite Ec in E'. injection E' as ->. exists la, lb. split; [reflexivity|]. unfold segment_ok. cbn [fst snd]. rewrite Ei, Ej.
    split; [exact Li|]. split; [exact Hab|]. eauto 8. }
  assert (Fp : first_phase i = match t with BLabel1 => true | _ => false end) by (unfold first_phase; rewrite Na; reflexivity).
  destruct t; try discriminate; apply bind_ok in E as (l' & E & E'); injection E' as <-.
  - assert (Ec : exists la lb, l' = (firsts l1 ++ la, seconds l1 ++ lb) /\ segment_ok (length ends - 1) (i, (la, lb))).
    { unfold kind in Ok1. rewrite Fp in Ok1. destruct (Nat.eqb_spec i 0).
      - eapply Ok1 in E; eauto.
      - replace (length ends - 1 - 1) with (length ends - 2) in Ok1 by lia. destruct (Nat.eqb_spec i (length ends - 2)); eapply Ok1 in E; eauto. }
    destruct Ec as (la & lb & -> & Sk). exists (l1 ++ [(i, (la, lb))]), l2.
    rewrite map_app, !filter_app, M1, M2. cbn [map filter fst snd]. rewrite Fp. cbn [negb]. rewrite app_nil_r.
    repeat (split; auto). now apply Forall_app; auto. unfold firsts, seconds. rewrite !flat_map_app. cbn [flat_map fst snd]. now rewrite !app_nil_r.
  - assert (Ec : exists la lb, l' = (firsts l2 ++ la, seconds l2 ++ lb) /\ segment_ok (length ends - 1) (i, (la, lb))).
    { unfold kind in Ok1. rewrite Fp in Ok1. destruct (Nat.eqb_spec i 0).
      - eapply Ok1 in E; eauto.
      - replace (length ends - 1 - 1) with (length ends - 2) in Ok1 by lia. destruct (Nat.eqb_spec i (length ends - 2)); eapply Ok1 in E; eauto. }
    destruct Ec as (la & lb & -> & Sk). exists l1, (l2 ++ [(i, (la, lb))]).
    rewrite map_app, !filter_app, M1, M2. cbn [map filter fst snd]. rewrite Fp. cbn [negb]. rewrite app_nil_r.
    repeat (split; auto). now apply Forall_app; auto. unfold firsts, seconds. rewrite !flat_map_app. cbn [flat_map fst snd]. now rewrite !app_nil_r.
Qed.
End Shape.

Definition alternating (ends : list (nat * boundary_type)) (i : nat) : bool := xorb (first_phase ends 0) (Nat.odd i).
Lemma edpc_shape : forall s route s1 s2 ph, 2 <= length route -> edpc_decompose s route s1 s2 = Ok ph ->
  (exists l, compile_cnot ([], []) route s1 s2 = Ok l /\ (ph = (l, ([], [])) \/ ph = (([], []), l)))
  \/ exists ends, 3 <= length ends /\ rising 0 (map fst ends) /\ (forall j, In j (map fst ends) -> j < length route)
       /\ end_at ends 0 = 0 /\ end_at ends (length ends - 1) = length route - 1
       /\ (forall i, i < length ends - 1 -> first_phase ends i = alternating ends i)
       /\ compiled route ends (length ends - 1) (seq 0 (length ends - 1)) ph.
Proof.
  intros s route s1 s2 ph Hl H. unfold edpc_decompose in H. apply bind_ok in H as (c0 & _ & H).
  apply bind_ok in H as (c1 & _ & H). apply bind_ok in H as (first & _ & H). apply bind_ok in H as ([mid cur] & Em & H).
  destruct ((_ =? 2) && btype_eqb cur BLabel1) eqn:C1.
  { left. apply bind_ok in H as (l & Ec & H). injection H as <-. eauto. }
  destruct ((_ =? 2) && btype_eqb cur BLabel2) eqn:C2.
  { left. apply bind_ok in H as (l & Ec & H). injection H as <-. eauto. }
  right. set (ends := (0, first) :: mid ++ [(length route - 1, cur)]) in *.
  assert (Le : length ends = length mid + 2) by (unfold ends; cbn [length]; rewrite app_length; cbn [length]; lia).
  destruct (label_changes_rising _ _ _ _ _ _ Em) as [R B].
  assert (Len : length (tl route) = length route - 1) by (destruct route; cbn; lia). rewrite Len in B.
  assert (Rs : rising 0 (map fst ends)).
  { unfold ends. cbn [map fst rising]. split; auto. rewrite map_app. apply rising_app; auto; [|cbn; lia].
    intros k K. apply B in K. cbn [fst]. lia. }
  assert (Bd : forall k, In k (map fst ends) -> k < length route).
  { intros k K. unfold ends in K. cbn [map fst] in K. destruct K as [<-|K]; [lia|]. rewrite map_app in K.
    apply in_app_iff in K as [K|[<-|[]]]; [apply B in K|cbn]; lia. }
  assert (Co : compiled route ends (length ends - 1) (seq 0 (length ends - 1)) ph).
  { change (seq 0 (length ends - 1)) with ([] ++ seq 0 (length ends - 1)).
    eapply (fold_inv _ _ _ (compiled route ends (length ends - 1)) _ _ _ []); [| |exact H].
    - intros pre x a a' P E. eapply compiled_step; eauto. lia.
    - exists [], []. repeat (split; auto). intros i []. }
  assert (Lb : forall i, i < length ends - 1 -> exists a t, nth_error ends i = Some (a, t) /\ (t = BLabel1 \/ t = BLabel2)).
  { intros i Hi. destruct Co as (l1 & l2 & _ & _ & _ & _ & _ & Lb). apply Lb, in_seq. lia. }
  exists ends. split; [|split; [exact Rs|split; [exact Bd|split; [reflexivity|split; [|split; [|exact Co]]]]]].
  - destruct mid as [|x mid]; [|cbn [length] in Le; lia]. exfalso. apply label_changes_none in Em. subst cur.
    destruct (Lb 0 ltac:(lia)) as (a & t & Ht & T). injection Ht as <- <-. destruct T as [->| ->]; [discriminate C1|discriminate C2].
  - unfold end_at. replace (length ends - 1) with (S (length mid)) by lia. unfold ends. cbn [nth]. now rewrite app_nth2, Nat.sub_diag by lia.
  - assert (Nx : forall j, j < length ends - 1 -> nth_error ends j = nth_error ((0, first) :: mid) j).
    { intros j Hj. unfold ends. change ((0, first) :: mid ++ [(length route - 1, cur)]) with (((0, first) :: mid) ++ [(length route - 1, cur)]).
      rewrite nth_error_app1; [reflexivity|cbn [length]; lia]. }
    induction i as [|i IH]; intros Hi; [unfold alternating; now rewrite xorb_false_r|].
    specialize (IH ltac:(lia)). destruct (Lb i ltac:(lia)) as (a & t & Ha & Ta). destruct (Lb (S i) Hi) as (b & t' & Hb & Tb).
    assert (D : t <> t').
    { eapply (label_changes_alternate _ _ _ _ _ _ 0 Em i); [rewrite <- Nx by lia; exact Ha|rewrite <- Nx by lia; rewrite Nat.add_1_r; exact Hb]. }
    unfold alternating in *. rewrite Nat.odd_succ, <- Nat.negb_odd. 
    replace (xorb (first_phase ends 0) (negb (Nat.odd i))) with (negb (first_phase ends i)) by (rewrite IH; now destruct (first_phase ends 0), (Nat.odd i)).
    unfold first_phase. rewrite Ha, Hb. destruct Ta as [->| ->], Tb as [->| ->]; congruence || reflexivity.
Qed.

Lemma rising_lt : forall l a i j x y, rising a l -> i < j -> nth_error l i = Some x -> nth_error l j = Some y -> x < y.
Proof.
  intros l a i j x y R H. revert y. induction H as [|j H IH]; intros y Hx Hy; [rewrite <- Nat.add_1_r in Hy; eapply rising_nth; eauto|].
  destruct (nth_error l j) as [z|] eqn:Ez.
  - specialize (IH z Hx eq_refl). rewrite <- Nat.add_1_r in Hy. pose proof (rising_nth _ _ _ _ _ R Ez Hy). lia.
  - apply nth_error_None in Ez. assert (S j < length l) by (apply nth_error_Some; congruence). lia.
Qed.
Lemma end_lt ends i j : rising 0 (map fst ends) -> i < j -> j < length ends -> end_at ends i < end_at ends j.
Proof.
  intros R H L. unfold end_at. assert (Hn : forall m, m < length ends -> nth_error (map fst ends) m = Some (fst (nth m ends (0, BLabel1)))).
  { intros m Hm. apply (map_nth_error fst). now apply nth_error_nth'. }
  eapply (rising_lt _ 0 i j); eauto; apply Hn; lia.
Qed.
Lemma end_le ends i j : rising 0 (map fst ends) -> i <= j -> j < length ends -> end_at ends i <= end_at ends j.
Proof. intros R H L. destruct (Nat.eq_dec i j) as [->|D]; [lia|]. apply Nat.lt_le_incl, end_lt; auto. lia. Qed.

Lemma segment_within patch shows route start t n reverse side1 side2 k1 k2 sel ops : 2 <= n ->
  (forall i j, i < n -> j < n -> patch (seg route start i) = patch (seg route start j) -> i = j) ->
  on_links sel (link_does t n reverse side1 side2 k1 k2 (seg route start)) n ops ->
  Forall (within patch shows (fun q => exists j, start <= j <= start + (n - 1) /\ q = patch (seg route 0 j))) ops.
Proof.
  intros Hn inj (links & F & _ & I). apply Forall_forall. intros l Hl.
  assert (Hd : exists j, j + 1 < n /\ link_does t n reverse side1 side2 k1 k2 (seg route start) j l).
  { assert (Hj : forall j, In j links -> j + 1 < n) by (intros j Hj; now apply I). clear I. induction F as [|j x links ops D F IH]; [destruct Hl|].
    destruct Hl as [->|Hl]; [exists j; split; [apply Hj; now left|exact D]|]. apply IH; auto. intros i Hi. apply Hj. now right. }
  destruct Hd as (j & Hj & D). apply link_near in D; auto.
  apply (near_on patch shows) in D; [|intros a b Ha Hb E; apply inj in E; destruct reverse; lia|destruct reverse; lia].
  unfold on_link in D. eexists _, _. split; [|split; [|exact D]]; cbn beta.
  - exists (start + (if reverse then n - 1 - (n - 2 - j) else j)). split; [destruct reverse; lia|]. now destruct reverse.
  - exists (start + (if reverse then n - 1 - (n - 2 - j + 1) else j + 1)). split; [destruct reverse; lia|]. now destruct reverse.
Qed.

Section Cross.
Variables (patch : cell -> N) (shows : cell -> cell -> pauli) (tgt : cell) (inner : list cell) (ctl : cell).
Notation route := (tgt :: inner ++ [ctl]).
Notation at_ := (seg route 0).
Notation L := (length route).
Hypotheses (Hi : inner <> []) (Nd : NoDup route) (Op : own_patches patch route) (Sq : forall a b, In a inner -> shows a b = square_shows a b).
(** What the ends and their neighbours show, for nodes in place of the neighbours *)
Definition node_shows (a b : cell) : pauli :=
  if cell_eqb a tgt then shows tgt (hd ctl inner) else if cell_eqb a ctl then shows ctl (last inner tgt)
  else if cell_eqb b tgt then shows (hd ctl inner) tgt else shows (last inner tgt) ctl.
Lemma route_len : L = length inner + 2. Proof. cbn [length]. rewrite app_length. cbn [length]. lia. Qed.
Lemma inner_len : 1 <= length inner. Proof. destruct inner; [congruence|cbn; lia]. Qed.
Lemma at_inner j : 0 < j -> j < L - 1 -> In (at_ j) inner.
Proof. intros H0 H1. rewrite route_len in H1. rewrite seg_nth. destruct j as [|j]; [lia|]. cbn [nth]. rewrite app_nth1 by lia. apply nth_In. lia. Qed.
Lemma at_1 : at_ 1 = hd ctl inner. Proof. rewrite seg_nth. destruct inner; [congruence|reflexivity]. Qed.
Lemma at_end : at_ (L - 1) = ctl.
Proof. rewrite seg_nth, route_len. replace (length inner + 2 - 1) with (S (length inner)) by lia. cbn [nth]. now rewrite app_nth2, Nat.sub_diag by lia. Qed.
Lemma at_last : at_ (L - 2) = last inner tgt.
Proof.
  pose proof inner_len. rewrite seg_nth, route_len. replace (length inner + 2 - 2) with (S (length inner - 1)) by lia. cbn [nth]. rewrite app_nth1 by lia.
  destruct (exists_last Hi) as (l & x & ->). rewrite app_length, last_last. cbn [length]. rewrite app_nth2 by lia.
  now replace (length l + 1 - 1 - length l) with 0 by lia.
Qed.
Lemma at_inj i j : i < L -> j < L -> patch (at_ i) = patch (at_ j) -> i = j.
Proof.
  intros Li Lj Ep. apply Op in Ep; [|rewrite seg_nth; apply nth_In; exact Li|rewrite seg_nth; apply nth_In; exact Lj].
  rewrite !seg_nth in Ep. eapply NoDup_nth; eauto.
Qed.
Lemma at_ne i j : i < L -> j < L -> i <> j -> at_ i <> at_ j.
Proof. intros Li Lj D E. apply D, at_inj; auto. now rewrite E. Qed.
Lemma shows_target a : node_shows tgt a = shows tgt (hd ctl inner).
Proof. unfold node_shows. now destruct (cell_eqb_spec tgt tgt). Qed.
Lemma shows_control a : node_shows ctl a = shows ctl (last inner tgt).
Proof.
  unfold node_shows. destruct (cell_eqb_spec ctl tgt) as [E|_]; [|now destruct (cell_eqb_spec ctl ctl)].
  exfalso. rewrite <- at_end in E. apply (at_ne (L - 1) 0); auto; rewrite route_len; lia.
Qed.
Lemma shows_node a : In a inner -> node_shows a tgt = shows (hd ctl inner) tgt /\ node_shows a ctl = shows (last inner tgt) ctl.
Proof.
  intros Ha. assert (Dt : a <> tgt) by (intros ->; apply NoDup_cons_iff in Nd; apply (proj1 Nd), in_app_iff; auto).
  assert (Dc : a <> ctl).
  { intros ->. apply NoDup_cons_iff in Nd. destruct Nd as [_ N']. apply NoDup_remove_2 in N'. apply N'. rewrite app_nil_r. exact Ha. }
  unfold node_shows. destruct (cell_eqb_spec a tgt); [congruence|]. destruct (cell_eqb_spec a ctl); [congruence|]. destruct (cell_eqb_spec tgt tgt); [|congruence].
  destruct (cell_eqb_spec ctl tgt) as [E|]; [|auto]. exfalso. rewrite <- at_end in E. apply (at_ne (L - 1) 0); auto; rewrite route_len; lia.
Qed.
Lemma inner_xz a b : In a inner -> xz (shows a b).
Proof. intros H. rewrite Sq by exact H. apply square_xz. Qed.

Section Ends.
Variables (ends : list (nat * boundary_type)).
Notation k := (length ends - 1).
Notation e := (end_at ends).
Notation nc := (fun i => at_ (e i)).
Hypotheses (H3 : 3 <= length ends) (Rs : rising 0 (map fst ends)) (E0 : e 0 = 0) (Ek : e k = L - 1).
Hypothesis Fp : forall i, i < k -> first_phase ends i = alternating ends i.
Notation sel := (alternating ends).
Notation f := (node_step k nc sel).
Lemma e_lt i j : i < j -> j <= k -> e i < e j. Proof. intros. apply end_lt; auto. lia. Qed.
Lemma e_le i j : i <= j -> j <= k -> e i <= e j. Proof. intros. apply end_le; auto. lia. Qed.
Lemma e_top i : i <= k -> e i < L. Proof. intros H. pose proof (e_le i k H ltac:(lia)). rewrite Ek in *. pose proof route_len. lia. Qed.
Lemma nodes_inj i j : i < k + 1 -> j < k + 1 -> patch (nc i) = patch (nc j) -> i = j.
Proof.
  intros Hi' Hj' E. apply at_inj in E; [|apply e_top; lia|apply e_top; lia].
  destruct (Nat.lt_trichotomy i j) as [C|[C|C]]; [pose proof (e_lt i j C ltac:(lia)); lia|exact C|pose proof (e_lt j i C ltac:(lia)); lia].
Qed.
Definition area (i : nat) (q : N) : Prop := exists j, e i <= j <= e (i + 1) /\ q = patch (at_ j).
Definition needs (i : nat) (q : N) : Prop :=
  exists j, 0 < j < L - 1 /\ q = patch (at_ j) /\ if sel i then e i <= j <= e (i + 1) else e i < j < e (i + 1).
Lemma alternates i : sel (S i) = negb (sel i).
Proof. unfold alternating. rewrite Nat.odd_succ, <- Nat.negb_odd. now destruct (first_phase ends 0), (Nat.odd i). Qed.
Lemma same_phase i j : i <> j -> sel i = sel j -> i + 1 < j \/ j + 1 < i.
Proof.
  intros D E. destruct (Nat.lt_trichotomy i j) as [C|[C|C]]; [left|contradiction|right].
  - destruct (Nat.eq_dec (S i) j) as [<-|]; [|lia]. rewrite alternates in E. destruct (sel i); discriminate.
  - destruct (Nat.eq_dec (S j) i) as [<-|]; [|lia]. rewrite alternates in E. destruct (sel j); discriminate.
Qed.
Lemma areas_apart i j a b : i < k -> j < k -> i <> j -> sel i = sel j -> area i a -> area j b -> a <> b.
Proof.
  intros Hi' Hj' D S (x & Hx & ->) (y & Hy & ->) E. pose proof (e_top (i + 1) ltac:(lia)). pose proof (e_top (j + 1) ltac:(lia)).
  apply at_inj in E; [|lia|lia]. subst y. destruct (same_phase i j D S) as [C|C].
  - pose proof (e_lt (i + 1) j C ltac:(lia)). lia.
  - pose proof (e_lt (j + 1) i C ltac:(lia)). lia.
Qed.
Lemma needs_apart i j q : i < k -> j < k -> i <> j -> sel j = false \/ sel i = sel j -> needs j q -> q <> patch (nc i) /\ q <> patch (nc (i + 1)).
Proof.
  intros Hi' Hj' D S (x & Hx & -> & Hs).
  assert (G : forall m, m = i \/ m = i + 1 -> patch (at_ x) <> patch (nc m)).
  { intros m Hm E. apply at_inj in E; [|lia|apply e_top; lia]. subst x. destruct (sel j) eqn:Sj.
    - destruct S as [S|S]; [discriminate|]. rewrite <- Sj in S. destruct (same_phase i j D S) as [C|C].
      + pose proof (e_lt m j ltac:(lia) ltac:(lia)). lia.
      + pose proof (e_lt (j + 1) m ltac:(lia) ltac:(lia)). lia.
    - destruct (Nat.le_gt_cases m j) as [C|C]; [pose proof (e_le m j C ltac:(lia)); lia|pose proof (e_le (j + 1) m ltac:(lia) ltac:(lia)); lia]. }
  split; apply G; auto.
Qed.
Lemma segment_like x : segment_ok route ends k x -> like_step patch shows node_shows f needs x /\ fits_area patch shows area x.
Proof.
  destruct x as [i [la lb]]. intros (Li & Le & s1 & s2 & k1 & k2 & A & B). cbn [fst snd] in *. rewrite Fp in A, B by exact Li.
  set (t := kind k (sel i) i) in *. set (n := e (i + 1) - e i + 1) in *.
  assert (Hn : 2 <= n) by (unfold n; lia).
  assert (Sg : forall j, seg route (e i) j = at_ (e i + j)) by reflexivity.
  assert (Inj : forall a b, a < n -> b < n -> patch (seg route (e i) a) = patch (seg route (e i) b) -> a = b).
  { intros a b Ha Hb E. rewrite !Sg in E. apply at_inj in E; unfold n in *; lia. }
  split.
  - intros G X U. cbn [fst snd] in *. unfold needs in U.
    assert (Top : i < k - 1 -> e (i + 1) < L - 1) by (intros C; rewrite <- Ek; apply e_lt; lia).
    assert (Bot : 0 < i -> 0 < e i) by (intros C; rewrite <- E0 at 1; apply e_lt; lia).
    set (nb := if i =? 0 then 1 else n - 2).
    assert (Nb : 0 < e i + nb < L - 1).
    { unfold nb. destruct (Nat.eqb_spec i 0) as [->|D]; [rewrite E0; pose proof (e_lt 0 (0 + 1) ltac:(lia) ltac:(lia)); specialize (Top ltac:(lia)); lia|].
      specialize (Bot ltac:(lia)). pose proof (e_top (i + 1) ltac:(lia)). unfold n. lia. }
    assert (Xz : xz (shows (seg route (e i) nb) (seg route (e i) (far_end n (i =? 0))))) by (rewrite Sg; apply inner_xz, at_inner; lia).
    assert (Pr : producing t = sel i) by (unfold t, kind; destruct ((i =? 0) || (i =? k - 1)), (sel i); reflexivity).
    assert (Ne : seg route (e i) (near_end n (i =? 0)) = nc (near_node i)).
    { rewrite Sg. unfold near_end, near_node. f_equal. destruct (Nat.eqb_spec i 0); [unfold n|]; lia. }
    assert (Fe : seg route (e i) (far_end n (i =? 0)) = nc (far_node i)).
    { rewrite Sg. unfold far_end, far_node. f_equal. destruct (Nat.eqb_spec i 0); [|unfold n]; lia. }
    pose proof (long_layers patch shows t n (seg route (e i)) (i =? 0) s1 s2 k1 k2 la lb Hn Inj Xz A B G X) as LL.
    eapply same_trans; [apply LL|].
    + intros j J0 J1. apply U. exists (e i + j). split; [pose proof (e_top (i + 1) ltac:(lia)); unfold n in *; lia|].
      split; [reflexivity|]. unfold n in *. destruct (sel i); lia.
    + rewrite Pr. intros S. apply U. rewrite Ne. exists (e (near_node i)). rewrite S. split; [|split; [reflexivity|]]; unfold near_node.
      * destruct (Nat.eqb_spec i 0) as [->|D]; [specialize (Top ltac:(lia)); pose proof (e_lt 0 (0 + 1) ltac:(lia) ltac:(lia)); lia|].
        specialize (Bot ltac:(lia)). pose proof (e_lt i (i + 1) ltac:(lia) ltac:(lia)). pose proof (e_top (i + 1) ltac:(lia)). lia.
      * destruct (i =? 0); lia.
    + intros Et. assert (Si : sel i = true) by (rewrite <- Pr, Et; reflexivity).
      assert (D0 : i <> 0 /\ i <> k - 1).
      { unfold t, kind in Et. rewrite Si in Et. destruct (Nat.eqb_spec i 0); [discriminate|]. destruct (Nat.eqb_spec i (k - 1)); [discriminate|auto]. }
      apply U. rewrite Fe. exists (e (far_node i)). rewrite Si. unfold far_node. rewrite (proj2 (Nat.eqb_neq i 0)) by tauto.
      specialize (Top ltac:(lia)). specialize (Bot ltac:(lia)). split; [lia|]. split; [reflexivity|lia].
    + replace (lr_means patch shows t _ _ _) with (local_act patch node_shows (f i)); [apply same_refl|].
      fold nb. rewrite Ne, Fe. unfold node_step. fold t.
      assert (Hs : t = LRMerge \/ t = LRSplit -> node_shows (nc (far_node i)) (nc (near_node i)) = shows (nc (far_node i)) (seg route (e i) nb)
         /\ node_shows (nc (near_node i)) (nc (far_node i)) = shows (seg route (e i) nb) (nc (far_node i))).
      { intros Ht. assert (Hend : i = 0 \/ i <> 0 /\ i = k - 1).
        { unfold t, kind in Ht. destruct (Nat.eqb_spec i 0); [auto|]. destruct (Nat.eqb_spec i (k - 1)); [auto|]. cbn [orb] in Ht. destruct Ht, (sel i); discriminate. }
        unfold nb, near_node, far_node. cbn beta. destruct Hend as [->|[D0 D1]].
        - cbn [Nat.eqb]. rewrite Sg, E0. cbn [Nat.add]. rewrite at_1. change (at_ 0) with tgt.
          assert (In1 : In (at_ (e 1)) inner) by (apply at_inner; [pose proof (e_lt 0 1 ltac:(lia) ltac:(lia)); lia|apply Top; lia]).
          rewrite shows_target. destruct (shows_node _ In1) as [-> _]. auto.
        - rewrite (proj2 (Nat.eqb_neq i 0)) by auto. rewrite Sg. unfold n. subst i. replace (k - 1 + 1) with k in * by lia.
          replace (e (k - 1) + (e k - e (k - 1) + 1 - 2)) with (L - 2) by lia. rewrite at_last, Ek, at_end.
          assert (In1 : In (at_ (e (k - 1))) inner) by (apply at_inner; [apply Bot; lia|lia]).
          rewrite shows_control. destruct (shows_node _ In1) as [_ ->]. auto. }
      destruct t; unfold local_act; cbn [as_step lr_means]; try reflexivity; (destruct Hs as [h1 h2]; [auto|]; cbn beta in *; rewrite h1, h2; reflexivity).
  - unfold fits_area. cbn [fst snd]. apply Forall_app. split; [pose proof (segment_within _ shows _ _ _ _ _ _ _ _ _ _ _ Hn Inj A) as W|pose proof (segment_within _ shows _ _ _ _ _ _ _ _ _ _ _ Hn Inj B) as W];
      (eapply Forall_impl; [|exact W]); intros l Hl; (eapply within_weaken; [|exact Hl]); intros q (j & Hj & ->); exists j; (split; [unfold n in Hj; lia|reflexivity]).
Qed.

Lemma ends_couple ph G : compiled route ends k (seq 0 k) ph -> ext G -> (forall c, In c inner -> unused (patch c) G) ->
  same (local_run patch shows (phase_ops ph) G)
    (couple (negb (pauli_eqb (shows (hd ctl inner) tgt) (shows (last inner tgt) ctl))) (patch tgt) (patch ctl)
      (shows tgt (hd ctl inner)) (shows ctl (last inner tgt)) G).
Proof.
  intros (l1 & l2 & M1 & M2 & F1 & F2 & -> & _) X U. cbn [phase_ops].
  assert (Fs : forall i, In i (seq 0 k) -> first_phase ends i = sel i) by (intros i Hin; apply Fp; apply in_seq in Hin; lia).
  rewrite (filter_ext_in _ sel) in M1 by exact Fs. rewrite (filter_ext_in _ (fun i => negb (sel i))) in M2 by (intros i Hin; now rewrite Fs).
  assert (I1 : forall i, In i (map fst l1) -> i < k /\ sel i = true) by (intros i Hin; rewrite M1 in Hin; apply filter_In in Hin; rewrite in_seq in Hin; split; [lia|tauto]).
  assert (I2 : forall i, In i (map fst l2) -> i < k /\ sel i = false).
  { intros i Hin; rewrite M2 in Hin; apply filter_In in Hin; rewrite in_seq in Hin; split; [lia|]. now apply negb_true_iff. }
  assert (N1 : NoDup (map fst l1)) by (rewrite M1; apply NoDup_filter, seq_NoDup).
  assert (N2 : NoDup (map fst l2)) by (rewrite M2; apply NoDup_filter, seq_NoDup).
  assert (Fit : forall l, Forall (segment_ok route ends k) l -> Forall (fits_area patch shows area) l /\ Forall (like_step patch shows node_shows f needs) l).
  { intros l F. split; (eapply Forall_impl; [|exact F]); intros x Hx; now apply segment_like. }
  destruct (Fit l1 F1) as [A1 S1]. destruct (Fit l2 F2) as [A2 S2].
  assert (On : forall i, i < k -> ker (patch (nc i)) (patch (nc (i + 1))) (local_act patch node_shows (f i))).
  { intros i Hi'. apply (node_on patch node_shows k nc sel); first [lia|exact alternates|exact nodes_inj|exact Hi']. }
  assert (X1 : ext (local_run patch shows (firsts l1 ++ seconds l1) G)).
  { assert (W : Forall (within patch shows (fun _ => True)) (firsts l1 ++ seconds l1)).
    { apply Forall_forall. intros y Hy. rewrite Forall_forall in A1. unfold firsts, seconds in Hy. rewrite in_app_iff, !in_flat_map in Hy.
      assert (Hx : exists x, In x l1 /\ In y (fst (snd x) ++ snd (snd x))) by (destruct Hy as [(x & Hx & Hy)|(x & Hx & Hy)]; exists x; rewrite in_app_iff; auto).
      destruct Hx as (x & Hx & Hy'). specialize (A1 x Hx). unfold fits_area in A1. rewrite Forall_forall in A1.
      eapply within_weaken; [|apply A1; exact Hy']. auto. }
    eapply runs_ext_within; eauto. }
  rewrite run_app.
  eapply same_trans; [apply (gather patch shows area l2); auto|].
  { intros i j a b Hin Hjn D. apply I2 in Hin, Hjn. apply areas_apart; try tauto. destruct Hin, Hjn; congruence. }
  eapply same_trans; [apply run_same_sets, (gather patch shows area l1); auto|].
  { intros i j a b Hin Hjn D. apply I1 in Hin, Hjn. apply areas_apart; try tauto. destruct Hin, Hjn; congruence. }
  eapply same_trans; [apply run_same_sets, (pieces_run patch shows node_shows f (fun i => patch (nc i)) needs l1); auto|].
  { intros i j q Hin Hjn D. apply I1 in Hin, Hjn. apply needs_apart; try tauto. right. destruct Hin, Hjn; congruence. }
  { intros i Hin. apply On, I1, Hin. }
  { intros i q Hin (j & Hj & -> & _). apply U, at_inner; lia. }
  assert (Kp : forall q, (forall i, In i (map fst l1) -> q <> patch (nc i) /\ q <> patch (nc (i + 1))) ->
     ext (local_run patch node_shows (map f (map fst l1)) G) /\ (unused q G -> unused q (local_run patch node_shows (map f (map fst l1)) G))).
  { intros q Hq. apply (steps_keep patch node_shows f (fun i => patch (nc i))); [|exact X]. intros i Hin. split; [apply On, I1, Hin|apply Hq, Hin]. }
  assert (X2 : ext (local_run patch node_shows (map f (map fst l1)) G)).
  { clear - On I1 X. assert (W : Forall (within patch node_shows (fun _ => True)) (map f (map fst l1))).
    { apply Forall_forall. intros y Hy. apply in_map_iff in Hy. destruct Hy as (i & <- & Hin). eexists _, _. split; [exact I|split; [exact I|]]. apply On, I1, Hin. }
    eapply runs_ext_within; eauto. }
  eapply same_trans; [apply (pieces_run patch shows node_shows f (fun i => patch (nc i)) needs l2); auto|].
  { intros i j q Hin Hjn D. apply I2 in Hin, Hjn. apply needs_apart; try tauto. }
  { intros i Hin. apply On, I2, Hin. }
  { intros j q Hjn Hq. apply (Kp q).
    - intros i Hin. apply (needs_apart i j); auto; try (apply I1, Hin); try (apply I2, Hjn).
      + intros ->. apply I1 in Hin. apply I2 in Hjn. destruct Hin, Hjn; congruence.
      + left. apply I2, Hjn.
    - destruct Hq as (x & Hx & -> & _). apply U, at_inner; lia. }
  rewrite <- run_app, M1, M2.
  assert (L1 : e 1 < L - 1) by (rewrite <- Ek; apply e_lt; lia).
  assert (B1 : 0 < e 1) by (rewrite <- E0 at 1; apply e_lt; lia).
  assert (Bk : 0 < e (k - 1)) by (rewrite <- E0 at 1; apply e_lt; lia).
  assert (Lk : e (k - 1) < L - 1) by (rewrite <- Ek; apply e_lt; lia).
  pose proof (nodes_couple patch node_shows k nc sel ltac:(lia) alternates nodes_inj G X) as C. cbn beta in C. rewrite E0, Ek, at_end in C. change (at_ 0) with tgt in C.
  destruct (shows_node (at_ (e 1)) (at_inner _ B1 L1)) as [Sa _]. destruct (shows_node (at_ (e (k - 1))) (at_inner _ Bk Lk)) as [_ Sb].
  rewrite Sa, Sb, shows_target, shows_control in C. apply C.
  - intros i Hi0 Hik. apply U, at_inner; [rewrite <- E0 at 1; apply e_lt; lia|rewrite <- Ek; apply e_lt; lia].
  - apply inner_xz. rewrite <- at_1. apply at_inner; lia.
  - apply inner_xz. rewrite <- at_last. apply at_inner; lia.
Qed.
End Ends.

Lemma cross_couples s s1 s2 ph : edpc_decompose s route s1 s2 = Ok ph ->
  tiles_act_as patch shows inner (phase_ops ph)
    (couple (negb (Bool.eqb (beside tgt (hd ctl inner)) (beside (last inner tgt) ctl))) (patch tgt) (patch ctl)
       (shows tgt (hd ctl inner)) (shows ctl (last inner tgt))).
Proof.
  intros E. pose proof route_len as RL. pose proof inner_len.
  destruct (edpc_shape s route s1 s2 ph ltac:(lia) E) as [([la lb] & Ec & Eph)|(ends & H3 & Rs & Bd & E0 & Ek & Fp & Co)].
  - replace (phase_ops ph) with (la ++ lb) by (destruct Eph as [->| ->]; cbn [phase_ops]; rewrite ?app_nil_r; reflexivity).
    now apply (cnot_couples patch shows tgt inner ctl s1 s2).
  - intros G HG U. pose proof (ends_couple ends H3 Rs E0 Ek Fp ph G Co (state_ext _ HG) U) as C.
    rewrite (beside_sym tgt), <- square_cross.
    rewrite (Sq (hd ctl inner) tgt), (Sq (last inner tgt) ctl) in C; [exact C| |].
    + rewrite <- at_last. apply at_inner; lia.
    + rewrite <- at_1. apply at_inner; lia.
Qed.
End Cross.

(** ** The attempts an instruction makes *)
Lemma nth_row_same {A} (l : list A) i x d : i < length l -> nth i (set_row l i x) d = x.
Proof. intros H. apply nth_error_nth. now apply set_row_same. Qed.
Lemma nth_row_other {A} (l : list A) i j x d : i <> j -> nth j (set_row l i x) d = nth j l d.
Proof.
  intros H. pose proof (set_row_other _ l i j x H) as E. destruct (nth_error l j) as [y|] eqn:Q.
  - rewrite (nth_error_nth _ _ _ E). now rewrite (nth_error_nth _ _ _ Q).
  - apply nth_error_None in Q, E. now rewrite !nth_overflow.
Qed.
Lemma skipn_nth_cons {A} (l : list A) i d : i < length l -> skipn i l = nth i l d :: skipn (S i) l.
Proof. revert i. induction l as [|x l IH]; intros [|i] H; cbn in H; try lia; [reflexivity|]. cbn [skipn nth]. rewrite IH by lia. reflexivity. Qed.
Lemma nth_first {A} (l : list A) i n d : i < n -> nth i (firstn n l) d = nth i l d.
Proof. revert i l. induction n as [|n IH]; intros i l H; [lia|]. destruct l as [|x l]; [reflexivity|]. destruct i as [|i]; [reflexivity|]. cbn [firstn nth]. apply IH. lia. Qed.
Section Attempts.
Variables (far : cell) (e : env) (c t s1 s2 : N).
Definition cnot_left (cs : list (nat * nat)) (sets : list (list local_instr)) (ph : nat) : list local_instr :=
  skipn (snd (nth ph cs (0, 0))) (nth ph sets []) ++ concat (skipn (S ph) sets).
Definition readings (steps : list (slice * slice)) (ops : list (list local_instr)) : Prop :=
  Forall2 (fun st d => ran (e_edpc e) (fst st) d (snd st)) steps ops.
Lemma phases_left steps o0 : e_edpc e = true -> lifetime far e o0 steps -> forall reg cs sets ph,
  o0 = BellCNOT c t s1 s2 (Some reg) (Some cs) (Some sets) (Some ph) -> length sets = 4 -> length cs = 4 -> ph < 4 ->
  (forall j, ph < j -> j < 4 -> snd (nth j cs (0, 0)) = 0) ->
  exists ops, readings steps ops /\ (nth 2 sets [] <> [] \/ nth 3 sets [] = [] -> concat ops = cnot_left cs sets ph)
    /\ (nth 2 sets [] = [] -> ph < 2 -> concat ops = cnot_left cs (firstn 2 sets) ph).
Proof.
  intros He Lf.
  assert (St : forall w wt cl z reg cs sets ph, sized far (w_slice w) -> length sets = 4 -> length cs = 4 -> ph < 4 ->
    (forall j, ph < j -> j < 4 -> snd (nth j cs (0, 0)) = 0) ->
    try_apply e w (mkI (BellCNOT c t s1 s2 (Some reg) (Some cs) (Some sets) (Some ph)) wt cl) = Ok z ->
    (a_error z = true -> a_world z = w /\ a_op z = BellCNOT c t s1 s2 (Some reg) (Some cs) (Some sets) (Some ph))
    /\ (a_error z = false -> exists done, ran true (w_slice w) done (w_slice (a_world z))
         /\ ((a_follow z = [] /\ (nth 2 sets [] <> [] \/ nth 3 sets [] = [] -> done = cnot_left cs sets ph)
                 /\ (nth 2 sets [] = [] -> ph < 2 -> done = cnot_left cs (firstn 2 sets) ph))
             \/ exists cs' ph', a_follow z = [mkI (BellCNOT c t s1 s2 (Some reg) (Some cs') (Some sets) (Some ph')) wt cl]
                  /\ length cs' = 4 /\ ph' < 4 /\ (forall j, ph' < j -> j < 4 -> snd (nth j cs' (0, 0)) = 0)
                  /\ done ++ cnot_left cs' sets ph' = cnot_left cs sets ph
                  /\ (nth 2 sets [] = [] -> ph < 2 -> ph' < 2 /\ done ++ cnot_left cs' (firstn 2 sets) ph' = cnot_left cs (firstn 2 sets) ph)))).
  { clear Lf. intros w wt cl z reg cs sets ph Hs Ls Lc Lp Cs E. cbn [try_apply op wait clients] in E. unfold apply_cnot in E.
    destruct (e_local e); [|discriminate]. cbn [negb] in E.
    assert (Fl : forall x, failed w x = Ok z -> a_error z = true /\ a_world z = w /\ a_op z = x) by (intros x F; unfold failed in F; apply bind_ok in F as (? & _ & F); injection F as F; subst z; auto).
    destruct (get_patch_by_id _ c) as [pc|]; [|apply Fl in E; destruct E as [-> [-> ->]]; split; [auto|discriminate]].
    destruct (get_patch_by_id _ t) as [pt|]; [|apply Fl in E; destruct E as [-> [-> ->]]; split; [auto|discriminate]].
    destruct (dp_is_active pc); [apply Fl in E; destruct E as [-> [-> ->]]; split; [auto|discriminate]|].
    destruct (dp_is_active pt); [apply Fl in E; destruct E as [-> [-> ->]]; split; [auto|discriminate]|].
    rewrite He in E. unfold cnot_phase in E. cbn [value_ bind] in E.
    apply bind_ok in E as (cs1 & Ec & E).
    assert (C1 : length cs1 = 4 /\ forall j, ph <= j -> nth j cs1 (0, 0) = nth j cs (0, 0)).
    { destruct (Nat.eqb_spec ph 0); [injection Ec as <-; auto|]. apply bind_ok in Ec as (y & Ey & Ec). unfold set_idx in Ec. apply bind_ok in Ec as (y' & _ & Ec).
      injection Ec as <-. rewrite set_row_length. split; [auto|]. intros j Hj. apply nth_row_other. lia. }
    destruct C1 as [Lc1 Ce]. apply bind_ok in E as (x & Ex & E). apply bind_ok in E as (ls & El & E).
    apply bind_ok in E as ([[s' i] all] & Er & E). destruct (run_locals_spec far e _ _ _ _ _ _ Hs Er) as (Hs' & done & rest & Ed & Ei & Ea & Rn & _).
    assert (Nx : nth ph cs1 (0, 0) = x) by (unfold idx in Ex; destruct (nth_error cs1 ph) eqn:Q; [injection Ex as <-; now apply nth_error_nth|discriminate]).
    assert (Nl : nth ph sets [] = ls) by (unfold idx in El; destruct (nth_error sets ph) eqn:Q; [injection El as <-; now apply nth_error_nth|discriminate]).
    assert (Nc : nth ph cs (0, 0) = x) by (rewrite <- Ce; auto).
    assert (Lft : cnot_left cs sets ph = done ++ rest ++ concat (skipn (S ph) sets)) by (unfold cnot_left; rewrite Nc, Nl, Ed, <- app_assoc; reflexivity).
    assert (Lf2 : ph < 2 -> cnot_left cs (firstn 2 sets) ph = done ++ rest ++ concat (skipn (S ph) (firstn 2 sets))).
    { intros P2. unfold cnot_left. rewrite Nc. replace (nth ph (firstn 2 sets) []) with (nth ph sets []) by (symmetry; apply nth_first; lia). now rewrite Nl, Ed, <- app_assoc. }
    rewrite He in Rn. set (cs2 := set_row cs1 ph (snd x, i)) in *.
    assert (Lc2 : length cs2 = 4) by (unfold cs2; now rewrite set_row_length).
    assert (C2 : forall j, ph < j -> nth j cs2 (0, 0) = nth j cs (0, 0)) by (intros j Hj; unfold cs2; rewrite nth_row_other by lia; apply Ce; lia).
    destruct all; cbn [negb] in E.
    - assert (rest = []) by tauto. subst rest. apply bind_ok in E as (third & Et & E).
      destruct ((ph =? length sets - 1) || third)%bool eqn:Q.
      + injection E as <-. cbn [a_error a_follow a_op a_world with_slice w_slice]. split; [discriminate|]. intros _. exists done. split; [exact Rn|]. left. split; [reflexivity|].
        split; [|intros Z2 P2; rewrite Lf2 by exact P2; cbn [app]; rewrite Ls in Q; destruct (Nat.eqb_spec ph (4 - 1)); [lia|]; cbn [orb] in Q; subst third;
          destruct (Nat.eqb_spec ph 1) as [->|]; [|discriminate]; rewrite skipn_all2 by (rewrite firstn_length; lia); cbn; now rewrite app_nil_r].
        intros Cut. rewrite Lft. cbn [app]. rewrite Ls in Q. destruct (Nat.eqb_spec ph (4 - 1)) as [->|Dp].
        * rewrite skipn_all2 by lia. cbn. now rewrite app_nil_r.
        * cbn [orb] in Q. subst third. destruct (Nat.eqb_spec ph 1) as [->|]; [|discriminate].
          apply bind_ok in Et as (l2 & E2 & Et). injection Et as Et. apply Nat.eqb_eq in Et. destruct l2; [|discriminate].
          destruct sets as [|x0 [|x1 [|x2 [|x3 [|]]]]]; cbn in Ls; try lia. cbn in E2. injection E2 as ->. cbn in Cut |- *.
          destruct Cut as [Cut| ->]; [congruence|]. now rewrite app_nil_r.
      + apply orb_false_iff in Q. destruct Q as [Q1 Q2]. rewrite Ls in Q1. apply Nat.eqb_neq in Q1.
        injection E as <-. cbn [a_error a_follow a_op a_world with_slice w_slice]. split; [discriminate|]. intros _. exists done. split; [exact Rn|]. right.
        exists cs2, (S ph). split; [reflexivity|]. split; [exact Lc2|]. split; [lia|]. split.
        * intros j J0 J1. rewrite C2 by lia. apply Cs; lia.
        * split.
          { rewrite Lft. cbn [app]. f_equal. unfold cnot_left. rewrite C2, Cs by lia.
            rewrite (skipn_nth_cons sets (S ph) []) by lia. reflexivity. }
          intros Z2 P2. assert (P0 : ph = 0).
          { destruct (Nat.eqb_spec ph 1) as [->|]; [|lia]. apply bind_ok in Et as (l2 & E2 & Et). injection Et as Et.
            destruct sets as [|x0 [|x1 [|x2 [|x3 [|]]]]]; cbn in Ls; try lia. cbn in E2, Z2. injection E2 as <-. subst x2. cbn in Et. congruence. }
          subst ph. split; [lia|]. rewrite Lf2 by lia. cbn [app]. f_equal. unfold cnot_left. rewrite C2, Cs by lia.
          destruct sets as [|x0 [|x1 r]]; cbn in Ls; try lia. reflexivity.
    - injection E as <-. cbn [a_error a_follow a_op a_world with_slice w_slice]. split; [discriminate|]. intros _. exists done. split; [exact Rn|]. right.
      exists cs2, ph. split; [reflexivity|]. split; [exact Lc2|]. split; [lia|]. split.
      + intros j J0 J1. rewrite C2 by lia. apply Cs; lia.
      + assert (Q : skipn i ls = rest) by (rewrite Ei, <- skipn_skipn_add, Ed; now rewrite skipn_app_length).
        split; [|intros Z2 P2; split; [exact P2|]; rewrite Lf2 by exact P2]; [rewrite Lft|]; f_equal; unfold cnot_left; f_equal; unfold cs2; rewrite nth_row_same by lia; cbn [snd];
          [|rewrite nth_first by lia]; now rewrite Nl. }
  induction Lf as [w wt cl o z steps Hs E Ez _ IH|w wt cl o z i steps Hs E Ez Ef _ IH|w wt cl o z Hs E Ez Ef]; intros reg cs sets ph -> Ls Lc Lp Cs;
    destruct (St w wt cl z reg cs sets ph Hs Ls Lc Lp Cs E) as [Er Ok_].
  - destruct (Er Ez) as [-> Eo]. destruct (IH reg cs sets ph Eo Ls Lc Lp Cs) as (ops & Ro & Co). exists ([] :: ops). split; [|exact Co].
    constructor; [constructor|exact Ro].
  - destruct (Ok_ Ez) as (done & Rn & [[F _]|(cs' & ph' & F & Lc' & Lp' & Cs' & Eq & Eq2)]); [congruence|]. rewrite F in Ef. injection Ef as <-.
    destruct (IH reg cs' sets ph' eq_refl Ls Lc' Lp' Cs') as (ops & Ro & Co). exists (done :: ops). split; [constructor; [cbn [fst snd]; now rewrite He|exact Ro]|].
    destruct Co as [Co Co2]. split.
    + intros Cut. cbn [concat]. now rewrite (Co Cut).
    + intros Z2 P2. destruct (Eq2 Z2 P2) as [P' Eq']. cbn [concat]. now rewrite (Co2 Z2 P').
  - destruct (Ok_ Ez) as (done & Rn & [[_ F]|(cs' & ph' & F & _)]); [|congruence]. exists [done]. split; [constructor; [cbn [fst snd]; now rewrite He|constructor]|].
    cbn [concat]. rewrite app_nil_r. exact F.
Qed.
End Attempts.

(** From the route to the phases *)
Lemma from_route far e c t s1 s2 steps o0 : e_edpc e = true -> lifetime far e o0 steps -> forall reg sets ph,
  o0 = BellCNOT c t s1 s2 (Some reg) None sets ph ->
  exists s p1 p2 ops, In s (map fst steps) /\ edpc_decompose s (map sc_cell (rg_cells reg)) s1 s2 = Ok (p1, p2) /\ readings e steps ops
    /\ (fst p2 <> [] \/ snd p2 = [] -> concat ops = phase_ops (p1, p2)) /\ (fst p2 = [] -> concat ops = fst p1 ++ snd p1).
Proof.
  intros He Lf.
  assert (St : forall w wt cl z reg sets ph, try_apply e w (mkI (BellCNOT c t s1 s2 (Some reg) None sets ph) wt cl) = Ok z ->
    a_error z = true /\ a_world z = w /\ (a_op z = BellCNOT c t s1 s2 (Some reg) None sets ph
      \/ exists p1 p2, edpc_decompose (w_slice w) (map sc_cell (rg_cells reg)) s1 s2 = Ok (p1, p2)
         /\ a_op z = BellCNOT c t s1 s2 (Some reg) (Some [(0, 0); (0, 0); (0, 0); (0, 0)]) (Some [fst p1; snd p1; fst p2; snd p2]) (Some 0))).
  { clear Lf. intros w wt cl z reg sets ph E. cbn [try_apply op wait clients] in E. unfold apply_cnot in E.
    destruct (e_local e); [|discriminate]. cbn [negb] in E.
    assert (Fl : forall x, failed w x = Ok z -> a_error z = true /\ a_world z = w /\ a_op z = x) by (intros x F; unfold failed in F; apply bind_ok in F as (? & _ & F); injection F as F; subst z; auto).
    destruct (get_patch_by_id _ c) as [pc|]; [|apply Fl in E; destruct E as [? []]; auto].
    destruct (get_patch_by_id _ t) as [pt|]; [|apply Fl in E; destruct E as [? []]; auto].
    destruct (dp_is_active pc); [apply Fl in E; destruct E as [? []]; auto|].
    destruct (dp_is_active pt); [apply Fl in E; destruct E as [? []]; auto|].
    rewrite He in E. unfold cnot_decompose in E. apply bind_ok in E as ([p1 p2] & Ed & E). apply Fl in E. destruct E as (-> & -> & E). split; [reflexivity|]. split; [reflexivity|]. right. eauto. }
  induction Lf as [w wt cl o z steps Hs E Ez Lf IH|w wt cl o z i steps Hs E Ez Ef _ IH|w wt cl o z Hs E Ez Ef]; intros reg sets ph ->;
    destruct (St _ _ _ _ _ _ _ E) as (Er & Ew & Q); try congruence. rewrite Ew.
  destruct Q as [Q|(p1 & p2 & Ed & Q)].
  { destruct (IH reg sets ph Q) as (s & p1 & p2 & ops & Is & Ed & Ro & Co). exists s, p1, p2, ([] :: ops). split; [now right|]. split; [exact Ed|]. split; [|exact Co].
    constructor; [constructor|exact Ro]. }
  destruct (phases_left far e c t s1 s2 steps _ He Lf _ _ _ _ Q eq_refl eq_refl ltac:(lia)) as (ops & Ro & Co).
  { intros [|[|[|[|j]]]]; cbn; lia. }
  exists (w_slice w), p1, p2, ([] :: ops). split; [now left|]. split; [exact Ed|]. split; [constructor; [constructor|exact Ro]|]. destruct Co as [Co Co2]. cbn [concat app]. split.
  - intros Cut. rewrite (Co Cut). destruct p1, p2. cbn. rewrite app_nil_r, <- app_assoc. reflexivity.
  - intros Z2. rewrite Co2 by (exact Z2 || lia). destruct p1. cbn. now rewrite app_nil_r.
Qed.
