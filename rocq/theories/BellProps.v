(** C47: long-range Bell operations. *)
From Verif Require Import Base TextModel PatchesModel LayoutModel LayoutSpec LayoutProofs InstrModel InstrSpec InstrProofs.
From Verif Require Import SliceModel SliceSpec SliceProofs SliceProps RouterModel RouterSpec RouterProofs RouterProps.
From Verif Require Import ApplyModel ApplySpec ApplyProofs ApplyBell BellSpec BellProofs BellRun BellWhole BellCnot BellInstr ApplyIds BellIds.
Open Scope nat_scope.

(** ** What is compiled *)

(** For every route, segment and direction: each link of the segment gets exactly
    one operation, on exactly its two tiles; the links alternate between the two
    layers; and what each link gets is as in [link_does]. *)
Theorem C47_compiled : forall t route start stop reverse side1 side2, start < stop < length route ->
  let n := stop - start + 1 in
  exists la lb k1 k2, compile_bell t ([], []) route start stop reverse side1 side2 = Ok (la, lb)
    /\ on_links (in_first t n reverse) (link_does t n reverse side1 side2 k1 k2 (seg route start)) n la
    /\ on_links (fun k => negb (in_first t n reverse k)) (link_does t n reverse side1 side2 k1 k2 (seg route start)) n lb.
Proof.
  intros t route start stop reverse side1 side2 H n.
  destruct (compile_shape t ([], []) route start stop reverse side1 side2 H) as (la & lb & E & A & B).
  exists la, lb. do 2 eexists. split; [exact E|]. split; [exact A|exact B].
Qed.
Print Assumptions C47_compiled.

(** Every operation is on two neighbouring tiles of the route, and none of the
    ids handed to the operations is one that was not asked for. *)
Theorem C47_adjacent : forall t route start stop reverse side1 side2 la lb, start < stop < length route ->
  consecutive adjacent route ->
  compile_bell t ([], []) route start stop reverse side1 side2 = Ok (la, lb) ->
  length la + length lb = stop - start
  /\ forall l, In l (la ++ lb) ->
     (exists k a b, start <= k < stop /\ nth_error route k = Some a /\ nth_error route (k + 1) = Some b
        /\ adjacent a b /\ (local_cells l = [a; b] \/ local_cells l = [b; a]))
     /\ forall id, In id (local_ids l) -> side1 = Some id \/ side2 = Some id.
Proof.
  intros t route start stop reverse side1 side2 la lb H Hc E.
  destruct (compile_shape t ([], []) route start stop reverse side1 side2 H) as (la' & lb' & E' & A & B).
  rewrite E in E'. cbn [fst snd app] in E'. injection E' as <- <-. split.
  - destruct A as (ka & Fa & Na & Ia), B as (kb & Fb & Nb & Ib).
    assert (FL : forall (R : nat -> local_instr -> Prop) a b, Forall2 R a b -> length a = length b)
      by (intros R a b F; induction F; cbn; congruence).
    apply FL in Fa, Fb. rewrite <- Fa, <- Fb, <- app_length.
    replace (stop - start) with (length (seq 0 (stop - start))) by apply seq_length.
    apply Permutation.Permutation_length. apply Permutation.NoDup_Permutation.
    + apply NoDup_app_intro; auto. intros k Ka Kb. apply Ia in Ka. apply Ib in Kb. destruct Ka as [_ Ka], Kb as [_ Kb].
      rewrite Ka in Kb. discriminate.
    + apply seq_NoDup.
    + intro k. rewrite in_app_iff, Ia, Ib, in_seq. destruct (in_first t (stop - start + 1) reverse k); cbn [negb]; split; intros; try lia.
  - intros l Hl.
    assert (D : exists k, k + 1 < stop - start + 1
       /\ link_does t (stop - start + 1) reverse side1 side2 (pos1 t (stop - start + 1) reverse) (pos2 t (stop - start + 1) reverse) (seg route start) k l).
    { apply in_app_iff in Hl as [Hl|Hl].
      - destruct A as (ka & Fa & _ & Ia). destruct (forall2_in_r _ _ _ _ _ _ Fa Hl) as (k & Hk & D). apply Ia in Hk. exists k. tauto.
      - destruct B as (ka & Fa & _ & Ia). destruct (forall2_in_r _ _ _ _ _ _ Fa Hl) as (k & Hk & D). apply Ia in Hk. exists k. tauto. }
    destruct D as (k & Hk & D).
    assert (Pair : forall x y, local_cells l = [x; y] -> either (seg route start k) (seg route start (k + 1)) x y ->
      exists k a b, start <= k < stop /\ nth_error route k = Some a /\ nth_error route (k + 1) = Some b
        /\ adjacent a b /\ (local_cells l = [a; b] \/ local_cells l = [b; a])).
    { intros x y El Ee. exists (start + k), (seg route start k), (seg route start (k + 1)). split; [lia|]. unfold seg in *.
      rewrite Nat.add_assoc in *. split; [apply nth_error_nth'; lia|]. split; [apply nth_error_nth'; lia|]. split.
      - apply consecutive_nth; auto. lia.
      - rewrite El. destruct Ee as [[-> ->]|[-> ->]]; auto. }
    unfold link_does in D.
    assert (Gen : (exists x y, either (seg route start k) (seg route start (k + 1)) x y
      /\ if in_first t (stop - start + 1) reverse k
         then exists i j, l = LBellPrepare i j x y /\ ids_at side1 side2 (pos1 t (stop - start + 1) reverse) (pos2 t (stop - start + 1) reverse) k i j
              /\ (t = LRPrep -> x = seg route start k /\ prep_ids (stop - start + 1) reverse side1 side2 k i j)
         else l = LBellMeasure x y) ->
      (exists k a b, start <= k < stop /\ nth_error route k = Some a /\ nth_error route (k + 1) = Some b
        /\ adjacent a b /\ (local_cells l = [a; b] \/ local_cells l = [b; a]))
      /\ forall id, In id (local_ids l) -> side1 = Some id \/ side2 = Some id).
    { intros (x & y & Ee & P). destruct (in_first t (stop - start + 1) reverse k).
      - destruct P as (i & j & -> & Hid & _). split; [apply (Pair x y); auto|]. intros id Hi. cbn [local_ids] in Hi.
        apply in_app_iff in Hi.
        assert (O : forall o, In id (opt_id o) -> o = Some id) by (intros [z|]; cbn; intuition congruence).
        destruct Hi as [Hi|Hi]; apply O in Hi; subst; destruct Hid as [[[Q|[Q _]] [R|[R _]]]|(Q & _ & R)]; try discriminate; auto.
      - subst l. split; [apply (Pair x y); auto|]. intros id []. }
    destruct (match move_link (stop - start + 1) reverse with Some m => k =? m | None => false end).
    + subst l. destruct (producing t), reverse; (split; [eapply Pair; [reflexivity|unfold either; auto]|intros id []]).
    + destruct t; auto; destruct (k =? far_link (stop - start + 1) reverse); auto; subst l;
        destruct reverse; (split; [eapply Pair; [reflexivity|unfold either; auto]|intros id []]).
Qed.
Print Assumptions C47_adjacent.

(** A segment that does not fit is refused ... *)
Theorem C47_range : forall t l route start stop reverse side1 side2, stop <= start \/ length route < stop ->
  compile_bell t l route start stop reverse side1 side2 = Throw InvalidArgument.
Proof.
  intros t l route start stop reverse side1 side2 H. unfold compile_bell.
  destruct (Nat.leb_spec stop start); [reflexivity|]. destruct (Nat.ltb_spec (length route) stop); [reflexivity|lia].
Qed.
Print Assumptions C47_range.
(** ... but the check is off by one: a segment that ends one past the route is
    accepted, and reading its last tile is out of bounds. *)
Lemma idx_past : forall A (l : list A) i, length l <= i -> idx l i = UB UBIndex.
Proof. intros A l i H. unfold idx. rewrite (proj2 (nth_error_None l i) H). reflexivity. Qed.
Lemma pair_past : forall route t reverse even off start stop side1 side2 J l, (forall j, In j J -> j < length route) ->
  (exists j, In j J /\ length route <= j + 1) ->
  foldM (bell_pair_at route t reverse even off start stop side1 side2) J l = UB UBIndex.
Proof.
  intros route t reverse even off start stop side1 side2 J. induction J as [|j J IH]; intros l Hj (k & Hk & Hl); [destruct Hk|].
  cbn [foldM]. unfold bell_pair_at at 1. rewrite idx_nth by (apply Hj; cbn; auto). cbn [bind].
  destruct (Nat.le_gt_cases (length route) (j + 1)) as [H|H].
  - rewrite idx_past by auto. reflexivity.
  - rewrite idx_nth by auto. cbn [bind]. apply IH; [intros; apply Hj; cbn; auto|].
    destruct Hk as [->|Hk]; [lia|]. exists k. auto.
Qed.
Lemma chain_past : forall route t reverse even start stop side1 side2 l,
  let off := if negb even && negb reverse then 1 else 0 in
  stop = length route -> start + off < stop -> (stop - (start + off)) mod 2 = 1 ->
  bell_chain route t reverse even start stop side1 side2 l = UB UBIndex.
Proof.
  intros route t reverse even start stop side1 side2 l off Hs Ho Hm. unfold bell_chain. fold off.
  rewrite pair_past; [reflexivity|intros j Hj; apply by2_In in Hj; lia|].
  exists (stop - 1). split; [|lia]. apply by2_In. split; [lia|].
  replace (stop - 1 - (start + off)) with (stop - (start + off) - 1) by lia. lia.
Qed.
Theorem C47_range_refuted : forall t l route start reverse side1 side2, start < length route ->
  compile_bell t l route start (length route) reverse side1 side2 = UB UBIndex.
Proof.
  intros t l route start reverse side1 side2 H. unfold compile_bell.
  destruct (Nat.leb_spec (length route) start); [lia|]. rewrite Nat.ltb_irrefl. cbn [orb].
  set (size := length route - start + 1). set (short := (size =? 2) || (size =? 3)).
  assert (Short : short = false -> 3 < size).
  { unfold short. destruct (Nat.eqb_spec size 2), (Nat.eqb_spec size 3); cbn; try discriminate. unfold size in *. lia. }
  rewrite even_odd. destruct (parity size) as [(h & Eh & Ho)|(h & Eh & Ho)]; rewrite Ho; cbn [negb].
  - (* even *) rewrite !andb_false_r. cbn [bind].
    destruct t; cbn [bind]; try (apply chain_past; cbn [negb andb]; unfold size in *; lia); destruct reverse; cbn [negb];
      try (rewrite idx_past by lia; reflexivity).
    + rewrite idx_nth by lia. cbn [bind]. destruct (Nat.le_gt_cases (length route) (start + 1)) as [G|G].
      * rewrite idx_past by auto. reflexivity.
      * rewrite idx_nth by auto. cbn [bind]. destruct short eqn:Es.
        { exfalso. unfold short in Es. destruct (Nat.eqb_spec size 2), (Nat.eqb_spec size 3); cbn in Es; try discriminate; unfold size in *; lia. }
        specialize (Short eq_refl). rewrite idx_nth by (unfold size in *; lia). cbn [bind]. apply chain_past; cbn [negb andb]; unfold size in *; lia.
    + rewrite idx_nth by lia. cbn [bind]. destruct (Nat.le_gt_cases (length route) (start + 1)) as [G|G].
      * rewrite idx_past by auto. reflexivity.
      * rewrite idx_nth by auto. cbn [bind]. destruct short eqn:Es.
        { exfalso. unfold short in Es. destruct (Nat.eqb_spec size 2), (Nat.eqb_spec size 3); cbn in Es; try discriminate; unfold size in *; lia. }
        specialize (Short eq_refl). rewrite idx_nth by (unfold size in *; lia). cbn [bind]. apply chain_past; cbn [negb andb]; unfold size in *; lia.
  - (* odd *) rewrite !andb_true_r.
    assert (3 <= size) by (unfold size in *; lia).
    destruct t; cbn [is_prep_or_split bind]; destruct reverse; cbn [negb];
      repeat (first [rewrite idx_past by (unfold size in *; lia)|rewrite idx_nth by (unfold size in *; lia)]; cbn [bind]);
      try reflexivity; apply chain_past; cbn [negb andb]; unfold size in *; lia.
Qed.
Print Assumptions C47_range_refuted.

(** ** Running what is compiled *)

(** On a segment that is ready for it, every long-range operation is carried out
    in full: its first layer in one slice and, given that nothing interferes
    ([later]), its second in the next, after which what should be left is left.
    The second layer cannot be started in the first slice.  Other tiles are not
    touched. *)
Theorem C47_runs : forall far e t route start stop reverse side1 side2 s i j,
  start < stop < length route -> let n := stop - start + 1 in let at_ := seg route start in
  segment_path n at_ -> (forall k, k < n -> on_lattice far (at_ k)) -> sized far s ->
  segment_ready (e_edpc e) s t n reverse at_ ->
  exists la lb s1, compile_bell t ([], []) route start stop reverse side1 side2 = Ok (la, lb)
    /\ run_locals e s la i = Ok (s1, i + length la, true) /\ rest_same s s1
    /\ (forall c, (forall k, k < n -> c <> at_ k) -> tile_at s1 c = tile_at s c)
    /\ (3 <= n -> lb <> [] -> run_locals e s1 lb j = Ok (s1, j, false))
    /\ forall s2, sized far s2 -> (forall k, k < n -> later (tile_at s1 (at_ k)) (tile_at s2 (at_ k))) ->
       exists s3, run_locals e s2 lb j = Ok (s3, j + length lb, true) /\ rest_same s2 s3
         /\ (forall c, (forall k, k < n -> c <> at_ k) -> tile_at s3 c = tile_at s2 c)
         /\ forall s4, (forall k, k < n -> later (tile_at s3 (at_ k)) (tile_at s4 (at_ k))) ->
            segment_done s s4 t n reverse side1 side2 at_.
Proof.
  intros far e t route start stop reverse side1 side2 s i j H n at_ Hp Ho Hs Hr.
  destruct (compile_shape t ([], []) route start stop reverse side1 side2 H) as (la & lb & E & A & B).
  destruct (segment_run far e t n reverse side1 side2 _ _ at_ s la lb i j ltac:(unfold n; lia) Hp Ho Hs Hr A B)
    as (s1 & R1 & S1 & Q1 & F1 & W1 & N1).
  exists la, lb, s1. split; [exact E|]. do 3 (split; [auto|]). split; [auto|].
  intros s2 S2 L2. destruct (N1 s2 S2 L2) as (s3 & R3 & S3 & Q3 & F3 & N3). exists s3. auto.
Qed.
Print Assumptions C47_runs.

(** ** Whole instructions, slice after slice *)

Definition undisturbed (L : layout) (c : cell) : Prop := ~ In c (l_reserved L) /\ forall q, In q (l_queues L) -> ~ In c q.
Definition timed (L : layout) (s : slice) : Prop := sized (l_furthest L) s /\ length (s_timers s) = length (l_times L).

Lemma advance_timed : forall L s, layout_wf L -> timed L s -> exists s', advance_slice L s = Ok s' /\ timed L s'.
Proof. intros L s W [Hs Hl]. destruct (C34_survivors L s W Hs Hl) as (s' & E & S' & L' & _). exists s'. split; [auto|split; auto]. Qed.
Lemma timed_rest : forall L s s', timed L s -> sized (l_furthest L) s' -> rest_same s s' -> timed L s'.
Proof. intros L s s' [H1 H2] H3 (_ & E & _). split; auto. rewrite E. auto. Qed.
Lemma get_single : forall far s id c, sized far s -> single s id -> carries s c id -> get_cell_by_id s id = Some c.
Proof.
  intros far s id c Hs Hu Hc. destruct (get_cell_by_id s id) as [c'|] eqn:E.
  - apply (get_cell_by_id_Some far) in E as [H _]; auto. f_equal. eapply Hu; eauto.
  - apply (get_cell_by_id_None far) with (c := c) in E; auto. contradiction.
Qed.

(** A long-range Bell pair: with a route of at least three tiles, in two slices and
    one follow-up; with a route of two tiles, in one.  At the end the two named
    halves rest on the ends of the route and its other tiles are free. *)
Theorem C47_bell_pair : forall L e w wt cl s1 s2 l1 l2 loc pick stop reg,
  let s := w_slice w in
  e_local e = true -> e_route e = plain_router L (e_edpc e) pick stop -> valid_pick pick -> layout_wf L -> timed L s ->
  find_route L (e_edpc e) pick stop s (pnt_target l1) (pnt_op l1) (pnt_target l2) (pnt_op l2) = Ok (Some reg) ->
  2 <= length (rg_cells reg) -> Forall (undisturbed L) (map sc_cell (rg_cells reg)) ->
  (forall c p id, id = pnt_target l1 \/ id = pnt_target l2 -> tile_at s c = Some p -> p_id (dp p) = Some id ->
     p_type (dp p) = TQubit /\ ~ consumed (p_act (dp p))) ->
  let n := length (rg_cells reg) in let at_ := seg (map sc_cell (rg_cells reg)) 0 in
  exists a1 t1, try_apply e w (mkI (BellInit s1 s2 l1 l2 loc None) wt cl) = Ok a1 /\ a_error a1 = false
    /\ advance_slice L (w_slice (a_world a1)) = Ok t1
    /\ (n = 2 -> a_follow a1 = [] /\ segment_done s t1 LRPrep n false (Some s1) (Some s2) at_)
    /\ (3 <= n -> exists i2, a_follow a1 = [i2] /\ wait i2 = wt /\ clients i2 = cl
          /\ forall ops cache, exists a2 t2, try_apply e (mkW t1 ops cache) i2 = Ok a2 /\ a_error a2 = false /\ a_follow a2 = []
               /\ advance_slice L (w_slice (a_world a2)) = Ok t2
               /\ segment_done s t2 LRPrep n false (Some s1) (Some s2) at_).
Proof.
  intros L e w wt cl s1 s2 l1 l2 loc pick stop reg s Hloc He Hv W Ht Hf Hn Hu Hend n at_.
  destruct (C29_route _ _ _ _ _ _ _ _ _ _ (proj1 Ht) Hv Hf) as (a & b & Ga & Gb & Ca & Cb & _ & Hr).
  assert (Has : forall s' c id, sized (l_furthest L) s' -> carries s' c id -> has_patch s' id = true).
  { intros s' c id S' C. rewrite (has_patch_cell _ _ _ S'). destruct (get_cell_by_id s' id) eqn:E; auto.
    apply (get_cell_by_id_None _ _ _ S') with (c := c) in E. contradiction. }
  destruct (bell_pair_run L e w wt cl s1 s2 l1 l2 loc reg (w_cache w) a b Hloc (proj1 Ht)) as (a1 & E1 & Err & S1 & Q1 & F1 & N2 & N3).
  { eapply Has; eauto. apply Ht. } { eapply Has; eauto. apply Ht. }
  { rewrite He. unfold plain_router. fold s. rewrite Hf. reflexivity. } { exact Hr. } { exact Hn. }
  fold n at_ in F1, N2, N3. fold s in Q1, F1, N2, N3.
  assert (T1 : timed L (w_slice (a_world a1))) by (eapply timed_rest; eauto).
  destruct (advance_timed L _ W T1) as (t1 & A1 & T1').
  assert (Lat : forall s' s'', timed L s' -> advance_slice L s' = Ok s'' -> forall k, k < n -> later (tile_at s' (at_ k)) (tile_at s'' (at_ k))).
  { intros s' s'' T A k K. rewrite Forall_forall in Hu.
    assert (I : In (at_ k) (map sc_cell (rg_cells reg))) by (unfold at_, seg; cbn [Nat.add]; apply nth_In; rewrite map_length; auto).
    destruct (Hu _ I) as [U1 U2]. apply (later_advance L); auto; apply T. }
  exists a1, t1. split; [exact E1|]. split; [auto|]. split; [auto|]. split.
  - intro Hn2. destruct (N2 Hn2) as [F N]. split; auto.
  - intro Hn3. destruct (N3 Hn3) as (i2 & F & Wt & Cl & N). exists i2. do 3 (split; [auto|]). intros ops cache.
    assert (Kept : forall c id, carries s c id -> ~ In c (map sc_cell (rg_cells reg)) -> id = pnt_target l1 \/ id = pnt_target l2 -> carries t1 c id).
    { intros c id (p & P1 & P2) Hc Hid. destruct (Hend c p id Hid P1 P2) as [Ty Co].
      eapply (proj1 (C34_ids L _ t1 W (proj1 T1) (proj2 T1) A1)); eauto. rewrite F1; auto.
      intros k K ->. apply Hc. unfold at_, seg. cbn [Nat.add]. apply nth_In. rewrite map_length. auto. }
    destruct Hr as (_ & _ & Na & Nb & _). rewrite <- in_rev in Na, Nb.
    destruct (N (mkW t1 ops cache)) as (a2 & E2 & Er2 & Fo2 & S2 & Q2 & F2 & D2).
    { apply T1'. } { eapply Has; [apply T1'|]. apply (Kept a); auto. } { eapply Has; [apply T1'|]. apply (Kept b); auto. }
    { cbn [w_slice]. apply Lat; auto. }
    cbn [w_slice] in *. assert (T2 : timed L (w_slice (a_world a2))) by (eapply timed_rest; eauto).
    destruct (advance_timed L _ W T2) as (t2 & A2 & T2'). exists a2, t2. auto 10.
Qed.
Print Assumptions C47_bell_pair.

(** A CNOT between two idle qubits at any distance, without crossing routes: two
    slices and one follow-up, after which both qubits are as they were and the
    tiles in between are free. *)
Theorem C47_cnot : forall L e w wt cl c t s1 s2 route sets phase pick stop reg a b,
  let s := w_slice w in
  e_local e = true -> e_edpc e = false -> e_route e = plain_router L false pick stop -> valid_pick pick ->
  layout_wf L -> timed L s -> c <> t -> single s c -> single s t ->
  c <> s1 -> c <> s2 -> t <> s1 -> t <> s2 ->
  carries s a c -> carries s b t -> (exists p, idle s a p) -> (exists p, idle s b p) ->
  find_route L false pick stop s c PZ t PX = Ok (Some reg) -> 2 <= length (rg_cells reg) ->
  let all := b :: map sc_cell (rg_cells reg) ++ [a] in Forall (undisturbed L) all ->
  let n := length (rg_cells reg) + 2 in
  exists a1 t1 i2, try_apply e w (mkI (BellCNOT c t s1 s2 route None sets phase) wt cl) = Ok a1 /\ a_error a1 = false
    /\ advance_slice L (w_slice (a_world a1)) = Ok t1
    /\ a_follow a1 = [i2] /\ wait i2 = wt /\ clients i2 = cl
    /\ forall ops cache, exists a2 t2, try_apply e (mkW t1 ops cache) i2 = Ok a2 /\ a_error a2 = false /\ a_follow a2 = []
         /\ advance_slice L (w_slice (a_world a2)) = Ok t2 /\ cnot_done s t2 n (seg all 0).
Proof.
  intros L e w wt cl c t s1 s2 route sets phase pick stop reg a b s Hloc He Hroute Hv W Ht Hct Sc St N1 N2 N3 N4 Ca Cb Ia Ib Hf Hn all Hu n.
  destruct (C29_route _ _ _ _ _ _ _ _ _ _ (proj1 Ht) Hv Hf) as (a' & b' & Ga & Gb & _ & _ & _ & Hr).
  assert (a' = a) by (rewrite (get_single _ _ _ _ (proj1 Ht) Sc Ca) in Ga; congruence).
  assert (b' = b) by (rewrite (get_single _ _ _ _ (proj1 Ht) St Cb) in Gb; congruence). subst a' b'.
  assert (Er : e_route e (w_cache w) s c PZ t PX = Ok (Some reg, w_cache w)) by (rewrite Hroute; unfold plain_router; rewrite Hf; reflexivity).
  destruct (cnot_instr_run L e w wt cl c t s1 s2 route sets phase reg (w_cache w) a b Hloc He (proj1 Ht) Hct Ga Gb Ia Ib Er Hr Hn)
    as (a1 & E1 & Err & S1 & Q1 & F1 & Z & i2 & Fo & Wt & Cl & N).
  fold n all s in F1, N, Q1, Z.
  assert (T1 : timed L (w_slice (a_world a1))) by (eapply timed_rest; eauto).
  destruct (advance_timed L _ W T1) as (t1 & A1 & T1').
  assert (Ln : length all = n) by (unfold all, n; cbn [length]; rewrite app_length, map_length; cbn [length]; lia).
  assert (Lat : forall s' s'', timed L s' -> advance_slice L s' = Ok s'' -> forall k, k < n -> later (tile_at s' (seg all 0 k)) (tile_at s'' (seg all 0 k))).
  { intros s' s'' T A k K. rewrite Forall_forall in Hu.
    assert (I : In (seg all 0 k) all) by (unfold seg; cbn [Nat.add]; apply nth_In; lia).
    destruct (Hu _ I) as [U1 U2]. apply (later_advance L); auto; apply T. }
  exists a1, t1, i2. do 6 (split; [auto|]). intros ops cache.
  (* the two qubits can still be found *)
  destruct (Z t1 (proj1 T1') (Lat _ _ T1 A1)) as [Za Zb].
  assert (Ca' : carries t1 a c) by (destruct Ca as (p & P1 & P2); exists p; rewrite Za; auto).
  assert (Cb' : carries t1 b t) by (destruct Cb as (p & P1 & P2); exists p; rewrite Zb; auto).
  assert (Sing : forall id, single s id -> id <> s1 -> id <> s2 -> single t1 id).
  { intros id Si M1 M2. cbn [try_apply op wait clients] in E1.
    destruct (cnot_good (l_furthest L) _ _ _ _ _ _ _ _ _ _ _ _ _ (proj1 Ht) E1) as (_ & _ & G).
    destruct (G Err) as (todo & rest & Pl & (done & Et & R & _) & _). rewrite He in Pl.
    assert (Ids : ~ In id (flat_map local_ids todo)).
    { destruct Pl as [[_ (reg' & ca' & cc & ct & la & lb & P1 & _ & (pcc & P2 & _) & (pct & P3 & _) & P4 & ->)]|[Un _]]; [|exfalso; apply Un; cbn; auto]. apply sits_carries in P2, P3.
      fold s in P1. rewrite Er in P1. assert (reg' = reg) by congruence. subst reg'.
      assert (L4 : 4 <= length (ct :: map sc_cell (rg_cells reg) ++ [cc])) by (cbn [length]; rewrite app_length, map_length; cbn [length]; lia).
      intro J. destruct (proj1 (proj2 (cnot_todo _ _ _ _ _ L4 P4)) id J); contradiction. }
    assert (S1' : single (w_slice (a_world a1)) id).
    { apply (proj1 (ran_ids _ _ _ _ R)); [|exact Si]. intro J. apply Ids. rewrite Et, flat_map_app. apply in_app_iff. auto. }
    pose proof (proj1 (proj2 (C34_ids L _ t1 W (proj1 T1) (proj2 T1) A1))) as B. intros x y Hx Hy. apply S1'; auto. }
  destruct (N (mkW t1 ops cache)) as (a2 & E2 & Er2 & Fo2 & S2 & Q2 & F2 & D2).
  { apply T1'. }
  { cbn [w_slice]. apply (get_single (l_furthest L)); auto. apply T1'. }
  { cbn [w_slice]. apply (get_single (l_furthest L)); auto. apply T1'. }
  { cbn [w_slice]. apply Lat; auto. }
  cbn [w_slice] in *. assert (T2 : timed L (w_slice (a_world a2))) by (eapply timed_rest; eauto).
  destruct (advance_timed L _ W T2) as (t2 & A2 & T2'). exists a2, t2. auto 10.
Qed.
Print Assumptions C47_cnot.

(** Concrete cases: a Bell pair and a CNOT between the two qubits of
    "rrrrr/rQrQr/rrrrr". *)
Definition bell_env : env := mkEnv true false false false (fst ex_start) (plain_router (fst ex_start) false pick_min false).
Definition ex_world : world := mkW (snd ex_start) 0 [].
Definition ex_cnot : instr := mkI (BellCNOT 7 3 20 21 None None None None) 5 [].
Definition two_slices (i : instr) : outcome (slice * nat * bool * nat) :=
  do a1 <- try_apply bell_env ex_world i ;;
  do t1 <- advance_slice (fst ex_start) (w_slice (a_world a1)) ;;
  match a_follow a1 with
  | [i2] => do a2 <- try_apply bell_env (mkW t1 0 []) i2 ;;
            do t2 <- advance_slice (fst ex_start) (w_slice (a_world a2)) ;;
            Ok (t2, 1, a_error a1 || a_error a2, length (a_follow a2))
  | l => Ok (t1, length l, a_error a1, 0)
  end.
Definition on_tiles (s : slice) : list (cell * option N) :=
  flat_map (fun ct => match snd ct with Some p => [(fst ct, p_id (dp p))] | None => [] end) (tiles s).

Example C47_ex_pair_start : exists reg, find_route (fst ex_start) false pick_min false (snd ex_start) 7 PX 3 PX = Ok (Some reg)
  /\ map sc_cell (rg_cells reg) = [mkCell 1 2].
Proof. eexists. split; vm_compute; reflexivity. Qed.
Example C47_ex_cnot_start : exists reg, find_route (fst ex_start) false pick_min false (snd ex_start) 7 PZ 3 PX = Ok (Some reg)
  /\ 2 <= length (rg_cells reg) /\ Forall (undisturbed (fst ex_start)) (mkCell 1 3 :: map sc_cell (rg_cells reg) ++ [mkCell 1 1])
  /\ timed (fst ex_start) (snd ex_start).
Proof.
  eexists. split; [vm_compute; reflexivity|]. split; [cbn; lia|]. split.
  - cbn [map rg_cells app sc_cell]. repeat constructor; cbn; tauto.
  - split; [small_sized|reflexivity].
Qed.
Example C47_ex_cnot :
  (do (s, n, err, rest) <- two_slices ex_cnot ;; Ok (on_tiles s, n, err, rest))
  = Ok ([(mkCell 1 1, Some 7%N); (mkCell 1 3, Some 3%N)], 1, false, 0).
Proof. vm_compute. reflexivity. Qed.
Example C47_ex_pair :
  (do (s, n, err, rest) <- two_slices (mkI (BellInit 20 21 (mkPNT 7 PZ) (mkPNT 3 PX) None None) 5 []) ;; Ok (on_tiles s, n, err, rest))
  = Ok ([(mkCell 0 1, Some 20%N); (mkCell 1 1, Some 7%N); (mkCell 1 2, Some 21%N); (mkCell 1 3, Some 3%N)], 1, false, 0).
Proof. vm_compute. reflexivity. Qed.
