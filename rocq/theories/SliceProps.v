(** Properties of slices: C27, C34, C35, C36 and the part of C28 that concerns
    time. *)
From Verif Require Import Base TextModel TextSpec PatchesModel LayoutModel LayoutSpec LayoutProofs CompactProofs.
From Verif Require Import SliceModel SliceSpec SliceProofs.
Local Open Scope Z_scope.

(** The hypothesis [layout_wf] of the theorems below holds for every layout
    read from a text, and hence for the generated ones. *)
Theorem C27_every_text_layout : forall spec o L, layout_from_spec spec o = Ok L -> layout_wf L.
Proof. exact text_layout_wf. Qed.
Print Assumptions C27_every_text_layout.

(** C27: on a layout with enough qubit tiles, the first slice has the [k]-th
    declared qubit as a square patch on the [k]-th qubit tile; spare qubit tiles
    are empty and all other tiles are as the layout says. *)
Theorem C27_first_slice : forall L ids, layout_wf L -> (length ids <= length (core_cells L))%nat ->
  exists s, new_slice L ids = Ok s /\ initial L ids s.
Proof. exact new_slice_ok. Qed.
Print Assumptions C27_first_slice.

(** C27: every declared qubit is on exactly one tile and nothing else has an
    id, provided no id was declared twice. *)
Theorem C27_once_each : forall L ids s, layout_wf L -> new_slice L ids = Ok s -> NoDup ids ->
  (forall id, In id ids <-> exists c, carries s c id)
  /\ unique_ids s
  /\ (forall c id, carries s c id -> In c (core_cells L)).
Proof.
  intros L ids s W E Hn.
  assert (I : initial L ids s).
  { destruct (Nat.le_gt_cases (length ids) (length (core_cells L))) as [H|H].
    - destruct (new_slice_ok L ids W H) as (s' & E' & I). congruence.
    - rewrite new_slice_few in E; [discriminate|]. destruct (lw_core L W) as [cells Hc].
      unfold core_cells in H. rewrite Hc in *. rewrite core_cells_basic in H. rewrite map_length. lia. }
  split; [|split].
  - intros id. split.
    + intros H. apply In_nth_error in H as [k Hk]. destruct (in_core _ _ _ I k id Hk) as (c & _ & Hc).
      exists c, (square (Some id) None). auto.
    + intros [c Hc]. destruct (initial_ids L ids s c id W I Hc) as (k & H & _). eapply nth_error_In; eauto.
  - eapply initial_unique; eauto.
  - intros c id Hc. destruct (initial_ids L ids s c id W I Hc) as (k & _ & H). eapply nth_error_In; eauto.
Qed.
Print Assumptions C27_once_each.

(** C27: a layout with too few qubit tiles is rejected. *)
Theorem C27_too_few : forall L ids, layout_wf L -> (length (core_cells L) < length ids)%nat ->
  new_slice L ids = Throw RuntimeError.
Proof.
  intros L ids W H. apply new_slice_few. destruct (lw_core L W) as [cells Hc].
  unfold core_cells in H. rewrite Hc in *. rewrite core_cells_basic in H. rewrite map_length. lia.
Qed.
Print Assumptions C27_too_few.

Definition ex_text : text := lit "QQrr
rrY0
Xrr0".
Definition ex_layout : outcome layout := layout_from_spec ex_text (mkDO true 2).
Example C27_ex : exists L s, ex_layout = Ok L /\ layout_wf L
  /\ new_slice L [7; 3]%N = Ok s
  /\ tile_at s (mkCell 0 0) = Some (square (Some 7%N) None)
  /\ tile_at s (mkCell 0 1) = Some (square (Some 3%N) None)
  /\ tile_at s (mkCell 0 2) = None
  /\ new_slice L [7; 3; 1]%N = Throw RuntimeError.
Proof.
  do 2 eexists. split; [vm_compute; reflexivity|].
  split; [apply (text_layout_wf ex_text (mkDO true 2)); vm_compute; reflexivity|].
  repeat (split; [vm_compute; reflexivity|]). vm_compute. reflexivity.
Qed.

(** ** Advancing *)

(** C34: advancing always succeeds.  A patch that is not being measured stays
    on its tile with its id, label and boundary types, and only loses what ends
    with the slice; this covers every qubit and every prepared state, and any
    patch outside the tiles reserved for magic states. *)
Theorem C34_survivors : forall L s, layout_wf L -> sized (l_furthest L) s ->
  length (s_timers s) = length (l_times L) ->
  exists s', advance_slice L s = Ok s' /\ sized (l_furthest L) s'
    /\ length (s_timers s') = length (l_times L) /\ s_yavail s' = s_yavail s
    /\ forall c p, tile_at s c = Some p -> ~ consumed (p_act (dp p)) ->
       p_type (dp p) = TQubit \/ p_type (dp p) = TPreparedState \/ ~ In c (l_reserved L) ->
       exists p', tile_at s' c = Some p' /\ same_patch_later p p'.
Proof.
  intros L s W Hs Hl. destruct (advance_ok L s W Hs Hl) as (s' & E & S' & L' & _ & Y & _ & _ & St).
  exists s'. split; [auto|]. split; [auto|]. split; [auto|]. split; [auto|].
  apply (advance_tiles L s s' W Hs Hl St).
Qed.
Print Assumptions C34_survivors.

(** C34: what was measured, alone or as part of a route, is gone.  A tile that
    was empty or has been vacated is empty afterwards, unless a factory delivered
    onto it or it is a reserved tile that starts distilling again. *)
Theorem C34_vacated : forall L s s' c, layout_wf L -> sized (l_furthest L) s ->
  length (s_timers s) = length (l_times L) -> advance_slice L s = Ok s' -> vacated s c ->
  (tile_at s' c = None /\ ~ In c (l_reserved L))
  \/ (tile_at s' c = Some magic_tile /\ In c (s_magic s')
      /\ (In c (l_reserved L) \/ exists q, In q (l_queues L) /\ In c q))
  \/ (tile_at s' c = Some (mkDP distillation_patch connected4) /\ In c (l_reserved L)).
Proof.
  intros L s s' c W Hs Hl E Hv. destruct (advance_ok L s W Hs Hl) as (s1 & E1 & _ & _ & _ & _ & _ & _ & St).
  assert (s1 = s') by congruence. subst s1.
  apply (advance_tiles L s s' W Hs Hl St); auto.
Qed.
Print Assumptions C34_vacated.

(** C34: on reserved tiles, the only patch that may be replaced is one that is
    neither a qubit nor a prepared state, and only by a finished magic state. *)
Theorem C34_reserved : forall L s s' c p, layout_wf L -> sized (l_furthest L) s ->
  length (s_timers s) = length (l_times L) -> advance_slice L s = Ok s' ->
  tile_at s c = Some p -> ~ consumed (p_act (dp p)) ->
  (exists p', tile_at s' c = Some p' /\ same_patch_later p p')
  \/ (tile_at s' c = Some magic_tile /\ In c (s_magic s')).
Proof.
  intros L s s' c p W Hs Hl E Hp Hn. destruct (advance_ok L s W Hs Hl) as (s1 & E1 & _ & _ & _ & _ & _ & _ & St).
  assert (s1 = s') by congruence. subst s1.
  apply (advance_tiles L s s' W Hs Hl St); auto.
Qed.
Print Assumptions C34_reserved.

(** C34, in terms of ids: a qubit never disappears unless it was measured, never
    moves, and no id comes out of nowhere. *)
Theorem C34_ids : forall L s s', layout_wf L -> sized (l_furthest L) s ->
  length (s_timers s) = length (l_times L) -> advance_slice L s = Ok s' ->
  (forall c p id, tile_at s c = Some p -> p_id (dp p) = Some id -> ~ consumed (p_act (dp p)) ->
     p_type (dp p) = TQubit \/ p_type (dp p) = TPreparedState -> carries s' c id)
  /\ (forall c id, carries s' c id -> carries s c id)
  /\ (unique_ids s -> unique_ids s').
Proof.
  intros L s s' W Hs Hl E.
  assert (B : forall c id, carries s' c id -> carries s c id) by (intros c id; eapply advance_ids; eauto).
  split; [|split; [exact B|]].
  - intros c p id Hp Hi Hn Ht. destruct (C34_survivors L s W Hs Hl) as (s1 & E1 & _ & _ & _ & H).
    assert (s1 = s') by congruence. subst s1.
    destruct (H c p Hp Hn) as (p' & H1 & (_ & H2 & _)); [tauto|]. exists p'. split; [auto|congruence].
  - intros U c c' id H H'. apply (U c c' id); auto.
Qed.
Print Assumptions C34_ids.

Definition ex_slice : outcome slice :=
  do L <- ex_layout ;; do s <- new_slice L [7; 3]%N ;;
  set_patch s (mkCell 0 0) (Some (mkDP (mkPatch TQubit AMeasurement (Some 7%N) None None)
     (mkBounds (mkB BSmooth true) (mkB BSmooth false) (mkB BRough false) (mkB BRough false)))).
Example C34_ex : exists L s s' s'', ex_layout = Ok L /\ ex_slice = Ok s
  /\ length (s_timers s) = length (l_times L)
  /\ advance_slice L s = Ok s' /\ advance_slice L s' = Ok s''
  /\ tile_at s' (mkCell 0 0) = None /\ tile_at s' (mkCell 0 1) = Some (square (Some 3%N) None)
  /\ s_magic s' = [] /\ tile_at s'' (mkCell 0 3) = Some magic_tile /\ s_magic s'' = [mkCell 0 3].
Proof. do 4 eexists. repeat (split; [vm_compute; reflexivity|]). vm_compute. reflexivity. Qed.

(** ** Magic states *)

(** C35, time: if every tile on the list of available magic states holds an
    unbound, idle prepared state, the same is true after advancing, and nothing
    leaves the list by itself. *)
Theorem C35_advance : forall L s s', layout_wf L -> sized (l_furthest L) s ->
  length (s_timers s) = length (l_times L) -> advance_slice L s = Ok s' ->
  magic_listed s ->
  magic_listed s' /\ (forall c, In c (s_magic s) -> In c (s_magic s'))
  /\ (forall c, In c (s_magic s') -> ~ In c (s_magic s) -> tile_at s' c = Some magic_tile).
Proof.
  intros L s s' W Hs Hl E Hm. destruct (advance_ok L s W Hs Hl) as (s1 & E1 & _ & _ & _ & _ & _ & _ & St).
  assert (s1 = s') by congruence. subst s1.
  destruct (advance_tiles L s s' W Hs Hl St) as (T1 & _ & _ & T4 & T5).
  split; [|split; [exact T4|]].
  - intros c Hc. apply T5 in Hc as [Hc|Hc].
    + destruct (Hm c Hc) as (p & Hp & Ht & Hi & Ha).
      destruct (T1 c p Hp) as (p' & Hp' & (q1 & q2 & _ & _ & q5 & _)).
      * rewrite Ha. intros [h|h]; discriminate.
      * auto.
      * exists p'. rewrite Ha in q5. cbn in q5. split; [auto|]. split; [congruence|]. split; congruence.
    + exists magic_tile. repeat split; auto.
  - intros c Hc Hn. apply T5 in Hc as [Hc|Hc]; [contradiction|auto].
Qed.
Print Assumptions C35_advance.

(** C35: at the start the list is empty. *)
Theorem C35_start : forall L ids s, layout_wf L -> (length ids <= length (core_cells L))%nat ->
  new_slice L ids = Ok s -> magic_listed s /\ s_magic s = [].
Proof.
  intros L ids s W H E. destruct (new_slice_ok L ids W H) as (s' & E' & I).
  assert (s' = s) by congruence. subst s'. pose proof (in_magic _ _ _ I) as M. split; auto.
  intros c Hc. rewrite M in Hc. destruct Hc.
Qed.
Print Assumptions C35_start.

(** C36: a factory with distillation time [T > 0] attempts a delivery between
    slices [n] and [n+1] exactly when [T] divides [n+1].  Every attempt puts one
    magic state on a free tile of the factory's own queue, unless all of them are
    occupied; nothing is delivered otherwise. *)
Theorem C36_factories : forall L st mid, layout_wf L -> history L st mid -> l_magic_reserved L = false ->
  Forall (fun T => (0 < T)%N) (l_times L) ->
  forall n, exists new, deliveries L (mid n) (st (S n))
    (fun i => exists T, nth_error (l_times L) i = Some T /\ (N.of_nat (S n) mod T = 0)%N) new.
Proof.
  intros L st mid W Hh Em Hpos n.
  pose proof (history_step L st mid n W Hh) as St. rewrite Em in St. destruct St as (new & Dv & _).
  pose proof (history_timers L st mid n W Hh) as Hl.
  assert (Due : forall i, (exists t, nth_error (s_timers (mid n)) i = Some t /\ u32_dec t = 0%N)
                <-> exists T, nth_error (l_times L) i = Some T /\ (N.of_nat (S n) mod T = 0)%N).
  { intros i. assert (F : forall T, nth_error (l_times L) i = Some T ->
         (0 < T < 2 ^ 32)%N /\ nth_error (s_timers (mid n)) i = Some (T - N.of_nat n mod T)%N).
    { intros T HT. rewrite Forall_forall in Hpos. pose proof (Hpos T (nth_error_In _ _ HT)) as Hp.
      pose proof (lw_u32 L W) as Hu. rewrite Forall_forall in Hu.
      split; [split; [auto|apply Hu; eapply nth_error_In; eauto]|].
      eapply factory_timer; eauto. }
    replace (N.of_nat (S n)) with (N.of_nat n + 1)%N by lia. split.
    - intros (t & H1 & H2). destruct (nth_error (l_times L) i) as [T|] eqn:ET.
      + destruct (F T eq_refl) as [Hr H3]. exists T. split; auto. apply due_period; auto. congruence.
      + apply nth_error_None in ET. assert (i < length (s_timers (mid n)))%nat by (apply nth_error_Some; congruence). lia.
    - intros (T & H1 & H2). destruct (F T H1) as [Hr H3]. eexists. split; [exact H3|]. apply due_period; auto. }
  destruct Dv as [d1 d2 d3 d4 d5 d6]. exists new. constructor; auto.
  - intros i c H. destruct (d3 i c H) as (h1 & h2 & h3 & h4). split; [apply Due; auto|].
    split; [auto|]. split; [apply vacated_aged; auto|auto].
  - intros c Hv Hn. rewrite d4 by auto. apply vacated_aged; auto.
  - intros i q c Hd. apply d5. apply Due; auto.
Qed.
Print Assumptions C36_factories.

(** C36: a reserved tile emptied in slice [n] is distilling in the next [T]
    slices and holds a listed magic state in slice [n+1+T], provided nobody
    writes on it in between. *)
Theorem C36_reserved : forall L st mid k c T n, layout_wf L -> history L st mid -> l_magic_reserved L = true ->
  nth_error (l_reserved L) k = Some c -> nth_error (l_times L) k = Some (N.of_nat T) -> (0 < T)%nat ->
  (forall m, distilling (st m) c -> tile_at (mid m) c = tile_at (st m) c) ->
  vacated (mid n) c ->
  (forall j, (j < T)%nat -> distilling (st (n + 1 + j)%nat) c)
  /\ tile_at (st (n + 1 + T)%nat) c = Some magic_tile /\ In c (s_magic (st (n + 1 + T)%nat)).
Proof.
  intros L st mid k c T n W Hh Em Hk HT Hpos Hq Hv.
  destruct (reserved_emptied L st mid k c (N.of_nat T) n) as [D Ht]; auto; try lia.
  destruct T as [|x]; [lia|].
  destruct (reserved_count L st mid k c (N.of_nat (S x)) W Hh Em Hk HT Hq x (S n)) as (H1 & H2 & H3).
  { unfold distilling in *. rewrite Hq; auto. }
  { destruct Hh as [_ H]. destruct (H (S n)) as (_ & -> & _). auto. }
  replace (n + 1)%nat with (S n) by lia. split; [|auto].
  intros [|j] Hj; [rewrite Nat.add_0_r; auto|]. apply H1. lia.
Qed.
Print Assumptions C36_reserved.

(** C36: the first state appears on a reserved tile after [T] slices. *)
Theorem C36_reserved_start : forall L ids st mid k c T, layout_wf L -> history L st mid -> l_magic_reserved L = true ->
  new_slice L ids = Ok (st 0%nat) -> (length ids <= length (core_cells L))%nat ->
  nth_error (l_reserved L) k = Some c -> nth_error (l_times L) k = Some (N.of_nat T) -> (0 < T)%nat ->
  (forall m, distilling (st m) c -> tile_at (mid m) c = tile_at (st m) c) ->
  (forall j, (j < T)%nat -> distilling (st j) c)
  /\ tile_at (st T) c = Some magic_tile /\ In c (s_magic (st T)).
Proof.
  intros L ids st mid k c T W Hh Em E Hl Hk HT Hpos Hq.
  destruct (new_slice_ok L ids W Hl) as (s & E' & I). assert (s = st 0%nat) by congruence. subst s.
  assert (D : distilling (st 0%nat) c).
  { exists (mkDP distillation_patch connected4). split; [|split; reflexivity].
    apply (in_reserved _ _ _ I). eapply nth_error_In; eauto. }
  destruct T as [|x]; [lia|].
  destruct (reserved_count L st mid k c (N.of_nat (S x)) W Hh Em Hk HT Hq x 0%nat) as (H1 & H2 & H3).
  { unfold distilling in *. rewrite Hq; auto. }
  { destruct Hh as [H0 H]. destruct (H 0%nat) as (_ & -> & _). rewrite H0. auto. }
  split; [|auto]. intros [|j] Hj; [auto|]. apply H1. lia.
Qed.
Print Assumptions C36_reserved_start.

(** C36 needs [T > 0]: the counter of a factory with distillation time 0 (which
    the command line accepts) wraps around, and the factory attempts nothing in
    the first 2^32 - 2 steps. *)
Theorem C36_refuted_zero : forall L st mid i, layout_wf L -> history L st mid -> l_magic_reserved L = false ->
  nth_error (l_times L) i = Some 0%N ->
  forall n, (N.of_nat n + 1 < 2 ^ 32)%N -> exists new due, deliveries L (mid n) (st (S n)) due new /\ ~ due i.
Proof.
  intros L st mid i W Hh Em H0 n Hn.
  pose proof (factory_timer_zero L st mid i W Hh Em H0 n ltac:(lia)) as Ht.
  pose proof (history_step L st mid n W Hh) as St. rewrite Em in St. destruct St as (new & Dv & _).
  destruct Dv as [d1 d2 d3 d4 d5 d6]. exists new. eexists. split.
  - constructor; [auto|auto| |  |exact d5|auto].
    + intros j c H. destruct (d3 j c H) as (h1 & h2 & h3 & h4). split; [exact h1|].
      split; [auto|]. split; [apply vacated_aged; auto|auto].
    + intros c Hv Hc. rewrite d4 by auto. apply vacated_aged; auto.
  - intros (t & H1 & H2). assert (Et : t = ((2 ^ 32 - N.of_nat n) mod 2 ^ 32)%N) by congruence.
    subst t. clear H1.
    unfold u32_dec in H2. destruct (N.eq_dec (N.of_nat n) 0) as [E0|E0].
    + rewrite E0, N.sub_0_r, N.mod_same in H2 by lia. discriminate.
    + rewrite N.mod_small in H2 by lia. destruct (N.eqb_spec (2 ^ 32 - N.of_nat n) 0); lia.
Qed.
Print Assumptions C36_refuted_zero.

(** Histories exist: here nothing is put on the slices. *)
Fixpoint idle_history (L : layout) (s : slice) (n : nat) : slice :=
  match n with
  | O => s
  | S m => match advance_slice L (idle_history L s m) with Ok s' => s' | _ => s end
  end.
Example C36_ex_history : forall L ids s, layout_wf L -> new_slice L ids = Ok s ->
  (length ids <= length (core_cells L))%nat -> history L (idle_history L s) (idle_history L s).
Proof.
  intros L ids s W E Hl. destruct (new_slice_ok L ids W Hl) as (s0 & E0 & I).
  assert (s0 = s) by congruence. subst s0.
  assert (H : forall n, sized (l_furthest L) (idle_history L s n)
     /\ length (s_timers (idle_history L s n)) = length (l_times L)).
  { induction n as [|n [H1 H2]]; cbn [idle_history].
    - split; [apply (in_sized _ _ _ I)|]. rewrite (in_timers _ _ _ I). auto.
    - destruct (advance_ok L _ W H1 H2) as (s' & -> & H3 & H4 & _). auto. }
  split; [apply (in_timers _ _ _ I)|]. intros n. destruct (H n) as [H1 H2]. split; auto. split; auto.
  cbn [idle_history]. destruct (advance_ok L _ W H1 H2) as (s' & -> & _). auto.
Qed.
Example C36_ex : exists L s, ex_layout = Ok L /\ new_slice L [7]%N = Ok s /\ l_magic_reserved L = false
  /\ l_times L = [2]%N
  /\ map (fun n => s_magic (idle_history L s n)) [0; 1; 2; 3; 4; 5; 6]%nat
     = [[]; []; [mkCell 0 3]; [mkCell 0 3]; [mkCell 0 3; mkCell 2 2]; [mkCell 0 3; mkCell 2 2]; [mkCell 0 3; mkCell 2 2]].
Proof. do 2 eexists. repeat (split; [vm_compute; reflexivity|]). vm_compute. reflexivity. Qed.
Example C36_ex_reserved : exists L s, layout_from_spec (lit "QrM") (mkDO true 3) = Ok L
  /\ new_slice L [7]%N = Ok s /\ l_magic_reserved L = true /\ l_times L = [3]%N
  /\ map (fun n => s_magic (idle_history L s n)) [0; 1; 2; 3; 4]%nat
     = [[]; []; []; [mkCell 0 2]; [mkCell 0 2]].
Proof. do 2 eexists. repeat (split; [vm_compute; reflexivity|]). vm_compute. reflexivity. Qed.
