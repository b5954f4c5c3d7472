(** C69: programs of gates on single qubits and measurements are compiled to their end. *)
From Verif Require Import Base InstrProofs PatchesModel LayoutModel LayoutSpec InstrModel SliceModel SliceSpec SliceProofs SliceProps ApplyModel ApplyProofs ApplyIds ApplyEffect BellProps
  RunModel RunInv RunProps OrientProofs OrientProps.
Open Scope nat_scope.

(** Programs of Pauli and Hadamard gates and of measurements; [live] are the qubits that are still there. *)
Definition plain_gate (g : sq_op) : Prop := match g with SqX | SqY | SqZ | SqH => True | _ => False end.
Fixpoint usable (live : list N) (prog : list instr) : Prop :=
  match prog with
  | [] => True
  | i :: r => (0 < wait i)%N /\ match op i with
              | SingleOp q g _ => In q live /\ plain_gate g /\ usable live r
              | Measure q _ _ => In q live /\ usable (remove N.eq_dec q live) r
              | _ => False
              end
  end.

Section Live.
Variable e : env.
Hypothesis W : layout_wf (e_layout e).
Local Notation L := (e_layout e).

Definition waits_for_nothing (p : dpatch) : Prop := p_type (dp p) = TQubit /\ (p_act (dp p) = ANone \/ p_act (dp p) = AUnitary) /\ forall d, bactive (side (db p) d) = false.
Definition stands (s : slice) (q : N) : Prop := exists c p, tile_at s c = Some p /\ p_id (dp p) = Some q /\ waits_for_nothing p /\ forall c', carries s c' q -> c' = c.
Definition ready (live : list N) (s : slice) : Prop := timed L s /\ forall q, In q live -> stands s q.

Lemma ready_advance : forall live s, ready live s -> exists s', advance_slice L s = Ok s' /\ ready live s'
  /\ forall q c p, In q live -> tile_at s' c = Some p -> p_id (dp p) = Some q -> dp_is_active p = false.
Proof.
  intros live s [T R]. destruct (C34_survivors L s W (proj1 T) (proj2 T)) as (s' & E & S1 & L1 & _ & Sv). exists s'. split; [exact E|].
  assert (X : forall q, In q live -> exists c p, tile_at s' c = Some p /\ p_id (dp p) = Some q /\ waits_for_nothing p /\ dp_is_active p = false /\ forall c', carries s' c' q -> c' = c).
  { intros q Hq. destruct (R q Hq) as (c & p & Hp & Hi & (Ty & Ac & Bo) & On).
    destruct (Sv c p Hp) as (p' & P' & S2 & S3 & _ & _ & S4 & _ & S5); [destruct Ac as [->| ->]; intros [X|X]; discriminate X|now left|].
    assert (A' : p_act (dp p') = ANone) by (rewrite S4; destruct Ac as [->| ->]; reflexivity).
    assert (B' : forall d, bactive (side (db p') d) = false) by (intros d; destruct (bactive (side (db p') d)) eqn:D; [apply S5 in D as [_ D]; rewrite Bo in D; discriminate|reflexivity]).
    exists c, p'. split; [exact P'|]. split; [congruence|]. split; [split; [congruence|split; [now left|exact B']]|]. split.
    - unfold dp_is_active. rewrite A'. cbn [act_eqb]. unfold has_active_boundary.
      pose proof (B' DTop) as B1. pose proof (B' DBottom) as B2. pose proof (B' DLeft) as B3. pose proof (B' DRight) as B4. cbn in B1, B2, B3, B4. now rewrite B1, B2, B3, B4.
    - intros c' Hc. apply On. eapply advance_ids; eauto; apply T. }
  split; [split; [split; auto|]|].
  - intros q Hq. destruct (X q Hq) as (c & p & H1 & H2 & H3 & _ & H4). exists c, p. auto.
  - intros q c p Hq Hp Hi. destruct (X q Hq) as (c1 & p1 & H1 & H2 & H3 & H5 & H4). assert (c = c1) by (apply H4; exists p; auto). subst c1. congruence.
Qed.

(** Another patch of the same qubit on the same tile *)
Lemma ready_put : forall live s q c p p', ready live s -> (forall c', carries s c' q -> c' = c) -> tile_at s c = Some p -> p_id (dp p) = Some q -> p_id (dp p') = Some q -> waits_for_nothing p' ->
  ready live (put s c (Some p')).
Proof.
  intros live s q c p p' [T R] On Hp Hi Hi' Wn. assert (Ho : on_lattice (l_furthest L) c) by (eapply tile_on; eauto; apply T). pose proof (proj1 T) as Hs.
  split; [split; [now apply sized_put|apply T]|]. intros q1 H1. destruct (N.eq_dec q1 q) as [->|D].
  - exists c, p'. split; [now apply (tile_put_same (l_furthest L))|]. split; [exact Hi'|]. split; [exact Wn|].
    intros c' (p1 & P1 & P2). rewrite (tile_put (l_furthest L)) in P1 by auto. destruct (cell_eqb c c') eqn:E; [now apply cell_eqb_eq in E|]. apply On. exists p1. auto.
  - destruct (R q1 H1) as (c1 & p1 & P1 & P2 & P3 & P4). assert (Dc : c <> c1) by (intros ->; congruence).
    exists c1, p1. split; [now rewrite (tile_put_other (l_furthest L))|]. split; [exact P2|]. split; [exact P3|].
    intros c' (p2 & Q1 & Q2). rewrite (tile_put (l_furthest L)) in Q1 by auto. destruct (cell_eqb c c') eqn:E; [injection Q1 as <-; congruence|]. apply P4. exists p2. auto.
Qed.
Lemma ready_gone : forall live s q c p p', ready live s -> tile_at s c = Some p -> p_id (dp p) = Some q -> p_id (dp p') = Some q ->
  ready (remove N.eq_dec q live) (put s c (Some p')).
Proof.
  intros live s q c p p' [T R] Hp Hi Hi'. assert (Ho : on_lattice (l_furthest L) c) by (eapply tile_on; eauto; apply T). pose proof (proj1 T) as Hs.
  split; [split; [now apply sized_put|apply T]|]. intros q1 H1. apply in_remove in H1 as [H1 D].
  destruct (R q1 H1) as (c1 & p1 & P1 & P2 & P3 & P4). assert (Dc : c <> c1) by (intros ->; congruence).
  exists c1, p1. split; [now rewrite (tile_put_other (l_furthest L))|]. split; [exact P2|]. split; [exact P3|].
  intros c' (p2 & Q1 & Q2). rewrite (tile_put (l_furthest L)) in Q1 by auto. destruct (cell_eqb c c') eqn:E; [injection Q1 as <-; congruence|]. apply P4. exists p2. auto.
Qed.

Lemma stands_get : forall s q, timed L s -> stands s q -> exists c p, get_cell_by_id s q = Some c /\ get_patch_by_id s q = Some p /\ tile_at s c = Some p /\ p_id (dp p) = Some q
  /\ waits_for_nothing p /\ forall c', carries s c' q -> c' = c.
Proof.
  intros s q [Hs _] (c & p & Hp & Hi & Wn & On).
  assert (G : get_cell_by_id s q = Some c) by (apply (get_single (l_furthest L)); auto; [intros c1 c2 H1 H2; rewrite (On c1 H1), (On c2 H2); reflexivity|exists p; auto]).
  destruct (sits_get _ _ _ _ Hs G) as (p1 & [P1 P2] & P3 & _). assert (p1 = p) by congruence. subst p1. exists c, p.
  split; [exact G|]. split; [exact P3|]. split; [exact Hp|]. split; [exact Hi|]. split; [exact Wn|exact On].
Qed.

Lemma gate_try : forall live w q g b wt cl, ready live (w_slice w) -> In q live -> plain_gate g ->
  exists a, try_apply e w (mkI (SingleOp q g b) wt cl) = Ok a /\ a_follow a = [] /\ a_op a = SingleOp q g b
  /\ (a_error a = true /\ a_world a = w /\ (exists c p, tile_at (w_slice w) c = Some p /\ p_id (dp p) = Some q /\ dp_is_active p = true)
      \/ a_error a = false /\ ready live (w_slice (a_world a))).
Proof.
  intros live w q g b wt cl Rd Hq Hg. destruct (stands_get _ _ (proj1 Rd) (proj2 Rd q Hq)) as (c & p & G1 & G2 & Hp & Hi & Wn & On).
  cbn [try_apply op]. unfold apply_single. rewrite G1, G2. destruct (dp_is_active p) eqn:Ac.
  - exists (mkA w (SingleOp q g b) true []). split; [destruct g; try reflexivity; contradiction|]. split; [reflexivity|]. split; [reflexivity|]. left. split; [reflexivity|]. split; [reflexivity|]. exists c, p. auto.
  - assert (Pl : exists a, done_ w (SingleOp q g b) = Ok a /\ a_follow a = [] /\ a_op a = SingleOp q g b /\ (a_error a = true /\ a_world a = w /\ (exists c p, tile_at (w_slice w) c = Some p /\ p_id (dp p) = Some q /\ dp_is_active p = true)
      \/ a_error a = false /\ ready live (w_slice (a_world a)))) by (eexists; split; [reflexivity|]; split; [reflexivity|]; split; [reflexivity|]; right; split; [reflexivity|exact Rd]).
    destruct g; try exact Pl; [|contradiction]. clear Pl. rewrite (set_patch_ok (l_furthest L)); [|apply (proj1 Rd)|eapply tile_on; eauto; apply (proj1 Rd)]. cbn [bind].
    eexists. split; [reflexivity|]. split; [reflexivity|]. split; [reflexivity|]. right. split; [reflexivity|]. cbn [a_world w_slice with_slice].
    eapply ready_put; eauto. destruct Wn as (W1 & W2 & W3). split; [exact W1|]. split; [now right|]. intros [| | |]; cbn; [apply (W3 DLeft)|apply (W3 DRight)|apply (W3 DBottom)|apply (W3 DTop)].
Qed.
Lemma measure_try : forall live w q o b wt cl, ready live (w_slice w) -> In q live ->
  exists a, try_apply e w (mkI (Measure q o b) wt cl) = Ok a /\ a_follow a = [] /\ a_op a = Measure q o b /\ a_error a = false /\ ready (remove N.eq_dec q live) (w_slice (a_world a)).
Proof.
  intros live w q o b wt cl Rd Hq. destruct (stands_get _ _ (proj1 Rd) (proj2 Rd q Hq)) as (c & p & G1 & G2 & Hp & Hi & Wn & On).
  cbn [try_apply op]. unfold apply_measure. rewrite G1. rewrite (set_activity_ok (l_furthest L) _ _ _ p) by (auto; apply (proj1 Rd)). cbn [bind].
  eexists. split; [reflexivity|]. split; [reflexivity|]. split; [reflexivity|]. split; [reflexivity|]. cbn [a_world w_slice with_slice]. eapply ready_gone; eauto.
Qed.

Definition ops_applied (t : tally) : list operation := flat_map (fun ev => match ev with Applied i => [op i] | Emitted _ => [] end) (t_events t).
Lemma ops_saw : forall t i, ops_applied (saw t (Applied i)) = ops_applied t ++ [op i].
Proof. intros t i. unfold ops_applied. cbn [saw t_events]. now rewrite flat_map_app. Qed.
Lemma ops_shown : forall t s, ops_applied (saw t (Emitted s)) = ops_applied t.
Proof. intros t i. unfold ops_applied. cbn [saw t_events]. rewrite flat_map_app. cbn. apply app_nil_r. Qed.
Lemma slices_saw : forall t i, length (emitted (t_events (saw t (Applied i)))) = length (emitted (t_events t)).
Proof. intros t i. unfold emitted. cbn [saw t_events]. rewrite flat_map_app. cbn. now rewrite app_nil_r. Qed.
Lemma slices_shown : forall t s, length (emitted (t_events (saw t (Emitted s)))) = S (length (emitted (t_events t))).
Proof. intros t i. unfold emitted. cbn [saw t_events]. rewrite flat_map_app, app_length. cbn. lia. Qed.

(** One instruction that was attempted before or not: at most one slice goes by before it is applied. *)
Lemma one_more : forall live i r w t, usable live (i :: r) -> ready live (w_slice w) ->
  exists n live' w' t', turns (stream_step e never) n (mkSS w [] (i :: r) t) = Go (mkSS w' [] r t') /\ usable live' r /\ ready live' (w_slice w')
  /\ ops_applied t' = ops_applied t ++ [op i] /\ length (emitted (t_events t')) <= S (length (emitted (t_events t))).
Proof.
  intros live i r w t [Hw U] Rd. destruct i as [o wt cl]. cbn [op wait] in *. destruct o; try contradiction.
  - destruct U as [Hq U]. destruct (measure_try live w target observable is_negative wt cl Rd Hq) as (a & T & F & O & Er & Rd').
    exists 1. eexists _, _, _. split.
    { cbn [turns]. unfold stream_step. cbn [take_next ss_future ss_rest ss_world ss_tally]. rewrite T. cbn [lift pbind]. rewrite F, Er. cbn [negb pbind]. reflexivity. }
    split; [exact U|]. split; [exact Rd'|]. rewrite ops_saw, slices_saw. unfold tried. cbn [op wait clients]. rewrite O. split; [reflexivity|exact (le_S _ _ (le_n _))].
  - destruct U as (Hq & Hg & U). destruct (gate_try live w target op is_dagger wt cl Rd Hq Hg) as (a & T & F & O & [(Er & Ew & _)|(Er & Rd')]).
    + destruct (ready_advance live _ Rd) as (s1 & Ad & Rd1 & Idle).
      destruct (gate_try live (with_slice w s1) target op is_dagger (wt - 1) cl Rd1 Hq Hg) as (a1 & T1 & F1 & O1 & [(_ & _ & c & p & Hp & Hi & Ac)|(Er1 & Rd2)]).
      { exfalso. pose proof (Idle target c p Hq Hp Hi). congruence. }
      exists 2. eexists _, _, _. split.
      { cbn [turns]. unfold stream_step at 1. cbn [take_next ss_future ss_rest ss_world ss_tally]. rewrite T. cbn [lift pbind]. rewrite F, Er. cbn [negb]. unfold visit, never at 1. cbn [pbind wait].
        rewrite (proj2 (N.eqb_neq wt 0)) by lia. rewrite Ew. unfold advance. rewrite Ad. cbn [lift pbind]. rewrite O. cbn [clients].
        unfold stream_step. cbn [take_next ss_future ss_rest ss_world ss_tally]. rewrite T1. cbn [lift pbind]. rewrite F1, Er1. cbn [negb pbind]. reflexivity. }
      split; [exact U|]. split; [exact Rd2|]. rewrite ops_saw, slices_saw, ops_shown, slices_shown. unfold tried. cbn [InstrModel.op wait clients]. rewrite O1. split; [reflexivity|exact (le_n _)].
    + exists 1. eexists _, _, _. split.
      { cbn [turns]. unfold stream_step. cbn [take_next ss_future ss_rest ss_world ss_tally]. rewrite T. cbn [lift pbind]. rewrite F, Er. cbn [negb pbind]. reflexivity. }
      split; [exact U|]. split; [exact Rd'|]. rewrite ops_saw, slices_saw. unfold tried. cbn [InstrModel.op wait clients]. rewrite O. split; [reflexivity|exact (le_S _ _ (le_n _))].
Qed.

Lemma turns_more : forall (A : Type) (f : A -> progress A) n m s s', turns f n s = Go s' -> turns f (n + m) s = turns f m s'.
Proof.
  intros A f. induction n as [|n IH]; intros m s s' H; [injection H as <-; reflexivity|]. cbn [turns Nat.add] in *. destruct (f s); cbn [pbind] in *; [eauto|discriminate].
Qed.
Lemma all_applied : forall prog live w t, usable live prog -> ready live (w_slice w) ->
  exists n t', turns (stream_step e never) n (mkSS w [] prog t) = Halt t' Finished
  /\ ops_applied t' = ops_applied t ++ map op prog /\ length (emitted (t_events t')) <= length (emitted (t_events t)) + length prog + 1.
Proof.
  induction prog as [|i r IH]; intros live w t U Rd.
  - exists 1. eexists. split; [reflexivity|]. rewrite ops_shown, slices_shown, app_nil_r. split; [reflexivity|cbn; lia].
  - destruct (one_more live i r w t U Rd) as (n & live' & w' & t' & T & U' & Rd' & O & K). destruct (IH live' w' t' U' Rd') as (m & t2 & T2 & O2 & K2).
    exists (n + m), t2. rewrite (turns_more _ _ _ _ _ _ T). split; [exact T2|]. rewrite O2, O, <- app_assoc. split; [reflexivity|]. cbn [length]. lia.
Qed.
End Live.

Lemma start_ready : forall e ids s, let L := e_layout e in layout_wf L -> length ids <= length (core_cells L) -> NoDup ids -> new_slice L ids = Ok s -> ready e ids s.
Proof.
  intros e ids s L W Hl Nd E. destruct (new_slice_ok _ _ W Hl) as (s' & E' & I). assert (s' = s) by congruence. subst s'.
  split; [split; [apply (in_sized _ _ _ I)|now rewrite (in_timers _ _ _ I)]|].
  intros q Hq. apply In_nth_error in Hq as [k Hq]. destruct (in_core _ _ _ I k q Hq) as (c & C1 & C2).
  exists c, (square (Some q) None). split; [exact C2|]. split; [reflexivity|]. split.
  - split; [reflexivity|]. split; [now left|]. intros [| | |]; reflexivity.
  - exact (ah_only _ _ _ _ _ (start_home e ids s k q c W Hl Nd E Hq C1)).
Qed.

(** On every layout with a tile for each qubit, with factories or without: a program of Pauli gates, Hadamard gates and measurements on its qubits, none of which is used after its measurement, is compiled by the
    stream pipeline to its end.  All instructions are applied, in order, and no instruction takes more than one slice. *)
Theorem C69_stream : forall e ids prog w, layout_wf (e_layout e) -> length ids <= length (core_cells (e_layout e)) -> NoDup ids -> new_slice (e_layout e) ids = Ok (w_slice w) ->
  usable ids prog -> exists t, halts Stream e never never prog w t Finished /\ ops_applied t = map op prog /\ length (emitted (t_events t)) <= S (length prog).
Proof.
  intros e ids prog w W Hl Nd E U. destruct (all_applied e W prog ids w tally0 U (start_ready e ids _ W Hl Nd E)) as (n & t & T & O & K).
  exists t. split; [exists n; exact T|]. split; [exact O|]. cbn in K. lia.
Qed.
Print Assumptions C69_stream.

(** Two Hadamard gates on the same qubit, the second of which has to wait, a gate on the other and the measurements, on a layout with a factory *)
Definition gates_prog : list instr := map instr_of [SingleOp 7 SqH false; SingleOp 7 SqH false; SingleOp 3 SqX false; Measure 7 PZ false; SingleOp 3 SqH false; Measure 3 PX false].
Example C69_stream_ex : layout_wf (e_layout jam_env) /\ new_slice (e_layout jam_env) [7; 3]%N = Ok (snd jam_start) /\ usable [7; 3]%N gates_prog
  /\ exists t, halts Stream jam_env never never gates_prog (mkW (snd jam_start) 0 []) t Finished /\ length (emitted (t_events t)) = 2.
Proof.
  split; [apply (text_layout_wf jam_text (mkDO true 1)); vm_compute; reflexivity|]. split; [vm_compute; reflexivity|]. split.
  - cbn. repeat split; auto; try (now left); try (now right; left); vm_compute; reflexivity.
  - eexists. split; [exists 20; vm_compute; reflexivity|vm_compute; reflexivity].
Qed.
