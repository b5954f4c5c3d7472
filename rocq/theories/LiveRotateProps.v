(** C69: programs that also turn patches, by rotations of several slices, are compiled to their end. *)
From Verif Require Import Base InstrSpec InstrProofs PatchesModel LayoutModel LayoutSpec InstrModel SliceModel SliceSpec SliceProofs SliceProps ApplyModel ApplySpec ApplyProofs ApplyIds ApplyEffect BellProps ApplyProps
  StepProps RunModel RunInv RunProps OrientProofs OrientProps LiveProps.
Open Scope nat_scope.

(** The programs of [usable], with rotations *)
Fixpoint turnable (live : list N) (prog : list instr) : Prop :=
  match prog with
  | [] => True
  | i :: r => (0 < wait i)%N /\ match op i with
              | SingleOp q g _ => In q live /\ plain_gate g /\ turnable live r
              | Rotate q => In q live /\ turnable live r
              | Measure q _ _ => In q live /\ turnable (remove N.eq_dec q live) r
              | _ => False
              end
  end.
(** A tile that nothing is ever put on of itself: an open tile that no factory delivers to *)
Definition quiet_tile (L : layout) (c : cell) : Prop := open_tile L c /\ forall q, In q (l_queues L) -> ~ In c q.
(** Every qubit tile has such a neighbour. *)
Definition airy (L : layout) : Prop := forall c, In c (core_cells L) -> exists n, adj c n /\ quiet_tile L n.
(** The slices an instruction may take *)
Definition span (i : instr) : nat := match op i with Rotate _ => 3 | _ => 1 end.
(** The steps that follow the start of a rotation are not part of the program. *)
Definition asked (o : operation) : bool := match o with Busy _ _ _ => false | _ => true end.

Section Turn.
Variable e : env.
Hypothesis W : layout_wf (e_layout e).
Local Notation L := (e_layout e).
Hypothesis Air : airy L.

Definition alike (s s' : slice) : Prop := forall x, option_map (fun p => p_id (dp p)) (tile_at s' x) = option_map (fun p => p_id (dp p)) (tile_at s x).
Lemma alike_none : forall s s' x, alike s s' -> tile_at s x = None -> tile_at s' x = None.
Proof. intros s s' x A H. specialize (A x). rewrite H in A. destruct (tile_at s' x); [discriminate|reflexivity]. Qed.
Lemma alike_carries : forall s s' x q, alike s s' -> carries s' x q -> carries s x q.
Proof. intros s s' x q A (p & P & I). specialize (A x). rewrite P in A. cbn in A. destruct (tile_at s x) as [p0|] eqn:E; [|discriminate]. exists p0. split; [exact E|]. cbn in A. congruence. Qed.
Lemma alike_put : forall s c p p', sized (l_furthest L) s -> tile_at s c = Some p -> p_id (dp p') = p_id (dp p) -> alike s (put s c (Some p')).
Proof.
  intros s c p p' Hs Hp Hi x. assert (Ho : on_lattice (l_furthest L) c) by (eapply tile_on; eauto).
  rewrite (tile_put (l_furthest L)) by auto. destruct (cell_eqb c x) eqn:E; [|reflexivity]. apply cell_eqb_eq in E. subst x. rewrite Hp. cbn. now rewrite Hi.
Qed.

Lemma gate_alike : forall live w q g b wt cl a, LiveProps.ready e live (w_slice w) -> In q live -> plain_gate g -> try_apply e w (mkI (SingleOp q g b) wt cl) = Ok a -> alike (w_slice w) (w_slice (a_world a)).
Proof.
  intros live w q g b wt cl a Rd Hq Hg H. destruct (stands_get _ _ _ (proj1 Rd) (proj2 Rd q Hq)) as (c & p & G1 & G2 & Hp & Hi & _).
  cbn [try_apply op] in H. unfold apply_single in H. rewrite G1, G2 in H.
  assert (K : forall o a, done_ w o = Ok a -> alike (w_slice w) (w_slice (a_world a))) by (intros o a0 E; injection E as <-; intros x; reflexivity).
  destruct (dp_is_active p); [destruct g; try contradiction; injection H as <-; intros x; reflexivity|].
  destruct g; try contradiction; try exact (K _ _ H).
  rewrite (set_patch_ok (l_furthest L)) in H; [|apply (proj1 Rd)|eapply tile_on; eauto; apply (proj1 Rd)]. cbn [bind] in H. injection H as <-. cbn [a_world w_slice with_slice].
  apply (alike_put _ c p); [apply (proj1 Rd)|exact Hp|reflexivity].
Qed.
Lemma measure_alike : forall live w q o b wt cl a, LiveProps.ready e live (w_slice w) -> In q live -> try_apply e w (mkI (Measure q o b) wt cl) = Ok a -> alike (w_slice w) (w_slice (a_world a)).
Proof.
  intros live w q o b wt cl a Rd Hq H. destruct (stands_get _ _ _ (proj1 Rd) (proj2 Rd q Hq)) as (c & p & G1 & G2 & Hp & Hi & _).
  cbn [try_apply op] in H. unfold apply_measure in H. rewrite G1 in H. rewrite (set_activity_ok (l_furthest L) _ _ _ p) in H by (auto; apply (proj1 Rd)). cbn [bind] in H. injection H as <-.
  cbn [a_world w_slice with_slice]. apply (alike_put _ c p); [apply (proj1 Rd)|exact Hp|reflexivity].
Qed.

(** What holds between instructions *)
Definition housed (live : list N) (s : slice) : Prop :=
  LiveProps.ready e live s /\ (forall x, quiet_tile L x -> tile_at s x = None) /\ forall q x, In q live -> carries s x q -> In x (core_cells L).
Lemma housed_alike : forall live live' s s', housed live s -> incl live' live -> LiveProps.ready e live' s' -> alike s s' -> housed live' s'.
Proof.
  intros live live' s s' (_ & Q & C) I R A. split; [exact R|]. split; [intros x Hx; eapply alike_none; eauto|]. intros q x Hq Hx. apply (C q x); [now apply I|]. eapply alike_carries; eauto.
Qed.
Lemma quiet_advance : forall s s' x, timed L s -> advance_slice L s = Ok s' -> quiet_tile L x -> tile_at s x = None -> tile_at s' x = None.
Proof.
  intros s s' x T E [(_ & _ & _ & _ & Hr & _) Hq] Hx. destruct (advance_ok L s W (proj1 T) (proj2 T)) as (s1 & E1 & _ & _ & _ & _ & _ & _ & St). assert (s1 = s') by congruence. subst s1.
  assert (A : tile_at (aged s) x = None) by (rewrite tile_aged, Hx; reflexivity).
  destruct (l_magic_reserved L).
  - rewrite (proj1 St x Hr). exact A.
  - destruct St as (new & D & _). rewrite (de_old _ _ _ _ _ D); [exact A|]. intros Hin. apply in_map_iff in Hin as ((i & c) & Ec & Hin). cbn in Ec. subst c.
    destruct (de_new _ _ _ _ _ D i x Hin) as (_ & (q & Q1 & Q2) & _). apply (Hq q); [eapply nth_error_In; eauto|exact Q2].
Qed.
Lemma housed_advance : forall live s, housed live s -> exists s', advance_slice L s = Ok s' /\ housed live s'
  /\ forall q c p, In q live -> tile_at s' c = Some p -> p_id (dp p) = Some q -> dp_is_active p = false.
Proof.
  intros live s (R & Q & C). destruct (ready_advance e W live s R) as (s' & E & R' & I). exists s'. split; [exact E|]. split; [|exact I]. split; [exact R'|].
  split; [intros x Hx; eapply quiet_advance; eauto; apply R|]. intros q x Hq Hx. apply (C q x Hq). eapply advance_ids; eauto; apply R.
Qed.

(** ** The start of a rotation *)
Lemma last_free_ok : forall s l acc, sized (l_furthest L) s -> (forall x, In x l -> on_lattice (l_furthest L) x) ->
  exists r, foldM (fun acc c => do f <- is_free s c ;; Ok (if f : bool then Some c else acc)) l acc = Ok r /\ (acc <> None \/ (exists x, In x l /\ tile_at s x = None) -> r <> None).
Proof.
  intros s l. induction l as [|x l IH]; intros acc Hs Hl; cbn [foldM].
  - exists acc. split; [reflexivity|]. intros [H|(x & [] & _)]. exact H.
  - unfold is_free. rewrite (patch_at_ok (l_furthest L)) by (auto; apply Hl; now left). cbn [bind].
    destruct (IH (if match tile_at s x with Some _ => false | None => true end then Some x else acc) Hs (fun y Hy => Hl y (or_intror Hy))) as (r & E & N).
    exists r. split; [destruct (tile_at s x); exact E|]. intros [H|(y & [<-|Hy] & Hn)].
    + apply N. left. destruct (tile_at s x); [exact H|discriminate].
    + apply N. left. rewrite Hn. discriminate.
    + apply N. right. exists y. auto.
Qed.
Lemma join_tiles_ok : forall a d, join_tiles a (InstrSpec.step a d) = Ok [rotating a d; rotating (InstrSpec.step a d) (dir_not d)].
Proof.
  intros a d. unfold join_tiles, set_boundary_with. cbn [sc_cell sc_b]. rewrite (proj2 (side_towards_iff a (InstrSpec.step a d) d) eq_refl).
  assert (E : side_towards (InstrSpec.step a d) a = Some (dir_not d)) by (apply side_towards_iff; symmetry; apply step_not). rewrite E. reflexivity.
Qed.
Lemma place_routing_ok : forall s sc act opid, sized (l_furthest L) s -> on_lattice (l_furthest L) (sc_cell sc) -> tile_at s (sc_cell sc) = None ->
  place_routing s sc act opid = Ok (put s (sc_cell sc) (Some (mkDP (mkPatch TRouting act None None opid) (sc_b sc)))).
Proof.
  intros s sc act opid Hs Ho Hn. unfold place_routing, place_sparse, place_single. cbn [sp_cells]. rewrite (is_free_ok (l_furthest L)) by auto. cbn [bind negb andb from_sparse_patch sp_cells sp_patch].
  rewrite (set_patch_ok (l_furthest L)) by auto. reflexivity.
Qed.
Lemma rotate_try : forall live w q wt cl, housed live (w_slice w) -> In q live ->
  exists a r k l, try_apply e w (mkI (Rotate q) wt cl) = Ok a /\ a_error a = false /\ a_op a = Rotate q /\ a_follow a = [instr_of (Busy r k l)].
Proof.
  intros live w q wt cl (Rd & Qt & Co) Hq. pose proof (proj1 (proj1 Rd)) as Hs. destruct (stands_get _ _ _ (proj1 Rd) (proj2 Rd q Hq)) as (c & p & G1 & _ & Hp & Hi & _ & _).
  assert (Oc : on_lattice (l_furthest L) c) by (eapply tile_on; eauto). assert (Ib : in_box (mkCell 0 0) (l_furthest L) c) by (unfold on_lattice in Oc; unfold in_box; cbn; lia).
  assert (On : forall x, In x (neighbours L c) -> on_lattice (l_furthest L) x) by (intros x Hx; apply neighbours_in_iff in Hx as [_ Hx]; [unfold in_box in Hx; cbn in Hx; unfold on_lattice; lia|exact Ib]).
  destruct (Air c) as (n0 & A0 & Q0); [apply (Co q c Hq); exists p; auto|].
  cbn [try_apply op]. unfold apply_rotate. rewrite G1. unfold last_free.
  destruct (last_free_ok (w_slice w) (neighbours L c) None Hs On) as (r & Er & Nr). rewrite Er. cbn [bind].
  destruct r as [n|]; [|exfalso; apply Nr; [|reflexivity]; right; exists n0; split; [|now apply Qt]].
  2: { apply neighbours_in_iff; [exact Ib|]. split; [unfold adjacent; unfold adj in A0; exact A0|]. destruct Q0 as [[Q0 _] _]. unfold on_lattice in Q0. unfold in_box. cbn. lia. }
  apply (last_free_inv (l_furthest L)) in Er as [Er|[Hn Fn]]; [discriminate| |exact Hs]. pose proof (On n Hn) as Onn. destruct (neighbours_step L c n Oc Hn) as [d ->].
  rewrite (patch_at_ok (l_furthest L)) by auto. rewrite Hp. cbn [bind deref]. unfold litinski_rotation. cbn [to_sparse_patch sp_cells sc_cell]. rewrite join_tiles_ok. cbn [bind].
  rewrite (set_patch_ok (l_furthest L)) by auto. cbn [bind]. unfold mark_routing_region. cbn [rg_cells rg_id]. set (n := InstrSpec.step c d) in *.
  assert (Ne : c <> n) by (intros X; rewrite <- X in Fn; congruence).
  set (s1 := put (w_slice w) c None). assert (S1 : sized (l_furthest L) s1) by (unfold s1; now apply sized_put).
  assert (T1 : tile_at s1 c = None) by (unfold s1; now apply (tile_put_same (l_furthest L))).
  assert (T2 : tile_at s1 n = None) by (unfold s1; now rewrite (tile_put_other (l_furthest L))).
  cbn [mark_cells]. cbn [rotating sc_cell]. rewrite (patch_at_ok (l_furthest L)), T1 by auto. cbn [bind]. change (act_eqb ARotation AEDPC) with false. cbn iota.
  rewrite place_routing_ok by (cbn [rotating sc_cell]; auto). cbn [bind rotating sc_cell].
  match goal with |- context [put s1 c ?t] => set (s2 := put s1 c t) end. assert (S2 : sized (l_furthest L) s2) by (unfold s2; now apply sized_put).
  assert (T3 : tile_at s2 n = None) by (unfold s2; now rewrite (tile_put_other (l_furthest L))).
  rewrite (patch_at_ok (l_furthest L)), T3 by auto. cbn [bind]. rewrite place_routing_ok by (cbn [rotating sc_cell]; auto). cbn [bind rotating sc_cell].
  do 4 eexists. split; [reflexivity|]. split; [reflexivity|]. split; reflexivity.
Qed.
Lemma busy_op : forall w r k l wt cl a, try_apply e w (mkI (Busy r k l) wt cl) = Ok a ->
  a_op a = Busy r k l /\ forall j, In j (a_follow a) -> exists r' k' l', j = instr_of (Busy r' k' l').
Proof.
  intros w r k l wt cl a H. cbn [try_apply op] in H. unfold apply_busy in H. destruct (N.eqb k 0).
  - destruct (clear_routing_region (w_slice w) r) as [s1| | |]; try discriminate. cbn [bind] in H. destruct (place_all s1 l) as [[s2 b]| | |]; try discriminate. cbn [bind] in H.
    destruct b; injection H as <-; (split; [reflexivity|intros j []]).
  - destruct (mapM _ _) as [x| | |]; try discriminate. cbn [bind] in H. injection H as <-. split; [reflexivity|]. intros j [<-|[]]. eauto.
Qed.

(** ** While a patch is being turned *)
Definition away (live : list N) (q : N) (c n : cell) (s : slice) : Prop :=
  LiveProps.ready e (remove N.eq_dec q live) s /\ (forall x, quiet_tile L x -> x <> n -> tile_at s x = None)
  /\ (forall q' x, In q' (remove N.eq_dec q live) -> carries s x q' -> In x (core_cells L)) /\ (forall x, ~ carries s x q) /\ forall q', ~ carries s c q' /\ ~ carries s n q'.
Lemma away_advance : forall live q c n s, away live q c n s -> exists s', advance_slice L s = Ok s' /\ away live q c n s'.
Proof.
  intros live q c n s (R & Q & C & A & B). destruct (ready_advance e W _ s R) as (s' & E & R' & _). exists s'. split; [exact E|].
  assert (Id : forall x q', carries s' x q' -> carries s x q') by (intros x q' Hx; eapply advance_ids; eauto; apply R).
  split; [exact R'|]. split; [intros x Hx Hn; eapply quiet_advance; eauto; apply R|]. split; [intros q' x Hq Hx; apply (C q' x Hq); auto|].
  split; [intros x Hx; apply (A x); auto|]. intros q'. destruct (B q') as [B1 B2]. split; intros Hx; [apply B1|apply B2]; auto.
Qed.
Lemma away_start : forall live q c n p s s', housed live s -> In q live -> sits s q c p -> tile_at s n = None -> rotating_on s' c -> rotating_on s' n ->
  (forall x, x <> c -> x <> n -> tile_at s' x = tile_at s x) -> timed L s' -> away live q c n s'.
Proof.
  intros live q c n p s s' (R & Q & C) Hq [Hp Hi] Hn (pc & C1 & _ & _ & C2) (pn & N1 & _ & _ & N2) Fr T.
  destruct (stands_get _ _ _ (proj1 R) (proj2 R q Hq)) as (c0 & p0 & _ & _ & _ & _ & _ & On). assert (c = c0) by (apply On; exists p; auto). subst c0.
  assert (Nc : forall q', ~ carries s' c q') by (intros q' (p1 & P1 & P2); congruence). assert (Nn : forall q', ~ carries s' n q') by (intros q' (p1 & P1 & P2); congruence).
  assert (Ca : forall x q', carries s' x q' -> x <> c /\ x <> n /\ carries s x q').
  { intros x q' Hx. assert (x <> c) by (intros ->; now apply (Nc q')). assert (x <> n) by (intros ->; now apply (Nn q')). split; [auto|]. split; [auto|]. destruct Hx as (p1 & P1 & P2). exists p1. rewrite <- Fr by auto. auto. }
  split; [split; [exact T|]|split; [|split; [|split; [|now auto]]]].
  - intros q' H'. apply in_remove in H' as [H' D]. destruct (proj2 R q' H') as (c1 & p1 & P1 & P2 & P3 & P4). exists c1, p1.
    assert (c1 <> c) by (intros ->; congruence). assert (c1 <> n) by (intros ->; congruence). split; [rewrite Fr; auto|]. split; [exact P2|]. split; [exact P3|].
    intros c' Hc. apply P4. apply Ca. exact Hc.
  - intros x Hx Hxn. destruct (cell_eqb_spec x c) as [->|D]; [|rewrite Fr by auto; now apply Q]. exfalso. rewrite (Q c Hx) in Hp. discriminate.
  - intros q' x H' Hx. apply in_remove in H' as [H' _]. apply (C q' x H'). now apply Ca.
  - intros x Hx. destruct (Ca x q Hx) as (D & _ & Hc). apply D. now apply On.
Qed.
Lemma away_end : forall live q c n p s s', away live q c n s -> In c (core_cells L) -> tile_at s' c = Some p -> tile_at s' n = None -> (forall x, x <> c -> x <> n -> tile_at s' x = tile_at s x) -> timed L s' ->
  p_id (dp p) = Some q -> waits_for_nothing p -> housed live s'.
Proof.
  intros live q c n p s s' (R & Q & C & A & B) Hc Hp Hn Fr T Hi Wn.
  assert (Ca : forall x q', carries s' x q' -> x = c /\ q' = q \/ x <> c /\ q' <> q /\ carries s x q').
  { intros x q' (p1 & P1 & P2). destruct (cell_eqb_spec x c) as [->|D]; [left; split; congruence|]. assert (x <> n) by (intros ->; congruence). right. split; [auto|].
    assert (K : carries s x q') by (exists p1; rewrite <- Fr by auto; auto). split; [|exact K]. intros ->. now apply (A x). }
  split; [split; [exact T|]|split].
  - intros q' H'. destruct (N.eq_dec q' q) as [->|D].
    + exists c, p. split; [exact Hp|]. split; [exact Hi|]. split; [exact Wn|]. intros x Hx. destruct (Ca x q Hx) as [[E _]|(_ & X & _)]; [exact E|contradiction].
    + destruct (proj2 R q') as (c1 & p1 & P1 & P2 & P3 & P4); [now apply in_in_remove|]. exists c1, p1.
      assert (K : carries s c1 q') by (exists p1; auto). assert (c1 <> c) by (intros ->; exact (proj1 (B q') K)). assert (c1 <> n) by (intros ->; exact (proj2 (B q') K)).
      split; [rewrite Fr; auto|]. split; [exact P2|]. split; [exact P3|]. intros x Hx. destruct (Ca x q' Hx) as [[_ X]|(_ & _ & X)]; [contradiction|now apply P4].
  - intros x Hx. destruct (cell_eqb_spec x c) as [->|D].
    + exfalso. destruct Hx as [(_ & Hx & _) _]. unfold core_cells in Hc. apply in_flat_map in Hc as (y & Y1 & Y2). now apply (Hx y).
    + destruct (cell_eqb_spec x n) as [->|D']; [exact Hn|]. rewrite Fr by auto. now apply Q.
  - intros q' x H' Hx. destruct (Ca x q' Hx) as [[-> _]|(_ & D & K)]; [exact Hc|]. apply (C q' x); [now apply in_in_remove|exact K].
Qed.

(** ** The run *)
Definition asked_for (t : tally) : list operation := filter asked (ops_applied t).
Lemma asked_saw : forall t i, asked_for (saw t (Applied i)) = asked_for t ++ (if asked (op i) then [op i] else []).
Proof. intros t i. unfold asked_for. rewrite ops_saw, filter_app. cbn [filter]. now destruct (asked (op i)). Qed.
Lemma asked_shown : forall t s, asked_for (saw t (Emitted s)) = asked_for t.
Proof. intros t s. unfold asked_for. now rewrite ops_shown. Qed.
Lemma asked_slices : forall t, asked_for (more_slices t) = asked_for t.
Proof. reflexivity. Qed.

(** A step of a rotation that is not the last *)
Lemma busy_turn : forall w r k l f rest t a j, try_apply e w (instr_of (Busy r k l)) = Ok a -> a_error a = false -> a_follow a = [j] -> a_world a = w ->
  forall s', advance_slice L (w_slice w) = Ok s' ->
  exists t', stream_step e never (mkSS w (instr_of (Busy r k l) :: f) rest t) = Go (mkSS (with_slice w s') (f ++ [j]) rest t')
  /\ asked_for t' = asked_for t /\ length (emitted (t_events t')) = S (length (emitted (t_events t))).
Proof.
  intros w r k l f rest t a j T Er F Ew s' Ad. eexists. split.
  - unfold stream_step. cbn [take_next ss_future ss_rest ss_world ss_tally]. rewrite T. cbn [lift pbind]. rewrite F, Er. unfold visit, never at 1. cbn [pbind]. rewrite Ew. unfold advance. rewrite Ad. cbn [lift pbind]. reflexivity.
  - destruct (busy_op _ _ _ _ _ _ _ T) as [O _]. split.
    + rewrite asked_slices, asked_shown, asked_saw. unfold tried. cbn [op]. rewrite O. cbn. apply app_nil_r.
    + cbn [more_slices t_events]. rewrite slices_shown, slices_saw. reflexivity.
Qed.

Lemma turn_more : forall live i r w t, turnable live (i :: r) -> housed live (w_slice w) ->
  exists n live' w' t', turns (stream_step e never) n (mkSS w [] (i :: r) t) = Go (mkSS w' [] r t') /\ turnable live' r /\ housed live' (w_slice w')
  /\ asked_for t' = asked_for t ++ [op i] /\ length (emitted (t_events t')) <= span i + length (emitted (t_events t)).
Proof.
  intros live i r w t [Hw U] Hd. pose proof Hd as (Rd & _ & Co). destruct i as [o wt cl]. cbn [op wait] in *. destruct o; try contradiction.
  - destruct U as [Hq U]. destruct (measure_try e live w target observable is_negative wt cl Rd Hq) as (a & T & F & O & Er & Rd').
    exists 1. eexists _, _, _. split.
    { cbn [turns]. unfold stream_step. cbn [take_next ss_future ss_rest ss_world ss_tally]. rewrite T. cbn [lift pbind]. rewrite F, Er. cbn [negb pbind]. reflexivity. }
    split; [exact U|]. split; [eapply housed_alike; [exact Hd| |exact Rd'|eapply measure_alike; eauto]; intros y Hy; now apply in_remove in Hy|].
    rewrite asked_saw, slices_saw. unfold tried. cbn [op wait clients]. rewrite O. split; [reflexivity|exact (le_S _ _ (le_n _))].
  - destruct U as (Hq & Hg & U). destruct (gate_try e live w target op is_dagger wt cl Rd Hq Hg) as (a & T & F & O & [(Er & Ew & _)|(Er & Rd')]).
    + destruct (housed_advance live _ Hd) as (s1 & Ad & Hd1 & Idle).
      destruct (gate_try e live (with_slice w s1) target op is_dagger (wt - 1) cl (proj1 Hd1) Hq Hg) as (a1 & T1 & F1 & O1 & [(_ & _ & c & p & Hp & Hi & Ac)|(Er1 & Rd2)]).
      { exfalso. pose proof (Idle target c p Hq Hp Hi). congruence. }
      exists 2. eexists _, _, _. split.
      { cbn [turns]. unfold stream_step at 1. cbn [take_next ss_future ss_rest ss_world ss_tally]. rewrite T. cbn [lift pbind]. rewrite F, Er. cbn [negb]. unfold visit, never at 1. cbn [pbind wait].
        rewrite (proj2 (N.eqb_neq wt 0)) by lia. rewrite Ew. unfold advance. rewrite Ad. cbn [lift pbind]. rewrite O. cbn [clients].
        unfold stream_step. cbn [take_next ss_future ss_rest ss_world ss_tally]. rewrite T1. cbn [lift pbind]. rewrite F1, Er1. cbn [negb pbind]. reflexivity. }
      split; [exact U|]. split; [eapply housed_alike; [exact Hd1|apply incl_refl|exact Rd2|exact (gate_alike _ _ _ _ _ _ _ _ (proj1 Hd1 : LiveProps.ready e live (w_slice (with_slice w s1))) Hq Hg T1)]|].
      rewrite asked_saw, slices_saw, asked_shown, slices_shown. unfold tried. cbn [InstrModel.op wait clients]. rewrite O1. split; [reflexivity|exact (le_n _)].
    + exists 1. eexists _, _, _. split.
      { cbn [turns]. unfold stream_step. cbn [take_next ss_future ss_rest ss_world ss_tally]. rewrite T. cbn [lift pbind]. rewrite F, Er. cbn [negb pbind]. reflexivity. }
      split; [exact U|]. split; [eapply housed_alike; [exact Hd|apply incl_refl|exact Rd'|eapply gate_alike; eauto]|].
      rewrite asked_saw, slices_saw. unfold tried. cbn [InstrModel.op wait clients]. rewrite O. split; [reflexivity|exact (le_S _ _ (le_n _))].
  - destruct U as [Hq U]. destruct (rotate_try live w target wt cl Hd Hq) as (a & rg & k & l & T & Er & O & F). pose proof (proj1 (proj1 Rd)) as Hs.
    destruct (C37_rotation e w target wt cl a W Hs T Er) as (c & p & d & i1 & i2 & i3 & St & Fn & Rc & Rn & Fr & F' & S1 & S2 & S3 & _). cbn zeta in *. set (n := InstrSpec.step c d) in *.
    assert (Ei : i1 = instr_of (Busy rg k l)) by congruence. subst i1.
    destruct (C33_timers e w _ a Hs T) as [Hsa Ta]. assert (Tm : timed L (w_slice (a_world a))) by (split; [exact Hsa|rewrite Ta; apply (proj1 Rd)]).
    destruct (stands_get _ _ _ (proj1 Rd) (proj2 Rd target Hq)) as (c0 & p0 & _ & _ & Hp0 & _ & Wn & On). assert (c = c0) by (apply On; exists p; exact St). subst c0.
    assert (p0 = p) by (destruct St; congruence). subst p0. assert (Hc : In c (core_cells L)) by (apply (Co target c Hq); exists p; exact St).
    pose proof (away_start live target c n p _ _ Hd Hq St Fn Rc Rn Fr Tm) as A0.
    destruct (away_advance _ _ _ _ _ A0) as (s1 & E1 & A1). set (w1 := with_slice (a_world a) s1).
    destruct (S1 w1 (proj1 (proj1 (proj1 A1)))) as (a1 & B1 & B2 & B3 & B4). destruct (busy_op _ _ _ _ _ _ _ B1) as [O1 I2]. destruct (I2 i2) as (r2 & k2 & l2 & ->); [rewrite B3; now left|].
    destruct (away_advance _ _ _ _ _ A1) as (s2 & E2 & A2). set (w2 := with_slice w1 s2).
    destruct (S2 w2 (proj1 (proj1 (proj1 A2)))) as (a2 & C1 & C2 & C3 & C4). destruct (busy_op _ _ _ _ _ _ _ C1) as [O2 I3]. destruct (I3 i3) as (r3 & k3 & l3 & ->); [rewrite C3; now left|].
    destruct (away_advance _ _ _ _ _ A2) as (s3 & E3 & A3). set (w3 := with_slice w2 s3).
    destruct (S3 w3 (proj1 (proj1 (proj1 A3)))) as (a3 & p' & D1 & D2 & D3 & D4 & D5 & D6 & _ & D8 & D9 & D10 & D11 & D12 & D13 & D14). destruct (busy_op _ _ _ _ _ _ _ D1) as [O3 _].
    destruct (C33_timers e w3 _ a3 (proj1 (proj1 (proj1 A3))) D1) as [Hs3 Ta3].
    pose (t1 := more_slices (saw (saw (more_instrs t) (Applied (tried (mkI (Rotate target) wt cl) a))) (Emitted (w_slice (a_world a))))).
    assert (G1 : stream_step e never (mkSS w [] (mkI (Rotate target) wt cl :: r) t) = Go (mkSS w1 [instr_of (Busy rg k l)] r t1)).
    { unfold stream_step. cbn [take_next ss_future ss_rest ss_world ss_tally]. rewrite T. cbn [lift pbind]. rewrite F, Er. unfold visit, never at 1. cbn [pbind]. unfold advance. rewrite E1. cbn [lift pbind app]. reflexivity. }
    destruct (busy_turn w1 rg k l [] r t1 a1 _ B1 B2 B3 B4 s2 E2) as (t2 & G2 & As2 & K2).
    destruct (busy_turn w2 r2 k2 l2 [] r t2 a2 _ C1 C2 C3 C4 s3 E3) as (t3 & G3 & As3 & K3).
    exists 4, live, (a_world a3). eexists. split.
    { cbn [turns]. rewrite G1. cbn [pbind]. rewrite G2. cbn [pbind app]. fold w2. rewrite G3. cbn [pbind app]. fold w3.
      unfold stream_step. cbn [take_next ss_future ss_rest ss_world ss_tally]. rewrite D1. cbn [lift pbind]. rewrite D3, D2. cbn [negb pbind]. reflexivity. }
    split; [exact U|]. split.
    { apply (away_end live target c n p' s3); auto; [split; [exact Hs3|rewrite Ta3; apply (proj1 (proj1 A3))]|].
      destruct Wn as (W1 & W2 & W3). split; [congruence|]. split; [rewrite D10; destruct W2 as [->| ->]; now left|].
      intros [| | |]; [rewrite D11|rewrite D13|rewrite D12|rewrite D14]; apply W3. }
    rewrite asked_saw, slices_saw. unfold tried. cbn [op]. rewrite O3. cbn [asked instr_of op]. rewrite app_nil_r, As3, As2, K3, K2. unfold t1. cbn [more_slices t_events].
    rewrite asked_slices, asked_shown, asked_saw, slices_shown, slices_saw. unfold tried. cbn [op]. rewrite O. split; [reflexivity|]. cbn [span op more_instrs t_events]. lia.
Qed.

Definition spans (prog : list instr) : nat := list_sum (map span prog).
Lemma all_turned : forall prog live w t, turnable live prog -> housed live (w_slice w) ->
  exists n t', turns (stream_step e never) n (mkSS w [] prog t) = Halt t' Finished
  /\ asked_for t' = asked_for t ++ map op prog /\ length (emitted (t_events t')) <= length (emitted (t_events t)) + spans prog + 1.
Proof.
  induction prog as [|i r IH]; intros live w t U Hd.
  - exists 1. eexists. split; [reflexivity|]. rewrite asked_shown, slices_shown, app_nil_r. split; [reflexivity|cbn; lia].
  - destruct (turn_more live i r w t U Hd) as (n & live' & w' & t' & T & U' & Hd' & O & K). destruct (IH live' w' t' U' Hd') as (m & t2 & T2 & O2 & K2).
    exists (n + m), t2. rewrite (turns_more _ _ _ _ _ _ T). split; [exact T2|]. rewrite O2, O, <- app_assoc. split; [reflexivity|]. unfold spans in *. cbn [map list_sum fold_right]. unfold list_sum in *. cbn [fold_right]. lia.
Qed.
End Turn.

(** On a layout where every qubit tile has an open neighbour that no factory delivers to: a program of Pauli and Hadamard gates, rotations and measurements on its qubits, none of which is used after its
    measurement, is compiled by the stream pipeline to its end.  All instructions are applied, in order; a rotation takes three slices and the others at most one. *)
Theorem C69_rotations : forall e ids prog w, layout_wf (e_layout e) -> airy (e_layout e) -> length ids <= length (core_cells (e_layout e)) -> NoDup ids -> new_slice (e_layout e) ids = Ok (w_slice w) ->
  turnable ids prog -> exists t, halts Stream e never never prog w t Finished /\ filter asked (ops_applied t) = map op prog /\ length (emitted (t_events t)) <= S (spans prog).
Proof.
  intros e ids prog w W Air Hl Nd E U. assert (Hd : housed e ids (w_slice w)).
  { split; [exact (start_ready e ids _ W Hl Nd E)|]. destruct (new_slice_ok _ _ W Hl) as (s' & E' & I). assert (s' = w_slice w) by congruence. subst s'. split.
    - intros x [(_ & H1 & H2 & H3 & H4 & H5) _]. apply (in_open _ _ _ I). unfold taken. rewrite !in_app_iff. intros [H|[H|[H|[H|H]]]]; try contradiction.
      + unfold core_cells in H. apply in_flat_map in H as (y & Y1 & Y2). now apply (H1 y).
      + unfold region_cells in H. apply in_map_iff in H as (sc & Es & H). apply in_concat in H as (R & R1 & R2). apply (H2 R R1). apply in_map_iff. eauto.
    - intros q x Hq Hx. pose proof Hq as Hq'. apply In_nth_error in Hq as [k Hq]. destruct (in_core _ _ _ I k q Hq) as (c & C1 & C2).
      rewrite (ah_only _ _ _ _ _ (start_home e ids (w_slice w) k q c W Hl Nd E Hq C1) x Hx). eapply nth_error_In; eauto. }
  destruct (all_turned e W Air prog ids w tally0 U Hd) as (n & t & T & O & K). exists t. split; [exists n; exact T|]. split; [exact O|]. cbn in K. lia.
Qed.
Print Assumptions C69_rotations.
