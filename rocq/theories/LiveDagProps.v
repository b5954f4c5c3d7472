(** C69, for the DAG pipeline: programs of gates on single qubits and measurements are compiled to their end. *)
From Coq Require Import Permutation.
From Verif Require Import Base InstrSpec InstrProofs PatchesModel LayoutModel LayoutSpec InstrModel LoweringModel DagModel DagSpec DagProofs DagSim SliceModel SliceSpec SliceProofs SliceProps ApplyModel ApplyProofs
  ApplyIds ApplyEffect BellProps RunModel RunInv RunProps OrientProofs OrientProps DagLoop LiveProps.
Open Scope nat_scope.

Local Lemma ok_inj {B} (a b : B) : Ok a = Ok b -> a = b.
Proof. congruence. Qed.
(** The qubit of an instruction *)
Definition on_qubit (i : instr) (q : N) : Prop := match op i with SingleOp t _ _ | Measure t _ _ => t = q | _ => False end.
Definition sound (ids : list N) (i : instr) : Prop :=
  match op i with SingleOp q g _ => In q ids /\ plain_gate g | Measure q _ _ => In q ids | _ => False end.
Lemma usable_sound : forall prog live, usable live prog -> Forall (sound live) prog.
Proof.
  induction prog as [|i r IH]; intros live U; [constructor|]. destruct U as [_ U]. unfold sound. constructor.
  - destruct (op i); try contradiction; tauto.
  - destruct (op i); try contradiction.
    + destruct U as [_ U]. apply IH in U. revert U. apply Forall_impl. intros x Hx. unfold sound in *. destruct (op x); try contradiction; [eapply in_remove; eauto|].
      destruct Hx as [H1 H2]. split; [eapply in_remove; eauto|exact H2].
    + destruct U as (_ & _ & U). apply IH in U. exact U.
Qed.
Lemma usable_once : forall prog live j i x y q, usable live prog -> j < i -> nth_error prog j = Some x -> nth_error prog i = Some y ->
  (match op x with Measure t _ _ => t = q | _ => False end) -> ~ on_qubit y q.
Proof.
  induction prog as [|z r IH]; intros live j i x y q U Lt Hj Hi M; [destruct j; discriminate|]. destruct i as [|i]; [lia|]. cbn [nth_error] in Hi.
  destruct U as [_ U]. destruct j as [|j].
  - cbn in Hj. injection Hj as ->. destruct (op x); try contradiction. subst target. destruct U as [_ U].
    apply usable_sound in U. rewrite Forall_forall in U. apply nth_error_In in Hi. specialize (U y Hi). unfold sound, on_qubit in *.
    destruct (op y); try contradiction; intros ->; [|destruct U as [U _]]; apply in_remove in U; tauto.
  - cbn [nth_error] in Hj. destruct (op z); try contradiction.
    + destruct U as [_ U]. apply (IH _ j i x y q U); auto. lia.
    + destruct U as (_ & _ & U). apply (IH _ j i x y q U); auto. lia.
Qed.
Lemma on_operating : forall i q, on_qubit i q -> In q (operating_patches i).
Proof. intros i q H. apply operating_In. right. unfold on_qubit, names in *. destruct (op i); try contradiction; subst; auto. Qed.

Section LiveDag.
Variable e : env.
Hypothesis W : layout_wf (e_layout e).
Variables (ids : list N) (prog : list instr).
Hypothesis U : usable ids prog.
Local Notation L := (e_layout e).

Definition idle (s : slice) (q : N) : Prop := forall c p, tile_at s c = Some p -> p_id (dp p) = Some q -> dp_is_active p = false.
(** The qubits of what is left to do *)
Definition live (p : list (list instr)) : list N := flat_map (fun i => match op i with SingleOp t _ _ | Measure t _ _ => [t] | _ => [] end) (concat p).
Lemma live_In : forall p q, In q (live p) <-> exists i, In i (concat p) /\ on_qubit i q.
Proof.
  intros p q. unfold live. rewrite in_flat_map. split; intros (i & H1 & H2); exists i; (split; [exact H1|]); unfold on_qubit in *; destruct (op i); try contradiction; cbn in *; tauto.
Qed.
Lemma ready_sub : forall l l' s, ready e l s -> incl l' l -> ready e l' s.
Proof. intros l l' s [T R] I. split; [exact T|]. intros q Hq. apply R, I, Hq. Qed.

(** One attempt at an instruction whose qubit is idle *)
Lemma idle_put : forall s q c p p' q', timed L s -> tile_at s c = Some p -> p_id (dp p) = Some q -> p_id (dp p') = Some q -> q' <> q -> idle s q' -> idle (put s c (Some p')) q'.
Proof.
  intros s q c p p' q' T Hp Hi Hi' D I c1 p1 P1 P2. assert (Ho : on_lattice (l_furthest L) c) by (eapply tile_on; eauto; apply T).
  rewrite (tile_put (l_furthest L)) in P1; [|apply T|exact Ho]. destruct (cell_eqb c c1); [injection P1 as <-; congruence|]. eapply I; eauto.
Qed.
Lemma try_idle : forall lv w x q, ready e lv (w_slice w) -> In q lv -> sound ids x -> on_qubit x q -> idle (w_slice w) q ->
  exists a, try_apply e w x = Ok a /\ a_follow a = [] /\ a_op a = op x /\ a_error a = false
  /\ (forall q', q' <> q -> idle (w_slice w) q' -> idle (w_slice (a_world a)) q')
  /\ ready e (match op x with Measure _ _ _ => remove N.eq_dec q lv | _ => lv end) (w_slice (a_world a)).
Proof.
  intros lv w [o wt cl] q Rd Hq So On Id. unfold sound, on_qubit in *. cbn [op] in *. pose proof (proj1 Rd) as T.
  destruct (stands_get e _ _ T (proj2 Rd q Hq)) as (c & p & G1 & G2 & Hp & Hi & Wn & _).
  destruct o as [ |t ob b| | | | | |t g b| | | | ]; try contradiction; subst t.
  - destruct (measure_try e lv w q ob b wt cl Rd Hq) as (a & A & F & O & Er & Rd'). exists a. split; [exact A|]. split; [exact F|]. split; [exact O|]. split; [exact Er|]. split; [|exact Rd'].
    intros q' D I. revert A. cbn [try_apply op]. unfold apply_measure. rewrite G1. rewrite (set_activity_ok (l_furthest L) _ _ _ p) by (auto; apply T). cbn [bind].
    intros A. apply ok_inj in A. subst a. cbn [a_world w_slice with_slice]. eapply idle_put; eauto.
  - destruct So as [Sq Sg]. destruct (gate_try e lv w q g b wt cl Rd Hq Sg) as (a & A & F & O & [(_ & _ & c1 & p1 & P1 & P2 & P3)|(Er & Rd')]).
    { exfalso. pose proof (Id c1 p1 P1 P2). congruence. }
    exists a. split; [exact A|]. split; [exact F|]. split; [exact O|]. split; [exact Er|]. split; [|exact Rd'].
    intros q' D I. revert A. cbn [try_apply op]. unfold apply_single. rewrite G1, G2, (Id c p Hp Hi). 
    destruct g; try contradiction; try (intros A; apply ok_inj in A; subst a; exact I).
    rewrite (set_patch_ok (l_furthest L)); [|apply T|eapply tile_on; eauto; apply T]. cbn [bind].
    intros A. apply ok_inj in A. subst a. cbn [a_world w_slice with_slice]. eapply idle_put; eauto.
Qed.

Record going (st : dag_st) (p : list (list instr)) (Lb : list (list N)) : Prop := {
  go_sim : DagSim.sim instr lli_can prog (ds_dag st) p Lb;
  go_deps : d_deps (ds_dag st) = [];
  go_near : d_pheads (ds_dag st) = [];
  go_left : forall j xs, nth_error p j = Some xs -> xs = [] \/ exists x, xs = [x] /\ nth_error prog j = Some x;
  go_ready : ready e (live p) (w_slice (ds_world st));
  go_ops : Permutation (ops_applied (ds_tally st) ++ map op (concat p)) (map op prog)
}.
(** Something that can be done now *)
Definition next_up (st : dag_st) (p : list (list instr)) (Lb : list (list N)) (l : N) (j : nat) (x : instr) : Prop :=
  nth_error Lb j = Some [l] /\ nth_error p j = Some [x] /\ nth_error prog j = Some x /\ head (ds_dag st) l.
Lemma found : forall st p Lb l, going st p Lb -> head (ds_dag st) l -> exists j x, next_up st p Lb l j x.
Proof.
  intros st p Lb l G H. pose proof (go_sim _ _ _ G) as S. destruct (proj1 (heads_enabled instr lli_can prog _ _ Lb l S) H) as (j & x & rest & lr & Hj & Hx & Hp & _).
  destruct (go_left _ _ _ G _ _ Hp) as [X|(y & X & Py)]; [discriminate|]. injection X as -> ->. exists j, y. split; [|auto].
  pose proof (s_ins _ _ _ _ _ _ S _ _ _ Hj Hp) as F. inversion F as [|? ? ? ? _ F']; subst. inversion F'; subst. exact Hj.
Qed.
Lemma up_free : forall st p Lb l j x i u, going st p Lb -> next_up st p Lb l j x -> i < j -> nth_error p i = Some [u] -> nth_error prog i = Some u -> forall q, on_qubit u q -> ~ on_qubit x q.
Proof.
  intros st p Lb l j x i u G (Lj & Pj & Pr & H) Lt Pi Pu q Qu Qx. pose proof (go_sim _ _ _ G) as S.
  destruct (proj1 (heads_enabled instr lli_can prog _ _ Lb l S) H) as (j' & x' & rest & lr & Hj & _ & _ & He).
  assert (j' = j). { eapply (concat_unique Lb (s_nd _ _ _ _ _ _ S) j' j); eauto; now left. } subst j'.
  pose proof (He i u x [u] Lt Pu Pr Pi ltac:(discriminate)) as C. unfold lli_can in C. apply ok_inj in C. rewrite can_commute_iff in C. apply (C q). split; now apply on_operating.
Qed.
Lemma apart_qubits : forall st p Lb l j x m i y q, going st p Lb -> next_up st p Lb l j x -> next_up st p Lb m i y -> i <> j -> on_qubit x q -> ~ on_qubit y q.
Proof.
  intros st p Lb l j x m i y q G N1 N2 D Q1 Q2. pose proof N1 as (_ & P1 & R1 & _). pose proof N2 as (_ & P2 & R2 & _).
  destruct (Nat.lt_ge_cases i j) as [Lt|Ge]; [eapply (up_free st p Lb l j x i y); eauto|]. eapply (up_free st p Lb m i y j x); eauto. lia.
Qed.
Lemma prog_sound : forall j x, nth_error prog j = Some x -> sound ids x.
Proof. intros j x H. apply usable_sound in U. rewrite Forall_forall in U. apply U. eapply nth_error_In; eauto. Qed.
Lemma sound_on : forall x, sound ids x -> exists q, on_qubit x q.
Proof. intros x H. unfold sound, on_qubit in *. destruct (op x); try contradiction; eauto. Qed.

Lemma concat_set : forall (p : list (list instr)) j x, nth_error p j = Some [x] -> Permutation (concat p) (x :: concat (set_nth j [] p)).
Proof.
  induction p as [|y p IH]; intros [|j] x H; try discriminate; cbn [nth_error set_nth concat] in *.
  - injection H as ->. reflexivity.
  - rewrite (IH _ _ H). symmetry. apply Permutation_middle.
Qed.
Lemma attempt_live : forall st p Lb l j x q, going st p Lb -> next_up st p Lb l j x -> on_qubit x q -> idle (w_slice (ds_world st)) q ->
  exists st', dag_attempt e false st l = Go st' /\ going st' (set_nth j [] p) (set_nth j [] Lb)
  /\ emitted (t_events (ds_tally st')) = emitted (t_events (ds_tally st))
  /\ (forall k, k <> l -> head (ds_dag st) k -> head (ds_dag st') k)
  /\ (forall q', q' <> q -> idle (w_slice (ds_world st)) q' -> idle (w_slice (ds_world st')) q').
Proof.
  intros st p Lb l j x q G N Q Id. pose proof N as (Lj & Pj & Pr & H). pose proof G as [Sm Dp Ph Lf Rd Op].
  assert (Hq : In q (live p)). { apply live_In. exists x. split; [|exact Q]. apply in_concat. exists [x]. split; [eapply nth_error_In; eauto|now left]. }
  destruct (try_idle (live p) (ds_world st) x q Rd Hq (prog_sound _ _ Pr) Q Id) as (a & A & F & O & Er & Fr & Rd').
  assert (At : dag_at (ds_dag st) l = Ok x). { pose proof (s_ins _ _ _ _ _ _ Sm _ _ _ Lj Pj) as X. inversion X as [|? ? ? ? X1 _]; subst. apply at_map_ok. exact X1. }
  assert (Tx : tried x a = x) by (unfold tried; rewrite O; clear; now destruct x).
  pose proof (put_sim lli_can prog _ _ _ _ _ _ _ _ x Sm Lj Pj) as Sp. assert (Jl : j < length p) by (eapply nth_lt; eauto).
  assert (Pj2 : nth_error (set_nth j [x] p) j = Some [x]) by (now apply set_nth_same).
  assert (Hput : head (dag_put (ds_dag st) l x) l) by exact H.
  destruct (pop_exact instr lli_can prog _ _ _ _ _ _ _ _ Sp Lj Pj2 Hput Dp) as (d' & P' & S' & Dp' & Ph' & _ & Hd').
  rewrite set_nth_twice in S'. cbn [dag_put d_pheads] in Ph'.
  unfold dag_attempt. rewrite At. cbn [lift pbind]. rewrite A. cbn [lift pbind]. rewrite Er, Tx, F. unfold handle_followups. rewrite P'. cbn [lift pbind].
  eexists. split; [reflexivity|]. cbn [ds_dag ds_world ds_tally]. split; [|split; [|split; [|exact Fr]]].
  - constructor; cbn [ds_dag ds_world ds_tally].
    + exact S'.
    + exact Dp'.
    + rewrite Ph', Ph. reflexivity.
    + intros i xs Hi. destruct (Nat.eq_dec j i) as [<-|Di]; [rewrite set_nth_same in Hi by exact Jl; injection Hi as <-; now left|]. rewrite set_nth_other in Hi by exact Di. now apply Lf.
    + assert (Inc : incl (live (set_nth j [] p)) (live p)).
      { intros r Hr. apply live_In in Hr as (i & I1 & I2). apply live_In. exists i. split; [|exact I2]. eapply Permutation_in; [symmetry; apply (concat_set _ _ _ Pj)|]. now right. }
      destruct (op x) eqn:Ox; try (eapply ready_sub; [exact Rd'|exact Inc]).
      eapply ready_sub; [exact Rd'|]. intros r Hr. apply in_in_remove; [|apply Inc, Hr]. intros ->.
      apply live_In in Hr as (y & Y1 & Y2). apply in_concat in Y1 as (ys & Y1 & Y3). apply In_nth_error in Y1 as (i & Y1).
      destruct (Nat.eq_dec j i) as [<-|Di]; [rewrite set_nth_same in Y1 by exact Jl; injection Y1 as <-; destruct Y3|]. rewrite set_nth_other in Y1 by exact Di.
      destruct (Lf _ _ Y1) as [->|(y' & -> & Yr)]; [destruct Y3|]. destruct Y3 as [->|[]].
      destruct (Nat.lt_ge_cases i j) as [Lt|Ge]; [exact (up_free st p Lb l j x i y G N Lt Y1 Yr q Y2 Q)|].
      apply (usable_once prog ids j i x y q U); auto; [lia|]. rewrite Ox. unfold on_qubit in Q. rewrite Ox in Q. exact Q.
    + rewrite ops_saw. rewrite <- app_assoc. etransitivity; [|exact Op]. apply Permutation_app_head.
      rewrite (Permutation_map op (concat_set _ _ _ Pj)). reflexivity.
  - cbn [more_instrs saw t_events]. unfold emitted. rewrite flat_map_app. cbn. apply app_nil_r.
  - intros k Dk Hk. apply Hd'; [exact Dk|exact Hk].
Qed.

Lemma fold_live : forall ls st p Lb, going st p Lb -> NoDup ls ->
  (forall l, In l ls -> exists j x q, next_up st p Lb l j x /\ on_qubit x q /\ idle (w_slice (ds_world st)) q) ->
  exists st' p' Lb', pfold (dag_attempt e false) ls st = Go st' /\ going st' p' Lb' /\ length (concat p') + length ls = length (concat p)
  /\ emitted (t_events (ds_tally st')) = emitted (t_events (ds_tally st)).
Proof.
  induction ls as [|l ls IH]; intros st p Lb G Nd H; cbn [pfold].
  - exists st, p, Lb. cbn [length]. rewrite Nat.add_0_r. auto.
  - inversion Nd as [|? ? Nl Nd']; subst. destruct (H l (or_introl eq_refl)) as (j & x & q & N & Q & Id).
    destruct (attempt_live st p Lb l j x q G N Q Id) as (st1 & -> & G1 & Em & Hd & Fr). cbn [pbind].
    destruct (IH st1 _ _ G1 Nd') as (st2 & p2 & Lb2 & E2 & G2 & Ln & Em2).
    + intros m Hm. assert (Dm : m <> l) by (intros ->; contradiction). destruct (H m (or_intror Hm)) as (i & y & r & N2 & Q2 & Id2).
      pose proof N as (Lj & Pj & Pr & Hh). pose proof N2 as (Li & Pi & Pri & Hhi). assert (Di : j <> i) by (intros ->; congruence).
      exists i, y, r. split; [|split; [exact Q2|]].
      * split; [rewrite set_nth_other by exact Di; exact Li|]. split; [rewrite set_nth_other by exact Di; exact Pi|]. split; [exact Pri|]. now apply Hd.
      * apply Fr; [|exact Id2]. intros ->. exact (apart_qubits st p Lb l j x m i y q G N N2 (fun E => Di (eq_sym E)) Q Q2).
    + exists st2, p2, Lb2. split; [exact E2|]. split; [exact G2|]. split; [|congruence].
      rewrite (Permutation_length (concat_set _ _ _ (proj1 (proj2 N)))). cbn [length]. lia.
Qed.

(** At the start of a turn *)
Definition rested (st : dag_st) (p : list (list instr)) : Prop := forall q, In q (live p) -> idle (w_slice (ds_world st)) q.
Lemma first_left : forall p : list (list instr), concat p <> [] -> exists j xs, nth_error p j = Some xs /\ xs <> [] /\ forall i ys, i < j -> nth_error p i = Some ys -> ys = [].
Proof.
  induction p as [|xs p IH]; intros H; [contradiction|]. destruct xs as [|x xs].
  - destruct (IH H) as (j & ys & H1 & H2 & H3). exists (S j), ys. split; [exact H1|]. split; [exact H2|]. intros [|i] zs Lt Hz; [cbn in Hz; congruence|]. apply (H3 i zs); auto. lia.
  - exists 0, (x :: xs). split; [reflexivity|]. split; [discriminate|]. intros i ys Lt. lia.
Qed.
Lemma step_live : forall st p Lb, going st p Lb -> rested st p ->
  concat p = [] /\ dag_step e never st = Halt (ds_tally st) Finished
  \/ exists st' p' Lb', dag_step e never st = Go st' /\ going st' p' Lb' /\ rested st' p' /\ length (concat p') < length (concat p)
     /\ length (emitted (t_events (ds_tally st'))) = S (length (emitted (t_events (ds_tally st)))).
Proof.
  intros st p Lb G R. pose proof (go_sim _ _ _ G) as S. unfold dag_step. destruct (dag_is_empty (ds_dag st)) eqn:Em.
  { left. split; [|reflexivity]. apply (empty_finished instr lli_can prog _ _ Lb S) in Em. clear - Em. unfold finished in Em. induction p as [|xs p IH]; [reflexivity|].
    cbn. rewrite (Em xs (or_introl eq_refl)). apply IH. intros l Hl. apply Em. now right. }
  right. unfold proximate. rewrite (go_near _ _ _ G). cbn [pfold pbind].
  destruct (heads_spec _ (s_inv _ _ _ _ _ _ S)) as (hs & Hh & Ndh & Hhs). unfold applicable. rewrite Hh. cbn [lift pbind].
  destruct (fold_live hs st p Lb G Ndh) as (st1 & p1 & Lb1 & E1 & G1 & Ln & Em1).
  { intros l Hl. apply Hhs in Hl. destruct (found st p Lb l G Hl) as (j & x & N). pose proof N as (_ & Pj & Pr & _). destruct (sound_on x (prog_sound _ _ Pr)) as (q & Q).
    exists j, x, q. split; [exact N|]. split; [exact Q|]. apply R, live_In. exists x. split; [|exact Q]. apply in_concat. exists [x]. split; [eapply nth_error_In; eauto|now left]. }
  rewrite E1. cbn [pbind]. unfold visit, never. cbn [pbind].
  destruct (ready_advance e W _ _ (go_ready _ _ _ G1)) as (s1 & Ad & Rd1 & Idle). unfold advance. rewrite Ad. cbn [lift pbind].
  eexists _, p1, Lb1. split; [reflexivity|]. split; [|split; [|split]].
  - destruct G1 as [Sm Dp Ph Lf Rd Op]. constructor; cbn [ds_dag ds_world ds_tally w_slice with_slice]; auto. cbn [more_slices]. 
    change (ops_applied _) with (ops_applied (saw (ds_tally st1) (Emitted (w_slice (ds_world st1))))). rewrite ops_shown. exact Op.
  - intros q Hq c t P1 P2. cbn [ds_world w_slice with_slice] in P1. exact (Idle q c t Hq P1 P2).
  - destruct hs as [|h hs]; [|cbn [length] in Ln; lia]. exfalso.
    assert (C : concat p <> []). { intros X. assert (Y : dag_is_empty (ds_dag st) = true); [|congruence]. apply (empty_finished instr lli_can prog _ _ Lb S).
      intros l Hl. clear - X Hl. induction p as [|xs p IH]; [destruct Hl|]. cbn in X. apply app_eq_nil in X as [X1 X2]. destruct Hl as [<-|Hl]; auto. }
    destruct (first_left p C) as (j & xs & H1 & H2 & H3). destruct (go_left _ _ _ G _ _ H1) as [->|(x & -> & Px)]; [contradiction|].
    destruct (nth_ex Lb j) as (ls & Hls). { rewrite (s_len2 _ _ _ _ _ _ S). eapply nth_lt; eauto. }
    pose proof (s_ins _ _ _ _ _ _ S _ _ _ Hls H1) as F. inversion F as [|l ? lr ? F1 F2]; subst. inversion F2; subst.
    apply (proj2 (Hhs l)). apply (heads_enabled instr lli_can prog _ _ Lb l S). exists j, x, [], []. split; [exact Hls|]. split; [exact F1|]. split; [exact H1|].
    intros i a b ys Lt _ _ Hy Ny. exfalso. apply Ny. eapply H3; eauto.
  - cbn [ds_tally]. change (length (emitted (t_events (saw (ds_tally st1) (Emitted (w_slice (ds_world st1)))))) = Datatypes.S (length (emitted (t_events (ds_tally st))))). rewrite slices_shown, Em1. reflexivity.
Qed.
Lemma run_live : forall n st p Lb, length (concat p) <= n -> going st p Lb -> rested st p ->
  exists k t, turns (dag_step e never) k st = Halt t Finished /\ Permutation (ops_applied t) (map op prog)
  /\ length (emitted (t_events t)) <= length (emitted (t_events (ds_tally st))) + length (concat p).
Proof.
  induction n as [|n IH]; intros st p Lb Ln G R; (destruct (step_live st p Lb G R) as [(C & E)|(st1 & p1 & Lb1 & E & G1 & R1 & Le & Em)]; [|try lia]).
  1,2: exists 1, (ds_tally st); cbn [turns]; rewrite E; split; [reflexivity|]; pose proof (go_ops _ _ _ G) as Op; rewrite C in *; cbn [map length] in *; rewrite app_nil_r in Op; split; [exact Op|lia].
  destruct (IH st1 p1 Lb1 ltac:(lia) G1 R1) as (k & t & T & O & K). exists (S k), t. cbn [turns]. rewrite E. cbn [pbind]. split; [exact T|]. split; [exact O|]. lia.
Qed.
End LiveDag.

Lemma concat_single : forall (B : Type) (l : list B), concat (map (fun i => [i]) l) = l.
Proof. intros B. induction l as [|x l IH]; [reflexivity|]. cbn. now rewrite IH. Qed.
(** The DAG pipeline compiles the same programs to their end as well, on every layout with a tile for each qubit: every instruction is applied, and there are at most as many slices as instructions. *)
Theorem C69_dag : forall e ids prog w, layout_wf (e_layout e) -> length ids <= length (core_cells (e_layout e)) -> NoDup ids -> new_slice (e_layout e) ids = Ok (w_slice w) ->
  usable ids prog -> exists t, halts Dag e never never prog w t Finished /\ Permutation (ops_applied t) (map op prog) /\ length (emitted (t_events t)) <= length prog.
Proof.
  intros e ids prog w Wf Hl Nd E Us. pose proof (start_ready e ids _ Wf Hl Nd E) as Rd.
  destruct (start_dag e never prog w) as (st & Lb & E0 & D). pose proof D as [Sm Dp Ph Ndp Fw Sc Ev In_ Sl Fr Atp Bd].
  assert (Q : d_pheads (ds_dag st) = [] /\ ds_tally st = tally0 /\ ds_world st = w).
  { unfold dag_init in E0. destruct (dag_of lli_can prog) as [d| | |] eqn:Hd; cbn [lift pbind] in E0; try discriminate. injection E0 as <-. cbn [ds_dag ds_tally ds_world]. split; [|auto].
    revert Hd. unfold dag_of. generalize (eq_refl : d_pheads (@dag_empty instr) = []). generalize (@dag_empty instr). clear. induction prog as [|i l IH]; intros d0 H F; cbn [foldM] in F; [injection F as <-; exact H|].
    apply bind_ok in F. destruct F as (d1 & P & F). apply (IH d1); [|exact F].
    unfold push in P. apply bind_ok in P. destruct P as (o & _ & P). apply bind_ok in P. destruct P as (g & _ & P). injection P as <-. exact H. }
  destruct Q as (Q1 & Q2 & Q3). remember (map (fun i => [i]) prog) as p eqn:Ep.
  assert (C : concat p = prog) by (rewrite Ep; apply concat_single).
  assert (Lv : incl (live p) ids).
  { intros q Hq. apply live_In in Hq as (i & H1 & H2). rewrite C in H1. apply usable_sound in Us. rewrite Forall_forall in Us. specialize (Us i H1). unfold sound, on_qubit in *.
    destruct (op i); try contradiction; subst; tauto. }
  assert (G : going e prog st p Lb).
  { constructor.
    - replace p with (map opt_list (map Some prog)) by (rewrite Ep, map_map; reflexivity). exact Sm.
    - exact Dp.
    - exact Q1.
    - intros j xs Hj. rewrite Ep, nth_error_map in Hj. destruct (nth_error prog j) as [x|]; cbn in Hj; [|discriminate]. injection Hj as <-. right. exists x. auto.
    - rewrite Q3. eapply ready_sub; eauto.
    - rewrite Q2, C. reflexivity. }
  assert (R : rested st p).
  { intros q Hq c t P1 P2. rewrite Q3 in P1. destruct (new_slice_ok _ _ Wf Hl) as (s' & E' & I). assert (s' = w_slice w) by congruence. subst s'.
    pose proof (Lv q Hq) as Hi. apply In_nth_error in Hi as [k Hi]. destruct (in_core _ _ _ I k q Hi) as (c1 & C1 & C2).
    assert (c = c1) by (apply (ah_only _ _ _ _ _ (start_home e ids _ k q c1 Wf Hl Nd E Hi C1)); exists t; auto). subst c1. assert (t = square (Some q) None) by congruence. subst t. reflexivity. }
  destruct (run_live e Wf ids prog Us (length (concat p)) st p Lb (le_n _) G R) as (k & t & T & O & K).
  exists t. split; [exists k; cbn; rewrite E0; exact T|]. split; [exact O|]. rewrite Q2, C in K. exact K.
Qed.
Print Assumptions C69_dag.

Example C69_dag_ex : exists t, halts Dag jam_env never never gates_prog (mkW (snd jam_start) 0 []) t Finished /\ length (emitted (t_events t)) = 3
  /\ ops_applied t = [SingleOp 7 SqH false; SingleOp 3 SqX false; SingleOp 7 SqH false; SingleOp 3 SqH false; Measure 7 PZ false; Measure 3 PX false].
Proof. eexists. split; [exists 20; vm_compute; reflexivity|]. split; vm_compute; reflexivity. Qed.
