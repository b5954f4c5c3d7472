(** C69, for the wave pipeline: programs of gates on single qubits and measurements are compiled to their end. *)
From Coq Require Import Permutation.
From Verif Require Import Base InstrSpec InstrProofs PatchesModel LayoutModel LayoutSpec InstrModel SliceModel SliceSpec SliceProofs SliceProps MarksModel ApplyModel ApplyProofs
  ApplyIds ApplyEffect BellProps RunModel RunProofs RunInv RunProps OrientProofs OrientProps SchedSpec SchedProofs WaveModel WaveSpec WaveProofs WaveProps EndSpec EndProofs EndTime EndProps DagLoop LiveProps LiveDagProps.
Open Scope nat_scope.

Lemma sched_last : forall e conflict again prog w0 acts c w p, scheduled e conflict again prog w0 (acts ++ [c]) w p ->
  match c with
  | Try j x a o => exists w1 p1, scheduled e conflict again prog w0 acts w1 p1 /\ nth_error p1 j = Some (Some x)
      /\ (forall i u v, i < j -> nth_error prog i = Some u -> nth_error prog j = Some v -> conflict u v = true -> nth_error p1 i = Some None)
      /\ try_apply e w1 x = Ok a /\ leaves again x a o /\ w = a_world a /\ p = put_at j o p1
  | Show s => exists w1 s', scheduled e conflict again prog w0 acts w1 p /\ advance_slice (e_layout e) (w_slice w1) = Ok s' /\ w = with_slice w1 s'
  | Mend => exists w1 s', scheduled e conflict again prog w0 acts w1 p /\ give_back (w_slice w1) = Ok s' /\ w = with_slice w1 s'
  end.
Proof.
  intros e conflict again prog w0 acts c w p H. inversion H as [E|acts' w1 p1 j x a o S P C T Lv E|acts' w1 p1 s S A E|acts' w1 p1 s S Ed G E].
  - destruct acts; discriminate.
  - apply app_inj_tail in E as [-> <-]. exists w1, p1. auto 8.
  - apply app_inj_tail in E as [-> <-]. exists w1, s. auto.
  - apply app_inj_tail in E as [-> <-]. exists w1, s. auto.
Qed.

(** What is true of these instructions in every state *)
Definition plain (i : instr) : Prop := match op i with SingleOp _ g _ => plain_gate g | Measure _ _ _ => True | _ => False end.
Lemma sound_plain : forall ids i, sound ids i -> plain i.
Proof. intros ids i. unfold sound, plain. destruct (op i); tauto. Qed.
Lemma fine_failed : forall w o, (match o with SingleOp _ g _ => plain_gate g | Measure _ _ _ => True | _ => False end) -> failed w o = Ok (mkA w o true []).
Proof. intros w o H. unfold failed. destruct o; try contradiction; [reflexivity|]. destruct op; try contradiction; reflexivity. Qed.
Lemma at_z_throws : forall T (l : list T) i, at_z l i <> Throw RuntimeError.
Proof. intros T l i. unfold at_z, at_. destruct (i <? 0)%Z; [discriminate|]. destruct (nth_error l (Z.to_nat i)); discriminate. Qed.
Lemma set_patch_throws : forall s c t, set_patch s c t <> Throw RuntimeError.
Proof.
  intros s c t. unfold set_patch. pose proof (at_z_throws _ (s_cells s) (row c)) as N. destruct (at_z (s_cells s) (row c)) as [l|y|u|]; cbn [bind]; try discriminate; [|congruence].
  pose proof (at_z_throws _ l (col c)) as M. destruct (at_z l (col c)); cbn [bind]; try discriminate. congruence.
Qed.
Lemma set_activity_throws : forall s c a, set_activity s c a <> Throw RuntimeError.
Proof.
  intros s c a. unfold set_activity. assert (N : patch_at s c <> Throw RuntimeError).
  { unfold patch_at. pose proof (at_z_throws _ (s_cells s) (row c)) as N. destruct (at_z (s_cells s) (row c)) as [l|y|u|]; cbn [bind]; try discriminate; [apply at_z_throws|congruence]. }
  destruct (patch_at s c) as [t|y|u|]; cbn [bind]; try discriminate; [|congruence]. destruct t; cbn [deref bind]; [apply set_patch_throws|discriminate].
Qed.
(** Nothing is marked. *)
Definition unmarked (s : slice) : Prop := s_rough s = [] /\ s_smooth s = [].
Lemma mend_nothing : forall s, unmarked s -> give_back s = Ok s.
Proof. intros s [M1 M2]. unfold give_back. rewrite M1, M2. cbn. unfold with_marks. destruct s; cbn in *; now subst. Qed.
Lemma same_world : forall w, with_slice w (w_slice w) = w.
Proof. intros []. reflexivity. Qed.
Lemma set_patch_marks : forall s c t s', set_patch s c t = Ok s' -> unmarked s -> unmarked s'.
Proof. intros s c t s' H M. unfold set_patch in H. apply bind_ok in H. destruct H as (r & _ & H). apply bind_ok in H. destruct H as (y & _ & H). injection H as <-. exact M. Qed.
Lemma set_activity_marks : forall s c a s', set_activity s c a = Ok s' -> unmarked s -> unmarked s'.
Proof. intros s c a s' H. unfold set_activity in H. apply bind_ok in H. destruct H as (t & _ & H). apply bind_ok in H. destruct H as (p & _ & H). eapply set_patch_marks; eauto. Qed.
Lemma plain_try : forall e w i, plain i -> match try_apply e w i with Ok a => a_op a = op i /\ a_follow a = [] /\ (unmarked (w_slice w) -> unmarked (w_slice (a_world a))) | Throw y => y <> RuntimeError | _ => True end.
Proof.
  intros e w [o wt cl] H. unfold plain in H. cbn [op] in *. destruct o as [ |t ob b| | | | | |t g b| | | | ]; try contradiction; unfold try_apply; cbn [op].
  - unfold apply_measure. destruct (get_cell_by_id (w_slice w) t) as [c|]; [|rewrite fine_failed by exact I; cbn; auto].
    pose proof (set_activity_throws (w_slice w) c AMeasurement) as N. destruct (set_activity (w_slice w) c AMeasurement) as [s|y|u|] eqn:Q; cbn [bind]; try exact I; [cbn; split; [auto|split; [auto|exact (set_activity_marks _ _ _ _ Q)]]|congruence].
  - unfold apply_single. destruct (get_cell_by_id (w_slice w) t) as [c|]; [|rewrite fine_failed by exact H; cbn; auto].
    destruct (get_patch_by_id (w_slice w) t) as [p|]; [|rewrite fine_failed by exact H; cbn; auto].
    destruct g; try contradiction; (destruct (dp_is_active p); [rewrite fine_failed by exact H; cbn; auto|]); try (cbn; auto; fail).
    pose proof (set_patch_throws (w_slice w) c (Some (mkDP (dp (set_act p AUnitary)) (instant_rotate (db p))))) as N.
    destruct (set_patch (w_slice w) c _) as [s|y|u|] eqn:Q; cbn [bind]; try exact I; [cbn; split; [auto|split; [auto|exact (set_patch_marks _ _ _ _ Q)]]|congruence].
Qed.

Section LiveWave.
Variable e : env.
Variable grow : nat -> bool.
Hypothesis W : layout_wf (e_layout e).
Variables (ids : list N) (prog : list instr) (w0 : world).
Hypothesis U : usable ids prog.
Hypothesis whole : uncut e prog.
Hypothesis few : Forall few_patches prog.
Hypothesis R0 : ready e ids (w_slice w0).
Hypothesis M0 : unmarked (w_slice w0).
Local Notation L := (e_layout e).
Local Notation sched := (scheduled e clash less_again prog w0).
Local Notation left p := (live (map opt_list p)).

Lemma left_In : forall p q, In q (left p) <-> exists j x, nth_error p j = Some (Some x) /\ on_qubit x q.
Proof.
  intros p q. rewrite live_In. split.
  - intros (i & H & Q). apply in_concat in H as (xs & H & Hi). apply in_map_iff in H as (o & <- & H). destruct o as [x|]; [|destruct Hi]. destruct Hi as [->|[]].
    apply In_nth_error in H as (j & H). eauto.
  - intros (j & x & H & Q). exists x. split; [|exact Q]. apply in_concat. exists [x]. split; [|now left]. apply in_map_iff. exists (Some x). split; [reflexivity|]. eapply nth_error_In; eauto.
Qed.
Lemma same_qubit : forall x y q, op x = op y -> on_qubit x q -> on_qubit y q.
Proof. intros x y q E. unfold on_qubit. now rewrite E. Qed.
Lemma same_sound : forall x y, op x = op y -> sound ids x -> sound ids y.
Proof. intros x y E. unfold sound. now rewrite E. Qed.
Lemma shares : forall u v q, on_qubit u q -> on_qubit v q -> clash u v = true.
Proof.
  intros u v q H1 H2. unfold clash. destruct (can_commute u v) eqn:C; [|reflexivity]. exfalso. rewrite can_commute_iff in C. apply (C q). split; now apply on_operating.
Qed.
Lemma the_sound : forall j x, nth_error prog j = Some x -> sound ids x.
Proof. intros j x H. apply (prog_sound ids prog U j x H). Qed.

(** What a state reached by a schedule is like *)
Record fit (acts : list act) (w : world) (p : list (option instr)) : Prop := {
  f_len : length p = length prog;
  f_op : forall j x, nth_error p j = Some (Some x) -> exists x0, nth_error prog j = Some x0 /\ op x = op x0;
  f_ready : ready e (left p) (w_slice w);
  f_marks : unmarked (w_slice w);
  f_follow : forall j x a o, In (Try j x a o) acts -> a_follow a = [] /\ (a_error a = false -> nth_error p j = Some None);
  f_ops : Permutation (flat_map (fun ev => match ev with Applied i => [op i] | Emitted _ => [] end) (seen acts) ++ map op (concat (map opt_list p))) (map op prog)
}.
Lemma tried_op : forall w x a, plain x -> try_apply e w x = Ok a -> a_op a = op x /\ a_follow a = [] /\ (unmarked (w_slice w) -> unmarked (w_slice (a_world a))).
Proof. intros w x a P A. pose proof (plain_try e w x P) as H. rewrite A in H. exact H. Qed.
Lemma put_split : forall (p : list (option instr)) j o x, nth_error p j = Some (Some x) ->
  Permutation (concat (map opt_list p)) (x :: concat (map opt_list (put_at j None p))) /\
  Permutation (concat (map opt_list (put_at j o p))) (opt_list o ++ concat (map opt_list (put_at j None p))).
Proof.
  unfold put_at. induction p as [|y p IH]; intros [|j] o x H; try discriminate; cbn [nth_error firstn skipn app map concat] in *.
  - injection H as ->. split; reflexivity.
  - destruct (IH _ o _ H) as [H1 H2]. split.
    + rewrite H1. symmetry. apply Permutation_middle.
    + rewrite H2. rewrite !app_assoc. apply Permutation_app_tail, Permutation_app_comm.
Qed.
Lemma sched_fit : forall acts w p, sched acts w p -> fit acts w p.
Proof.
  intros acts w p S. induction S as [|acts w p j x a o S IH Pj Cl A Lv|acts w p s S IH Ad|acts w p s S IH Ed Gb].
  - constructor.
    + apply map_length.
    + intros j x H. rewrite nth_error_map in H. destruct (nth_error prog j) as [y|]; cbn in H; [|discriminate]. injection H as ->. eauto.
    + eapply ready_sub; [exact R0|]. intros q Hq. apply left_In in Hq as (j & x & H & Q). rewrite nth_error_map in H. destruct (nth_error prog j) as [y|] eqn:Y; cbn in H; [|discriminate]. injection H as ->.
      pose proof (the_sound _ _ Y) as So. unfold sound, on_qubit in *. destruct (op x); try contradiction; subst; tauto.
    + exact M0.
    + intros j x a o [].
    + cbn. rewrite map_map. cbn. rewrite concat_single. reflexivity.
  - destruct IH as [Fl Fo Fr Fm Ff Fp]. destruct (Fo _ _ Pj) as (x0 & Px & Ox). pose proof (same_sound x0 x (eq_sym Ox) (the_sound _ _ Px)) as So.
    destruct (tried_op w x a (sound_plain _ _ So) A) as (Oa & Fa & Ma). destruct (sound_on ids x So) as (q & Q). pose proof (nth_short _ _ _ Pj) as Jl.
    assert (Hq : In q (left p)) by (apply left_In; eauto).
    assert (Oo : forall y, o = Some y -> a_error a = true /\ op y = op x).
    { intros y Ey. unfold leaves in Lv. destruct (a_error a); [|rewrite Fa in Lv; cbn in Lv; congruence]. split; [reflexivity|]. destruct Lv as (y' & E1 & [->|[_ ->]]); assert (y = _) as -> by (rewrite Ey in E1; injection E1; exact (fun z => z)); exact Oa. }
    assert (Inc : incl (left (put_at j o p)) (left p)).
    { intros r Hr. apply left_In in Hr as (i & y & Hi & Qy). apply left_In. destruct (Nat.eq_dec j i) as [<-|D].
      - rewrite put_at_same in Hi by exact Jl. injection Hi as Hi. destruct (Oo y Hi) as [_ E]. exists j, x. split; [exact Pj|]. now apply (same_qubit y).
      - rewrite put_at_other in Hi by auto. eauto. }
    constructor.
    + rewrite put_at_length by exact Jl. exact Fl.
    + intros i y Hi. destruct (Nat.eq_dec j i) as [<-|D]; [|rewrite put_at_other in Hi by auto; now apply Fo].
      rewrite put_at_same in Hi by exact Jl. injection Hi as Hi. destruct (Oo y Hi) as [_ E]. exists x0. split; [exact Px|congruence].
    + destruct x as [ox wt cl]. unfold on_qubit, sound in *. cbn [op] in *. destruct ox as [ |t ob b| | | | | |t g b| | | | ]; try contradiction; subst t.
      * destruct (measure_try e (left p) w q ob b wt cl Fr Hq) as (a' & A' & _ & _ & Er & Rd). assert (a' = a) by congruence. subst a'.
        eapply ready_sub; [exact Rd|]. intros r Hr. apply in_in_remove; [|apply Inc, Hr]. intros ->. apply left_In in Hr as (i & y & Hi & Qy).
        assert (D : j <> i). { intros <-. rewrite put_at_same in Hi by exact Jl. injection Hi as Hi. destruct (Oo y Hi) as [E _]. congruence. }
        rewrite put_at_other in Hi by auto. destruct (Fo _ _ Hi) as (y0 & Py & Oy). assert (Qy0 : on_qubit y0 q) by (now apply (same_qubit y)).
        assert (Qx0 : on_qubit x0 q) by (unfold on_qubit; rewrite <- Ox; reflexivity).
        destruct (Nat.lt_ge_cases i j) as [Lt|Ge].
        { pose proof (Cl i y0 x0 Lt Py Px (shares _ _ q Qy0 Qx0)). congruence. }
        apply (usable_once prog ids j i x0 y0 q U); auto; [lia|]. rewrite <- Ox. reflexivity.
      * destruct (gate_try e (left p) w q g b wt cl Fr Hq (proj2 So)) as (a' & A' & _ & _ & [(Er & Ew & _)|(Er & Rd)]); assert (a' = a) by congruence; subst a'.
        { rewrite Ew. eapply ready_sub; [exact Fr|exact Inc]. }
        { eapply ready_sub; [exact Rd|exact Inc]. }
    + exact (Ma Fm).
    + intros i y b o' Hin. apply in_app_iff in Hin. destruct Hin as [Hin|[Hin|[]]].
      * destruct (Ff _ _ _ _ Hin) as [F1 F2]. split; [exact F1|]. intros Eb. specialize (F2 Eb). destruct (Nat.eq_dec j i) as [<-|D]; [congruence|]. now rewrite put_at_other.
      * injection Hin as <- <- <- <-. split; [exact Fa|]. intros Ea. rewrite put_at_same by exact Jl. unfold leaves in Lv. rewrite Ea, Fa in Lv. cbn in Lv. now rewrite Lv.
    + destruct (put_split p j o x Pj) as [P1 P2]. etransitivity; [|exact Fp]. rewrite seen_app, flat_map_app, <- app_assoc. apply Permutation_app_head.
      rewrite (Permutation_map op P1), (Permutation_map op P2), map_app. cbn [map]. cbn [seen flat_map]. rewrite app_nil_r. destruct (a_error a) eqn:Er.
      * cbn. unfold leaves in Lv. rewrite Er in Lv. destruct Lv as (y & E1 & _). destruct (Oo y E1) as [_ E2]. rewrite E1. cbn. now rewrite E2.
      * cbn [flat_map app op tried]. rewrite Oa. unfold leaves in Lv. rewrite Er, Fa in Lv. cbn in Lv. subst o. reflexivity.
  - destruct IH as [Fl Fo Fr Fm Ff Fp]. destruct (ready_advance e W _ _ Fr) as (s' & Ad' & Rd & _). assert (s' = s) by congruence. subst s'.
    constructor; [exact Fl|exact Fo|exact Rd| | |].
    + destruct (advance_ok L (w_slice w) W (proj1 (proj1 Fr)) (proj2 (proj1 Fr))) as (s' & E' & _ & _ & _ & _ & Q1 & Q2 & _). assert (s' = s) by congruence. subst s'. cbn. unfold unmarked. rewrite Q1, Q2. exact Fm.
    + intros j x a o Hin. apply in_app_iff in Hin. destruct Hin as [Hin|[Hin|[]]]; [eapply Ff; eauto|discriminate].
    + rewrite seen_app, flat_map_app. cbn. rewrite app_nil_r. exact Fp.
  - destruct IH as [Fl Fo Fr Fm Ff Fp]. rewrite (mend_nothing _ Fm) in Gb. injection Gb as <-. rewrite same_world. constructor; [exact Fl|exact Fo|exact Fr|exact Fm| |].
    + intros j x a o Hin. apply in_app_iff in Hin. destruct Hin as [Hin|[Hin|[]]]; [eapply Ff; eauto|discriminate].
    + rewrite seen_app, flat_map_app. cbn. rewrite app_nil_r. exact Fp.
Qed.
Lemma sched_det : forall acts w p w' p', sched acts w p -> sched acts w' p' -> w = w' /\ p = p'.
Proof.
  induction acts as [|c acts IH] using rev_ind; intros w p w' p' S S'.
  - inversion S as [E|? ? ? ? ? ? ? ? ? ? ? ? E|? ? ? ? ? ? E|? ? ? ? ? ? ? E]; try (symmetry in E; apply app_cons_not_nil in E; contradiction); try (destruct acts; discriminate).
    inversion S' as [E'|? ? ? ? ? ? ? ? ? ? ? ? E'|? ? ? ? ? ? E'|? ? ? ? ? ? ? E']; try (destruct acts; discriminate). subst. auto.
  - apply sched_last in S, S'. destruct c as [j x a o|s|].
    + destruct S as (w1 & p1 & S & _ & _ & _ & _ & -> & ->), S' as (w2 & p2 & S' & _ & _ & _ & _ & -> & ->). destruct (IH _ _ _ _ S S') as [_ ->]. auto.
    + destruct S as (w1 & s1 & S & A & ->), S' as (w2 & s2 & S' & A' & ->). destruct (IH _ _ _ _ S S') as [-> ->]. assert (s1 = s2) by congruence. subst. auto.
    + destruct S as (w1 & s1 & S & A & ->), S' as (w2 & s2 & S' & A' & ->). destruct (IH _ _ _ _ S S') as [-> ->]. assert (s1 = s2) by congruence. subst. auto.
Qed.
(** There is nothing to mend. *)
Lemma mend_same : forall acts w p, sched (acts ++ [Mend]) w p -> sched acts w p.
Proof.
  intros acts w p S. apply sched_last in S. destruct S as (w1 & s1 & S & A & ->). rewrite (mend_nothing _ (f_marks _ _ _ (sched_fit _ _ _ S))) in A. injection A as <-. now rewrite same_world.
Qed.
Lemma sched_prefix : forall new acts w p, sched (acts ++ new) w p -> exists w1 p1, sched acts w1 p1.
Proof.
  induction new as [|c new IH] using rev_ind; intros acts w p S; [rewrite app_nil_r in S; eauto|]. rewrite app_assoc in S. apply sched_last in S.
  destruct c; [destruct S as (w1 & p1 & S & _); eauto|destruct S as (w1 & s1 & S & _); eauto|destruct S as (w1 & s1 & S & _); eauto].
Qed.
Lemma sched_none : forall acts new w p w' p' i, sched acts w p -> sched (acts ++ new) w' p' -> nth_error p i = Some None -> nth_error p' i = Some None.
Proof.
  intros acts new. induction new as [|c new IH] using rev_ind; intros w p w' p' i S S' H.
  - rewrite app_nil_r in S'. destruct (sched_det _ _ _ _ _ S S') as [_ <-]. exact H.
  - rewrite app_assoc in S'. apply sched_last in S'. destruct c as [j x a o|s|]; [|destruct S' as (w1 & s1 & S' & _); eapply IH; eauto|destruct S' as (w1 & s1 & S' & _); eapply IH; eauto].
    destruct S' as (w1 & p1 & S' & Pj & _ & _ & _ & _ & ->). pose proof (IH _ _ _ _ _ S S' H) as X. assert (D : j <> i) by (intros ->; congruence).
    rewrite put_at_other by (auto; eapply nth_short; eauto). exact X.
Qed.
Lemma try_frame : forall lv w x q a q', ready e lv (w_slice w) -> In q lv -> sound ids x -> on_qubit x q -> try_apply e w x = Ok a -> q' <> q -> idle (w_slice w) q' -> idle (w_slice (a_world a)) q'.
Proof.
  intros lv w [o wt cl] q a q' Rd Hq So On A D I. unfold sound, on_qubit in *. cbn [op] in *. pose proof (proj1 Rd) as T.
  destruct (stands_get e _ _ T (proj2 Rd q Hq)) as (c & p & G1 & G2 & Hp & Hi & Wn & _). revert A.
  destruct o as [ |t ob b| | | | | |t g b| | | | ]; try contradiction; subst t; cbn [try_apply op].
  - unfold apply_measure. rewrite G1. rewrite (set_activity_ok (l_furthest L) _ _ _ p) by (auto; apply T). cbn [bind].
    intros A. unfold done_ in A. injection A as <-. cbn [a_world w_slice with_slice]. eapply (idle_put e); eauto.
  - destruct So as [_ Sg]. unfold apply_single. rewrite G1, G2.
    destruct g; try contradiction; (destruct (dp_is_active p); [rewrite fine_failed by exact Sg; intros A; injection A as <-; exact I|]); try (intros A; injection A as <-; exact I).
    rewrite (set_patch_ok (l_furthest L)); [|apply T|eapply tile_on; eauto; apply T]. cbn [bind].
    intros A. unfold done_ in A. injection A as <-. cbn [a_world w_slice with_slice]. eapply (idle_put e); eauto.
Qed.
(** As long as an instruction that may be attempted is not carried out, nothing makes its qubit busy. *)
Lemma keep_idle : forall new acts w p w' p' k x' q, sched acts w p -> sched (acts ++ new) w' p' -> SchedSpec.ready clash prog p k -> nth_error p' k = Some (Some x') -> on_qubit x' q ->
  idle (w_slice w) q -> idle (w_slice w') q.
Proof.
  induction new as [|c new IH] using rev_ind; intros acts w p w' p' k x' q S S' Rk Pk Q Id.
  - rewrite app_nil_r in S'. destruct (sched_det _ _ _ _ _ S S') as [<- _]. exact Id.
  - rewrite app_assoc in S'. destruct c as [j x a o|s|]; [apply sched_last in S'|apply sched_last in S'|apply mend_same in S'; exact (IH _ _ _ _ _ _ _ _ S S' Rk Pk Q Id)].
    + destruct S' as (w1 & p1 & S1 & Pj & Cl & A & Lv & -> & ->). pose proof (sched_fit _ _ _ S1) as [_ Fo Fr _ _ _]. pose proof (nth_short _ _ _ Pj) as Jl.
      destruct (Fo _ _ Pj) as (x0 & Px & Ox). pose proof (same_sound x0 x (eq_sym Ox) (the_sound _ _ Px)) as So. destruct (tried_op _ _ _ (sound_plain _ _ So) A) as (Oa & Fa & _).
      destruct (Nat.eq_dec j k) as [->|D].
      * rewrite put_at_same in Pk by exact Jl. injection Pk as ->. unfold leaves in Lv. destruct (a_error a) eqn:Er; [|rewrite Fa in Lv; discriminate].
        assert (Op : op x' = op x) by (destruct Lv as (y & E & [->|[_ ->]]); injection E as ->; exact Oa).
        assert (Qx : on_qubit x q) by (now apply (same_qubit x')).
        assert (Hq : In q (left p1)) by (apply left_In; eauto). pose proof (IH _ _ _ _ _ _ _ _ S S1 Rk Pj Qx Id) as Id1.
        destruct (try_idle e ids (left p1) w1 x q Fr Hq So Qx Id1) as (a' & A' & _ & _ & Er' & _). congruence.
      * rewrite put_at_other in Pk by auto. pose proof (IH _ _ _ _ _ _ _ _ S S1 Rk Pk Q Id) as Id1.
        destruct (sound_on ids x So) as (r & Qr). apply (try_frame (left p1) w1 x r a q); auto; [apply left_In; eauto|]. intros ->.
        destruct (Fo _ _ Pk) as (k0 & Pk0 & Ok). assert (C1 : on_qubit x0 r) by (now apply (same_qubit x)). assert (C2 : on_qubit k0 r) by (now apply (same_qubit x')).
        destruct (Nat.lt_ge_cases j k) as [Lt|Ge].
        { pose proof (proj2 Rk j x0 k0 Lt Px Pk0 (shares _ _ r C1 C2)) as X. pose proof (sched_none _ _ _ _ _ _ _ S S1 X). congruence. }
        { pose proof (Cl k k0 x0 ltac:(lia) Pk0 Px (shares _ _ r C2 C1)). congruence. }
    + destruct S' as (w1 & s1 & S1 & A & ->). destruct (ready_advance e W _ _ (f_ready _ _ _ (sched_fit _ _ _ S1))) as (s' & A' & _ & Idle). assert (s' = s1) by congruence. subst s'.
      intros c t P1 P2. apply (Idle q c t); auto. apply left_In. eauto.
Qed.

(** The records stay what they are, no slice is shown on the way, and nothing of it ends with a runtime_error. *)
Definition plain_recs (k : N) (s : wave_st) : Prop := (forall r x ds, nth_error (v_recs s) r = Some (x, ds) -> plain x) /\ t_slices (v_tally s) = k.
Definition other (r : ending) : Prop := match r with Failed RuntimeError | Finished => False | _ => True end.
Definition calm (k : N) (m : progress wave_st) : Prop := match m with Go s => plain_recs k s | Halt _ r => other r end.
Lemma put_nth : forall B (l : list B) i x r y, nth_error (put i x l) r = Some y -> (r = i /\ y = x) \/ nth_error l r = Some y \/ length l < i.
Proof.
  intros B l i x r y H. destruct (Nat.lt_ge_cases (length l) i) as [G|G]; [auto|]. destruct (Nat.eq_dec i (length l)) as [->|Ne].
  - unfold put in H. rewrite firstn_all, skipn_all2 in H by lia. destruct (Nat.lt_ge_cases r (length l)) as [Lt|Ge]; [rewrite nth_error_app1 in H by exact Lt; auto|].
    rewrite nth_error_app2 in H by exact Ge. destruct (r - length l) as [|k] eqn:K; cbn in H; [injection H as <-; left; split; [lia|reflexivity]|destruct k; discriminate].
  - assert (Lt : i < length l) by lia. change (put i x l) with (put_at i x l) in H. destruct (Nat.eq_dec i r) as [->|D]; [rewrite put_at_same in H by exact Lt; injection H as <-; auto|].
    rewrite put_at_other in H by auto. auto.
Qed.
Lemma attempt_calm : forall k s id, plain_recs k s -> match attempt e s id with Go (x, a, s') => plain_recs k s' /\ a_follow a = [] /\ plain x | Halt _ r => other r end.
Proof.
  intros k s id P. unfold attempt, elem. destruct (nth_error (v_recs s) id) as [[x ds]|] eqn:R; cbn [pbind]; [|exact I]. pose proof (proj1 P _ _ _ R) as Px. pose proof (plain_try e (v_world s) x Px) as H.
  destruct (try_apply e (v_world s) x) as [a|y|u|]; cbn [lift pbind]; try exact I; [|destruct y; try exact I; now elim H]. destruct H as (Oa & Fa & _).
  assert (Pt : plain (tried x a)) by (unfold plain, tried in *; cbn [op]; now rewrite Oa).
  split; [|split; [exact Fa|exact Pt]]. split; [|exact (proj2 P)]. intros r y ds' Hr. cbn [with_recs v_recs] in Hr. apply put_nth in Hr. destruct Hr as [[-> Hr]|[Hr|Hr]]; [injection Hr as -> ->; exact Pt|eapply (proj1 P); eauto|].
  apply nth_short in R. cbn in Hr. lia.
Qed.
Lemma dependents_calm : forall f k s id, plain_recs k s -> calm k (dependents e grow f false s id []).
Proof.
  induction f as [|f IH]; intros k s id P; cbn [dependents]; [exact I|]. unfold elem at 1. destruct (nth_error (v_recs s) id) as [[x ds]|]; cbn [pbind]; [|exact I].
  generalize (v_moved s) as m. clear x id. revert s P. induction ds as [|d ds IHd]; intros s P m; cbn [release]; [exact P|].
  destruct (negb (Nat.eqb (v_moved s) m)); [exact I|]. unfold elem at 1. destruct (nth_error (v_counts s) d) as [c|]; cbn [pbind]; [|exact I].
  destruct (negb (N.eqb ((c + 255) mod 256) 0)); cbn [pbind]; [apply IHd; exact P|].
  set (s1 := with_counts s _). assert (P1 : plain_recs k s1) by exact P. unfold immediately, elem at 1. destruct (nth_error (v_recs s1) d) as [[x ds']|] eqn:R; cbn [pbind]; [|exact I].
  pose proof (proj1 P1 _ _ _ R) as Px. assert (Im : exists b, is_immediate x = Ok b). { unfold is_immediate, plain in *. destruct (op x); try contradiction; eauto. destruct op; try contradiction; eauto. }
  destruct Im as (b & ->). cbn [lift pbind]. destruct b; cbn [negb pbind]; [|apply IHd; exact P1].
  pose proof (attempt_calm k s1 d P1) as At. destruct (attempt e s1 d) as [[[x' a] s2]|t r]; cbn [pbind]; [|exact At]. destruct At as (P2 & Fa & Px'). rewrite Fa. cbn [reschedules].
  destruct (a_error a); cbn [pbind]; [apply IHd; exact P2|]. assert (P3 : plain_recs k (report s2 x')) by exact P2. specialize (IH k (report s2 x') d P3).
  destruct (dependents e grow f false (report s2 x') d []) as [s3|t r]; cbn [pbind]; [apply IHd; exact IH|exact IH].
Qed.

Local Notation wave_at := (wave_at e grow prog w0).
Lemma heads_go : forall hs k0 s acts p org, wave_at s acts p org (hs ++ pending false s) [] [] -> plain_recs k0 s ->
  (forall r x ds q, In r hs -> nth_error (v_recs s) r = Some (x, ds) -> on_qubit x q -> idle (w_slice (v_world s)) q) ->
  calm k0 (pfold (schedule_one e grow false false) hs s).
Proof.
  induction hs as [|id hs IH]; intros k0 s acts p org Wa P Id; cbn [pfold]; [exact P|].
  destruct (wa_queue _ _ _ _ _ _ _ _ _ _ _ Wa id (or_introl eq_refl)) as (j & x & ds & Oj & Rx & Pj & _).
  pose proof (wa_sched _ _ _ _ _ _ _ _ _ _ _ Wa) as Sc. pose proof (sched_fit _ _ _ Sc) as [_ Fo Fr _ _ _].
  destruct (Fo _ _ Pj) as (x0 & Px & Ox). pose proof (same_sound x0 x (eq_sym Ox) (the_sound _ _ Px)) as So. destruct (sound_on ids x So) as (q & Q).
  destruct (try_idle e ids (left p) (v_world s) x q Fr ltac:(apply left_In; eauto) So Q (Id id x ds q (or_introl eq_refl) Rx Q)) as (a & A & Fa & Oa & Er & _).
  pose proof (schedule_one_ok e never grow prog w0 whole few false s acts p org hs id j Wa Oj ltac:(discriminate)) as Ok1.
  assert (C1 : calm k0 (schedule_one e grow false false s id)).
  { unfold schedule_one. pose proof (attempt_calm k0 s id P) as At. unfold attempt in *. unfold elem in *. rewrite Rx in *. cbn [pbind] in *. rewrite A in *. cbn [lift pbind] in *. destruct At as (P2 & _ & _).
    rewrite Er, Fa. cbn [negb reschedules]. apply dependents_calm. exact P2. }
  destruct (schedule_one e grow false false s id) as [s1|t r]; cbn [pbind]; [|exact C1]. destruct Ok1 as (x1 & a1 & o1 & new & p1 & more & W1 & _).
  apply (IH k0 s1 _ _ _ W1 C1). intros r y ds' q' Hr Ry Qy.
  destruct (wa_queue _ _ _ _ _ _ _ _ _ _ _ Wa r ltac:(right; apply in_app_iff; now left)) as (k & z & dz & Ok & Rz & Pz & Nz).
  destruct (wa_queue _ _ _ _ _ _ _ _ _ _ _ W1 r ltac:(apply in_app_iff; now left)) as (k' & y' & dy & Ok' & Ry' & Py & _).
  assert (k' = k) by (apply (org_more org more) in Ok; congruence). subst k'. assert (y' = y) by congruence. subst y'.
  assert (Rk : SchedSpec.ready clash prog p k) by (eapply is_ready; eauto).
  pose proof (wa_sched _ _ _ _ _ _ _ _ _ _ _ W1) as Sc1.
  apply (keep_idle (Try j x1 a1 o1 :: new) acts (v_world s) p (v_world s1) p1 k y q' Sc Sc1 Rk Py Qy).
  apply (Id r z dz q'); [now right|exact Rz|]. destruct (Fo _ _ Pz) as (z0 & Z1 & Z2). destruct (f_op _ _ _ (sched_fit _ _ _ Sc1) _ _ Py) as (z1 & Z3 & Z4). apply (same_qubit y); [congruence|exact Qy].
Qed.

(** One turn *)
Definition todo (p : list (option instr)) : nat := length (concat (map opt_list p)).
Lemma todo_less : forall p p', length p = length p' -> (forall i, nth_error p i = Some None -> nth_error p' i = Some None) ->
  todo p' <= todo p /\ ((exists j x, nth_error p j = Some (Some x) /\ nth_error p' j = Some None) -> todo p' < todo p).
Proof.
  unfold todo. induction p as [|o p IH]; intros [|o' p'] Hl Mo; try discriminate; cbn [length] in Hl.
  - split; [lia|]. intros (j & x & H & _). destruct j; discriminate.
  - destruct (IH p' ltac:(lia) (fun i => Mo (S i))) as [H1 H2]. cbn [map concat]. rewrite !app_length.
    assert (H0 : length (opt_list o') <= length (opt_list o)). { destruct o as [x|]; [destruct o'; cbn; lia|]. specialize (Mo 0 eq_refl). cbn in Mo. injection Mo as ->. cbn. lia. }
    split; [lia|]. intros ([|j] & x & A & B); cbn [nth_error] in A, B; [injection A as ->; injection B as ->; cbn; lia|]. specialize (H2 ltac:(eauto)). lia.
Qed.
Definition quiet (s : wave_st) : Prop := plain_recs (t_slices (v_tally s)) s /\ forall r x ds q, In r (v_heads s) -> nth_error (v_recs s) r = Some (x, ds) -> on_qubit x q -> idle (w_slice (v_world s)) q.
Definition sparing (s : wave_st) (p : list (option instr)) : Prop := (t_slices (v_tally s) + N.of_nat (todo p) <= 1 + N.of_nat (length prog))%N.
Lemma step_quiet : forall s acts p org, wave_point e grow prog w0 s acts p org -> quiet s ->
  match wave_step e never grow s with
  | Go s' => quiet s' /\ t_slices (v_tally s') = (t_slices (v_tally s) + 1)%N /\ exists new p' more, wave_point e grow prog w0 s' (acts ++ new) p' (org ++ more) /\ todo p' < todo p
  | Halt t r => r <> Failed RuntimeError /\ (r = Finished -> t = v_tally s)
  end.
Proof.
  intros s acts p org Wp [P Id]. pose proof (step_ok e never grow prog w0 whole few s acts p org Wp) as So. pose proof Wp as (Wa & Np & Nh & Px & Nd).
  pose proof (sched_fit _ _ _ (wa_sched _ _ _ _ _ _ _ _ _ _ _ Wa)) as Ft.
  assert (Vp : v_prox s = []).
  { destruct (v_prox s) as [|r vp] eqn:E; [reflexivity|]. exfalso. destruct (Px r (or_introl eq_refl)) as (j & Oj & y & b & Hin & Eb).
    destruct (wa_queue _ _ _ _ _ _ _ _ _ _ _ Wa r ltac:(now left)) as (j' & x & ds & Oj' & _ & Pj & _). assert (j' = j) by congruence. subst j'.
    unfold tries in Hin. apply in_flat_map in Hin as (c & Hc & Hin). destruct c as [i z c o| |]; try contradiction. destruct (Nat.eqb_spec i j) as [->|]; [|destruct Hin].
    destruct Hin as [Hin|[]]. injection Hin as -> ->. destruct (f_follow _ _ _ Ft _ _ _ _ Hc) as [_ X]. specialize (X Eb). congruence. }
  assert (Down : forall s' , wave_step e never grow s = Go s' -> exists new p' more, wave_point e grow prog w0 s' (acts ++ new) p' (org ++ more) /\ todo p' < todo p).
  { intros s' E. rewrite E in So. destruct So as (new & p' & more & Wp' & _ & All). exists new, p', more. split; [exact Wp'|].
    destruct Wp' as (Wa' & _). pose proof (wa_sched _ _ _ _ _ _ _ _ _ _ _ Wa') as Sc'. pose proof (sched_fit _ _ _ Sc') as Ft'.
    destruct (todo_less p p') as [_ Less]; [rewrite (f_len _ _ _ Ft), (f_len _ _ _ Ft'); reflexivity|intros i; exact (sched_none _ _ _ _ _ _ i (wa_sched _ _ _ _ _ _ _ _ _ _ _ Wa) Sc')|]. apply Less. clear Less.
    destruct (v_heads s) as [|h hs] eqn:Vh; [unfold wave_step in E; rewrite Vp, Vh in E; discriminate|].
    destruct (wa_queue _ _ _ _ _ _ _ _ _ _ _ Wa h ltac:(rewrite Vp; now left)) as (j & x & ds & Oj & Rx & Pj & Nj).
    assert (Rj : SchedSpec.ready clash prog p j) by (eapply is_ready; eauto). exists j, x. split; [exact Pj|].
    destruct (f_op _ _ _ Ft _ _ Pj) as (x0 & Px0 & Ox). pose proof (the_sound _ _ Px0) as S0. destruct (sound_on ids x0 S0) as (q & Q0).
    assert (Iq : idle (w_slice (v_world s)) q) by (apply (Id h x ds q (or_introl eq_refl) Rx); now apply (same_qubit x0)).
    destruct (All j Rj) as [(x1 & a1 & o1 & Hin1 & _)|(_ & (x1 & Px1 & Lo) & _)];
      [|exfalso; assert (x1 = x) by congruence; subst x1; unfold on_route in Lo; rewrite Ox in Lo; unfold sound in S0; destruct (op x0); contradiction]. apply in_split in Hin1 as (n1 & n2 & En).
    destruct (sched_prefix n2 (acts ++ n1 ++ [Try j x1 a1 o1]) (v_world s') p') as (w3 & p3 & S3); [rewrite <- !app_assoc; cbn [app]; rewrite <- En; exact Sc'|].
    rewrite app_assoc in S3. apply sched_last in S3. destruct S3 as (w4 & p4 & S4 & P4 & _ & A4 & _). pose proof (sched_fit _ _ _ S4) as F4. destruct (f_op _ _ _ F4 _ _ P4) as (x4 & Px4 & Ox4).
    assert (x4 = x0) by congruence. subst x4. assert (Q1 : on_qubit x1 q) by (now apply (same_qubit x0)).
    pose proof (keep_idle n1 acts (v_world s) p w4 p4 j x1 q (wa_sched _ _ _ _ _ _ _ _ _ _ _ Wa) S4 Rj P4 Q1 Iq) as I4.
    destruct (try_idle e ids (left p4) w4 x1 q (f_ready _ _ _ F4) ltac:(apply left_In; eauto) (same_sound x0 x1 (eq_sym Ox4) S0) Q1 I4) as (a & A & _ & _ & Er & _). assert (a = a1) by congruence. subst a.
    apply (proj2 (f_follow _ _ _ Ft' j x1 a1 o1 ltac:(apply in_app_iff; right; rewrite En; apply in_app_iff; right; now left))). exact Er. }
  unfold wave_step in *. rewrite Vp in *. destruct (v_heads s) as [|h hs] eqn:Vh; [split; [discriminate|reflexivity]|]. unfold schedule_wave in *. rewrite Vp in *. cbn [pfold pbind] in *. rewrite Vh in *.
  assert (W0 : wave_at s acts p org ((h :: hs) ++ pending false s) [] []) by (unfold pending; rewrite Np, Nh, Nd; cbn [app]; rewrite app_nil_r; exact Wa).
  pose proof (heads_go (h :: hs) _ s acts p org W0 P Id) as C. pose proof (fold_ok e never grow prog w0 whole few false (h :: hs) s acts p org W0 ltac:(discriminate)) as Fo.
  destruct (pfold (schedule_one e grow false false) (h :: hs) s) as [s2|t r]; cbn [pbind] in *; [|cbn [calm] in C; destruct r as [|y| |]; cbn in C; split; try discriminate; try contradiction; intros X; injection X as ->; exact C]. destruct Fo as (new & p2 & more & W2 & _). pose proof (wa_sched _ _ _ _ _ _ _ _ _ _ _ W2) as Sc.
  assert (Df : v_defer s2 = []).
  { destruct (v_defer s2) as [|r rs] eqn:Ed; [reflexivity|]. exfalso. destruct (proj2 (wa_defer _ _ _ _ _ _ _ _ _ _ _ W2) r ltac:(rewrite Ed; now left)) as (_ & j & x & _ & Pj & Fd).
    destruct (f_op _ _ _ (sched_fit _ _ _ Sc) _ _ Pj) as (x0 & Px0 & Ox). pose proof (the_sound _ _ Px0) as S0. unfold WaveDefer.found in Fd. rewrite Ox in Fd. unfold sound in S0. destruct (op x0); contradiction. }
  assert (Rest : (if e_edpc e then (let! s := pfold (schedule_one e grow false true) (v_defer s2) s2 in let! s := unmark s in pfold (schedule_one e grow false true) (v_defer s) s) else Go s2) = Go s2).
  { destruct (e_edpc e); [|reflexivity]. rewrite Df. cbn [pfold pbind]. unfold unmark. rewrite (mend_nothing _ (f_marks _ _ _ (sched_fit _ _ _ Sc))). cbn [lift pbind]. rewrite same_world. cbn [with_world v_defer]. rewrite Df. cbn [pfold]. destruct s2; reflexivity. }
  rewrite Rest in *. cbn [pbind v_tally v_world] in *.
  unfold visit, never in *. cbn [pbind] in *. unfold advance in *. destruct (ready_advance e W _ _ (f_ready _ _ _ (sched_fit _ _ _ Sc))) as (s3 & Ad & _ & Idle). rewrite Ad in *. cbn [lift pbind] in *.
  split; [|split; [|apply Down; reflexivity]].
  - split; [split; [exact (proj1 C)|reflexivity]|]. cbn [with_tally with_world v_heads v_recs v_world w_slice with_slice]. intros r x ds q Hr Rx Q c t P1 P2. apply (Idle q c t); auto.
    destruct (wa_queue _ _ _ _ _ _ _ _ _ _ _ W2 r) as (k & z & dz & Ok & Rz & Pz & Nz). { unfold pending. rewrite !in_app_iff. auto. }
    apply left_In. exists k, z. split; [exact Pz|]. congruence.
  - rewrite <- (proj2 C). reflexivity.
Qed.
Lemma run_quiet : forall n s acts p org t r, wave_point e grow prog w0 s acts p org -> quiet s -> sparing s p -> turns (wave_step e never grow) n s = Halt t r ->
  r <> Failed RuntimeError /\ (r = Finished -> (t_slices t <= 1 + N.of_nat (length prog))%N).
Proof.
  induction n as [|n IH]; intros s acts p org t r Wp Q Sp H; cbn [turns] in H; [discriminate|]. pose proof (step_quiet s acts p org Wp Q) as S.
  destruct (wave_step e never grow s) as [s1|t1 r1]; cbn [pbind] in H.
  - destruct S as (Q1 & T1 & new & p1 & more & W1 & Lt). eapply IH; eauto. unfold sparing in *. lia.
  - injection H as <- <-. destruct S as [S1 S2]. split; [exact S1|]. intros E. rewrite (S2 E). unfold sparing in Sp. lia.
Qed.
End LiveWave.

(** The wave pipeline compiles the same programs to their end as well, on every layout with a tile for each qubit: every instruction is applied exactly once, and there are at most as many slices as instructions. *)
Theorem C69_wave : forall e grow ids prog w, layout_wf (e_layout e) -> length ids <= length (core_cells (e_layout e)) -> NoDup ids -> new_slice (e_layout e) ids = Ok (w_slice w) ->
  usable ids prog -> Forall few_patches prog -> Forall (fun i => (wait i <= SIZE_MAX)%N) prog ->
  exists t, halts Wave e never grow prog w t Finished /\ Permutation (ops_applied t) (map op prog) /\ length (emitted (t_events t)) <= length prog.
Proof.
  intros e grow ids prog w Wf Hl Nd E Us Few Wt. pose proof (start_ready e ids _ Wf Hl Nd E) as Rd. pose proof (usable_sound _ _ Us) as Sd.
  assert (Un : uncut e prog).
  { intros _. revert Sd. apply Forall_impl. intros i H. unfold sound in H. unfold orderly. destruct (op i); try contradiction; exact I. }
  assert (M : unmarked (w_slice w)).
  { destruct (new_slice_ok _ _ Wf Hl) as (s' & E' & I). assert (s' = w_slice w) by congruence. subst s'. destruct (in_marks _ _ _ I) as (_ & M1 & M2). split; assumption. }
  assert (Nl : no_links e prog).
  { intros _. revert Sd. apply Forall_impl. intros i H. unfold sound in H. unfold link. destruct (op i); try contradiction; exact (fun z => z). }
  destruct (wave_ends e never grow prog w Nl Wt Un Few) as (n & t & r & H).
  assert (Q : quiet (wave_init prog w)).
  { assert (In_ : forall r0 x ds, nth_error (v_recs (wave_init prog w)) r0 = Some (x, ds) -> In x prog).
    { intros r0 x ds Hr. rewrite <- (se_prog _ _ (sets_all prog Few)). apply nth_error_In in Hr. apply in_map_iff. exists (x, ds). auto. }
    rewrite Forall_forall in Sd. split; [split; [|reflexivity]|].
    - intros r0 x ds Hr. eapply sound_plain, Sd, In_, Hr.
    - intros r0 x ds q _ Hr Hq c tl P1 P2. specialize (Sd x (In_ _ _ _ Hr)). cbn [wave_init v_world] in P1. destruct (new_slice_ok _ _ Wf Hl) as (s' & E' & I). assert (s' = w_slice w) by congruence. subst s'.
      assert (Hi : In q ids) by (unfold sound, on_qubit in *; destruct (op x); try contradiction; subst; tauto). apply In_nth_error in Hi as [k Hi]. destruct (in_core _ _ _ I k q Hi) as (c1 & C1 & C2).
      assert (c = c1) by (apply (ah_only _ _ _ _ _ (start_home e ids _ k q c1 Wf Hl Nd E Hi C1)); exists tl; auto). subst c1. assert (tl = square (Some q) None) by congruence. subst tl. reflexivity. }
  assert (Sp : sparing prog (wave_init prog w) (map Some prog)).
  { unfold sparing, todo. rewrite map_map. cbn [opt_list wave_init v_tally tally0 t_slices]. rewrite concat_single. lia. }
  pose proof (run_quiet e grow Wf ids prog w Us Un Few Rd M n _ _ _ _ t r (init_ok e never grow prog w Few) Q Sp H) as [NR Fin].
  pose proof (C41_runs e never grow prog w Un Few n) as R. rewrite H in R.
  assert (F : forall acts w' p, scheduled e clash less_again prog w acts w' p -> fit e prog acts w' p) by (intros; eapply sched_fit; eauto).
  inversion R as [acts w' p S Ev No Sl _|acts w' p j x r' S Ev Ry Pj Z|acts w' p j x S Ev Ry Pj Z|acts w' p j x a o S Ev Er|acts w' p j x a o S Ev Er|acts w' p S Ev Z|acts w' p r' S Ev Z|acts w' p S Ev Z|acts w' p r' S Ev _ Z|acts w' p j S Ev Ry (_ & (x & Pj & Z) & _)]; subst; try congruence; try discriminate.
  - exists t. split; [exists n; exact H|]. pose proof (f_ops _ _ _ _ _ (F _ _ _ S)) as P. unfold ops_applied. rewrite Ev.
    assert (C : concat (map opt_list p) = []). { clear -No. induction No as [|y l -> _ IH]; [reflexivity|exact IH]. } rewrite C, app_nil_r in P. split; [exact P|]. specialize (Fin eq_refl). rewrite Sl in Fin. lia.
  - exfalso. destruct (F _ _ _ S) as [_ Fo Fr _ _ _]. destruct (Fo _ _ Pj) as (x0 & Px & Ox). rewrite Forall_forall in Sd. assert (So : sound ids x) by (apply (same_sound ids x0 x (eq_sym Ox)), Sd; eapply nth_error_In; eauto).
    destruct (sound_on ids x So) as (q & Hq). assert (Iq : In q (live (map opt_list p))) by (apply left_In; eauto). destruct x as [ox wt cl]. unfold sound, on_qubit in *. cbn [op] in *.
    destruct ox as [ |tg ob b| | | | | |tg g b| | | | ]; try contradiction; subst tg.
    + destruct (measure_try e _ w' q ob b wt cl Fr Iq) as (a & A & _). rewrite A in Z. exact Z.
    + destruct (gate_try e _ w' q g b wt cl Fr Iq (proj2 So)) as (a & A & _). rewrite A in Z. exact Z.
  - exfalso. destruct (F _ _ _ S) as [_ Fo _ _ _ _]. destruct (Fo _ _ Pj) as (x0 & Px & Ox). rewrite Forall_forall in Sd. pose proof (Sd x0 ltac:(eapply nth_error_In; eauto)) as So.
    unfold odd_kind in Z. rewrite Ox in Z. unfold sound in So. destruct (op x0); try contradiction. destruct op; try contradiction; tauto.
  - exfalso. destruct (ready_advance e Wf _ _ (f_ready _ _ _ _ _ (F _ _ _ S))) as (s' & Ad & _). rewrite Ad in Z. exact Z.
  - exfalso. destruct Z as (j & x & a & o & Hin & _ & Fa). destruct (f_follow _ _ _ _ _ (F _ _ _ S) _ _ _ _ Hin) as [X _]. contradiction.
  - exfalso. rewrite (mend_nothing _ (f_marks _ _ _ _ _ (F _ _ _ S))) in Z. exact Z.
  - exfalso. destruct (F _ _ _ S) as [_ Fo _ _ _ _]. destruct (Fo _ _ Pj) as (x0 & Px & Ox). rewrite Forall_forall in Sd. pose proof (Sd x0 ltac:(eapply nth_error_In; eauto)) as So.
    unfold on_route in Z. rewrite Ox in Z. unfold sound in So. destruct (op x0); contradiction.
Qed.
Print Assumptions C69_wave.

Example C69_wave_ex : exists t, halts Wave jam_env never never gates_prog (mkW (snd jam_start) 0 []) t Finished /\ length (emitted (t_events t)) = 2
  /\ ops_applied t = [SingleOp 7 SqH false; SingleOp 3 SqX false; SingleOp 7 SqH false; Measure 7 PZ false; SingleOp 3 SqH false; Measure 3 PX false].
Proof. eexists. split; [exists 20; vm_compute; reflexivity|]. split; vm_compute; reflexivity. Qed.
Definition edpc_env : env := mkEnv true false false true (fst jam_start) (plain_router (fst jam_start) true RouterModel.pick_min false).
Example C69_wave_edpc_ex : exists t, halts Wave edpc_env never never gates_prog (mkW (snd jam_start) 0 []) t Finished /\ length (emitted (t_events t)) = 2
  /\ ops_applied t = [SingleOp 7 SqH false; SingleOp 3 SqX false; SingleOp 7 SqH false; Measure 7 PZ false; SingleOp 3 SqH false; Measure 3 PX false].
Proof. eexists. split; [exists 20; vm_compute; reflexivity|]. split; vm_compute; reflexivity. Qed.
