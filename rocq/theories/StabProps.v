(** C12, C16: what lowered CNOT, CZ and S gates do to encoded states. *)
From Verif Require Import Base PatchesModel InstrModel InstrProofs GatesModel GatesProofs LoweringModel LoweringSpec LoweringProofs StabSpec StabProofs.

Lemma lowers_cnot cfg ctl t ct pl c l c' : lowers cfg [GControlled ctl (SBasic t GX) ct pl] c (Ok (l, c')) ->
  make_cnot (cfg_local cfg) c ctl t ct pl (cfg_corr cfg) = Ok (l, c').
Proof.
  intros H. apply lowers_iff in H. cbn [lower_all lower_gate] in H. apply bind_ok in H. destruct H as ([l1 c1] & E & H).
  cbn [bind] in H. inversion H; subst. now rewrite app_nil_r.
Qed.
Lemma lowers_cz cfg ctl t ct pl c l c' : lowers cfg [GControlled ctl (SBasic t GZ) ct pl] c (Ok (l, c')) ->
  exists m, l = sq t SqH :: m ++ [sq t SqH] /\ make_cnot (cfg_local cfg) c ctl t ct pl (cfg_corr cfg) = Ok (m, c').
Proof.
  intros H. apply lowers_iff in H. cbn [lower_all lower_gate] in H. apply bind_ok in H. destruct H as ([l1 c1] & E & H).
  cbn [bind] in H. apply bind_ok in E. destruct E as ([l2 c2] & E2 & E). inversion E; subst. inversion H; subst.
  exists l2. split; [now rewrite app_nil_r|exact E2].
Qed.

(** The states stabilised by one operator. *)
Definition only (f : pstr) : gset := fun g => exists e, peq g (power e f).
Lemma only_state f : state (only f).
Proof.
  split; [exists false; intros q; reflexivity|]. split.
  - intros g h (e & E) (e' & E'). exists (xorb e e'). eapply peq_trans; [apply pmul_congr2; eassumption|apply power_mul].
  - intros g h E (e & E'). exists e. eapply peq_trans; [apply peq_sym; exact E|exact E'].
Qed.
Lemma only_unused a f : f a = (false, false) -> unused a (only f).
Proof. intros H g (e & E). rewrite E. unfold power. rewrite H. now destruct e. Qed.
Lemma only_in f : only f f.
Proof. exists true. intros q. unfold power. now destruct (f q). Qed.

(** ** C12 *)
Lemma not_both {h l} {F F' : gset -> gset} (G : gset) g : acts_as h l F -> state G -> (forall a, In a h -> unused a G) -> ~ F G g -> F' G g -> ~ acts_as h l F'.
Proof.
  intros A HG Hu N Y A'. destruct (A _ HG Hu) as (G1 & E1 & S1), (A' _ HG Hu) as (G2 & E2 & S2).
  rewrite E1 in E2. injection E2 as <-. apply N. apply S1, S2, Y.
Qed.

(** In both measurement orders, with and without corrections, the sequence
    measures X of the target and does nothing to the control. *)
Theorem C12_measured_cnot_refuted : forall cfg ctl t ct pl c l c',
  cfg_local cfg = false -> ct <> BellBased -> ctl <> t -> (ctl < c)%N -> (t < c)%N -> (c < 2 ^ 32)%N ->
  lowers cfg [GControlled ctl (SBasic t GX) ct pl] c (Ok (l, c')) ->
  acts_as [c] l (measure [(t, PX)]) /\ ~ acts_as [c] l (image (conj_cnot ctl t)).
Proof.
  intros cfg ctl t ct pl c l c' Hl Hb D Hc Ht Hw H. apply lowers_cnot in H. rewrite Hl in H.
  assert (M : acts_as [c] l (measure [(t, PX)])).
  { rewrite <- (N.mod_small c (2 ^ 32)) by lia. eapply cnot_run; eauto; rewrite N.mod_small by lia; lia. }
  split; [exact M|]. set (z := at_patch t (false, true)).
  apply (not_both (only z) (conj_cnot ctl t z) M); [apply only_state| | |].
  - intros a [<-|[]]. apply only_unused. unfold z, at_patch. now rewrite (proj2 (N.eqb_neq c t)) by lia.
  - intros (f & e & (e0 & E0) & A & E). specialize (E ctl). specialize (E0 ctl).
    revert E. unfold pmul. rewrite E0. unfold conj_cnot, power, z, at_patch, obs_op, at_patch, pmul, pone. rewrite !N.eqb_refl, (proj2 (N.eqb_neq ctl t) D).
    cbn. destruct e0, e; discriminate.
  - exists z. split; [apply only_in|apply peq_refl].
Qed.
Print Assumptions C12_measured_cnot_refuted.

(** Likewise a CZ measures Z of the target. *)
Lemma h_measure t G : state G -> same (image (conj_h t) (measure [(t, PX)] (image (conj_h t) G))) (measure [(t, PZ)] G).
Proof.
  intros HG g. pose proof (state_ext _ HG) as X.
  rewrite image_iff, measure_iff, measure_iff; try apply ext_measure; try apply ext_image; auto using conj_h_congr, conj_h_inv.
  assert (A : anticommutes (conj_h t g) [(t, PX)] = anticommutes g [(t, PZ)]).
  { cbn. unfold conj_h. rewrite N.eqb_refl. now destruct (g t) as [[] []]. }
  rewrite A. split; intros (Ha & e & H); (split; [exact Ha|]; exists e).
  - rewrite image_iff in H by (auto using conj_h_congr, conj_h_inv). eapply X; [|exact H]. intros q.
    unfold conj_h, pmul, pmul1, power, obs_op, at_patch, pmul, pone. destruct (N.eqb_spec q t) as [->|?].
    + cbn. destruct (g t) as [[] []], e; reflexivity.
    + cbn. now destruct (g q) as [[] []], e.
  - rewrite image_iff by (auto using conj_h_congr, conj_h_inv). eapply X; [|exact H]. intros q.
    unfold conj_h, pmul, pmul1, power, obs_op, at_patch, pmul, pone. destruct (N.eqb_spec q t) as [->|?].
    + cbn. destruct (g t) as [[] []], e; reflexivity.
    + cbn. now destruct (g q) as [[] []], e.
Qed.
Definition conj_cz (c t : N) (g : pstr) : pstr := conj_h t (conj_cnot c t (conj_h t g)).
Theorem C12_measured_cz_refuted : forall cfg ctl t ct pl c l c',
  cfg_local cfg = false -> ct <> BellBased -> ctl <> t -> (ctl < c)%N -> (t < c)%N -> (c < 2 ^ 32)%N ->
  lowers cfg [GControlled ctl (SBasic t GZ) ct pl] c (Ok (l, c')) ->
  acts_as [c] l (measure [(t, PZ)]) /\ ~ acts_as [c] l (image (conj_cz ctl t)).
Proof.
  intros cfg ctl t ct pl c l c' Hl Hb D Hc Ht Hw H. apply lowers_cz in H. destruct H as (m & -> & H). rewrite Hl in H.
  assert (M0 : acts_as [c] m (measure [(t, PX)])).
  { rewrite <- (N.mod_small c (2 ^ 32)) by lia. eapply cnot_run; eauto; rewrite N.mod_small by lia; lia. }
  assert (M : acts_as [c] (sq t SqH :: m ++ [sq t SqH]) (measure [(t, PZ)])).
  { intros G HG Hu. cbn [run act sq instr_of op].
    destruct (M0 (image (conj_h t) G)) as (G1 & E1 & S1); [now apply state_h|intros a Ha; apply unused_h; [destruct Ha as [<-|[]]; lia|auto]|].
    destruct (run_then m _ _ _ [sq t SqH] _ E1 S1 eq_refl) as (G2 & E2 & S2). exists G2. split; [exact E2|].
    eapply same_trans; [exact S2|]. now apply h_measure. }
  split; [exact M|]. set (x := at_patch t (true, false)).
  apply (not_both (only x) (conj_cz ctl t x) M); [apply only_state| | |].
  - intros a [<-|[]]. apply only_unused. unfold x, at_patch. now rewrite (proj2 (N.eqb_neq c t)) by lia.
  - intros (f & e & (e0 & E0) & A & E). specialize (E ctl). specialize (E0 ctl).
    revert E. unfold pmul. rewrite E0. unfold conj_cz, conj_h, conj_cnot, power, x, at_patch, obs_op, at_patch, pmul, pone.
    rewrite !N.eqb_refl, !(proj2 (N.eqb_neq ctl t) D). cbn. destruct e0, e; discriminate.
  - exists x. split; [apply only_in|apply peq_refl].
Qed.
Print Assumptions C12_measured_cz_refuted.

(** In the Bell pair mode the sequence is a CNOT (partial: the Bell based CNOT is
    one instruction here; C53 is about the operations it is made of). *)
Theorem C12_bell_cnot_partial : forall cfg ctl t ct pl c l c',
  cfg_local cfg = true \/ ct = BellBased -> cfg_corr cfg = CorrNever ->
  lowers cfg [GControlled ctl (SBasic t GX) ct pl] c (Ok (l, c')) ->
  acts_as [] l (image (conj_cnot ctl t)).
Proof.
  intros cfg ctl t ct pl c l c' Hb Hc H. apply lowers_cnot in H. rewrite Hc in H. eapply bell_run; eauto.
Qed.
Print Assumptions C12_bell_cnot_partial.

(** The measurement sequences that would be right: the same as the code's except
    for the ancilla's final measurement, or its initial state. *)
Definition surgery_control_first (c t a : N) : list instr :=
  [instr_of (Init a StPlus None); mpm [(c, PZ); (a, PZ)]; mpm [(a, PX); (t, PX)]; instr_of (Measure a PZ false)].
Definition surgery_target_first (c t a : N) : list instr :=
  [instr_of (Init a StZero None); mpm [(a, PX); (t, PX)]; mpm [(c, PZ); (a, PZ)]; instr_of (Measure a PX false)].
Theorem C12_repaired_partial : forall c t a, c <> t -> c <> a -> t <> a ->
  acts_as [a] (surgery_control_first c t a) (image (conj_cnot c t)) /\
  acts_as [a] (surgery_target_first c t a) (image (conj_cnot c t)).
Proof.
  intros c t a D1 D2 D3. split; intros G HG Hu; specialize (Hu _ (or_introl eq_refl)); (eexists; split; [reflexivity|]).
  - now apply control_first_fixed.
  - now apply target_first_fixed.
Qed.
Print Assumptions C12_repaired_partial.

(** ** C16 *)
Lemma alone_expand e i k seg k' core ar loc : e = teleport_expand core ar \/ e = catalytic_expand loc core ar ->
  alone e i k seg k' -> e tt k i = Ok (seg, tt, k').
Proof.
  intros He H. apply alone_iff; [| |exact H].
  - destruct He as [->| ->]; [apply teleport_nonempty|apply catalytic_nonempty].
  - intros [] c0 j. destruct He as [->| ->].
    + destruct (teleport_no_fail core ar tt c0 j) as (o & kk & ->). discriminate.
    + destruct (catalytic_no_fail loc core ar tt c0 j) as (o & kk & ->). discriminate.
Qed.

(** Teleportation is an S (and, up to a Pauli, an S-dagger). *)
Theorem C16_teleported_s_partial : forall core ar i k seg k' t d,
  alone (teleport_expand core ar) i k seg k' -> op i = SingleOp t SqS d -> In t core -> (t < k)%N -> (k < 2 ^ 32)%N ->
  acts_as [k] seg (image (conj_s t)).
Proof.
  intros core ar i k seg k' t d H Eo Hin Ht Hk. apply (alone_expand _ _ _ _ _ core ar false (or_introl eq_refl)) in H.
  apply memN_In in Hin. unfold teleport_expand, new_id in H. rewrite Eo, Hin, N.mod_small in H by lia.
  unfold obs2 in H. rewrite (proj2 (N.eqb_neq k t)) in H by lia. apply ok3_inj in H. destruct H as (<- & _ & _).
  intros G HG Hu. specialize (Hu _ (or_introl eq_refl)). eexists. split; [reflexivity|]. apply teleported_s; auto. lia.
Qed.
Print Assumptions C16_teleported_s_partial.

(** Catalysis with Bell based CNOTs is an S that leaves a Y state behind, and
    hands it back. *)
Theorem C16_catalytic_s_partial : forall core ar i k seg k' t d,
  alone (catalytic_expand true core ar) i k seg k' -> op i = SingleOp t SqS d -> In t core -> (t < k)%N -> (k < 2 ^ 32)%N ->
  exists body ret, seg = body ++ [ret] /\ op ret = YRequest k t None /\ clients ret = [] /\
    acts_as [k] body (fun G => prepare k PY (image (conj_s t) G)) /\ acts_as [k] seg (image (conj_s t)).
Proof.
  intros core ar i k seg k' t d H Eo Hin Ht Hk. apply (alone_expand _ _ _ _ _ core ar true (or_intror eq_refl)) in H.
  apply memN_In in Hin. unfold catalytic_expand, new_id in H. rewrite Eo, Hin, N.mod_small in H by lia.
  cbn [make_cnot new_id bind] in H. apply ok3_inj in H. destruct H as (<- & _ & _).
  match goal with |- context[?a :: ?b ++ ?c ++ ?d ++ ?e] => 
    set (b1 := b); set (b2 := d) end.
  exists (mkI (YRequest k t None) SIZE_MAX [t] :: b1 ++ [sq k SqH; instr_of (Rotate k)] ++ b2 ++ [sq k SqH; instr_of (Rotate k)]), (mkI (YRequest k t None) SIZE_MAX []).
  split; [reflexivity|]. split; [reflexivity|]. split; [reflexivity|].
  assert (A : acts_as [k] (mkI (YRequest k t None) SIZE_MAX [t] :: b1 ++ [sq k SqH; instr_of (Rotate k)] ++ b2 ++ [sq k SqH; instr_of (Rotate k)])
     (fun G => prepare k PY (image (conj_s t) G))).
  { intros G HG Hu. specialize (Hu _ (or_introl eq_refl)). eexists. split; [reflexivity|]. apply catalytic_s; auto. lia. }
  split; [exact A|]. intros G HG Hu. destruct (A G HG Hu) as (G1 & E1 & S1). specialize (Hu _ (or_introl eq_refl)).
  destruct (run_then _ _ _ _ [mkI (YRequest k t None) SIZE_MAX []] _ E1 S1 eq_refl) as (G2 & E2 & S2).
  exists G2. split; [exact E2|]. eapply same_trans; [exact S2|].
  assert (HS : state (image (conj_s t) G)).
  { destruct HG as (O & M & X). split; [|split; [|apply ext_image]].
    - exists pone. split; [exact O|]. intros q. unfold conj_s, pone. now destruct (N.eqb q t).
    - intros f g (f1 & H1 & F1) (f2 & H2 & F2). exists (pmul f1 f2). split; [auto|].
      intros q. unfold pmul. rewrite F1, F2. unfold conj_s, pmul1. destruct (N.eqb q t); [|reflexivity]. cbn.
      destruct (f1 q) as [[] []], (f2 q) as [[] []]; reflexivity. }
  apply (give_back t); [lia|exact HS| |discriminate].
  intros g (f & Hf & E). rewrite E. unfold conj_s. now rewrite (proj2 (N.eqb_neq k t)), (Hu _ Hf) by lia.
Qed.
Print Assumptions C16_catalytic_s_partial.

(** Catalysis with the measured CNOTs does nothing to the qubit at all and hands
    back a zero state instead of a Y state. *)
Theorem C16_catalytic_measured_refuted : forall core ar i k seg k' t d,
  alone (catalytic_expand false core ar) i k seg k' -> op i = SingleOp t SqS d -> In t core -> (t < k)%N -> (k + 3 <= 2 ^ 32)%N ->
  exists body ret, seg = body ++ [ret] /\ op ret = YRequest k t None /\
    acts_as [k; k + 1; k + 2]%N body (fun G => prepare k PZ G) /\
    acts_as [k; k + 1; k + 2]%N seg (fun G => G) /\
    ~ acts_as [k; k + 1; k + 2]%N seg (image (conj_s t)).
Proof.
  intros core ar i k seg k' t d H Eo Hin Ht Hk. apply (alone_expand _ _ _ _ _ core ar false (or_intror eq_refl)) in H.
  apply memN_In in Hin. unfold catalytic_expand, new_id in H. rewrite Eo, Hin, N.mod_small in H by lia.
  apply bind_ok in H. destruct H as ([l1 c2] & E1 & H). apply bind_ok in H. destruct H as ([l2 c3] & E2 & H).
  apply ok3_inj in H. destruct H as (Es & _ & _).
  assert (c2 = k + 2)%N by (unfold make_cnot, new_id in E1; inversion E1; lia). subst c2.
  set (ret := mkI (YRequest k t None) SIZE_MAX []) in *.
  set (body := mkI (YRequest k t None) SIZE_MAX [t] :: l1 ++ [sq k SqH; instr_of (Rotate k)] ++ l2 ++ [sq k SqH; instr_of (Rotate k)]).
  assert (Eb : seg = body ++ [ret]).
  { rewrite <- Es. unfold body. cbn [app]. f_equal. rewrite <- !app_assoc. cbn [app]. do 2 f_equal. rewrite <- !app_assoc. reflexivity. }
  assert (M1 : acts_as [(k + 1)%N] l1 (measure [(k, PX)])).
  { rewrite <- (N.mod_small (k + 1) (2 ^ 32)) by lia. eapply cnot_run; [|exact E1| | |]; try discriminate; try rewrite N.mod_small by lia; lia. }
  assert (M2 : acts_as [(k + 2)%N] l2 (measure [(k, PX)])).
  { rewrite <- (N.mod_small (k + 2) (2 ^ 32)) by lia. eapply cnot_run; [|exact E2| | |]; try discriminate; try rewrite N.mod_small by lia; lia. }
  assert (A : acts_as [k; k + 1; k + 2]%N body (fun G => prepare k PZ G)).
  { intros G HG Hu. pose proof (Hu k ltac:(cbn; auto)) as U0. pose proof (Hu (k + 1)%N ltac:(cbn; auto)) as U1.
    pose proof (Hu (k + 2)%N ltac:(cbn; auto)) as U2. unfold body. cbn [run act instr_of op clients].
    pose proof (state_prepare k PY G HG) as HP.
    destruct (M1 _ HP) as (G1 & R1 & S1). { intros a [<-|[]]. apply unused_prepare; [lia|exact U1]. }
    set (G1' := image (conj_h k) (measure [(k, PX)] (prepare k PY G))).
    assert (HG1 : state G1') by (apply state_h, state_measure, HP).
    destruct (M2 G1' HG1) as (G2 & R2 & S2).
    { intros a [<-|[]]. apply unused_h; [lia|]. apply unused_measure1; [lia|]. apply unused_prepare; [lia|exact U2]. }
    destruct (run_then l2 _ _ _ [sq k SqH; instr_of (Rotate k)] _ R2 S2 eq_refl) as (G3 & R3 & S3).
    assert (R4 : run ([sq k SqH; instr_of (Rotate k)] ++ l2 ++ [sq k SqH; instr_of (Rotate k)]) (measure [(k, PX)] (prepare k PY G)) = Some G3)
      by exact R3.
    destruct (run_then l1 _ _ _ _ _ R1 S1 R4) as (G4 & R5 & S4). exists G4. split; [exact R5|].
    eapply same_trans; [exact S4|]. eapply same_trans; [exact S3|]. apply (measured_twice t); auto. lia. }
  assert (B : acts_as [k; k + 1; k + 2]%N seg (fun G => G)).
  { intros G HG Hu. destruct (A G HG Hu) as (G1 & R1 & S1). rewrite Eb.
    destruct (run_then body _ _ _ [ret] _ R1 S1 eq_refl) as (G2 & R2 & S2). exists G2. split; [exact R2|].
    eapply same_trans; [exact S2|]. apply (give_back t); auto; [lia|apply Hu; cbn; auto|discriminate]. }
  exists body, ret. split; [exact Eb|]. split; [reflexivity|]. split; [exact A|]. split; [exact B|].
  set (x := at_patch t (true, false)). apply (not_both (only x) (conj_s t x) B); [apply only_state| | |].
  - intros a Ha. apply only_unused. unfold x, at_patch. rewrite (proj2 (N.eqb_neq a t)); [reflexivity|]. cbn in Ha. lia.
  - intros (e & E). specialize (E t). revert E. unfold conj_s, power, x, at_patch. rewrite N.eqb_refl. cbn. destruct e; discriminate.
  - exists x. split; [apply only_in|apply peq_refl].
Qed.
Print Assumptions C16_catalytic_measured_refuted.

(** Non-vacuity: sequences meeting the hypotheses. *)
Example C12_ex : exists l, lowers (mkCfg false CorrAlways (lit "q")) [GControlled 3 (SBasic 5 GX) TargetFirst DedicatedCell] 9 (Ok (l, 10%N)) /\ length l = 6.
Proof. eexists. split; [apply lowers_iff; reflexivity|reflexivity]. Qed.
Example C16_ex : exists l, alone (catalytic_expand false [0; 4]%N true) (sq 4 SqS) 7 l 10 /\ length l = 14.
Proof. eexists. split; [split; [discriminate|exists 30; vm_compute; reflexivity]|reflexivity]. Qed.
