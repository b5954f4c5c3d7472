(** From a circuit to the slices: what compiled circuits are like, and C28 for them in every pipeline. *)
From Verif Require Import Base TextModel PatchesModel LayoutModel LayoutSpec InstrModel InstrSpec InstrProofs DagProofs GatesModel LoweringModel LoweringSpec LoweringProofs LoweringProps.
From Verif Require Import SliceModel SliceSpec SliceProofs SliceProps ApplyModel ApplyProps BellProps StepProps RouterModel RouterProps.
From Verif Require Import RunModel RunProofs RunProps StreamProps SchedSpec DagLoopProps WaveModel WaveSpec WaveProofs RunInv IdsProps.
Open Scope nat_scope.

(** What the lowering and the passes write: no operation of which part was carried out, no more than 255 patches. *)
Definition plain (i : instr) : Prop :=
  match op i with
  | Busy _ _ _ | Declare _ => False
  | BellInit _ _ _ _ l c => l = None /\ c = None
  | BellCNOT _ _ _ _ r c l p => r = None /\ c = None /\ l = None /\ p = None
  | _ => True
  end /\ NoDup (clients i) /\ length (ids_of i) <= 255.

Section Streams.
Context {S : Type} (next : next_fn S) (I : S -> Prop) (P : instr -> Prop).
Definition yields : Prop := forall st c i st' c', I st -> next st c = Ok (Some (i, st', c')) -> P i /\ I st'.
Lemma drain_yields : yields -> forall f st c out c', I st -> drain next f st c = Ok (out, c') -> Forall P out.
Proof.
  intros Y f. induction f as [|f IH]; intros st c out c' H E; [discriminate|]. cbn [drain] in E. destruct (next st c) as [r| | |] eqn:N; try discriminate. cbn [bind] in E.
  destruct r as [[[i st'] c1]|]; [|injection E as <- _; constructor]. destruct (Y _ _ _ _ _ H N) as [Pi I'].
  destruct (drain next f st' c1) as [[l c2]| | |] eqn:D; try discriminate. injection E as <- _. constructor; eauto.
Qed.
Lemma inject_yields : forall M (ex : expander M), yields -> (forall m c i l m' c', P i -> ex m c i = Ok (l, m', c') -> Forall P l) ->
  forall st c i st' c', Forall P (is_queue st) /\ I (is_src st) -> inject_next ex next st c = Ok (Some (i, st', c')) -> P i /\ Forall P (is_queue st') /\ I (is_src st').
Proof.
  intros M ex Y X [q m s] c i st' c' [Hq Hs] E. unfold inject_next in E. cbn [is_queue is_mem is_src] in *. destruct q as [|j q].
  - destruct (next s c) as [r| | |] eqn:N; try discriminate. cbn [bind] in E. destruct r as [[[k s'] c1]|]; [|discriminate]. destruct (Y _ _ _ _ _ Hs N) as [Pk I'].
    destruct (ex m c1 k) as [[[l m'] c2]| | |] eqn:Ex; try discriminate. cbn [bind] in E. destruct l as [|j l]; [discriminate|]. injection E as <- <- _.
    pose proof (X _ _ _ _ _ _ Pk Ex) as F. inversion F; subst. auto.
  - injection E as <- <- _. inversion Hq; subst. auto.
Qed.
End Streams.

Lemma ids2_NoDup : forall a b, NoDup (ids2 a b).
Proof. intros. unfold ids2. apply oset_insert_NoDup. repeat constructor. intros []. Qed.
Lemma ids2_length : forall a b, length (ids2 a b) <= 2.
Proof. intros. unfold ids2, oset_insert. destruct (memN b [a]); cbn; lia. Qed.
Lemma obs2_length : forall a p b q, length (obs2 a p b q) <= 2.
Proof. intros. unfold obs2. destruct (N.eqb a b); cbn; lia. Qed.
Lemma plain_single : forall t o d, plain (instr_of (SingleOp t o d)).
Proof. intros. split; [exact I|]. split; [constructor|cbn; lia]. Qed.
Lemma plain_measure : forall t o d, plain (instr_of (Measure t o d)).
Proof. intros. split; [exact I|]. split; [constructor|cbn; lia]. Qed.
Lemma plain_rotate : forall t, plain (instr_of (Rotate t)).
Proof. intros. split; [exact I|]. split; [constructor|cbn; lia]. Qed.
Lemma plain_reset : forall t, plain (instr_of (Reset t)).
Proof. intros. split; [exact I|]. split; [constructor|cbn; lia]. Qed.
Lemma plain_mpm : forall a p b q, plain (mpm (obs2 a p b q)).
Proof. intros. split; [exact I|]. split; [constructor|]. cbn. rewrite map_length. pose proof (obs2_length a p b q). lia. Qed.
Lemma plain_one : forall o w t, match o with MagicRequest _ _ | YRequest _ _ _ => True | _ => False end -> plain (mkI o w [t]).
Proof. intros o w t H. destruct o; try destruct H; (split; [exact I|]; split; [repeat constructor; intros []|cbn; lia]). Qed.
Lemma plain_init : forall a s p w x y, plain (mkI (Init a s p) w (ids2 x y)).
Proof. intros. split; [exact I|]. split; [apply ids2_NoDup|]. unfold ids_of. cbn [clients op]. rewrite app_length. pose proof (ids2_length x y). destruct p; cbn [length]; lia. Qed.
Lemma plain_cnot : forall c t a b w x y, plain (mkI (BellCNOT c t a b None None None None) w (ids2 x y)).
Proof. intros. split; [cbn; auto|]. split; [apply ids2_NoDup|]. unfold ids_of. cbn [clients op]. rewrite app_length. pose proof (ids2_length x y). cbn [length]; lia. Qed.
Lemma plain_give : forall y t w, plain (mkI (YRequest y t None) w []).
Proof. intros. split; [exact I|]. split; [constructor|cbn; lia]. Qed.
Lemma plain_sq : forall t o, plain (sq t o).
Proof. intros. apply plain_single. Qed.
Local Hint Resolve plain_sq plain_single plain_measure plain_rotate plain_reset plain_mpm plain_init plain_cnot plain_give : plain.
Ltac all_plain := repeat first [apply Forall_nil | apply Forall_cons; [solve [auto with plain | apply plain_one; exact I]|] | (apply Forall_app; split)]; auto.

Lemma make_cnot_plain : forall local c a b ct pl corr l c', make_cnot local c a b ct pl corr = Ok (l, c') -> Forall plain l.
Proof.
  intros local c a b ct pl corr l c' H. unfold make_cnot, new_id in H.
  destruct ct, local, corr; try discriminate; cbn [app] in H; injection H as <- _; cbn [app]; all_plain.
Qed.
Lemma make_t_plain : forall local c t d l c', make_t local c t d = Ok (l, c') -> Forall plain l.
Proof.
  intros local c t d l c' H. unfold make_t, new_id in H. destruct local.
  - inv H as [cn c2] Hx. injection H as <- _. apply make_cnot_plain in Hx. all_plain.
  - injection H as <- _. all_plain.
Qed.
Lemma lower_gate_plain : forall cfg c g l c', lower_gate cfg c g = Ok (l, c') -> Forall plain l.
Proof.
  intros cfg c g l c' H. destruct g as [t b|t f|ctl tg ct pl|r t]; cbn [lower_gate] in H.
  - destruct b; try (injection H as <- _; all_plain); eapply make_t_plain; eauto.
  - repeat match type of H with (if ?b then _ else _) = _ => destruct b end; try discriminate; try (injection H as <- _; all_plain). eapply make_t_plain; eauto.
  - destruct tg as [t b|]; [destruct b|]; try discriminate; [eapply make_cnot_plain; eauto|].
    inv H as [cn c2] Hx. injection H as <- _. apply make_cnot_plain in Hx. all_plain.
  - destruct (text_eqb r (cfg_qreg cfg)); [|discriminate]. injection H as <- _. all_plain.
Qed.
Lemma lower_plain : forall cfg, yields (lower_next cfg) (fun st => Forall plain (ls_queue st)) plain.
Proof.
  intros cfg [q gs] c i st' c' Hq E. unfold lower_next in E. cbn [ls_queue ls_gates] in *. destruct q as [|j q].
  - destruct gs as [|g gs]; [discriminate|]. inv E as [l c1] Hg. apply lower_gate_plain in Hg. destruct l as [|j l]; [discriminate|]. injection E as <- <- _. inversion Hg; subst. auto.
  - injection E as <- <- _. inversion Hq; subst. auto.
Qed.
Lemma teleport_plain : forall core al (m : unit) c i l m' c', plain i -> teleport_expand core al m c i = Ok (l, m', c') -> Forall plain l.
Proof.
  intros core al m c i l m' c' Hi E. unfold teleport_expand, new_id in E.
  destruct (op i) as [| | | | | | |t o d| | | |]; try (injection E as <- _ _; all_plain).
  destruct o; try (injection E as <- _ _; all_plain).
  - destruct (al && memN t core); injection E as <- _ _; all_plain.
  - destruct (memN t core); injection E as <- _ _; all_plain.
Qed.
Lemma catalytic_plain : forall local core al (m : unit) c i l m' c', plain i -> catalytic_expand local core al m c i = Ok (l, m', c') -> Forall plain l.
Proof.
  intros local core al m c i l m' c' Hi E. unfold catalytic_expand, new_id in E.
  destruct (op i) as [| | | | | | |t o d| | | |]; try (injection E as <- _ _; all_plain).
  destruct o; try (injection E as <- _ _; all_plain).
  - destruct (al && memN t core); injection E as <- _ _; all_plain.
  - destruct (memN t core); [|injection E as <- _ _; all_plain]. inv E as [l1 c1] H1. inv E as [l2 c2] H2. injection E as <- _ _.
    apply make_cnot_plain in H1, H2. cbn [app]. all_plain.
Qed.
Lemma expose_plain : forall m q p, Forall plain (fst (expose m q p)).
Proof. intros. unfold expose. destruct (alookup m q) as [e|]; [destruct (is_exposed e p)|]; cbn [fst]; all_plain. Qed.
Lemma boundary_plain : forall m c i l m' c', plain i -> boundary_expand m c i = Ok (l, m', c') -> Forall plain l.
Proof.
  intros m c i l m' c' Hi E. unfold boundary_expand in E. destruct (op i) as [| |obs ? ?| | | | |t o d| | |ct tg a b r cs se ph|]; try (injection E as <- _ _; all_plain).
  - inv E as [l0 m0] F. injection E as <- _ _. apply Forall_app. split; [|all_plain]. clear Hi.
    revert F. assert (G : Forall plain (fst ([] : list instr, m))) by constructor. revert G. generalize ([] : list instr, m). generalize (operating_patches i).
    induction l as [|q l IH]; intros [a0 m1] G F; cbn [foldM] in F; [injection F as <- _; exact G|]. destruct (alookup m1 q) as [x|]; cbn [bind] in F; [|eapply IH; eauto].
    destruct (alookup obs q) as [p|]; [|discriminate]. pose proof (expose_plain m1 q p) as X. destruct (expose m1 q p) as [l' m2]. cbn [bind fst] in *.
    eapply IH; [|exact F]. apply Forall_app. auto.
  - destruct o; try (injection E as <- _ _; all_plain).
    + destruct (alookup m t); injection E as <- _ _; all_plain.
    + pose proof (expose_plain m t PZ) as X. destruct (expose m t PZ) as [l0 m0]. injection E as <- _ _. all_plain.
  - pose proof (expose_plain m ct PZ) as X. destruct (expose m ct PZ) as [l1 m1]. pose proof (expose_plain m1 tg PX) as Y. destruct (expose m1 tg PX) as [l2 m2].
    injection E as <- _ _. all_plain.
Qed.
Lemma compiles_plain_all : forall cfg core gs c out c', compiles cfg core gs c (Ok (out, c')) -> Forall plain out.
Proof.
  intros cfg core gs c out c' H. inversion H as [r [_ [f X]]|m r K [_ [f X]]|r [_ [f X]]|r [_ [f X]]]; subst.
  - apply (drain_yields _ _ _ (lower_plain cfg)) in X; [exact X|constructor].
  - revert X. unfold compact_next. apply drain_yields with (I := fun st => Forall plain (is_queue st) /\ Forall plain (is_queue (is_src st)) /\ Forall plain (ls_queue (is_src (is_src st)))); [|cbn; auto].
    intros st k i st' k' Hi E. eapply inject_yields with (I := fun st => Forall plain (is_queue st) /\ Forall plain (ls_queue (is_src st))) in E; eauto using teleport_plain.
    intros s0 k0 i0 s1 k1 H0 E0. eapply inject_yields with (I := fun st => Forall plain (ls_queue st)) in E0; eauto using boundary_plain, lower_plain.
  - revert X. unfold edpc_next. apply drain_yields with (I := fun st => Forall plain (is_queue st) /\ Forall plain (ls_queue (is_src st))); [|cbn; auto].
    intros st k i st' k' Hi E. eapply inject_yields with (I := fun st => Forall plain (ls_queue st)) in E; eauto using teleport_plain, lower_plain.
  - revert X. unfold catalytic_next. apply drain_yields with (I := fun st => Forall plain (is_queue st) /\ Forall plain (ls_queue (is_src st))); [|cbn; auto].
    intros st k i st' k' Hi E. eapply inject_yields with (I := fun st => Forall plain (ls_queue st)) in E; eauto using catalytic_plain, lower_plain.
Qed.

Lemma plain_few : forall i, plain i -> few_patches i.
Proof.
  intros i (Sh & N & L). split; [exact N|]. eapply Nat.le_trans; [|exact L]. apply NoDup_incl_length; [now apply deps_NoDup|].
  intros q Hq. rewrite deps_In, operating_In in Hq. unfold ids_of. apply in_app_iff. destruct Hq as [Hq|[Hq Hk]]; [auto|right].
  unfold names in Hq. destruct i as [o w cl]. cbn [op] in *. destruct o; cbn in *; try tauto; try (intuition congruence).
  destruct place; cbn; intuition congruence.
Qed.
Lemma plain_tidy : forall i, plain i -> tidy (op i) /\ not_started (op i) /\ (forall id, In id (puts false (op i)) -> In id (ids_of i))
  /\ (brings false (op i) = [] \/ brings false (op i) = made i).
Proof.
  intros [o w cl] (H & _). cbn [op] in *.
  assert (X : forall id, In id (puts false o) -> In id (ids_of (mkI o w cl))).
  { intros id Hi. unfold ids_of. cbn [clients op]. apply in_app_iff. right.
    destruct o; cbn in H; try contradiction; cbn in *; try tauto.
    - destruct place; cbn; tauto.
    - destruct H as [_ ->]. cbn in Hi. tauto.
    - destruct H as (_ & -> & _). cbn in Hi. tauto. }
  destruct o; cbn in H; try contradiction; cbn [InstrModel.op]; (split; [|split; [|split; [exact X|]]]); cbn; auto.
  - tauto.
  - destruct H as [_ ->]. auto.
  - destruct H as (-> & _). exact I.
  - tauto.
  - destruct H as (_ & -> & _). auto.
Qed.

(** A compiled circuit never reuses an id. *)
Lemma new_ids_split : forall out used,
  (forall pre y post, out = pre ++ y :: post -> tidy (op y) /\ NoDup (brings false (op y)) /\
     forall id, In id (brings false (op y)) -> ~ In id used /\ forall x, In x pre -> ~ In id (puts false (op x))) -> new_ids used out.
Proof.
  induction out as [|i out IH]; intros used H; [exact I|]. destruct (H [] i out eq_refl) as (T & N & D). split; [exact T|]. split; [exact N|].
  split; [intros id Hi; apply (D id Hi)|]. apply IH. intros pre y post E. destruct (H (i :: pre) y post) as (T' & N' & D'); [rewrite E; reflexivity|].
  split; [exact T'|]. split; [exact N'|]. intros id Hi. destruct (D' id Hi) as [A B]. split.
  - intros X. apply in_app_iff in X as [X|X]; [exact (B i (or_introl eq_refl) X)|exact (A X)].
  - intros x Hx. apply B. now right.
Qed.
Lemma circuit_new_ids : forall cfg core gs c out c', Forall (fun q => (q < c)%N) core -> in_register c gs -> compiles cfg core gs c (Ok (out, c')) -> (c' <= 2 ^ 32)%N ->
  new_ids core out.
Proof.
  intros cfg core gs c out c' Hc Hg H Hl. destruct (C11_fresh_partial _ _ _ _ _ _ Hc Hg H Hl) as [Nd Fr].
  pose proof (C13_helper_lives_partial _ _ _ _ _ _ Hc Hg H Hl) as Lv. pose proof (compiles_plain_all _ _ _ _ _ _ H) as Pl.
  apply new_ids_split. intros pre y post ->. apply Forall_app in Pl. destruct Pl as [P1 P2]. inversion P2 as [|? ? Py _]; subst.
  destruct (plain_tidy y Py) as (T & _ & Py2 & Br). split; [exact T|]. rewrite made_by_app, made_by_cons in *.
  assert (Ny : NoDup (made y)). { destruct (prefix_nodup _ _ _ Nd) as (_ & N2 & _). apply (prefix_nodup _ _ _ N2). }
  destruct Br as [Br|Br]; [rewrite Br; split; [constructor|intros id []]|]. rewrite Br. split; [exact Ny|].
  intros id Hi. assert (Hm : In id (made_by pre ++ made y ++ made_by post)) by (apply in_app_iff; right; apply in_app_iff; auto). split.
  - rewrite Forall_forall in Fr. apply (Fr id Hm).
  - intros x Hx Hp. rewrite Forall_forall in P1. destruct (plain_tidy x (P1 x Hx)) as (_ & _ & Px & _). apply Px in Hp.
    assert (Hy : In id (ids_of y)) by (apply Py2; rewrite <- Br in Hi; destruct (op y); auto; destruct Hi).
    specialize (Lv id Hm). rewrite history_app, (history_in _ _ _ Hy) in Lv.
    assert (Hh : In x (LoweringSpec.history id pre)) by (apply filter_In; split; [exact Hx|]; apply existsb_exists; exists id; split; [exact Hp|apply N.eqb_refl]).
    destruct (LoweringSpec.history id pre) as [|z h]; [destruct Hh|]. destruct Lv as [(cr & us & fin & E & _ & _ & Mf & _ & Us)|(i & ? & ? & ? & ? & ? & ? & ? & ? & E & _)].
    + cbn in E. injection E as -> E. assert (Hin : In y (us ++ [fin])) by (rewrite <- E; apply in_app_iff; right; now left).
      apply in_app_iff in Hin as [Hin|[<-|[]]]; [rewrite Forall_forall in Us; apply Us in Hin; tauto|tauto].
    + cbn in E. injection E as _ E. destruct h; discriminate.
Qed.

(** ** C28, from circuit to slices *)

(** Whatever the circuit, the passes, the layout, the router, the pipeline (EDPC included) and the limits: in no slice is an id on two tiles. *)
Theorem C28_circuit : forall cfg core gs c out c' pl e late grow w t r,
  Forall (fun q => (q < c)%N) core -> NoDup core -> in_register c gs -> compiles cfg core gs c (Ok (out, c')) -> (c' <= 2 ^ 32)%N ->
  (pl = Wave \/ e_edpc e = false) -> layout_wf (e_layout e) -> new_slice (e_layout e) core = Ok (w_slice w) ->
  halts pl e late grow out w t r -> Forall unique_ids (emitted (t_events t)).
Proof.
  intros cfg core gs c out c' pl e late grow w t r Hc Nc Hg H Hl Ed W E Ha.
  pose proof (compiles_plain_all _ _ _ _ _ _ H) as Pl.
  destruct (C27_once_each _ _ _ W E Nc) as (On & Un & Na).
  assert (T : timed (e_layout e) (w_slice w)).
  { destruct (Nat.le_gt_cases (length core) (length (core_cells (e_layout e)))) as [L|L].
    - destruct (new_slice_ok _ core W L) as (s & E' & I). assert (s = w_slice w) by congruence. subst s. split; [apply (in_sized _ _ _ I)|]. now rewrite (in_timers _ _ _ I).
    - rewrite new_slice_few in E; [discriminate|]. destruct (lw_core _ W) as [cells Hcs]. unfold core_cells in L. rewrite Hcs in *. rewrite core_cells_basic in L. now rewrite map_length. }
  eapply (C28_run pl e late grow out w t r Ed W); eauto.
  - intros _. eapply Forall_impl; [exact plain_few|exact Pl].
  - instantiate (1 := core). intros k id Hk. apply On. eauto.
  - eapply circuit_new_ids; eauto.
  - eapply Forall_impl; [|exact Pl]. intros i Pi. apply (plain_tidy i Pi).
Qed.
Print Assumptions C28_circuit.

(** A concrete case: two qubits, a CNOT, a T gate and a Hadamard, compiled by the DAG pipeline on a layout with one factory. *)
Definition ex_layout_text : text := lit "rrrrr
rQrQr
rrrrr
11111".
Definition two_start : layout * slice := Eval vm_compute in
  match (do L <- layout_from_spec ex_layout_text (mkDO true 3) ;; do s <- new_slice L [0; 1]%N ;; Ok (L, s)) with
  | Ok x => x | _ => magic_start
  end.
Definition two_env : env := mkEnv false true false false (fst two_start) (plain_router (fst two_start) false pick_min false).
Definition two_gates : list gate := [GControlled 0 (SBasic 1 GX) ControlFirst NextToControl; GBasic 0 GT; GBasic 1 GH].
Example C28_circuit_ex : exists out t, compiles (mkCfg false CorrNever (lit "q")) [0; 1]%N two_gates 2 (Ok (out, 4%N)) /\ in_register 2 two_gates
  /\ layout_wf (e_layout two_env) /\ new_slice (e_layout two_env) [0; 1]%N = Ok (snd two_start)
  /\ halts Dag two_env never never out (mkW (snd two_start) 0 []) t Finished /\ length (emitted (t_events t)) = 7.
Proof.
  do 2 eexists. split; [apply compiles_plain; split; [discriminate|exists 60; vm_compute; reflexivity]|]. split; [repeat constructor|].
  split; [apply (text_layout_wf ex_layout_text (mkDO true 3)); vm_compute; reflexivity|]. split; [vm_compute; reflexivity|].
  split; [exists 30; vm_compute; reflexivity|reflexivity].
Qed.
