(** C11, C13, C14, C15, C17, C51: lowering and injection of whole programs. *)
From Coq Require Import Permutation.
From Verif Require Import Base TextModel TextProofs PatchesModel InstrModel InstrProofs GatesModel GatesSpec GatesProofs
  LoweringModel LoweringSpec LoweringProofs.

Definition in_register (s : N) (gs : list gate) : Prop := Forall (fun g => Forall (fun q => (q < s)%N) (gate_qubits g)) gs.

(** The ways the slicer turns a circuit into LLI. *)
Inductive compiles (cfg : lower_cfg) (core : list N) (gs : list gate) (c : N) : outcome (list instr * N) -> Prop :=
| compiles_plain r : lowers cfg gs c r -> compiles cfg core gs c r
| compiles_compact m r : keys_below c m ->
    reads (compact_next cfg core) (mkIS [] tt (mkIS [] m (mkLS [] gs))) c r -> compiles cfg core gs c r
| compiles_edpc r : reads (edpc_next cfg core) (mkIS [] tt (mkLS [] gs)) c r -> compiles cfg core gs c r
| compiles_catalytic r : reads (catalytic_next cfg core) (mkIS [] tt (mkLS [] gs)) c r -> compiles cfg core gs c r.

Lemma compiles_R cfg core gs c out c' : Forall (fun q => (q < c)%N) core -> in_register c gs ->
  compiles cfg core gs c (Ok (out, c')) -> R c c [] c' out.
Proof.
  intros Hcore Hgs H. inversion H as [r H1|m r K H1|r H1|r H1]; subst.
  - apply lowers_iff in H1. eapply lower_all_R; eauto.
  - eapply (inject2_R c (keys_below c) (fun _ => True)); [apply boundary_tame|apply teleport_tame; exact Hcore|exact K|exact I|exact Hgs|exact H1].
  - eapply (inject_R c (fun _ => True)); [apply teleport_tame; exact Hcore|exact I|exact Hgs|exact H1].
  - eapply (inject_R c (fun _ => True)); [apply catalytic_tame; exact Hcore|exact I|exact Hgs|exact H1].
Qed.

(** ** C11 *)

(** The ids created by a compiled circuit are exactly the counter values used,
    each once. *)
Theorem C11_ids_are_the_counter : forall cfg core gs c out c',
  Forall (fun q => (q < c)%N) core -> in_register c gs -> compiles cfg core gs c (Ok (out, c')) ->
  Permutation (made_by out) (id_range c c').
Proof. intros cfg core gs c out c' Hc Hg H. destruct (compiles_R _ _ _ _ _ _ Hc Hg H) as (_ & M & _). exact M. Qed.
Print Assumptions C11_ids_are_the_counter.

(** Hence, as long as the 32 bit counter has not run out, they are different
    from each other and from every declared qubit (partial: the circuit must not
    need more than 2^32 ids and must come from QASM, see the refutations). *)
Theorem C11_fresh_partial : forall cfg core gs c out c',
  Forall (fun q => (q < c)%N) core -> in_register c gs -> compiles cfg core gs c (Ok (out, c')) -> (c' <= 2 ^ 32)%N ->
  NoDup (made_by out) /\ Forall (fun h => (c <= h < c')%N /\ ~ In h core) (made_by out).
Proof.
  intros cfg core gs c out c' Hc Hg H Hl. pose proof (C11_ids_are_the_counter _ _ _ _ _ _ Hc Hg H) as P.
  split; [eapply Permutation_NoDup; [symmetry; exact P|apply id_range_nodup; lia]|].
  apply Forall_forall. intros h Hh. apply (Permutation_in _ P) in Hh. apply id_range_small in Hh; [|exact Hl].
  split; [exact Hh|]. intros Hin. rewrite Forall_forall in Hc. apply Hc in Hin. lia.
Qed.
Print Assumptions C11_fresh_partial.

(** The declared qubits of a QASM circuit are below the counter's start. *)
Theorem C11_start_above_declared : forall size,
  Forall (fun q => (q < qasm_id_start size)%N) (core_qubits_from_qreg size) /\
  (forall q, (q < size)%N -> In q (core_qubits_from_qreg size)).
Proof.
  intros size. unfold core_qubits_from_qreg, qasm_id_start. split.
  - apply Forall_forall. intros q Hq. apply in_map_iff in Hq. destruct Hq as (n & <- & Hn). apply in_seq in Hn. lia.
  - intros q Hq. apply in_map_iff. exists (N.to_nat q). split; [lia|]. apply in_seq. lia.
Qed.
Print Assumptions C11_start_above_declared.

(** Once the counter passes 2^32 ids collide with declared qubits. *)
Lemma lower_T_repeat cfg : forall n c, exists out, lower_all cfg c (repeat (GBasic 0 GT) n) = Ok (out, (c + N.of_nat n * (if cfg_local cfg then 3 else 1))%N).
Proof.
  induction n as [|n IH]; intros c; cbn [repeat lower_all].
  - exists []. f_equal. f_equal. lia.
  - cbn [lower_gate]. unfold make_t, make_cnot, new_id. destruct (cfg_local cfg); cbn [bind].
    + destruct (IH (c + 1 + 1 + 1)%N) as [o E]. rewrite E. cbn [bind]. eexists. do 2 f_equal. lia.
    + destruct (IH (c + 1)%N) as [o E]. rewrite E. cbn [bind]. eexists. do 2 f_equal. lia.
Qed.
Lemma N_as_nat (x : N) : exists n, N.of_nat n = x.
Proof. exists (N.to_nat x). apply N2Nat.id. Qed.
Theorem C11_wrap_refuted : exists gs out c', let cfg := mkCfg false CorrNever (lit "q") in
  in_register 1 gs /\ lowers cfg gs 1 (Ok (out, c')) /\ In 0%N (core_qubits_from_qreg 1) /\ In 0%N (made_by out).
Proof.
  destruct (N_as_nat (2 ^ 32)) as [n En]. set (cfg := mkCfg false CorrNever (lit "q")).
  destruct (lower_T_repeat cfg n 1) as [out E]. rewrite En in E. exists (repeat (GBasic 0 GT) n), out. eexists.
  assert (G : in_register 1 (repeat (GBasic 0 GT) n)).
  { unfold in_register. apply Forall_forall. intros g Hg. apply repeat_spec in Hg. subst g. repeat constructor. }
  split; [exact G|]. split; [apply lowers_iff; exact E|]. split; [left; reflexivity|].
  destruct (lower_all_R 1 cfg _ _ _ _ G E) as (_ & M & _). apply (Permutation_in _ (Permutation_sym M)).
  apply in_or_app. right. refine (proj2 (id_range_In _ _ _) _). exists (2 ^ 32)%N. split; [|reflexivity].
  cbn [cfg_local cfg]. lia.
Qed.
Print Assumptions C11_wrap_refuted.
(** Starting the counter for a program read as LLI text is undefined for every
    set of declared qubits. *)
Theorem C11_lli_start_refuted : forall core, lli_id_start core = UB UBDeref.
Proof.
  intros core. unfold lli_id_start. cbn [Nat.max]. now rewrite (proj2 (nth_error_None core (length core)) (le_n _)).
Qed.
Print Assumptions C11_lli_start_refuted.

Definition ex_cfg := mkCfg false CorrNever (lit "q").
Definition ex_circuit := [GBasic 0 GT; GControlled 0 (SBasic 1 GX) ControlFirst DedicatedCell; GBasic 1 GS; GControlled 1 (SBasic 0 GZ) BellBased DedicatedCell].
Example C11_ex : exists out, reads (edpc_next ex_cfg [0; 1]%N) (mkIS [] tt (mkLS [] ex_circuit)) 2 (Ok (out, 8%N)) /\
  made_by out = [2; 3; 4; 5; 6; 7]%N.
Proof. eexists. split; [split; [discriminate|exists 40; vm_compute; reflexivity]|reflexivity]. Qed.

(** ** C13 (partial for the same reasons as C11) *)
Theorem C13_helper_lives_partial : forall cfg core gs c out c',
  Forall (fun q => (q < c)%N) core -> in_register c gs -> compiles cfg core gs c (Ok (out, c')) -> (c' <= 2 ^ 32)%N ->
  forall h, In h (made_by out) -> lives h (history h out).
Proof.
  intros cfg core gs c out c' Hc Hg H Hl h Hh. pose proof (C11_ids_are_the_counter _ _ _ _ _ _ Hc Hg H) as P.
  apply (Permutation_in _ P) in Hh. destruct (compiles_R _ _ _ _ _ _ Hc Hg H) as (_ & _ & _ & _ & V).
  apply V; auto; [lia|apply Forall_nil].
Qed.
Print Assumptions C13_helper_lives_partial.
(** and nothing but declared qubits and helpers is ever touched *)
Theorem C13_only_helpers_partial : forall cfg core gs c out c',
  Forall (fun q => (q < c)%N) core -> in_register c gs -> compiles cfg core gs c (Ok (out, c')) -> (c' <= 2 ^ 32)%N ->
  forall i h, In i out -> In h (ids_of i) -> (h < c)%N \/ In h (made_by out).
Proof.
  intros cfg core gs c out c' Hc Hg H Hl i h Hi Hh. pose proof (C11_ids_are_the_counter _ _ _ _ _ _ Hc Hg H) as P.
  destruct (compiles_R _ _ _ _ _ _ Hc Hg H) as (_ & _ & O & _).
  assert (X : over (fun h => (h < c)%N \/ In h (made_by out)) out).
  { apply O; [apply Forall_nil|auto|]. intros x Hx. right. now apply (Permutation_in _ (Permutation_sym P)). }
  unfold over in X. rewrite Forall_forall in X. specialize (X _ Hi). rewrite Forall_forall in X. auto.
Qed.
Print Assumptions C13_only_helpers_partial.
Example C13_ex : exists out, reads (catalytic_next ex_cfg [0; 1]%N) (mkIS [] tt (mkLS [] ex_circuit)) 2 (Ok (out, 12%N)) /\
  length (history 3 out) = 10 /\ length (history 2 out) = 3 /\ length (history 10 out) = 1.
Proof. eexists. split; [split; [discriminate|exists 60; vm_compute; reflexivity]|vm_compute; auto]. Qed.

(** ** C14 *)
Theorem C14_in_order : forall cfg gs1 gs2 c,
  (forall o1 c1 r, lowers cfg gs1 c (Ok (o1, c1)) -> lowers cfg gs2 c1 r ->
     lowers cfg (gs1 ++ gs2) c (match r with Ok (o2, c2) => Ok (o1 ++ o2, c2) | x => x end)) /\
  (forall e, lowers cfg gs1 c (Throw e) -> lowers cfg (gs1 ++ gs2) c (Throw e)).
Proof.
  intros cfg gs1 gs2 c. split.
  - intros o1 c1 r H1 H2. apply lowers_iff in H1, H2. apply lowers_iff. rewrite lower_all_app, H1. cbn [bind]. rewrite H2.
    destruct r as [[? ?]| | |]; reflexivity.
  - intros e H. apply lowers_iff in H. apply lowers_iff. now rewrite lower_all_app, H.
Qed.
Print Assumptions C14_in_order.
Theorem C14_every_circuit_has_one_result : forall cfg gs c, exists r, lowers cfg gs c r /\ forall r', lowers cfg gs c r' -> r' = r.
Proof.
  intros cfg gs c. exists (lower_all cfg c gs). split; [now apply lowers_iff|]. intros r' H. apply lowers_iff in H. auto.
Qed.
Print Assumptions C14_every_circuit_has_one_result.
Theorem C14_frame : forall cfg g c o c', lowers cfg [g] c (Ok (o, c')) ->
  (c <= c')%N /\ o <> [] /\
  (forall i p, In i o -> In p (ids_of i) -> In p (gate_qubits g) \/ In p (id_range c c')) /\
  (forall i p, In i o -> In p (made i) -> In p (id_range c c')).
Proof.
  intros cfg g c o c' H. apply lowers_iff in H. cbn [lower_all] in H.
  apply bind_ok in H. destruct H as ([l c1] & E & H). cbn [bind] in H. inversion H; subst. rewrite app_nil_r. clear H.
  destruct (lower_gate_spec _ _ _ _ _ (fun p => In p (gate_qubits g) \/ In p (id_range c c')) E) as (L & M & O).
  split; [exact L|]. split; [eapply lower_gate_nonempty; eauto|]. split.
  - intros i p Hi Hp. assert (X : over (fun p => In p (gate_qubits g) \/ In p (id_range c c')) l).
    { apply O; auto. apply Forall_forall. auto. }
    unfold over in X. rewrite Forall_forall in X. specialize (X _ Hi). rewrite Forall_forall in X. auto.
  - intros i p Hi Hp. rewrite <- M. unfold made_by. apply in_concat. exists (made i). split; [now apply in_map|exact Hp].
Qed.
Print Assumptions C14_frame.
(** Every qubit of the gate takes part. *)
Theorem C14_all_qubits : forall cfg g c o c' q, lowers cfg [g] c (Ok (o, c')) -> In q (gate_qubits g) ->
  exists i, In i o /\ In q (operating_patches i).
Proof.
  intros cfg g c o c' q H Hq. apply lowers_iff in H. cbn [lower_all] in H.
  apply bind_ok in H. destruct H as ([l c1] & E & H). cbn [bind] in H. inversion H; subst. rewrite app_nil_r. clear H.
  assert (Cn : forall local c ctl t ct pl corr l c', make_cnot local c ctl t ct pl corr = Ok (l, c') ->
     forall q, q = ctl \/ q = t -> exists i, In i l /\ In q (operating_patches i)).
  { clear. intros local c ctl t ct pl corr l c' H q Hq. unfold make_cnot, new_id in H.
    destruct ct, local, corr; try discriminate; injection H as <- <-;
      (eexists; split; [left; reflexivity|]; unfold operating_patches; cbn [op clients]; rewrite ?oset_insert_In, ids2_In; tauto). }
  assert (Ct : forall local c t d l c', make_t local c t d = Ok (l, c') -> exists i, In i l /\ In t (operating_patches i)).
  { clear. intros local c t d l c' H. unfold make_t, new_id in H. destruct local.
    - apply bind_ok in H. destruct H as ([cn c2] & E & H). injection H as <- <-.
      eexists; split; [left; reflexivity|]. unfold operating_patches. cbn [op clients]. rewrite oset_insert_In. cbn. auto.
    - injection H as <- <-. eexists; split; [left; reflexivity|]. unfold operating_patches. cbn [op clients]. rewrite oset_insert_In. cbn. auto. }
  destruct g as [t b|t f|ctl tg ct pl|r t]; cbn [lower_gate gate_qubits] in *.
  - destruct Hq as [<-|[]]. destruct b; try (injection E as <- <-; eexists; split; [left; reflexivity|now left]); eapply Ct; eauto.
  - destruct Hq as [<-|[]]. repeat match type of E with context[if ?b then _ else _] => destruct b end; try discriminate;
      try (injection E as <- <-; eexists; split; [left; reflexivity|now left]); eapply Ct; eauto.
  - destruct tg as [t b|]; [|discriminate].
    assert (Hq' : q = ctl \/ q = t) by (destruct Hq as [?|[?|[]]]; auto).
    destruct b; try discriminate; [eapply Cn; eauto|].
    apply bind_ok in E. destruct E as ([cn c2] & E & H). injection H as <- <-.
    destruct (Cn _ _ _ _ _ _ _ _ _ E q Hq') as (i & Hi & Hp). exists i. split; [right; apply in_or_app; now left|exact Hp].
  - destruct Hq as [<-|[]]. destruct text_eqb; [|discriminate]. injection E as <- <-. eexists; split; [left; reflexivity|now left].
Qed.
Print Assumptions C14_all_qubits.
(** Single qubit Clifford gates become the operation of the same name. *)
Theorem C14_single_qubit_gates : forall cfg t c,
  Forall (fun p => lowers cfg [GBasic t (fst p)] c (Ok ([instr_of (SingleOp t (fst (snd p)) (snd (snd p)))], c)))
    [(GX, (SqX, false)); (GY, (SqY, false)); (GZ, (SqZ, false)); (GH, (SqH, false)); (GS, (SqS, false)); (GSDg, (SqS, true))].
Proof. intros cfg t c. repeat (apply Forall_cons; [apply lowers_iff; reflexivity|]). apply Forall_nil. Qed.
Print Assumptions C14_single_qubit_gates.
Theorem C14_supported : forall cfg gs c,
  (exists o c', lowers cfg gs c (Ok (o, c'))) <-> Forall (supported cfg) gs.
Proof.
  intros cfg gs c. transitivity (exists o c', lower_all cfg c gs = Ok (o, c')).
  { split; intros (o & c' & H); exists o, c'; now apply lowers_iff. }
  revert c. induction gs as [|g gs IH]; intros c; cbn [lower_all].
  - split; [auto|]. intros _. eauto.
  - split.
    + intros (o & c' & H). apply bind_ok in H. destruct H as ([l c1] & E & H). apply bind_ok in H. destruct H as ([o2 c2] & E2 & H).
      constructor; [apply (supported_lowers cfg g c); eauto|]. apply (IH c1). eauto.
    + intros H. inversion H; subst. apply (supported_lowers cfg g c) in H2. destruct H2 as (l & c1 & ->). cbn [bind].
      apply (IH c1) in H3. destruct H3 as (o2 & c2 & ->). cbn [bind]. eauto.
Qed.
Print Assumptions C14_supported.
(** Every circuit of supported gates compiles in each pipeline, with no failure
    or undefined behaviour. *)
Theorem C14_pipelines_total : forall cfg core gs c m, Forall (supported cfg) gs ->
  (exists o c', reads (compact_next cfg core) (mkIS [] tt (mkIS [] m (mkLS [] gs))) c (Ok (o, c'))) /\
  (exists o c', reads (edpc_next cfg core) (mkIS [] tt (mkLS [] gs)) c (Ok (o, c'))) /\
  (exists o c', reads (catalytic_next cfg core) (mkIS [] tt (mkLS [] gs)) c (Ok (o, c'))).
Proof.
  intros cfg core gs c m H. pose proof (lower_gate_free cfg) as F. split; [|split].
  - eapply (inject2_total free_mpm); eauto using boundary_total, teleport_total.
  - eapply (inject_total free_mpm); eauto using teleport_total.
  - eapply (inject_total free_mpm); eauto using catalytic_total.
Qed.
Print Assumptions C14_pipelines_total.
Example C14_ex : lowers ex_cfg [GControlled 0 (SBasic 1 GZ) TargetFirst NextToTarget] 2 (Ok (
  [sq 1 SqH; mkI (Init 2 StPlus (Some (mkPNT 1 PX))) SIZE_MAX [0; 1]%N;
   instr_of (MultiMeasure [(2, PX); (1, PX)]%N false None); instr_of (MultiMeasure [(0, PZ); (2, PZ)]%N false None);
   instr_of (Measure 2 PX false); sq 1 SqH], 3%N)) /\ Forall (supported ex_cfg) ex_circuit.
Proof. split; [apply lowers_iff; reflexivity|]. repeat constructor; cbn; auto; discriminate. Qed.

(** ** C15 *)
Definition s_pass (e : expander unit) : Prop :=
  exists core ar, e = teleport_expand core ar \/ exists loc, e = catalytic_expand loc core ar.

Theorem C15_no_S_left : forall {Src} (src : next_fn Src) core ar loc s c out c',
  reads (inject_next (teleport_expand core ar) src) (mkIS [] tt s) c (Ok (out, c')) \/
  reads (inject_next (catalytic_expand loc core ar) src) (mkIS [] tt s) c (Ok (out, c')) ->
  Forall (fun i => ~ is_S_on core i) out.
Proof.
  intros Src src core ar loc s c out c' [[_ [f H]]|[_ [f H]]].
  - eapply inject_Forall; [| |exact H]; [|apply Forall_nil]. intros *; apply teleport_no_S.
  - eapply inject_Forall; [| |exact H]; [|apply Forall_nil]. intros *; apply catalytic_no_S.
Qed.
Print Assumptions C15_no_S_left.

(** The output is the concatenation of what the pass makes of each source
    instruction on its own. *)
Theorem C15_in_order : forall {Src} (src : next_fn Src) core ar loc e s c out c',
  e = teleport_expand core ar \/ e = catalytic_expand loc core ar ->
  reads (inject_next e src) (mkIS [] tt s) c (Ok (out, c')) ->
  exists l segs, pulled src s c l /\ out = concat segs /\
    Forall2 (fun i seg => exists k k', alone e i k seg k') l segs.
Proof.
  intros Src src core ar loc e s c out c' He [_ [f H]].
  assert (Hne : forall m c i o m' c', e m c i = Ok (o, m', c') -> o <> [])
    by (destruct He as [->| ->]; [apply teleport_nonempty|apply catalytic_nonempty]).
  assert (Hnf : forall m c i, e m c i <> Fuel).
  { intros [] c0 i. destruct He as [->| ->].
    - destruct (teleport_no_fail core ar tt c0 i) as (o & k & ->). discriminate.
    - destruct (catalytic_no_fail loc core ar tt c0 i) as (o & k & ->). discriminate. }
  apply (inject_pulled e src (fun i seg => exists k k', alone e i k seg k')) in H.
  - destruct H as (l & segs & Hp & -> & HF). exists l, segs. auto.
  - intros [] k i l [] k' E. split; [|exists k, k'; now apply alone_iff].
    destruct He as [->| ->]; [eapply teleport_mono; eauto|eapply catalytic_mono; eauto].
Qed.
Print Assumptions C15_in_order.

(** An instruction that is not an S on a declared qubit (nor, when rotations are
    wanted, a Hadamard on one) stays exactly as it is, and a Hadamard is followed
    by one rotation. *)
Theorem C15_others_unchanged : forall core ar loc e i k seg k',
  e = teleport_expand core ar \/ e = catalytic_expand loc core ar -> alone e i k seg k' ->
  (~ is_S_on core i -> (ar = true -> ~ is_H_on core i) -> seg = [i] /\ k' = k) /\
  (forall t d, ar = true -> op i = SingleOp t SqH d -> In t core -> seg = [i; instr_of (Rotate t)] /\ k' = k).
Proof.
  intros core ar loc e i k seg k' He H.
  assert (X : e tt k i = Ok (seg, tt, k')).
  { apply alone_iff; [| |exact H].
    - destruct He as [->| ->]; [apply teleport_nonempty|apply catalytic_nonempty].
    - intros [] c0 j. destruct He as [->| ->].
      + destruct (teleport_no_fail core ar tt c0 j) as (o & kk & ->). discriminate.
      + destruct (catalytic_no_fail loc core ar tt c0 j) as (o & kk & ->). discriminate. }
  split.
  - intros HS HH. assert (Y : e tt k i = Ok ([i], tt, k)) by (destruct He as [->| ->]; [now apply teleport_other|now apply catalytic_other]).
    rewrite X in Y. now inversion Y.
  - intros t d -> Eo Hin. assert (Y : e tt k i = Ok ([i; instr_of (Rotate t)], tt, k))
      by (destruct He as [->| ->]; [eapply teleport_H; eauto|eapply catalytic_H; eauto]).
    rewrite X in Y. now inversion Y.
Qed.
Print Assumptions C15_others_unchanged.

(** An S is replaced by something that touches that qubit and new patches only. *)
Theorem C15_replacement_frame : forall core ar loc e i k seg k' t d,
  e = teleport_expand core ar \/ e = catalytic_expand loc core ar -> alone e i k seg k' ->
  op i = SingleOp t SqS d -> In t core ->
  (k < k')%N /\ Forall (fun j => ~ is_S_on core j) seg /\ made_by seg = id_range k k' /\
  (forall j p, In j seg -> In p (ids_of j) -> p = t \/ In p (id_range k k')).
Proof.
  intros core ar loc e i k seg k' t d He H Eo Hin.
  assert (X : e tt k i = Ok (seg, tt, k')).
  { apply alone_iff; [| |exact H].
    - destruct He as [->| ->]; [apply teleport_nonempty|apply catalytic_nonempty].
    - intros [] c0 j. destruct He as [->| ->].
      + destruct (teleport_no_fail core ar tt c0 j) as (o & kk & ->). discriminate.
      + destruct (catalytic_no_fail loc core ar tt c0 j) as (o & kk & ->). discriminate. }
  clear H. apply memN_In in Hin.
  assert (Ov : forall P : N -> Prop, over P seg -> forall j p, In j seg -> In p (ids_of j) -> P p).
  { intros P O j p Hj Hp. unfold over in O. rewrite Forall_forall in O. specialize (O _ Hj). rewrite Forall_forall in O. auto. }
  destruct He as [->| ->].
  - pose proof (teleport_no_S _ _ _ _ _ _ _ _ X) as NS. unfold teleport_expand, new_id in X. rewrite Eo, Hin in X.
    apply ok3_inj in X. destruct X as (<- & _ & <-). split; [lia|]. split; [exact NS|]. rewrite id_range_1. split; [reflexivity|].
    apply Ov. unfold over. repeat (apply Forall_cons; [first [apply over_mpm|unfold ids_of; cbn [clients op instr_of sq app]; repeat apply Forall_cons]; cbn; auto|]). apply Forall_nil.
  - pose proof (catalytic_no_S _ _ _ _ _ _ _ _ _ X) as NS. unfold catalytic_expand, new_id in X. rewrite Eo, Hin in X.
    apply bind_ok in X. destruct X as ([l1 c2] & E1 & X). apply bind_ok in X. destruct X as ([l2 c3] & E2 & X).
    apply ok3_inj in X. destruct X as (Es & _ & <-).
    pose proof (make_cnot_spec _ _ _ _ _ _ _ _ _ (fun x => x = t \/ In x (id_range k c3)) E1) as (L1 & M1 & O1).
    pose proof (make_cnot_spec _ _ _ _ _ _ _ _ _ (fun x => x = t \/ In x (id_range k c3)) E2) as (L2 & M2 & O2).
    assert (RR : id_range k c3 = (k mod 2 ^ 32)%N :: id_range (k + 1) c2 ++ id_range c2 c3).
    { rewrite (id_range_app k (k + 1) c3), (id_range_app (k + 1) c2 c3), id_range_1 by lia. reflexivity. }
    assert (Hy : In (k mod 2 ^ 32)%N (id_range k c3)) by (rewrite RR; now left).
    split; [lia|]. split; [exact NS|]. subst seg. split.
    + rewrite made_by_cons, !made_by_app, M1, M2, RR. cbn. now rewrite app_nil_r.
    + apply Ov. apply Forall_cons; [unfold ids_of; cbn; repeat (apply Forall_cons; auto)|]. apply over_app. split.
      { apply O1; auto. intros x Hx. right. rewrite RR. right. apply in_or_app. now left. }
      apply over_app. split; [repeat (apply Forall_cons; [unfold ids_of; cbn; repeat (apply Forall_cons; auto)|]); apply Forall_nil|].
      apply over_app. split.
      { apply O2; auto. intros x Hx. right. rewrite RR. right. apply in_or_app. now right. }
      repeat (apply Forall_cons; [unfold ids_of; cbn; repeat (apply Forall_cons; auto)|]); apply Forall_nil.
Qed.
Print Assumptions C15_replacement_frame.
Example C15_ex : exists out, reads (inject_next (teleport_expand [0]%N true) list_next)
     (mkIS [] tt [sq 0 SqS; sq 7 SqS; sq 0 SqH]) 5 (Ok (out, 6%N)) /\ length out = 7 /\
  is_S_on [0]%N (sq 0 SqS) /\ ~ is_S_on [0]%N (sq 7 SqS) /\ In (sq 7 SqS) out.
Proof.
  eexists. split; [split; [discriminate|exists 20; vm_compute; reflexivity]|]. split; [reflexivity|].
  split; [exists 0%N, false; split; [reflexivity|now left]|]. split; [|cbn; tauto].
  intros (t & d & E & [<-|[]]). discriminate.
Qed.

(** ** C17 *)

(** Partial: measured operators are X or Z, CNOTs join different patches, the
    source has no rotations of its own, and at the start every tracked patch has
    at least one operator exposed. *)
Theorem C17_reachable_partial : forall l m c out c', one_side m -> Forall (rotatable m) l ->
  reads (inject_next boundary_expand list_next) (mkIS [] m l) c (Ok (out, c')) ->
  all_reachable (phys_of m) out /\
  exists segs, out = concat segs /\
    Forall2 (fun i seg => exists pre, seg = pre ++ [i] /\
       Forall (fun j => exists q, j = instr_of (Rotate q) /\ alookup m q <> None) pre) l segs.
Proof.
  intros l m c out c' O Hl H.
  assert (Hne : forall m c i o m' c', boundary_expand m c i = Ok (o, m', c') -> o <> []).
  { clear. intros m c i o m' c' H. unfold boundary_expand in H.
    assert (K : forall pre (m0 : emap), Ok (pre ++ [i], m0, c) = Ok (o, m', c') -> o <> []).
    { intros pre m0 E. apply ok3_inj in E. destruct E as (<- & _). destruct pre; discriminate. }
    destruct (op i) as [| |obs neg loc| | | | |t sop d|q| |ctl tgt s1 s2 r1 r2 r3 r4|]; try exact (K [] m H).
    - apply bind_ok in H. destruct H as ([lr mr] & _ & H). exact (K _ _ H).
    - destruct sop; try exact (K [] _ H).
      + destruct (alookup m t); exact (K [] _ H).
      + destruct (expose m t PZ). exact (K _ _ H).
    - destruct (expose m ctl PZ), (expose e tgt PX). rewrite app_assoc in H. exact (K _ _ H). }
  assert (Hnf : forall m c i, boundary_expand m c i <> Fuel).
  { clear. intros m c i. unfold boundary_expand. destruct (op i) as [| |obs neg loc| | | | |t sop d|q| |ctl tgt s1 s2 r1 r2 r3 r4|]; try discriminate.
    - assert (F : forall ps st, foldM (fun acc q => let '(l, m) := acc in
           match alookup m q with
           | None => Ok (l, m)
           | Some _ => match alookup obs q with
                       | None => Throw OutOfRange
                       | Some p => let '(l', m') := expose m q p in Ok (l ++ l', m')
                       end
           end) ps st <> Fuel).
      { induction ps as [|q ps IH]; intros [l0 m0]; cbn [foldM]; [discriminate|].
        destruct (alookup m0 q); cbn [bind]; [|apply IH]. destruct (alookup obs q); cbn [bind]; [|discriminate].
        destruct (expose m0 q p). cbn [bind]. apply IH. }
      specialize (F (operating_patches i) ([], m)). destruct (foldM _ _ _) as [[? ?]| | |]; cbn [bind]; congruence.
    - destruct sop; try discriminate; [destruct (alookup m t); discriminate|]. destruct (expose m t PZ); discriminate.
    - destruct (expose m ctl PZ), (expose e tgt PX). discriminate. }
  destruct (inject_list_drain boundary_expand l [] m c Hne Hnf) as [f0 H0].
  assert (R2 : reads (inject_next boundary_expand list_next) (mkIS [] m l) c (prepend [] (do (o, m', c') <- expand_all boundary_expand m c l ;; Ok (o, c')))).
  { split; [|exists f0; now apply H0]. destruct H as [_ [f H]].
    pose proof (H0 (Nat.max f f0) ltac:(lia)) as E. rewrite (drain_mono _ _ _ _ _ H ltac:(discriminate) (Nat.max f f0)) in E by lia.
    rewrite <- E. discriminate. }
  pose proof (reads_fun _ _ _ _ _ H R2) as E. destruct (expand_all boundary_expand m c l) as [[[o m'] c1]| | |] eqn:Ex; cbn in E; try discriminate.
  injection E as -> ->. apply (boundary_all _ _ (phys_of m)) in Ex; [|now apply agrees_init|exact Hl].
  destruct Ex as (_ & _ & _ & L & segs & -> & F). split; [exact L|]. exists segs. split; [reflexivity|exact F].
Qed.
Print Assumptions C17_reachable_partial.

(** In the compact pipeline, whatever the circuit, every operator measured on a
    tracked patch is exposed when it is measured. *)
Theorem C17_compact_pipeline : forall cfg core gs c m out c',
  one_side m -> keys_below c m -> (c' <= 2 ^ 32)%N -> in_register c gs -> Forall distinct_ends gs ->
  reads (compact_next cfg core) (mkIS [] tt (mkIS [] m (mkLS [] gs))) c (Ok (out, c')) ->
  all_reachable (phys_of m) out.
Proof.
  intros cfg core gs c m out c' O K Hc Hg Hd [_ [f H]]. apply fuse in H. destruct H as (o & [] & c1 & f' & E & H).
  cbn in E. injection E as <- <-. cbn [app] in H. apply inject_lower_ok in H.
  destruct H as (o & m1 & c1 & o2 & m2 & E1 & E2 & ->). cbn in E1. injection E1 as <- <- <-. cbn [app].
  eapply (compact_reachable c core cfg gs m); eauto; [now apply agrees_init|lia].
Qed.
Print Assumptions C17_compact_pipeline.

(** A patch with no exposed side, a Y measurement, a rotation in the source, a
    CNOT from a patch to itself: not reachable. *)
Definition C17_fails (m : emap) (l : list instr) : Prop := exists out,
  reads (inject_next boundary_expand list_next) (mkIS [] m l) 9 (Ok (out, 9%N)) /\ ~ all_reachable (phys_of m) out.
Theorem C17_no_side_refuted : C17_fails [(0%N, mkEx false false)] [mpm [(0, PX); (1, PX)]%N].
Proof.
  eexists. split; [split; [discriminate|exists 9; vm_compute; reflexivity]|]. cbn. intros (_ & H & _).
  inversion H as [|? ? H1 _]. cbn in H1. discriminate.
Qed.
Print Assumptions C17_no_side_refuted.
Theorem C17_Y_measurement_refuted : C17_fails [(0%N, mkEx true false)] [mpm [(0, PY); (1, PX)]%N].
Proof.
  eexists. split; [split; [discriminate|exists 9; vm_compute; reflexivity]|]. cbn. intros (_ & H & _).
  inversion H as [|? ? H1 _]. cbn in H1. contradiction.
Qed.
Print Assumptions C17_Y_measurement_refuted.
Theorem C17_source_rotation_refuted : C17_fails [(0%N, mkEx true false)] [instr_of (Rotate 0); mpm [(0, PX); (1, PX)]%N].
Proof.
  eexists. split; [split; [discriminate|exists 9; vm_compute; reflexivity]|]. cbn. intros (_ & H & _).
  inversion H as [|? ? H1 _]. cbn in H1. discriminate.
Qed.
Print Assumptions C17_source_rotation_refuted.
Theorem C17_self_cnot_refuted : C17_fails [(0%N, mkEx true false)] [instr_of (BellCNOT 0 0 1 2 None None None None)].
Proof.
  eexists. split; [split; [discriminate|exists 9; vm_compute; reflexivity]|]. cbn. intros (_ & _ & H & _).
  inversion H as [|? ? H1 _]. cbn in H1. discriminate.
Qed.
Print Assumptions C17_self_cnot_refuted.
(** A measurement on behalf of a tracked client that is not measured itself makes
    the pass throw. *)
Theorem C17_client_refuted : 
  reads (inject_next boundary_expand list_next) 
    (mkIS [] [(5%N, mkEx true false)] [mkI (MultiMeasure [(0, PX); (1, PX)]%N false None) SIZE_MAX [5%N]]) 9 (Throw OutOfRange).
Proof. split; [discriminate|exists 5; vm_compute; reflexivity]. Qed.
Print Assumptions C17_client_refuted.
Example C17_ex : exists out, reads (compact_next ex_cfg [0; 1]%N)
    (mkIS [] tt (mkIS [] [(0%N, mkEx true false); (1%N, mkEx true false)] (mkLS [] ex_circuit))) 2 (Ok (out, 8%N)) /\
  (length (filter (fun i => match op i with Rotate _ => true | _ => false end) out) = 2) /\ Forall distinct_ends ex_circuit.
Proof.
  eexists. split; [split; [discriminate|exists 60; vm_compute; reflexivity]|]. split; [reflexivity|].
  repeat constructor; cbn; lia.
Qed.

(** ** C51: ill-formed circuits are not rejected *)
Definition C51_file : text := lit "qreg q[1];" ++ [newline] ++ lit "t q[0];" ++ [newline] ++ lit "x q[1];".
(** [x q[1]] is accepted although the register has one qubit, and acts on the
    magic state of the preceding T gate. *)
Theorem C51_outside_register_refuted : exists gs out,
  read_gate_file DedicatedCell C51_file = Ok (gs, Some (lit "q", 1%N)) /\
  ~ in_register 1 gs /\
  lowers ex_cfg gs (qasm_id_start 1) (Ok (out, 2%N)) /\
  In 1%N (made_by out) /\ In (sq 1 SqX) out /\ ~ lives 1 (history 1 out).
Proof.
  eexists. eexists. split; [vm_compute; reflexivity|]. split.
  { intros H. apply Forall_inv_tail in H. apply Forall_inv in H. apply Forall_inv in H. lia. }
  split; [apply lowers_iff; vm_compute; reflexivity|]. split; [now left|]. split; [cbn; tauto|].
  intros [(cr & us & fin & E & _ & F & _)|(i & c & t & a & b & r1 & r2 & r3 & r4 & E & _)]; [|discriminate].
  cbn in E. injection E as _ E. destruct us as [|u1 [|u2 [|u3 us]]]; cbn in E; try discriminate.
  - injection E as _ _ E. subst fin. destruct F.
  - destruct us; discriminate.
Qed.
Print Assumptions C51_outside_register_refuted.
Definition C51_file2 : text := lit "qreg q[1];" ++ [newline] ++ lit "cx q[0],q[0];".
Theorem C51_self_control_refuted : exists gs out,
  read_gate_file DedicatedCell C51_file2 = Ok (gs, Some (lit "q", 1%N)) /\
  ~ Forall distinct_ends gs /\ lowers ex_cfg gs (qasm_id_start 1) (Ok (out, 2%N)).
Proof.
  eexists. eexists. split; [vm_compute; reflexivity|]. split; [|apply lowers_iff; vm_compute; reflexivity].
  intros H. inversion H. cbn in *. congruence.
Qed.
Print Assumptions C51_self_control_refuted.

(** ** C52: rotations lowered without synthesis *)
(** Only a quarter, a half or a whole turn by pi is lowered directly, and without
    the sign flag to the gate of that name. *)
Theorem C52_direct_rotations_partial : forall cfg t f c, fr_neg f = false ->
  (forall r, lowers cfg [GRZ t f] c (Ok r) ->
     exists b, In (fr_num f, fr_den f, b) [(1, 1, GZ); (1, 2, GS); (1, 4, GT)]%Z /\ lowers cfg [GBasic t b] c (Ok r)) /\
  (forall b, In (fr_num f, fr_den f, b) [(1, 1, GZ); (1, 2, GS); (1, 4, GT)]%Z ->
     exists r, lowers cfg [GRZ t f] c (Ok r)).
Proof.
  intros cfg t f c _. split.
  - intros r H. apply lowers_iff in H. cbn [lower_all lower_gate] in H.
    destruct (Z.eqb_spec (fr_num f) 1) as [->|?]; [|discriminate]. cbn [andb] in H.
    destruct (Z.eqb_spec (fr_den f) 1) as [->|?]; [exists GZ; split; [now left|now apply lowers_iff]|].
    destruct (Z.eqb_spec (fr_den f) 2) as [->|?]; [exists GS; split; [now (right; left)|now apply lowers_iff]|].
    destruct (Z.eqb_spec (fr_den f) 4) as [->|?]; [exists GT; split; [now (right; right; left)|now apply lowers_iff]|discriminate].
  - intros b H. destruct f as [n d s]. cbn [fr_num fr_den] in H.
    assert (X : exists r, lower_all cfg c [GRZ t (mkFrac n d s)] = Ok r).
    { destruct H as [E|[E|[E|[]]]]; inversion E; subst; cbn [lower_all lower_gate fr_num fr_den Z.eqb Pos.eqb andb bind]; eauto.
      destruct (lower_T_repeat cfg 1 c) as [o _]. unfold make_t, make_cnot, new_id. destruct (cfg_local cfg); cbn [bind]; eauto. }
    destruct X as [r X]. exists r. now apply lowers_iff.
Qed.
Print Assumptions C52_direct_rotations_partial.
(** The sign flag is ignored: a rotation by -pi/2 becomes S, by -pi/4 becomes T. *)
Theorem C52_sign_refuted : forall cfg t c,
  (forall n d r, lowers cfg [GRZ t (mkFrac n d true)] c r <-> lowers cfg [GRZ t (mkFrac n d false)] c r) /\
  exists r, lowers cfg [GRZ t (mkFrac 1 2 true)] c (Ok r) /\ ~ lowers cfg [GBasic t GSDg] c (Ok r).
Proof.
  intros cfg t c. split; [intros n d r; split; intros H; apply lowers_iff; apply lowers_iff in H; exact H|].
  eexists. split; [apply lowers_iff; reflexivity|]. intros H. apply lowers_iff in H. discriminate.
Qed.
Print Assumptions C52_sign_refuted.
