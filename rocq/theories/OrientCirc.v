(** The patches that a compiled circuit makes, gives up or measures are all helpers of its own. *)
From Verif Require Import Base TextModel PatchesModel InstrModel InstrSpec InstrProofs GatesModel LoweringModel LoweringSpec LoweringProofs LoweringProps.
From Verif Require Import ApplyModel RunModel CircuitProps OrientSpec.
Open Scope nat_scope.

Definition claimed (o : operation) : list N :=
  match o with
  | Measure t _ _ | Init t _ _ | MagicRequest t _ | YRequest t _ _ => [t]
  | BellInit a b _ _ _ _ | BellCNOT _ _ a b _ _ _ _ => [a; b]
  | _ => []
  end.
(** All of them were given by the counter, from [lo] on and up to [k]. *)
Definition given (lo k : N) (h : N) : Prop := exists n, (lo <= n < k)%N /\ h = (n mod 2 ^ 32)%N.
Definition own (lo k : N) (i : instr) : Prop := Forall (given lo k) (claimed (op i)).
Lemma own_more : forall lo k k' i, (k <= k')%N -> own lo k i -> own lo k' i.
Proof. intros lo k k' i L. apply Forall_impl. intros h (n & A & B). exists n. split; [lia|exact B]. Qed.
Lemma own_all : forall lo k k' l, (k <= k')%N -> Forall (own lo k) l -> Forall (own lo k') l.
Proof. intros lo k k' l L. apply Forall_impl. intros i. now apply own_more. Qed.

Section Counted.
Variable lo : N.
Context {S : Type} (next : next_fn S) (I : N -> S -> Prop).
Definition counted : Prop := forall st c i st' c', (lo <= c)%N -> I c st -> next st c = Ok (Some (i, st', c')) -> (c <= c')%N /\ own lo c' i /\ I c' st'.
Lemma drain_counted : counted -> forall f st c out c', (lo <= c)%N -> I c st -> drain next f st c = Ok (out, c') -> (c <= c')%N /\ Forall (own lo c') out.
Proof.
  intros Y f. induction f as [|f IH]; intros st c out c' L H E; [discriminate|]. cbn [drain] in E. destruct (next st c) as [r| | |] eqn:N; try discriminate. cbn [bind] in E.
  destruct r as [[[i st'] c1]|]; [|injection E as <- <-; split; [lia|constructor]]. destruct (Y _ _ _ _ _ L H N) as (A & Pi & I').
  destruct (drain next f st' c1) as [[l c2]| | |] eqn:D; try discriminate. injection E as <- <-. apply IH in D; [|lia|exact I']. destruct D as [B D].
  split; [lia|]. constructor; [eapply own_more; eauto|exact D].
Qed.
Lemma inject_counted : forall M (ex : expander M), counted -> (forall c c' st, (c <= c')%N -> I c st -> I c' st) ->
  (forall m c i l m' c', (lo <= c)%N -> own lo c i -> ex m c i = Ok (l, m', c') -> (c <= c')%N /\ Forall (own lo c') l) ->
  forall st c i st' c', (lo <= c)%N -> Forall (own lo c) (is_queue st) /\ I c (is_src st) -> inject_next ex next st c = Ok (Some (i, st', c')) ->
  (c <= c')%N /\ own lo c' i /\ Forall (own lo c') (is_queue st') /\ I c' (is_src st').
Proof.
  intros M ex Y Mo X [q m s] c i st' c' L [Hq Hs] E. unfold inject_next in E. cbn [is_queue is_mem is_src] in *. destruct q as [|j q].
  - destruct (next s c) as [r| | |] eqn:N; try discriminate. cbn [bind] in E. destruct r as [[[k s'] c1]|]; [|discriminate]. destruct (Y _ _ _ _ _ L Hs N) as (A & Pk & I').
    destruct (ex m c1 k) as [[[l m'] c2]| | |] eqn:Ex; try discriminate. cbn [bind] in E. destruct l as [|j l]; [discriminate|]. injection E as <- <- <-.
    destruct (X _ _ _ _ _ _ (N.le_trans _ _ _ L A) Pk Ex) as [B F]. inversion F; subst. cbn [is_queue is_src]. split; [lia|]. repeat split; eauto.
  - injection E as <- <- <-. inversion Hq; subst. cbn [is_queue is_src]. split; [lia|auto].
Qed.
End Counted.

Ltac give := match goal with |- given ?lo _ (?n mod _)%N => exists n; split; [lia|reflexivity] end.
Ltac all_own := repeat first [apply Forall_nil | apply Forall_cons; [solve [assumption | unfold own; cbn [claimed op instr_of sq mpm]; repeat constructor; give]|] | (apply Forall_app; split)]; auto.

Lemma make_cnot_own : forall lo local c a b ct pl corr l c', (lo <= c)%N -> make_cnot local c a b ct pl corr = Ok (l, c') -> (c <= c')%N /\ Forall (own lo c') l.
Proof.
  intros lo local c a b ct pl corr l c' L H. unfold make_cnot, new_id in H.
  destruct ct, local, corr; try discriminate; cbn [app] in H; injection H as <- <-; (split; [lia|]); cbn [app]; all_own.
Qed.
Lemma make_t_own : forall lo local c t d l c', (lo <= c)%N -> make_t local c t d = Ok (l, c') -> (c <= c')%N /\ Forall (own lo c') l.
Proof.
  intros lo local c t d l c' L H. unfold make_t, new_id in H. destruct local.
  - inv H as [cn c2] Hx. injection H as <- <-. apply (make_cnot_own lo) in Hx; [|lia]. destruct Hx as [A Hx]. split; [lia|]. all_own.
  - injection H as <- <-. split; [lia|]. all_own.
Qed.
Lemma lower_gate_own : forall lo cfg c g l c', (lo <= c)%N -> lower_gate cfg c g = Ok (l, c') -> (c <= c')%N /\ Forall (own lo c') l.
Proof.
  intros lo cfg c g l c' L H. destruct g as [t b|t f|ctl tg ct pl|r t]; cbn [lower_gate] in H.
  - destruct b; try (injection H as <- <-; split; [lia|all_own]); eapply make_t_own; eauto.
  - repeat match type of H with (if ?b then _ else _) = _ => destruct b end; try discriminate; try (injection H as <- <-; split; [lia|all_own]). eapply make_t_own; eauto.
  - destruct tg as [t b|]; [destruct b|]; try discriminate; [eapply make_cnot_own; eauto|].
    inv H as [cn c2] Hx. injection H as <- <-. apply (make_cnot_own lo) in Hx; [|lia]. destruct Hx as [A Hx]. split; [lia|]. all_own.
  - destruct (text_eqb r (cfg_qreg cfg)); [|discriminate]. injection H as <- <-. split; [lia|all_own].
Qed.
Definition lq lo (c : N) (st : lower_state) : Prop := Forall (own lo c) (ls_queue st).
Lemma lower_counted : forall lo cfg, counted lo (lower_next cfg) (lq lo).
Proof.
  intros lo cfg [q gs] c i st' c' L Hq E. unfold lower_next in E. unfold lq in *. cbn [ls_queue ls_gates] in *. destruct q as [|j q].
  - destruct gs as [|g gs]; [discriminate|]. inv E as [l c1] Hg. apply (lower_gate_own lo) in Hg; [|exact L]. destruct Hg as [A Hg]. destruct l as [|j l]; [discriminate|]. injection E as <- <- <-. inversion Hg; subst. auto.
  - injection E as <- <- <-. inversion Hq; subst. split; [lia|auto].
Qed.
Lemma teleport_own : forall lo core al (m : unit) c i l m' c', (lo <= c)%N -> own lo c i -> teleport_expand core al m c i = Ok (l, m', c') -> (c <= c')%N /\ Forall (own lo c') l.
Proof.
  intros lo core al m c i l m' c' L Hi E. unfold teleport_expand, new_id in E.
  destruct (op i) as [| | | | | | |t o d| | | |]; try (injection E as <- _ <-; split; [lia|all_own]).
  destruct o; try (injection E as <- _ <-; split; [lia|all_own]).
  - destruct (al && memN t core); injection E as <- _ <-; (split; [lia|all_own]).
  - destruct (memN t core); injection E as <- _ <-; (split; [lia|all_own]).
Qed.
Lemma catalytic_own : forall lo local core al (m : unit) c i l m' c', (lo <= c)%N -> own lo c i -> catalytic_expand local core al m c i = Ok (l, m', c') -> (c <= c')%N /\ Forall (own lo c') l.
Proof.
  intros lo local core al m c i l m' c' L Hi E. unfold catalytic_expand, new_id in E.
  destruct (op i) as [| | | | | | |t o d| | | |]; try (injection E as <- _ <-; split; [lia|all_own]).
  destruct o; try (injection E as <- _ <-; split; [lia|all_own]).
  - destruct (al && memN t core); injection E as <- _ <-; (split; [lia|all_own]).
  - destruct (memN t core); [|injection E as <- _ <-; split; [lia|all_own]].
    inv E as [l1 c2] E1. inv E as [l2 c3] E2. injection E as <- _ <-. apply (make_cnot_own lo) in E1; [|lia]. destruct E1 as [A1 E1]. apply (make_cnot_own lo) in E2; [|lia]. destruct E2 as [A2 E2].
    split; [lia|]. apply (own_all _ _ c3) in E1; [|lia]. all_own.
Qed.
Lemma expose_own : forall lo c m q p, Forall (own lo c) (fst (expose m q p)).
Proof. intros. unfold expose. destruct (alookup m q) as [e|]; [destruct (is_exposed e p)|]; cbn [fst]; all_own. Qed.
Lemma boundary_own : forall lo m c i l m' c', (lo <= c)%N -> own lo c i -> boundary_expand m c i = Ok (l, m', c') -> (c <= c')%N /\ Forall (own lo c') l.
Proof.
  intros lo m c i l m' c' L Hi E. unfold boundary_expand in E. destruct (op i) as [| |obs ? ?| | | | |t o d| | |ct tg a b r cs se ph|]; try (injection E as <- _ <-; split; [lia|all_own]).
  - inv E as [l0 m0] F. injection E as <- _ <-. split; [lia|]. apply Forall_app. split; [|all_own]. clear Hi.
    revert F. assert (G : Forall (own lo c) (fst ([] : list instr, m))) by constructor. revert G. generalize ([] : list instr, m). generalize (operating_patches i).
    induction l as [|q l IH]; intros [a0 m1] G F; cbn [foldM] in F; [injection F as <- _; exact G|]. destruct (alookup m1 q) as [x|]; cbn [bind] in F; [|eapply IH; eauto].
    destruct (alookup obs q) as [p|]; [|discriminate]. pose proof (expose_own lo c m1 q p) as X. destruct (expose m1 q p) as [l' m2]. cbn [bind fst] in *.
    eapply IH; [|exact F]. apply Forall_app. auto.
  - destruct o; try (injection E as <- _ <-; split; [lia|all_own]).
    + destruct (alookup m t); injection E as <- _ <-; (split; [lia|all_own]).
    + pose proof (expose_own lo c m t PZ) as X. destruct (expose m t PZ) as [l0 m0]. injection E as <- _ <-. split; [lia|all_own].
  - pose proof (expose_own lo c m ct PZ) as X. destruct (expose m ct PZ) as [l1 m1]. pose proof (expose_own lo c m1 tg PX) as Y. destruct (expose m1 tg PX) as [l2 m2].
    injection E as <- _ <-. split; [lia|all_own].
Qed.

Lemma compiles_own : forall cfg core gs c out c', compiles cfg core gs c (Ok (out, c')) -> Forall (own c c') out.
Proof.
  intros cfg core gs c out c' H. pose proof (lower_counted c cfg) as Lw.
  assert (Mo : forall k k' st, (k <= k')%N -> lq c k st -> lq c k' st) by (intros k k' st Lk; unfold lq; now apply own_all).
  pose (J := fun (k : N) (st : inject_state lower_state unit) => Forall (own c k) (is_queue st) /\ lq c k (is_src st)).
  inversion H as [r [_ [f X]]|m r K [_ [f X]]|r [_ [f X]]|r [_ [f X]]]; subst.
  - apply (drain_counted c _ _ Lw) in X; [apply X|lia|constructor].
  - pose (J1 := fun (k : N) (st : inject_state lower_state emap) => Forall (own c k) (is_queue st) /\ lq c k (is_src st)).
    pose (J2 := fun (k : N) (st : inject_state (inject_state lower_state emap) unit) => Forall (own c k) (is_queue st) /\ J1 k (is_src st)).
    unfold compact_next in X. apply (drain_counted c _ J2) in X; [apply X| |lia|cbn; repeat split; constructor].
    intros st k i st' k' Lk Hi E. eapply (inject_counted c _ J1) in E; eauto using teleport_own.
    + intros s0 k0 i0 s1 k1 L0 H0 E0. eapply (inject_counted c _ (lq c)) in E0; eauto using boundary_own.
    + intros k0 k1 s0 L0 [A B]. split; [eapply own_all; eauto|eapply Mo; eauto].
  - unfold edpc_next in X. apply (drain_counted c _ J) in X; [apply X| |lia|cbn; repeat split; constructor].
    intros st k i st' k' Lk Hi E. eapply (inject_counted c _ (lq c)) in E; eauto using teleport_own.
  - unfold catalytic_next in X. apply (drain_counted c _ J) in X; [apply X| |lia|cbn; repeat split; constructor].
    intros st k i st' k' Lk Hi E. eapply (inject_counted c _ (lq c)) in E; eauto using catalytic_own.
Qed.

(** A compiled circuit leaves the qubits of the circuit be. *)
Lemma compiles_leaves : forall cfg core gs c out c' q, compiles cfg core gs c (Ok (out, c')) -> (c' <= 2 ^ 32)%N -> (q < c)%N ->
  Forall (fun i => leaves_be q (op i)) out.
Proof.
  intros cfg core gs c out c' q H Hl Hq. pose proof (compiles_own _ _ _ _ _ _ H) as O. pose proof (compiles_plain_all _ _ _ _ _ _ H) as Pl.
  apply Forall_forall. intros i Hi. rewrite Forall_forall in O, Pl. specialize (O i Hi). destruct (Pl i Hi) as [P _].
  assert (G : forall h, given c c' h -> h <> q). { intros h (n & A & ->). rewrite N.mod_small by lia. lia. }
  unfold own in O. destruct (op i); cbn [claimed leaves_be] in *; auto;
    repeat match goal with X : Forall _ (_ :: _) |- _ => inversion X; subst; clear X end; auto; try contradiction.
  - destruct P as [_ ->]. auto.
  - destruct P as (_ & -> & _). auto.
Qed.
