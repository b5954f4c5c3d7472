(** C67: a circuit with T gates does to the amplitudes of every state what the circuit says, if the right S corrections are
    carried out; which these are cannot be told from the instructions. *)
From Verif Require Import Base PatchesModel InstrModel GatesModel LoweringModel LoweringSpec LoweringProofs LoweringProps AmpSpec AmpProofs AmpPass.
Open Scope nat_scope.

(** Every circuit with X, Y, Z, H, S, T, their inverses, RZ, CNOT and CZ: there is a rule, which S to carry out after
    which outcomes, that makes the instructions do to every state what the gates say, whatever the outcomes, up to Pauli
    operators known from them. *)
Lemma realizes_right : forall M c out gs, realizes M c out (computes M gs) -> exists rule, right M c out gs rule.
Proof.
  intros M c out gs H. destruct (H 0 0 (fun _ => [])) as (rule & post & Bp & R); [intros s; apply Forall_nil|].
  exists rule. intros outs Ho. destruct (R [] outs eq_refl Ho) as (k & j & R1). exists (post outs), k, j. split; [apply Bp|]. intros psi Hp. exact (R1 psi Hp).
Qed.
Theorem C67_circuit : forall M cfg gs c out c',
  Forall (fine cfg) gs -> in_register c gs -> lowers cfg gs c (Ok (out, c')) -> (c' <= 2 ^ 32)%N ->
  exists rule, right M c out gs rule.
Proof.
  intros M cfg gs c out c' Hf Hq H Hc. apply lowers_iff in H. apply realizes_right. exact (circuit_ok M cfg c gs c out c' Hf Hq (N.le_refl c) Hc H).
Qed.
Print Assumptions C67_circuit.
(** So it is after the passes that rotate patches and teleport S gates. *)
Theorem C67_passes : forall M cfg core gs c out c' m,
  Forall (fine cfg) gs -> in_register c gs -> (c' <= 2 ^ 32)%N ->
  reads (compact_next cfg core) (mkIS [] tt (mkIS [] m (mkLS [] gs))) c (Ok (out, c')) \/ reads (edpc_next cfg core) (mkIS [] tt (mkLS [] gs)) c (Ok (out, c')) ->
  exists rule, right M c out gs rule.
Proof.
  intros M cfg core gs c out c' m Hf Hq Hc H. apply realizes_right. destruct H as [[_ [f H]]|[_ [f H]]].
  - apply fuse in H. destruct H as (o & m2' & c1 & f' & E & H). cbn in E. apply ok3_inj in E. destruct E as (<- & <- & <-). cbn [app] in H.
    apply inject_lower_ok in H. destruct H as (o & m1 & c1 & o2 & m2 & E1 & E2 & ->). cbn in E1. apply ok3_inj in E1. destruct E1 as (<- & <- & <-). cbn [app].
    refine (gates_pass M _ _ (comp_mild _ _ boundary_expand _ _ (teleport_mild core false)) cfg c gs _ c o2 m2 c' Hf Hq (N.le_refl c) Hc E2).
    intros x cc i l x' cc' He. destruct (boundary_mild _ _ _ _ _ _ He) as [X|(t & d & _ & Et & Ec)]; [exact X|]. apply boundary_counter in He. lia.
  - apply inject_lower_ok in H. destruct H as (o & m1 & c1 & o2 & m2 & E1 & E2 & ->). cbn in E1. apply ok3_inj in E1. destruct E1 as (<- & <- & <-). cbn [app].
    exact (gates_pass M _ _ (teleport_mild core true) cfg c gs _ c o2 m2 c' Hf Hq (N.le_refl c) Hc E2).
Qed.
Print Assumptions C67_passes.

(** *** The rule *)
Section Rule.
Variable M : amps.
Notation turns := (turns M).
Notation twice := (twice M).
Variable one : M.
Hypothesis lasting : forall j, twice j one <> zero.

Lemma turns_back : forall k a b, turns k a = turns k b -> a = b.
Proof.
  intros k a b H. assert (E : turns (7 * k) (turns k a) = turns (7 * k) (turns k b)) by now rewrite H.
  rewrite !turns_plus in E. replace (7 * k + k) with (8 * k + 0) in E by lia. now rewrite !turns_8n in E.
Qed.
Lemma unit_not_zero : forall k j, turns k (twice j one) <> zero.
Proof. intros k j H. rewrite <- (turns_zero M k) in H. apply turns_back in H. now apply (lasting j). Qed.
Lemma fixed : forall w m, turns m w = w -> m mod 4 <> 0 -> twice 1 w = zero.
Proof.
  intros w m H Hm. assert (H4 : turns 4 w = w).
  { assert (H2 : turns (2 * m) w = w) by (replace (2 * m) with (m + m) by lia; now rewrite <- turns_plus, !H).
    assert (H5 : turns (4 * m) w = w) by (replace (4 * m) with (2 * m + 2 * m) by lia; now rewrite <- turns_plus, !H2).
    rewrite (Nat.div_mod m 4) in H2, H5 by lia. pose proof (Nat.mod_upper_bound m 4 ltac:(lia)) as L. set (a := m / 4) in *.
    destruct (m mod 4) as [|[|[|[|?]]]]; [congruence| | | |lia].
    - rewrite <- H5 at 2. replace (4 * (4 * a + 1)) with (8 * (2 * a) + 4) by lia. now rewrite turns_8n.
    - rewrite <- H2 at 2. replace (2 * (4 * a + 2)) with (8 * a + 4) by lia. now rewrite turns_8n.
    - rewrite <- H5 at 2. replace (4 * (4 * a + 3)) with (8 * (2 * a + 1) + 4) by lia. now rewrite turns_8n. }
  change (twice 1 w) with (add w w). rewrite <- H4 at 2. apply minus.
Qed.
Lemma paulis_at : forall q F b, exists s b', b' q = xorb (b q) (odd_x q F) /\ forall u, paulis M F u b = turns (4 * s) (u b').
Proof.
  intros q F. induction F as [|[p x] F IH]; intros b.
  - exists 0, b. split; [now rewrite xorb_false_r|reflexivity].
  - destruct x.
    + destruct (IH (set_bit b p (negb (b p)))) as (s & b' & E & H). exists s, b'. split; [|intros u; exact (H u)]. rewrite E. cbn [odd_x]. rewrite andb_true_r. unfold set_bit. rewrite (N.eqb_sym q p).
      destruct (N.eqb_spec p q) as [->|]; destruct (b q), (odd_x q F); reflexivity.
    + destruct (IH b) as (s & b' & E & H). exists (s + if b p then 1 else 0), b'. split; [rewrite E; cbn [odd_x]; now rewrite andb_false_r, xorb_false_l|].
      intros u. cbn [paulis fold_right]. change (turns (if b p then 4 else 0) (paulis M F u b) = turns (4 * (s + if b p then 1 else 0)) (u b')). rewrite H, turns_plus. f_equal. destruct (b p); lia.
Qed.
(** Phases that agree up to a Pauli operator differ by a Z at most. *)
Lemma phases_differ : forall q c F e e' k j k' j', (q < c)%N ->
  (forall psi, lives M c psi -> forall b, turns k (twice j (phase M q e psi b)) = turns k' (twice j' (paulis M F (phase M q e' psi) b))) -> e mod 4 = e' mod 4.
Proof.
  intros q c F e e' k j k' j' Hq H.
  set (ket := fun (v : bool) (b : basis) => if Bool.eqb (b q) v then one else @zero M).
  assert (Lk : forall v, lives M c (ket v)) by (intros v b b' E; unfold ket; now rewrite (E q Hq)).
  set (b0 := fun _ : N => false). set (b1 := set_bit b0 q true).
  destruct (paulis_at q F b0) as (s0 & d0 & D0 & P0). destruct (paulis_at q F b1) as (s1 & d1 & D1 & P1).
  assert (B1 : b1 q = true) by apply bit_set. rewrite B1 in D1. change (b0 q) with false in D0.
  pose proof (H (ket false) (Lk false) b0) as H0. pose proof (H (ket true) (Lk true) b1) as H1. rewrite P0 in H0. rewrite P1 in H1. unfold phase, ket in H0, H1. rewrite B1, D1 in H1. change (b0 q) with false in H0. rewrite D0 in H0.
  destruct (odd_x q F); cbn [xorb Bool.eqb] in H0, H1.
  - exfalso. rewrite !turns_zero, twice_zero, turns_zero in H0. exact (unit_not_zero _ _ H0).
  - rewrite ?turns_0 in H0. rewrite !twice_turns, !turns_plus in H1. rewrite !twice_turns, turns_plus in H0.
    set (w := turns k (twice j one)) in *.
    assert (Ev : turns (4 * s0) w = turns k' (twice j' one)) by (rewrite H0, turns_plus; apply turns_mod; replace (4 * s0 + (k' + 4 * s0)) with (k' + s0 * 8) by lia; now apply Nat.mod_add).
    assert (Ew : turns e w = turns (4 * s1 + e' + 4 * s0) w).
    { rewrite <- (turns_plus M (4 * s1 + e')), Ev. unfold w. rewrite !turns_plus. rewrite (Nat.add_comm e k), H1. f_equal. lia. }
    assert (Ef : turns (4 * (s0 + s1) + (7 * e' + e)) w = w).
    { rewrite <- turns_plus, <- (turns_plus M (7 * e')), Ew, !turns_plus. rewrite <- (turns_0 M w) at 2. apply turns_mod. match goal with |- ?x mod 8 = _ => replace x with (0 + (s0 + s1 + e') * 8) by lia end. now apply Nat.mod_add. }
    destruct (Nat.eq_dec ((4 * (s0 + s1) + (7 * e' + e)) mod 4) 0) as [Z|Z].
    + apply Nat.mod_divide in Z; [|discriminate]. destruct Z as (t & Z). rewrite <- (Nat.mod_add e (2 * e') 4), <- (Nat.mod_add e' (t - (s0 + s1)) 4) by discriminate. f_equal. lia.
    + exfalso. pose proof (fixed w _ Ef Z) as Wz. unfold w in Wz. rewrite twice_turns, twice_plus in Wz. exact (unit_not_zero _ _ Wz).
Qed.

(** T gates *)
Lemma t_lowered : forall cfg q c out c', lowers cfg [GBasic q GT] c (Ok (out, c')) -> make_t (cfg_local cfg) c q false = Ok (out, c').
Proof.
  intros cfg q c out c' H. apply lowers_iff in H. cbn [lower_all lower_gate] in H. destruct (make_t (cfg_local cfg) c q false) as [[l c1]| | |]; cbn [bind] in H; try discriminate. now rewrite app_nil_r in H.
Qed.
(** What it means for a rule to be right about a T gate: the phase it leads to is that of the gate but for a Z. *)
Lemma t_phase : forall cfg q c out c' rule dg outs, (q < c)%N -> (c' <= 2 ^ 32)%N -> make_t (cfg_local cfg) c q false = Ok (out, c') ->
  right M c out [GBasic q (if dg : bool then GTDg else GT)] rule -> length outs = outcomes out ->
  gadget_phase (nth 0 outs false) (nth 1 outs false) (rule 3 outs) mod 4 = (if dg then 3 else 1).
Proof.
  intros cfg q c out c' rule dg outs Hq Hc H R Ho. destruct (gadget M _ _ c c q out c' Hq (N.le_refl c) Hc H) as (_ & G). destruct (G rule 0 [] outs Ho) as (k & G1). cbn [app] in G1.
  destruct (R outs Ho) as (F & k' & j' & _ & R1). set (e := gadget_phase _ _ _) in *.
  replace (if dg then 3 else 1) with ((if dg then 7 else 1) mod 4) by (destruct dg; reflexivity).
  apply (phases_differ q c F e _ k 0 k' j' Hq). intros psi Hp b. destruct (G1 psi Hp) as (v & O & S1). destruct (R1 psi Hp) as (v' & O' & S2). assert (v = v') by congruence. subst v'.
  specialize (S1 b). specialize (S2 b). rewrite S1 in S2. destruct dg; exact S2.
Qed.
End Rule.

(** The instructions for T and for its inverse are the same, so no rule is right about both: which of them the circuit
    has cannot be told from the instructions. *)
Theorem C67_dagger_refuted : forall M one cfg q c out c', (forall j, twice M j one <> zero) ->
  (q < c)%N -> (c' <= 2 ^ 32)%N -> lowers cfg [GBasic q GT] c (Ok (out, c')) ->
  lowers cfg [GBasic q GTDg] c (Ok (out, c')) /\ forall rule, right M c out [GBasic q GT] rule -> right M c out [GBasic q GTDg] rule -> False.
Proof.
  intros M one cfg q c out c' La Hq Hc H. apply t_lowered in H. split.
  - apply lowers_iff. cbn [lower_all lower_gate]. change (make_t (cfg_local cfg) c q true) with (make_t (cfg_local cfg) c q false). rewrite H. cbn [bind]. now rewrite app_nil_r.
  - intros rule R1 R2. set (outs := repeat false (outcomes out)). assert (Ho : length outs = outcomes out) by apply repeat_length.
    pose proof (t_phase M one La cfg q c out c' rule false outs Hq Hc H R1 Ho) as P1. pose proof (t_phase M one La cfg q c out c' rule true outs Hq Hc H R2 Ho) as P2. cbv beta iota in P1, P2. congruence.
Qed.
Print Assumptions C67_dagger_refuted.

(** The S after a T is not to be carried out always, nor never. *)
Theorem C67_always_refuted : forall M one cfg q c out c', (forall j, twice M j one <> zero) ->
  (q < c)%N -> (c' <= 2 ^ 32)%N -> lowers cfg [GBasic q GT] c (Ok (out, c')) ->
  forall yes, ~ right M c out [GBasic q GT] (fun _ _ => yes).
Proof.
  intros M one cfg q c out c' La Hq Hc H yes R. apply t_lowered in H.
  assert (P : forall outs, length outs = outcomes out -> gadget_phase (nth 0 outs false) (nth 1 outs false) yes mod 4 = 1) by (intros outs Ho; exact (t_phase M one La cfg q c out c' _ false outs Hq Hc H R Ho)).
  assert (Om : exists n, outcomes out = S n).
  { unfold make_t, new_id in H. destruct (cfg_local cfg); [cbn [make_cnot new_id bind] in H|]; apply ok_pair in H; destruct H as [<- _]; eexists; reflexivity. }
  destruct Om as (n & Om). assert (Hz : forall z, gadget_phase z (nth 0 (repeat false n) false) yes mod 4 = 1).
  { intros z. apply (P (z :: repeat false n)). cbn [length]. rewrite repeat_length. congruence. }
  assert (Nz : nth 0 (repeat false n) false = false) by (destruct n; reflexivity). rewrite Nz in Hz. pose proof (Hz true) as Ht. pose proof (Hz false) as Hf. destruct yes; discriminate.
Qed.
Print Assumptions C67_always_refuted.

(** Nor may the S come before the measurement that it waits for.  With Bell based CNOTs these two have no patch in common,
    so that nothing in the dependency graph keeps them in order; in the other order no rule is right. *)
Theorem C67_reordered_refuted : forall M one cfg q c out c', (forall j, twice M j one <> zero) ->
  (q < c)%N -> (c' <= 2 ^ 32)%N -> cfg_local cfg = true -> lowers cfg [GBasic q GT] c (Ok (out, c')) ->
  exists a b m s, out = [a; b; m; s] /\ measures (op m) = true /\ (forall p, In p (operating_patches m) -> In p (operating_patches s) -> False)
    /\ forall rule, ~ right M c [a; b; s; m] [GBasic q GT] rule.
Proof.
  intros M one cfg q c out c' La Hq Hc Lo H. apply t_lowered in H. rewrite Lo in H. unfold make_t, new_id in H. cbn [make_cnot new_id bind] in H. apply ok_pair in H. destruct H as [<- <-]. rewrite N.mod_small by lia.
  do 4 eexists. split; [reflexivity|]. split; [reflexivity|]. split; [cbn; intros p [<-|[]] [E|[]]; lia|]. intros rule R.
  assert (P : forall z : bool, ((if rule 2 [] then 2 else 0) + (if z then 7 else 1)) mod 4 = 1).
  { intros z. destruct (R [z] eq_refl) as (F & k & j & _ & R1). change 1 with (1 mod 4) at 3. apply (phases_differ M one La q c F _ 1 (if z then 1 else 0) 0 k j Hq).
    intros psi Hp b. destruct (R1 psi Hp) as (v & O & S1). specialize (S1 b). change (computes M [GBasic q GT] psi) with (phase M q 1 psi) in S1. rewrite <- S1. injection O as <-.
    assert (Hb : forall w, set_bit b c w q = b q) by (intros w; apply bit_other; lia).
    assert (E2 : forall v w, psi (set_bit (set_bit b c v) c w) = psi b) by (intros v w; apply Hp; intros y Hy; rewrite !bit_other by lia; reflexivity).
    change (twice M 0 ?x) with x. destruct (rule 2 []); unfold phase, cnot; rewrite ?bit_set, ?Hb, ?E2; rewrite !turns_plus; apply turns_mod; destruct z, (b q); reflexivity. }
  pose proof (P true) as Pt. pose proof (P false) as Pf. destruct (rule 2 []); discriminate.
Qed.
Print Assumptions C67_reordered_refuted.

(** *** An example: numbers a + b w + c w^2 + d w^3 with integers and w a square root of i *)
Definition zw : Type := Z * Z * Z * Z.
Definition zw_add (x y : zw) : zw := let '(a, b, c, d) := x in let '(a', b', c', d') := y in (a + a', b + b', c + c', d + d')%Z.
Definition zw_turn (x : zw) : zw := let '(a, b, c, d) := x in (- d, a, b, c)%Z.
Lemma four : forall a b c d a' b' c' d' : Z, a = a' -> b = b' -> c = c' -> d = d' -> (a, b, c, d) = (a', b', c', d').
Proof. intros. congruence. Qed.
Definition integers : amps.
Proof.
  refine (mkAmps zw (0, 0, 0, 0)%Z zw_add zw_turn _ _ _ _ _ _).
  - intros [[[a b] c] d] [[[a' b'] c'] d']. cbn. apply four; lia.
  - intros [[[a b] c] d] [[[a' b'] c'] d'] [[[a2 b2] c2] d2]. cbn. apply four; lia.
  - intros [[[a b] c] d]. cbn. apply four; lia.
  - intros [[[a b] c] d] [[[a' b'] c'] d']. cbn. apply four; lia.
  - reflexivity.
  - intros [[[a b] c] d]. cbn. apply four; lia.
Defined.
Lemma integers_last : forall j, twice integers j (1, 0, 0, 0)%Z <> zero.
Proof.
  assert (P : forall j, exists a, (0 < a)%Z /\ twice integers j (1, 0, 0, 0)%Z = (a, 0, 0, 0)%Z).
  { induction j as [|j (a & Ha & E)]; [exists 1%Z; split; [lia|reflexivity]|]. exists (a + a)%Z. split; [lia|].
    change (zw_add (twice integers j (1, 0, 0, 0)%Z) (twice integers j (1, 0, 0, 0)%Z) = (a + a, 0, 0, 0)%Z). rewrite E. reflexivity. }
  intros j H. destruct (P j) as (a & Ha & E). rewrite E in H. injection H. lia.
Qed.
Definition t_circuit : list gate := [GBasic 0 GH; GBasic 0 GT; GControlled 0 (SBasic 1 GX) BellBased DedicatedCell; GBasic 1 GTDg; GControlled 1 (SBasic 0 GZ) BellBased DedicatedCell; GBasic 0 GS].
Example C67_circuit_ex : exists out rule, lowers (mkCfg false CorrNever (lit "q")) t_circuit 2 (Ok (out, 8%N)) /\ outcomes out = 4 /\ right integers 2 out t_circuit rule
  /\ computes integers t_circuit (fun b => if b 0%N || b 1%N then zero else (1, 0, 0, 0)%Z) (fun _ => true) = (0, 0, -1, 0)%Z.
Proof.
  assert (F : Forall (fine (mkCfg false CorrNever (lit "q"))) t_circuit) by (repeat (apply Forall_cons || apply Forall_nil); cbn; repeat split; auto; discriminate).
  assert (Q : in_register 2 t_circuit) by (repeat (apply Forall_cons || apply Forall_nil); reflexivity).
  eexists. assert (L : lowers (mkCfg false CorrNever (lit "q")) t_circuit 2 (Ok (ltac:(let x := eval vm_compute in (lower_all (mkCfg false CorrNever (lit "q")) 2 t_circuit) in match x with Ok (?o, _) => exact o end), 8%N))) by (apply lowers_iff; vm_compute; reflexivity).
  destruct (C67_circuit integers _ _ _ _ _ F Q L) as (rule & R); [lia|]. exists rule. split; [exact L|]. split; [reflexivity|]. split; [exact R|]. vm_compute. reflexivity.
Qed.
Print Assumptions C67_circuit_ex.
Definition t_cfg (local : bool) : lower_cfg := mkCfg local CorrNever (lit "q").
Example C67_dagger_refuted_ex : forall local, exists out c', lowers (t_cfg local) [GBasic 0 GT] 1 (Ok (out, c')) /\ lowers (t_cfg local) [GBasic 0 GTDg] 1 (Ok (out, c'))
  /\ (exists rule, right integers 1 out [GBasic 0 GT] rule) /\ (exists rule, right integers 1 out [GBasic 0 GTDg] rule)
  /\ (forall rule, right integers 1 out [GBasic 0 GT] rule -> right integers 1 out [GBasic 0 GTDg] rule -> False)
  /\ forall yes, ~ right integers 1 out [GBasic 0 GT] (fun _ _ => yes).
Proof.
  intros local. assert (L : exists out c', lowers (t_cfg local) [GBasic 0 GT] 1 (Ok (out, c')) /\ (c' <= 2 ^ 32)%N).
  { destruct local; do 2 eexists; (split; [apply lowers_iff; reflexivity|lia]). }
  destruct L as (out & c' & L & Hc). exists out, c'. destruct (C67_dagger_refuted integers _ _ 0%N 1%N out c' integers_last ltac:(lia) Hc L) as (L' & No).
  split; [exact L|]. split; [exact L'|]. split; [|split; [|split; [exact No|]]].
  - apply (C67_circuit integers (t_cfg local) _ _ _ c'); [apply Forall_cons; [exact Logic.I|apply Forall_nil]|repeat (apply Forall_cons || apply Forall_nil); reflexivity|exact L|exact Hc].
  - apply (C67_circuit integers (t_cfg local) _ _ _ c'); [apply Forall_cons; [exact Logic.I|apply Forall_nil]|repeat (apply Forall_cons || apply Forall_nil); reflexivity|exact L'|exact Hc].
  - exact (C67_always_refuted integers _ _ 0%N 1%N out c' integers_last ltac:(lia) Hc L).
Qed.

Definition short_circuit : list gate := [GBasic 0 GH; GBasic 0 GT; GBasic 0 GS].
Example C67_passes_ex : exists out rule, reads (compact_next (t_cfg false) [0%N]) (mkIS [] tt (mkIS [] [(0%N, mkEx false true)] (mkLS [] short_circuit))) 1 (Ok (out, 4%N))
  /\ outcomes out = 6 /\ Exists (fun x => match op x with Rotate _ => True | _ => False end) out /\ right integers 1 out short_circuit rule.
Proof.
  set (st := mkIS [] tt (mkIS [] [(0%N, mkEx false true)] (mkLS [] short_circuit))).
  assert (D : exists out, drain (compact_next (t_cfg false) [0%N]) 20 st 1 = Ok (out, 4%N) /\ outcomes out = 6 /\ Exists (fun x => match op x with Rotate _ => True | _ => False end) out).
  { eexists. split; [vm_compute; reflexivity|]. split; [reflexivity|]. repeat first [solve [apply Exists_cons_hd; exact Logic.I]|apply Exists_cons_tl]. }
  destruct D as (out & D & Oc & Ex). assert (R : reads (compact_next (t_cfg false) [0%N]) st 1 (Ok (out, 4%N))) by (split; [discriminate|exists 20; exact D]).
  destruct (C67_passes integers (t_cfg false) [0%N] short_circuit 1%N out 4%N [(0%N, mkEx false true)]) as (rule & Ru).
  - repeat (apply Forall_cons; [exact Logic.I|]). apply Forall_nil.
  - repeat (apply Forall_cons || apply Forall_nil); reflexivity.
  - lia.
  - left. exact R.
  - exists out, rule. split; [exact R|]. split; [exact Oc|]. split; [exact Ex|exact Ru].
Qed.
