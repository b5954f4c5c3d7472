(** Lemmas on amplitudes *)
From Verif Require Import Base PatchesModel InstrModel GatesModel LoweringModel LoweringSpec LoweringProofs AmpSpec.
Open Scope nat_scope.

Arguments AmpSpec.turns : simpl never.
Arguments AmpSpec.twice : simpl never.

Lemma ok_pair : forall A B (a a' : A) (b b' : B), Ok (a, b) = Ok (a', b') -> a = a' /\ b = b'.
Proof. intros A B a a' b b' H. injection H. auto. Qed.

Section Amp.
Variable M : amps.
Notation state := (state M).
Notation turns := (turns M).
Notation twice := (twice M).

Lemma turns_plus : forall i j a, turns i (turns j a) = turns (i + j) a.
Proof. intros i j a. induction i as [|i IH]; [reflexivity|]. change (turn (turns i (turns j a)) = turn (turns (i + j) a)). now rewrite IH. Qed.
Lemma turns_add : forall i a b, turns i (add a b) = add (turns i a) (turns i b).
Proof. intros i a b. induction i as [|i IH]; [reflexivity|]. change (turn (turns i (add a b)) = add (turn (turns i a)) (turn (turns i b))). now rewrite IH, turn_add. Qed.
Lemma turns_zero : forall i, turns i zero = zero.
Proof. intros i. induction i as [|i IH]; [reflexivity|]. change (turn (turns i (@zero M)) = zero). now rewrite IH, turn_zero. Qed.
Lemma turns_8 : forall a, turns 8 a = a.
Proof.
  intros a. change (turns 8 a) with (turns 4 (turns 4 a)). set (m := turns 4 a).
  assert (E1 : add a m = zero) by apply turn_minus. assert (E2 : add m (turns 4 m) = zero) by apply turn_minus.
  rewrite <- (add_zero M (turns 4 m)), <- E1, (add_comm M a), add_assoc, (add_comm M (turns 4 m)), E2, add_comm. apply add_zero.
Qed.
Lemma turns_8n : forall n i a, turns (8 * n + i) a = turns i a.
Proof. induction n as [|n IH]; intros i a; [reflexivity|]. replace (8 * S n + i) with (8 + (8 * n + i)) by lia. now rewrite <- turns_plus, turns_8, IH. Qed.
Lemma turns_mod : forall i j a, i mod 8 = j mod 8 -> turns i a = turns j a.
Proof.
  intros i j a H. rewrite (Nat.div_mod i 8), (Nat.div_mod j 8) by lia. rewrite H, !turns_8n. reflexivity.
Qed.
Lemma twice_add : forall j a b, twice j (add a b) = add (twice j a) (twice j b).
Proof.
  intros j a b. induction j as [|j IH]; [reflexivity|]. change (add (twice j (add a b)) (twice j (add a b)) = add (add (twice j a) (twice j a)) (add (twice j b) (twice j b))). rewrite IH. rewrite <- !add_assoc. f_equal. rewrite !add_assoc. f_equal. apply add_comm.
Qed.
Lemma twice_turns : forall j i a, twice j (turns i a) = turns i (twice j a).
Proof. intros j i a. induction j as [|j IH]; [reflexivity|]. change (add (twice j (turns i a)) (twice j (turns i a)) = turns i (add (twice j a) (twice j a))). now rewrite IH, turns_add. Qed.
Lemma twice_plus : forall i j a, twice i (twice j a) = twice (i + j) a.
Proof. intros i j a. induction i as [|i IH]; [reflexivity|]. change (add (twice i (twice j a)) (twice i (twice j a)) = add (twice (i + j) a) (twice (i + j) a)). now rewrite IH. Qed.
Lemma twice_zero : forall j, twice j zero = zero.
Proof. intros j. induction j as [|j IH]; [reflexivity|]. change (add (twice j (@zero M)) (twice j zero) = zero). rewrite IH. apply add_zero. Qed.
Lemma minus : forall a, add a (turns 4 a) = zero.
Proof. intros a. apply turn_minus. Qed.
Lemma zero_add : forall a : M, add zero a = a.
Proof. intros a. rewrite add_comm. apply add_zero. Qed.

Lemma scaled_refl : forall u, scaled M 0 0 u u.
Proof. intros u b. reflexivity. Qed.
Lemma scaled_trans : forall k j k' j' u v w, scaled M k j u v -> scaled M k' j' v w -> scaled M (k + k') (j + j') u w.
Proof. intros k j k' j' u v w H1 H2 b. rewrite H1, H2, twice_turns, turns_plus, twice_plus. reflexivity. Qed.
(** What respects phase and length *)
Definition even_handed (f : state -> state) : Prop := forall k j u v, scaled M k j u v -> scaled M k j (f u) (f v).
Lemma sc_turns : forall k j i a, turns i (turns k (twice j a)) = turns k (twice j (turns i a)).
Proof. intros k j i a. rewrite twice_turns, !turns_plus. f_equal. lia. Qed.
Lemma phase_even : forall q i, even_handed (phase M q i).
Proof. intros q i k j u v H b. unfold phase. rewrite H. apply sc_turns. Qed.
Lemma flip_even : forall q, even_handed (flip M q).
Proof. intros q k j u v H b. unfold flip. apply H. Qed.
Lemma ygate_even : forall q, even_handed (ygate M q).
Proof. intros q k j u v H b. unfold ygate. rewrite H. apply sc_turns. Qed.
Lemma had_even : forall q, even_handed (had M q).
Proof. intros q k j u v H b. unfold had. rewrite !H, sc_turns, twice_add, turns_add. reflexivity. Qed.
Lemma cnot_even : forall c t, even_handed (cnot M c t).
Proof. intros c t k j u v H b. unfold cnot. apply H. Qed.
Lemma cz_even : forall c t, even_handed (cz M c t).
Proof. intros c t k j u v H b. unfold cz. rewrite H. apply sc_turns. Qed.
Lemma pauli_even : forall p, even_handed (pauli_op M p).
Proof. intros [q []]; [apply flip_even|apply phase_even]. Qed.
Lemma paulis_even : forall l, even_handed (paulis M l).
Proof. induction l as [|p l IH]; intros k j u v H; [exact H|]. cbn. apply pauli_even. now apply IH. Qed.
Lemma paulis_app : forall l l' u, paulis M (l ++ l') u = paulis M l (paulis M l' u).
Proof. intros l l' u. unfold paulis. apply fold_right_app. Qed.

(** Where states live *)
Lemma set_same : forall (b b' : basis) c q v, (forall x, (x < c)%N -> b x = b' x) -> forall x, (x < c)%N -> set_bit b q v x = set_bit b' q v x.
Proof. intros b b' c q v H x Hx. unfold set_bit. destruct (N.eqb x q); auto. Qed.
Lemma phase_lives : forall c q k u, (q < c)%N -> lives M c u -> lives M c (phase M q k u).
Proof. intros c q k u Hq H b b' E. unfold phase. now rewrite (E q Hq), (H b b' E). Qed.
Lemma flip_lives : forall c q u, (q < c)%N -> lives M c u -> lives M c (flip M q u).
Proof. intros c q u Hq H b b' E. unfold flip. apply H. rewrite (E q Hq). now apply set_same. Qed.
Lemma ygate_lives : forall c q u, (q < c)%N -> lives M c u -> lives M c (ygate M q u).
Proof. intros c q u Hq H b b' E. unfold ygate. rewrite (E q Hq). f_equal. apply H. now apply set_same. Qed.
Lemma had_lives : forall c q u, (q < c)%N -> lives M c u -> lives M c (had M q u).
Proof. intros c q u Hq H b b' E. unfold had. rewrite (E q Hq). f_equal; [|f_equal]; apply H; now apply set_same. Qed.
Lemma cnot_lives : forall c p q u, (p < c)%N -> (q < c)%N -> lives M c u -> lives M c (cnot M p q u).
Proof. intros c p q u Hp Hq H b b' E. unfold cnot. rewrite (E q Hq), (E p Hp). apply H. now apply set_same. Qed.
Lemma cz_lives : forall c p q u, (p < c)%N -> (q < c)%N -> lives M c u -> lives M c (cz M p q u).
Proof. intros c p q u Hp Hq H b b' E. unfold cz. now rewrite (E q Hq), (E p Hp), (H b b' E). Qed.
Definition below (c : N) (l : list (N * bool)) : Prop := Forall (fun p => (fst p < c)%N) l.
Lemma paulis_lives : forall c l u, below c l -> lives M c u -> lives M c (paulis M l u).
Proof.
  intros c l u H Hu. induction H as [|[q x] l Hq _ IH]; [exact Hu|]. cbn. unfold pauli_op. cbn [fst snd] in *. destruct x; [now apply flip_lives|now apply phase_lives].
Qed.

(** A Pauli operator through a gate *)
Definition through_h (q : N) (p : N * bool) : list (N * bool) := if N.eqb (fst p) q then [(q, negb (snd p))] else [p].
Definition through_s (q : N) (p : N * bool) : list (N * bool) := if N.eqb (fst p) q && snd p then [p; (q, false)] else [p].
Definition through_cnot (c t : N) (p : N * bool) : list (N * bool) :=
  if N.eqb (fst p) c && snd p then [(c, true); (t, true)] else if N.eqb (fst p) t && negb (snd p) then [(c, false); (t, false)] else [p].

(** [f] moves a Pauli operator to [g p], but for a phase *)
Definition moves (c : N) (f : state -> state) (g : N * bool -> list (N * bool)) : Prop :=
  forall p, (fst p < c)%N -> exists k, forall u, lives M c u -> scaled M k 0 (f (pauli_op M p u)) (paulis M (g p) (f u)).

Ltac bits := intros; unfold set_bit in *; repeat match goal with |- context [N.eqb ?a ?b] => destruct (N.eqb_spec a b) end; subst; try congruence; auto.
Ltac same Hu := apply Hu; intros ? _; bits.

Lemma turns_0 : forall a, turns 0 a = a. Proof. reflexivity. Qed.
Lemma by_turns : forall k u v, (forall b, u b = turns k (v b)) -> scaled M k 0 u v.
Proof. intros k u v H b. apply H. Qed.
Lemma by_same : forall u v, (forall b, u b = v b) -> scaled M 0 0 u v.
Proof. intros u v H b. apply H. Qed.
Lemma same_at : forall c u, lives M c u -> forall b b', (forall x, b x = b' x) -> u b = u b'.
Proof. intros c u H b b' E. apply H. auto. Qed.
Lemma set_set : forall (b : basis) q v w x, set_bit (set_bit b q v) q w x = set_bit b q w x.
Proof. bits. Qed.
Lemma set_comm : forall (b : basis) p q v w x, p <> q -> set_bit (set_bit b p v) q w x = set_bit (set_bit b q w) p v x.
Proof. bits. Qed.
Lemma bit_set : forall (b : basis) q v, set_bit b q v q = v.
Proof. bits. Qed.
Lemma bit_other : forall (b : basis) p q v, p <> q -> set_bit b q v p = b p.
Proof. bits. Qed.

(** Flips and phases *)
Lemma phase_flip : forall c q k, exists i, forall u, lives M c u -> scaled M i 0 (phase M q k (flip M q u)) (flip M q (phase M q (7 * k) u)).
Proof.
  intros c q k. exists k. intros u Hu. apply by_turns. intros b. unfold phase, flip. rewrite bit_set. destruct (b q); cbn [negb].
  - reflexivity.
  - rewrite turns_plus. replace (k + 7 * k) with (8 * k + 0) by lia. rewrite turns_8n. reflexivity.
Qed.
Lemma phase_flip_other : forall c p q k u, p <> q -> lives M c u -> scaled M 0 0 (phase M q k (flip M p u)) (flip M p (phase M q k u)).
Proof. intros c p q k u N Hu b. unfold phase, flip. now rewrite bit_other by auto. Qed.
Lemma phase_phase : forall p q i k u, scaled M 0 0 (phase M p i (phase M q k u)) (phase M q k (phase M p i u)).
Proof. intros p q i k u. apply by_turns. intros b. rewrite turns_0. unfold phase. rewrite !turns_plus. f_equal. lia. Qed.
Lemma phase_join : forall q i k u, scaled M 0 0 (phase M q i (phase M q k u)) (phase M q (i + k) u).
Proof. intros q i k u. apply by_turns. intros b. rewrite turns_0. unfold phase. destruct (b q); [apply turns_plus|reflexivity]. Qed.
Lemma phase_mod : forall q i k u, i mod 8 = k mod 8 -> scaled M 0 0 (phase M q i u) (phase M q k u).
Proof. intros q i k u E. apply by_turns. intros b. rewrite turns_0. unfold phase. destruct (b q); [|reflexivity]. now apply turns_mod. Qed.

Lemma s_moves : forall c q k, k = 2 \/ k = 6 -> moves c (phase M q k) (through_s q).
Proof.
  intros c q k Hk [p x] Hp. unfold through_s. cbn [fst snd] in *. destruct (N.eqb_spec p q) as [->|N].
  - destruct x; cbn [andb].
    + destruct (phase_flip c q k) as (i & H). exists i. intros u Hu. replace i with (i + 0) by lia. change 0 with (0 + 0) at 2. eapply scaled_trans; [apply H; exact Hu|].
      cbn. unfold pauli_op. cbn [fst snd]. apply flip_even. apply by_turns. intros b. rewrite turns_0. unfold phase. destruct (b q); [|reflexivity]. rewrite turns_plus. apply turns_mod. destruct Hk as [->| ->]; reflexivity.
    + exists 0. intros u Hu. apply phase_phase.
  - cbn [andb]. exists 0. intros u Hu. destruct x; [now apply (phase_flip_other c)|apply phase_phase].
Qed.
Lemma h_moves : forall c q, moves c (had M q) (through_h q).
Proof.
  intros c q [p x] Hp. unfold through_h. cbn [fst snd] in *. destruct (N.eqb_spec p q) as [->|N].
  - exists 0. intros u Hu. apply by_same. intros b. destruct x; cbn; unfold pauli_op; cbn [fst snd]; unfold had, phase, flip; rewrite !bit_set.
    + cbn [negb]. rewrite (same_at c u Hu (set_bit (set_bit b q false) q true) (set_bit b q true)) by apply set_set.
      rewrite (same_at c u Hu (set_bit (set_bit b q true) q false) (set_bit b q false)) by apply set_set.
      destruct (b q).
      * rewrite turns_add, turns_plus. cbn [Nat.add]. rewrite turns_8. apply add_comm.
      * apply add_comm.
    + rewrite (same_at c u Hu (set_bit (set_bit b q (negb (b q))) q false) (set_bit b q false)) by apply set_set.
      rewrite (same_at c u Hu (set_bit (set_bit b q (negb (b q))) q true) (set_bit b q true)) by apply set_set. f_equal.
      rewrite turns_plus. destruct (b q); cbn [negb Nat.add]; [now rewrite turns_8|reflexivity].
  - exists 0. intros u Hu. apply by_same. intros b. destruct x; cbn; unfold pauli_op; cbn [fst snd]; unfold had, phase, flip.
    + rewrite !bit_other by auto. f_equal; [|f_equal]; apply (same_at c u Hu); intros y; apply set_comm; auto.
    + rewrite !bit_other by auto. rewrite turns_add. f_equal. rewrite !turns_plus. f_equal. lia.
Qed.
Ltac brute b := unfold set_bit; repeat (match goal with |- context [N.eqb ?x ?y] => destruct (N.eqb_spec x y); subst; try congruence end);
  repeat match goal with |- context [b ?x] => destruct (b x) end; try reflexivity.
Lemma cnot_moves : forall c p q, p <> q -> moves c (cnot M p q) (through_cnot p q).
Proof.
  intros c p q Npq [r x] Hr. unfold through_cnot. cbn [fst snd] in *. exists 0. intros u Hu. apply by_same. intros b. destruct x; cbn [negb andb].
  - rewrite !andb_true_r, !andb_false_r. destruct (N.eqb_spec r p) as [->|N1]; cbn; unfold pauli_op; cbn [fst snd]; unfold cnot, flip; apply (same_at c u Hu); intros y; brute b.
  - rewrite !andb_true_r, !andb_false_r. destruct (N.eqb_spec r q) as [->|N1].
    + cbn. unfold pauli_op. cbn [fst snd]. unfold cnot, phase. rewrite bit_set, turns_plus. apply turns_mod. destruct (b p), (b q); reflexivity.
    + cbn. unfold pauli_op. cbn [fst snd]. unfold cnot, phase. now rewrite bit_other by auto.
Qed.
Lemma flip_moves : forall c q, moves c (flip M q) (fun p => [p]).
Proof.
  intros c q [p x] Hp. cbn [fst] in Hp. destruct (N.eqb_spec p q) as [->|N].
  - exists (if x then 0 else 4). intros u Hu. apply by_turns. intros b. destruct x; cbn; unfold pauli_op; cbn [fst snd]; [reflexivity|]. unfold flip, phase. rewrite bit_set.
    destruct (b q); cbn [negb]; [now rewrite turns_plus, turns_8|reflexivity].
  - exists 0. intros u Hu. apply by_same. intros b. destruct x; cbn; unfold pauli_op; cbn [fst snd]; unfold flip, phase; rewrite !bit_other by auto; [|reflexivity].
    apply (same_at c u Hu). intros y. apply set_comm. auto.
Qed.
Lemma y_moves : forall c q, moves c (ygate M q) (fun p => [p]).
Proof.
  intros c q [p x] Hp. cbn [fst] in Hp. destruct (N.eqb_spec p q) as [->|N].
  - exists 4. intros u Hu. apply by_turns. intros b. destruct x; cbn; unfold pauli_op; cbn [fst snd]; unfold ygate, flip, phase; rewrite !bit_set.
    + rewrite turns_plus. apply turns_mod. destruct (b q); reflexivity.
    + rewrite !turns_plus. apply turns_mod. destruct (b q); reflexivity.
  - exists 0. intros u Hu. apply by_same. intros b. destruct x; cbn; unfold pauli_op; cbn [fst snd]; unfold ygate, flip, phase; rewrite !bit_other by auto.
    + f_equal. apply (same_at c u Hu). intros y. apply set_comm. auto.
    + rewrite !turns_plus. f_equal. lia.
Qed.
Lemma z_moves : forall c q, moves c (phase M q 4) (fun p => [p]).
Proof.
  intros c q [p x] Hp. cbn [fst] in Hp. destruct (N.eqb_spec p q) as [->|N]; [destruct x|].
  - exists 4. intros u Hu. apply by_turns. intros b. cbn. unfold pauli_op; cbn [fst snd]. unfold phase, flip. rewrite bit_set. rewrite turns_plus. apply turns_mod. destruct (b q); reflexivity.
  - exists 0. intros u Hu. apply phase_phase.
  - exists 0. intros u Hu. destruct x; [now apply (phase_flip_other c)|apply phase_phase].
Qed.

(** A list of Pauli operators through a gate *)
Definition frame := list (N * bool).
Definition pushes (c : N) (f : state -> state) (G : frame -> frame) : Prop :=
  forall F, below c F -> below c (G F) /\ exists k, forall u, lives M c u -> scaled M k 0 (f (paulis M F u)) (paulis M (G F) (f u)).
Definition keeps (c : N) (f : state -> state) : Prop := forall u, lives M c u -> lives M c (f u).
Lemma moves_pushes : forall c f g, even_handed f -> moves c f g -> (forall p, (fst p < c)%N -> below c (g p)) -> pushes c f (flat_map g).
Proof.
  intros c f g Ev Mv Bg F HF. split; [clear Ev Mv|].
  - induction HF as [|p F Hp _ IH]; [apply Forall_nil|]. cbn [flat_map]. apply Forall_app. split; [now apply Bg|exact IH].
  - induction HF as [|p F Hp HF IH]; [exists 0; intros u _; apply scaled_refl|]. destruct IH as (k & IH). destruct (Mv p Hp) as (k' & H). exists (k' + k). intros u Hu.
    cbn [flat_map]. rewrite paulis_app. change 0 with (0 + 0) at 1. eapply scaled_trans.
    + cbn [paulis fold_right]. apply H. now apply paulis_lives.
    + apply paulis_even. now apply IH.
Qed.
Lemma pushes_comp : forall c f f' G G', even_handed f' -> keeps c f -> pushes c f G -> pushes c f' G' -> pushes c (fun u => f' (f u)) (fun F => G' (G F)).
Proof.
  intros c f f' G G' Ev Kp P P' F HF. destruct (P F HF) as (B & k & H). destruct (P' (G F) B) as (B' & k' & H'). split; [exact B'|]. exists (k + k'). intros u Hu.
  change 0 with (0 + 0) at 1. eapply scaled_trans; [apply Ev, H, Hu|]. apply H'. now apply Kp.
Qed.

Lemma add4 : forall a b c d : M, add (add a b) (add c d) = add (add a c) (add b d).
Proof. intros a b c d. rewrite <- !add_assoc. f_equal. rewrite !add_assoc. f_equal. apply add_comm. Qed.
(** The other gates of a circuit: a CZ as Hadamards around a CNOT *)
Lemma cz_made : forall c p q, p <> q -> forall u, lives M c u -> scaled M 0 1 (had M q (cnot M p q (had M q u))) (cz M p q u).
Proof.
  intros c p q Npq u Hu b. unfold had, cnot, cz. rewrite !bit_set. rewrite !(bit_other b p q) by exact Npq.
  assert (E : forall v w, u (set_bit (set_bit (set_bit b q v) q w) q false) = u (set_bit b q false) /\ u (set_bit (set_bit (set_bit b q v) q w) q true) = u (set_bit b q true)).
  { intros v w. split; apply (same_at c u Hu); intros y; unfold set_bit; destruct (N.eqb y q); reflexivity. }
  rewrite !(proj1 (E _ _)), !(proj2 (E _ _)). rewrite turns_0. change (twice 1 ?x) with (add x x).
  set (u0 := u (set_bit b q false)). set (u1 := u (set_bit b q true)).
  assert (Ub : u b = if b q then u1 else u0) by (unfold u0, u1; destruct (b q) eqn:Eq; apply (same_at c u Hu); intros y; unfold set_bit; destruct (N.eqb_spec y q); congruence).
  rewrite Ub. destruct (b p), (b q); cbn [xorb andb]; rewrite ?turns_0, ?turns_add, ?turns_plus; cbn [Nat.add]; rewrite ?turns_8, ?turns_0.
  - rewrite add4, minus, zero_add. reflexivity.
  - rewrite add4, (add_comm M _ u1), minus, add_zero. reflexivity.
  - rewrite add4, minus, zero_add. reflexivity.
  - rewrite add4, minus, add_zero. reflexivity.
Qed.

(** T and the gadget for it *)
Fixpoint odd_x (q : N) (F : frame) : bool :=
  match F with [] => false | (p, x) :: F => xorb (N.eqb p q && x) (odd_x q F) end.
Lemma phase_paulis : forall c q F, below c F -> forall e, exists k, forall u, lives M c u ->
  scaled M k 0 (phase M q e (paulis M F u)) (paulis M F (phase M q (if odd_x q F then 7 * e else e) u)).
Proof.
  intros c q F HF. induction HF as [|[p x] F Hp HF IH]; intros e; [exists 0; intros u _; apply scaled_refl|]. cbn [odd_x paulis fold_right]. cbn [fst] in Hp.
  destruct (N.eqb p q && x) eqn:Ep.
  - apply andb_prop in Ep. destruct Ep as [Ep ->]. apply N.eqb_eq in Ep. subst p. destruct (phase_flip c q e) as (i & H). destruct (IH (7 * e)) as (k & IH'). exists (i + (k + 0)). intros u Hu.
    change 0 with (0 + (0 + 0)) at 2. eapply scaled_trans; [apply H; now apply paulis_lives|]. unfold pauli_op at 1. cbn [fst snd]. apply flip_even. eapply scaled_trans; [apply IH', Hu|]. apply paulis_even. apply phase_mod.
    cbn [xorb]. destruct (odd_x q F); [|reflexivity]. replace (7 * (7 * e)) with (e + (6 * e) * 8) by lia. apply Nat.mod_add. discriminate.
  - rewrite xorb_false_l. destruct (IH e) as (k & IH'). exists (0 + k). intros u Hu. change 0 with (0 + 0) at 2.
    eapply scaled_trans with (v := pauli_op M (p, x) (phase M q e (paulis M F u))).
    + unfold pauli_op at 1 2. cbn [fst snd]. destruct x; [|apply phase_phase]. apply (phase_flip_other c); [|now apply paulis_lives]. rewrite andb_true_r in Ep. now apply N.eqb_neq.
    + apply pauli_even. now apply IH'.
Qed.

(** The gadget: a phase of [q] that depends on the outcomes *)
Definition gadget_phase (z x yes : bool) : nat := (if z then 7 else 1) + (if x then 4 else 0) + (if yes then 2 else 0).
Lemma gadget : forall local d c r q l c', (q < r)%N -> (r <= c)%N -> (c' <= 2 ^ 32)%N -> make_t local c q d = Ok (l, c') ->
  length l = 4 /\ forall rule i seen outs, length outs = outcomes l -> exists k, forall u, lives M r u -> exists u', obeys M rule i seen outs l u = Some u'
    /\ scaled M k 0 u' (phase M q (gadget_phase (nth 0 outs false) (nth 1 outs false) (rule (S (S (S i))) (seen ++ outs))) u).
Proof.
  intros local d c r q l c' Hq Hr Hc H. unfold make_t, new_id in H.
  assert (Hm : (c < 2 ^ 32)%N -> (c mod 2 ^ 32 = c)%N) by (intros L; now apply N.mod_small).
  destruct local.
  - cbn [make_cnot new_id bind] in H. apply ok_pair in H. destruct H as [<- <-]. rewrite Hm by lia. split; [reflexivity|]. intros rule i seen outs Ho. destruct outs as [|z [|? ?]]; try discriminate Ho. clear Ho.
    exists (if z then 1 else 0). intros u Hu. eexists. split; [reflexivity|]. cbn [nth]. apply by_turns. intros b.
    assert (E : forall v, u (set_bit b c v) = u b) by (intros v; apply Hu; intros y Hy; apply bit_other; lia).
    assert (Hb : forall v, set_bit b c v q = b q) by (intros v; apply bit_other; lia).
    assert (E2 : forall v w, u (set_bit (set_bit b c v) c w) = u b) by (intros v w; apply Hu; intros y Hy; rewrite !bit_other by lia; reflexivity).
    destruct (rule (S (S (S i))) (seen ++ [z])); unfold phase, cnot; rewrite ?bit_set, ?Hb, ?E2; rewrite !turns_plus; apply turns_mod; destruct z, (b q); reflexivity.
  - apply ok_pair in H. destruct H as [<- <-]. rewrite Hm by lia. split; [reflexivity|]. intros rule i seen outs Ho. unfold obs2, mpm in Ho |- *. rewrite (proj2 (N.eqb_neq q c)) in Ho |- * by lia. destruct outs as [|z [|x [|? ?]]]; try discriminate Ho. clear Ho.
    exists (if z then (if x then 5 else 1) else 0). intros u Hu. eexists. cbn [obeys measures op instr_of sq carry_out]. rewrite <- app_assoc. cbn [app]. split; [reflexivity|]. cbn [nth]. apply by_turns. intros b.
    assert (E : forall v, u (set_bit b c v) = u b) by (intros v; apply Hu; intros y Hy; apply bit_other; lia).
    assert (Hb : forall v, set_bit b c v q = b q) by (intros v; apply bit_other; lia).
    destruct (rule (S (S (S i))) (seen ++ [z; x])); unfold phase; rewrite ?bit_set, ?Hb, ?E; destruct z, x, (b q); cbn [xorb Bool.eqb]; rewrite ?turns_zero, ?add_zero, ?zero_add, ?turns_plus; try (apply turns_mod; reflexivity).
Qed.

(** Instructions respect phase and length *)
Definition scaled_opt (k j : nat) (a b : option state) : Prop :=
  match a, b with Some u, Some v => scaled M k j u v | None, None => True | _, _ => False end.
Lemma carry_even : forall o yes z k j u v, scaled M k j u v -> scaled_opt k j (carry_out M o yes z u) (carry_out M o yes z v).
Proof.
  intros o yes z k j u v H. destruct o; cbn [carry_out]; repeat match goal with |- scaled_opt _ _ (match ?x with _ => _ end) _ => destruct x end; try exact Logic.I; cbn [scaled_opt];
    repeat match goal with |- scaled _ _ _ (if ?x then _ else _) _ => destruct x end;
    try (apply phase_even || apply flip_even || apply ygate_even || apply had_even || apply cnot_even); try exact H; intros b; rewrite ?H.
  all: first [now rewrite sc_turns, twice_add, turns_add|reflexivity|match goal with |- context [if ?x then _ else _] => destruct x end; [reflexivity|now rewrite twice_zero, turns_zero]].
Qed.
Lemma obeys_even : forall rule l i seen outs k j u v, scaled M k j u v -> scaled_opt k j (obeys M rule i seen outs l u) (obeys M rule i seen outs l v).
Proof.
  intros rule l. induction l as [|x l IH]; intros i seen outs k j u v H; [exact H|]. cbn [obeys]. destruct (measures (op x)).
  - destruct outs as [|z outs]; [exact Logic.I|]. pose proof (carry_even (op x) true z k j u v H) as C.
    destruct (carry_out M (op x) true z u), (carry_out M (op x) true z v); try contradiction; [now apply IH|exact Logic.I].
  - pose proof (carry_even (op x) (rule i seen) false k j u v H) as C.
    destruct (carry_out M (op x) (rule i seen) false u), (carry_out M (op x) (rule i seen) false v); try contradiction; [now apply IH|exact Logic.I].
Qed.
Lemma obeys_app : forall rule l l' i seen outs outs' u v, length outs = outcomes l -> obeys M rule i seen outs l u = Some v ->
  obeys M rule i seen (outs ++ outs') (l ++ l') u = obeys M rule (i + length l) (seen ++ outs) outs' l' v.
Proof.
  intros rule l. unfold outcomes. induction l as [|x l IH]; intros l' i seen outs outs' u v Ho H; cbn [app length obeys filter] in *.
  - destruct outs; [|discriminate]. injection H as <-. now rewrite app_nil_r, Nat.add_0_r.
  - destruct (measures (op x)); cbn [length] in Ho.
    + destruct outs as [|z outs]; [discriminate|]. cbn [app]. destruct (carry_out M (op x) true z u) as [w|]; [|discriminate].
      rewrite (IH l' (S i) (seen ++ [z]) outs outs' w v) by (cbn in Ho; congruence || exact H). rewrite <- app_assoc. cbn [app]. f_equal. lia.
    + destruct (carry_out M (op x) (rule i seen) false u) as [w|]; [|discriminate]. rewrite (IH l' (S i) seen outs outs' w v Ho H). f_equal. lia.
Qed.
Lemma obeys_rule : forall rule rule' l i seen outs u, (forall k s, i <= k < i + length l -> rule k s = rule' k s) -> obeys M rule i seen outs l u = obeys M rule' i seen outs l u.
Proof.
  intros rule rule' l. induction l as [|x l IH]; intros i seen outs u H; [reflexivity|]. cbn [obeys length] in *.
  assert (Hn : forall k s, S i <= k < S i + length l -> rule k s = rule' k s) by (intros k s Hk; apply H; lia). destruct (measures (op x)).
  - destruct outs as [|z outs]; [reflexivity|]. destruct (carry_out M (op x) true z u); [now apply IH|reflexivity].
  - rewrite (H i seen) by lia. destruct (carry_out M (op x) (rule' i seen) false u); [now apply IH|reflexivity].
Qed.
Lemma outcomes_app : forall l l', outcomes (l ++ l') = outcomes l + outcomes l'.
Proof. intros l l'. unfold outcomes. now rewrite filter_app, app_length. Qed.

(** Some instructions [l] do [f], whatever the outcomes, if the corrections are right. *)
Definition realizes (r : N) (l : list instr) (f : state -> state) : Prop :=
  forall i n (fr : list bool -> frame), (forall s, below r (fr s)) ->
  exists rule post, (forall s, below r (post s)) /\ forall seen outs, length seen = n -> length outs = outcomes l ->
  exists k j, forall u, lives M r u -> exists u', obeys M rule i seen outs l (paulis M (fr seen) u) = Some u' /\ scaled M k j u' (paulis M (post (seen ++ outs)) (f u)).
Lemma realizes_nil : forall r, realizes r [] (fun u => u).
Proof.
  intros r i n fr Hf. exists (fun _ _ => true), fr. split; [exact Hf|]. intros seen outs _ Ho. destruct outs; [|discriminate]. exists 0, 0. intros u Hu. eexists. split; [reflexivity|]. rewrite app_nil_r. apply scaled_refl.
Qed.
Lemma realizes_app : forall r l l' f f', keeps r f -> realizes r l f -> realizes r l' f' -> realizes r (l ++ l') (fun u => f' (f u)).
Proof.
  intros r l l' f f' Kp H H' i n fr Hf. destruct (H i n fr Hf) as (rule & post & Bp & R). destruct (H' (i + length l) (n + outcomes l) post Bp) as (rule' & post' & Bp' & R').
  exists (fun k s => if k <? i + length l then rule k s else rule' k s), post'. split; [exact Bp'|]. intros seen outs Hs Ho. rewrite outcomes_app in Ho.
  rewrite <- (firstn_skipn (outcomes l) outs). set (o1 := firstn (outcomes l) outs). set (o2 := skipn (outcomes l) outs).
  assert (L1 : length o1 = outcomes l) by (unfold o1; rewrite firstn_length; lia). assert (L2 : length o2 = outcomes l') by (unfold o2; rewrite skipn_length; lia). clearbody o1 o2.
  destruct (R seen o1 Hs L1) as (k & j & R1). destruct (R' (seen ++ o1) o2) as (k' & j' & R2); [rewrite app_length; lia|exact L2|].
  exists (k + k'), (j + j'). intros u Hu. destruct (R1 u Hu) as (u1 & O1 & S1). destruct (R2 (f u) (Kp u Hu)) as (u2 & O2 & S2).
  rewrite (obeys_app _ l l' i seen o1 o2 _ u1 L1); [|rewrite <- O1; apply obeys_rule; intros x s Hx; apply Nat.ltb_lt in Hx || (destruct (Nat.ltb_spec x (i + length l)); [reflexivity|lia])].
  rewrite (obeys_rule _ rule' l' (i + length l)) by (intros x s Hx; destruct (Nat.ltb_spec x (i + length l)); [lia|reflexivity]).
  pose proof (obeys_even rule' l' (i + length l) (seen ++ o1) o2 k j _ _ S1) as Ev. rewrite O2 in Ev.
  destruct (obeys M rule' (i + length l) (seen ++ o1) o2 l' u1) as [w|]; [|contradiction]. exists w. split; [reflexivity|]. rewrite app_assoc. exact (scaled_trans _ _ _ _ _ _ _ Ev S2).
Qed.
(** One instruction that is no measurement *)
Lemma realizes_one : forall r x f G, measures (op x) = false -> (forall u, carry_out M (op x) true false u = Some (f u)) -> pushes r f G -> realizes r [x] f.
Proof.
  intros r x f G Hm Hc P i n fr Hf. exists (fun _ _ => true), (fun s => G (fr s)). split; [intros s; now apply P|]. intros seen outs _ Ho. unfold outcomes in Ho. cbn in Ho. rewrite Hm in Ho. destruct outs; [|discriminate].
  destruct (P (fr seen) (Hf seen)) as (_ & k & H). exists k, 0. intros u Hu. exists (f (paulis M (fr seen) u)). cbn. rewrite Hm, Hc, app_nil_r. split; [reflexivity|]. now apply H.
Qed.
Lemma realizes_scaled : forall r l f g j, realizes r l f -> (forall u, lives M r u -> scaled M 0 j (f u) (g u)) -> realizes r l g.
Proof.
  intros r l f g j H E i n fr Hf. destruct (H i n fr Hf) as (rule & post & Bp & R). exists rule, post. split; [exact Bp|]. intros seen outs Hs Ho. destruct (R seen outs Hs Ho) as (k & j' & R1).
  exists (k + 0), (j' + j). intros u Hu. destruct (R1 u Hu) as (u' & O & S1). exists u'. split; [exact O|]. eapply scaled_trans; [exact S1|]. apply paulis_even. now apply E.
Qed.
(** T *)
Lemma realizes_t : forall r local d c q l c', (q < r)%N -> (r <= c)%N -> (c' <= 2 ^ 32)%N -> make_t local c q d = Ok (l, c') -> forall dg, realizes r l (phase M q (if dg : bool then 7 else 1)).
Proof.
  intros r local d c q l c' Hq Hr Hc H dg i n fr Hf. destruct (gadget local d c r q l c' Hq Hr Hc H) as (L4 & G).
  set (xs := fun s => odd_x q (fr (firstn n s))). set (z := fun s : list bool => nth n s false). set (x := fun s : list bool => nth (S n) s false).
  exists (fun _ s => xorb (z s) (xorb (xs s) dg)), (fun s => fr (firstn n s) ++ (if xorb (x s) (negb (z s) && xorb (xs s) dg) then [(q, false)] else [])). split.
  { intros s. apply Forall_app. split; [apply Hf|]. destruct (xorb _ _); [|apply Forall_nil]. apply Forall_cons; [exact Hq|apply Forall_nil]. }
  intros seen outs Hs Ho. destruct (G (fun _ s => xorb (z s) (xorb (xs s) dg)) i seen outs Ho) as (k & R).
  assert (Fs : firstn n (seen ++ outs) = seen) by (rewrite firstn_app, Hs, Nat.sub_diag, firstn_O, app_nil_r; rewrite <- Hs; apply firstn_all).
  assert (Ez : z (seen ++ outs) = nth 0 outs false) by (unfold z; rewrite app_nth2, Hs, Nat.sub_diag by lia; reflexivity).
  assert (Ex : x (seen ++ outs) = nth 1 outs false) by (unfold x; rewrite app_nth2, Hs by lia; replace (S n - n) with 1 by lia; reflexivity).
  cbv beta in R. rewrite <- Ez, <- Ex in R. set (s := seen ++ outs) in *.
  assert (Xs : xs s = odd_x q (fr seen)) by (unfold xs; now rewrite Fs).
  destruct (phase_paulis r q (fr seen) (Hf seen) (gadget_phase (z s) (x s) (xorb (z s) (xorb (xs s) dg)))) as (k' & P).
  exists (k + (k' + 0)), 0. intros u Hu. destruct (R (paulis M (fr seen) u)) as (u' & O & S1); [now apply paulis_lives|]. exists u'. split; [exact O|].
  change 0 with (0 + (0 + 0)) at 2. eapply scaled_trans; [exact S1|]. eapply scaled_trans; [apply P, Hu|]. rewrite Fs, paulis_app. apply paulis_even. rewrite <- Xs.
  destruct (z s), (x s), (xs s), dg; cbn; try (apply phase_mod; reflexivity).
  all: unfold pauli_op; cbn [fst snd]; intros b; unfold phase; change (twice 0 ?y) with y; rewrite turns_0; destruct (b q); rewrite ?turns_plus; apply turns_mod; reflexivity.
Qed.

(** The gates *)
Lemma one_below : forall c p, (fst p < c)%N -> below c [p].
Proof. intros c p H. apply Forall_cons; [exact H|apply Forall_nil]. Qed.
Lemma pushes_h : forall r q, (q < r)%N -> pushes r (had M q) (flat_map (through_h q)).
Proof.
  intros r q Hq. apply moves_pushes; [apply had_even|apply h_moves|]. intros p Hp. unfold through_h. destruct (N.eqb (fst p) q); apply one_below; assumption.
Qed.
Lemma pushes_s : forall r q k, (q < r)%N -> k = 2 \/ k = 6 -> pushes r (phase M q k) (flat_map (through_s q)).
Proof.
  intros r q k Hq Hk. apply moves_pushes; [apply phase_even|now apply s_moves|]. intros p Hp. unfold through_s. destruct (_ && _); [|now apply one_below]. apply Forall_cons; [exact Hp|now apply one_below].
Qed.
Lemma pushes_cnot : forall r p q, (p < r)%N -> (q < r)%N -> p <> q -> pushes r (cnot M p q) (flat_map (through_cnot p q)).
Proof.
  intros r p q Hp Hq N. apply moves_pushes; [apply cnot_even|now apply cnot_moves|]. intros x Hx. unfold through_cnot. destruct (_ && _); [|destruct (_ && _)]; repeat (apply Forall_cons; [assumption|]); apply Forall_nil.
Qed.
Lemma pushes_x : forall r q, pushes r (flip M q) (flat_map (fun p => [p])).
Proof. intros r q. apply moves_pushes; [apply flip_even|apply flip_moves|]. intros p Hp. now apply one_below. Qed.
Lemma pushes_y : forall r q, pushes r (ygate M q) (flat_map (fun p => [p])).
Proof. intros r q. apply moves_pushes; [apply ygate_even|apply y_moves|]. intros p Hp. now apply one_below. Qed.
Lemma pushes_z : forall r q, pushes r (phase M q 4) (flat_map (fun p => [p])).
Proof. intros r q. apply moves_pushes; [apply phase_even|apply z_moves|]. intros p Hp. now apply one_below. Qed.

Lemma meant_keeps : forall r cfg g, fine cfg g -> Forall (fun q => (q < r)%N) (gate_qubits g) -> keeps r (meant M g).
Proof.
  intros r cfg g Hf Hq u Hu. destruct g as [q b|q f|p [t b|t f] ct pl|]; cbn in *; try contradiction; inversion Hq as [|? ? H1 H2]; subst.
  - destruct b; now (apply phase_lives || apply flip_lives || apply ygate_lives || apply had_lives).
  - now apply phase_lives.
  - inversion H2; subst. destruct b; try exact Hu; [now apply cnot_lives|now apply cz_lives].
Qed.
Lemma cnot_out : forall cfg c p t ct pl l c', ct = BellBased \/ cfg_local cfg = true -> make_cnot (cfg_local cfg) c p t ct pl (cfg_corr cfg) = Ok (l, c') ->
  (c <= c')%N /\ exists a b i w, l = [mkI (BellCNOT p t a b None None None None) w i].
Proof.
  intros cfg c p t ct pl l c' Hb H. unfold make_cnot, new_id in H.
  assert (E : match ct with BellBased => true | _ => cfg_local cfg end = true) by (destruct Hb as [->| ->]; [reflexivity|destruct ct; reflexivity]). rewrite E in H.
  destruct (cfg_corr cfg); [|discriminate]. apply ok_pair in H. destruct H as [<- <-]. split; [lia|]. do 4 eexists. reflexivity.
Qed.
Lemma t_grows : forall local c q d l c', make_t local c q d = Ok (l, c') -> (c <= c')%N.
Proof.
  intros local c q d l c' H. unfold make_t, new_id in H. destruct local.
  - cbn [make_cnot new_id bind] in H. apply ok_pair in H. lia.
  - apply ok_pair in H. lia.
Qed.
Lemma gate_grows : forall cfg c g l c', fine cfg g -> lower_gate cfg c g = Ok (l, c') -> (c <= c')%N.
Proof.
  intros cfg c g l c' Hf H. destruct g as [q b|q f|p [t b|t f] ct pl|]; cbn in Hf; try contradiction; cbn [lower_gate] in H.
  - destruct b; try (apply ok_pair in H; lia); eapply t_grows; exact H.
  - destruct (_ && _)%bool in H; [apply ok_pair in H; lia|]. destruct (_ && _)%bool in H; [apply ok_pair in H; lia|]. destruct (_ && _)%bool in H; [|discriminate]. eapply t_grows; exact H.
  - destruct Hf as (Hb & _ & Ct). destruct b; destruct Hb as [Hb|Hb]; try discriminate.
    + now apply cnot_out in H.
    + destruct (make_cnot _ _ _ _ _ _ _) as [[l1 c1]| | |] eqn:E; cbn [bind] in H; try discriminate. apply cnot_out in E; [|exact Ct]. apply ok_pair in H. lia.
Qed.
Lemma gate_ok : forall cfg r c g l c', fine cfg g -> Forall (fun q => (q < r)%N) (gate_qubits g) -> (r <= c)%N -> (c' <= 2 ^ 32)%N -> lower_gate cfg c g = Ok (l, c') ->
  realizes r l (meant M g).
Proof.
  intros cfg r c g l c' Hf Hq Hr Hc H. destruct g as [q b|q f|p [t b|t f] ct pl|]; cbn in Hf; try contradiction; cbn [lower_gate] in H; cbn [gate_qubits] in Hq; inversion Hq as [|? ? H1 H2]; subst.
  - destruct b; try contradiction; try (apply ok_pair in H; destruct H as [<- _]);
      try (exact (realizes_t r _ _ c q l c' H1 Hr Hc H false)); try (exact (realizes_t r _ _ c q l c' H1 Hr Hc H true)); eapply realizes_one; try reflexivity; cbn [meant].
    + apply pushes_x.
    + apply pushes_y.
    + apply pushes_z.
    + apply pushes_s; auto.
    + now apply pushes_h.
    + apply pushes_s; auto.
  - unfold meant. destruct (fr_num f =? 1)%Z; cbn [andb] in H; [|discriminate].
    destruct (fr_den f =? 1)%Z; [apply ok_pair in H; destruct H as [<- _]; eapply realizes_one; [reflexivity|reflexivity|apply pushes_z]|].
    destruct (fr_den f =? 2)%Z; [apply ok_pair in H; destruct H as [<- _]; eapply realizes_one; [reflexivity|reflexivity|apply pushes_s; auto]|].
    destruct (fr_den f =? 4)%Z; [|discriminate]. exact (realizes_t r _ _ c q l c' H1 Hr Hc H false).
  - destruct Hf as (Hb & Npt & Ct). inversion H2 as [|? ? H3 _]; subst. destruct Hb as [->| ->]; cbn [meant].
    + apply cnot_out in H; [|exact Ct]. destruct H as (_ & a & b & i & w & ->). eapply realizes_one; [reflexivity|reflexivity|now apply pushes_cnot].
    + destruct (make_cnot _ _ _ _ _ _ _) as [[l1 c1]| | |] eqn:E; cbn [bind] in H; try discriminate. apply cnot_out in E; [|exact Ct]. apply ok_pair in H. destruct H as [<- _]. destruct E as (_ & a & b & i & w & ->).
      apply realizes_scaled with (f := fun u => had M t (cnot M p t (had M t u))) (j := 1); [|now apply (cz_made r)].
      change (realizes r ([sq t SqH] ++ [mkI (BellCNOT p t a b None None None None) w i] ++ [sq t SqH]) (fun u => had M t (cnot M p t (had M t u)))).
      apply (realizes_app r _ _ (had M t) (fun u => had M t (cnot M p t u))); [intros u Hu; now apply had_lives| |apply (realizes_app r _ _ (cnot M p t) (had M t)); [intros u Hu; now apply cnot_lives| |]].
      * eapply realizes_one; [reflexivity|reflexivity|now apply pushes_h].
      * eapply realizes_one; [reflexivity|reflexivity|now apply pushes_cnot].
      * eapply realizes_one; [reflexivity|reflexivity|now apply pushes_h].
Qed.
Lemma circuit_grows : forall cfg gs c l c', Forall (fine cfg) gs -> lower_all cfg c gs = Ok (l, c') -> (c <= c')%N.
Proof.
  intros cfg gs. induction gs as [|g gs IH]; intros c l c' Hf H; cbn [lower_all] in H; [apply ok_pair in H; lia|]. inversion Hf; subst.
  destruct (lower_gate cfg c g) as [[l1 c1]| | |] eqn:E; cbn [bind] in H; try discriminate. destruct (lower_all cfg c1 gs) as [[l2 c2]| | |] eqn:E2; cbn [bind] in H; try discriminate. apply ok_pair in H.
  apply gate_grows in E; [|assumption]. apply IH in E2; [|assumption]. lia.
Qed.
Lemma circuit_ok : forall cfg r gs c l c', Forall (fine cfg) gs -> Forall (fun g => Forall (fun q => (q < r)%N) (gate_qubits g)) gs -> (r <= c)%N -> (c' <= 2 ^ 32)%N -> lower_all cfg c gs = Ok (l, c') ->
  realizes r l (computes M gs).
Proof.
  intros cfg r gs. induction gs as [|g gs IH]; intros c l c' Hf Hq Hr Hc H; cbn [lower_all] in H; [apply ok_pair in H; destruct H as [<- _]; apply realizes_nil|]. inversion Hf; inversion Hq; subst.
  destruct (lower_gate cfg c g) as [[l1 c1]| | |] eqn:E; cbn [bind] in H; try discriminate. destruct (lower_all cfg c1 gs) as [[l2 c2]| | |] eqn:E2; cbn [bind] in H; try discriminate. apply ok_pair in H. destruct H as [<- <-].
  assert (G1 : (c <= c1)%N) by (eapply gate_grows; eassumption). assert (G2 : (c1 <= c2)%N) by (eapply circuit_grows; eassumption).
  change (realizes r (l1 ++ l2) (fun u => computes M gs (meant M g u))). apply realizes_app.
  - eapply meant_keeps; eassumption.
  - apply (gate_ok cfg r c g l1 c1); try assumption. lia.
  - apply (IH c1 l2 c2); try assumption. lia.
Qed.
End Amp.
