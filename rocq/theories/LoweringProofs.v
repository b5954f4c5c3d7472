From Coq Require Import Permutation.
From Verif Require Import Base TextModel TextProofs PatchesModel InstrModel InstrProofs GatesModel GatesProofs LoweringModel LoweringSpec.

Tactic Notation "inv" hyp(H) "as" simple_intropattern(p) ident(E) :=
  apply bind_ok in H; destruct H as (p & E & H).

(** ** Draining *)
Lemma drain_mono {S} (next : next_fn S) : forall f st c r, drain next f st c = r -> r <> Fuel ->
  forall f', f <= f' -> drain next f' st c = r.
Proof.
  induction f; intros st c r H Hr f' Hf; [cbn in H; congruence|].
  destruct f'; [lia|]. cbn [drain] in *.
  destruct (next st c) as [[[[i st'] c']|]| | |]; cbn [bind] in *; try assumption.
  destruct (drain next f st' c') as [[l c'']| | |] eqn:E; cbn [bind] in H.
  - rewrite (IHf _ _ _ E) by (congruence || lia). assumption.
  - rewrite (IHf _ _ _ E) by (congruence || lia). assumption.
  - rewrite (IHf _ _ _ E) by (congruence || lia). assumption.
  - congruence.
Qed.

Lemma reads_fun {S} (next : next_fn S) st c r1 r2 : reads next st c r1 -> reads next st c r2 -> r1 = r2.
Proof.
  intros [N1 [f1 H1]] [N2 [f2 H2]].
  rewrite <- (drain_mono _ _ _ _ _ H1 N1 (Nat.max f1 f2)) by lia.
  apply (drain_mono _ _ _ _ _ H2 N2). lia.
Qed.

(** ** Big-step lowering *)
Fixpoint lower_all (cfg : lower_cfg) (c : N) (gs : list gate) : outcome (list instr * N) :=
  match gs with
  | [] => Ok ([], c)
  | g :: r => do (l, c1) <- lower_gate cfg c g ;; do (o, c2) <- lower_all cfg c1 r ;; Ok (l ++ o, c2)
  end.

Definition prepend {A} (q : list instr) (r : outcome (list instr * A)) : outcome (list instr * A) :=
  match r with Ok (l, c) => Ok (q ++ l, c) | Throw e => Throw e | UB u => UB u | Fuel => Fuel end.

Lemma make_cnot_nonempty local c ctl t ct pl corr l c' : make_cnot local c ctl t ct pl corr = Ok (l, c') -> l <> [].
Proof.
  unfold make_cnot, new_id. destruct ct, local, corr; intros H; injection H as <- _ || discriminate; discriminate.
Qed.
Lemma make_t_nonempty local c t d l c' : make_t local c t d = Ok (l, c') -> l <> [].
Proof.
  unfold make_t, new_id. destruct local; intros H; [inv H as [? ?] Hx; injection H as <- _|injection H as <- _]; discriminate.
Qed.
Lemma lower_gate_nonempty cfg c g l c' : lower_gate cfg c g = Ok (l, c') -> l <> [].
Proof.
  destruct g as [t b|t f|ctl tg ct pl|r t]; cbn [lower_gate].
  - destruct b; try (intros H; injection H as <- _; discriminate); apply make_t_nonempty.
  - repeat match goal with |- context[if ?b then _ else _] => destruct b end;
      try (intros H; injection H as <- _; discriminate); try discriminate; apply make_t_nonempty.
  - destruct tg as [t b|]; [destruct b|]; try discriminate; [apply make_cnot_nonempty|].
    intros H. inv H as [? ?] Hx. injection H as <- _. discriminate.
  - destruct text_eqb; intros H; [injection H as <- _|]; discriminate.
Qed.

Lemma lower_drain_queue cfg gs : forall q f c, 
  drain (lower_next cfg) (length q + f) (mkLS q gs) c = prepend q (drain (lower_next cfg) f (mkLS [] gs) c).
Proof.
  induction q as [|i q IH]; intros f c; cbn [length plus].
  - destruct (drain _ f _ c) as [[? ?]| | |]; reflexivity.
  - cbn [drain lower_next ls_queue ls_gates bind]. rewrite IH.
    destruct (drain _ f _ c) as [[? ?]| | |]; reflexivity.
Qed.

Lemma lower_drain cfg : forall gs c, exists f0, forall f, f0 <= f ->
  drain (lower_next cfg) f (mkLS [] gs) c = lower_all cfg c gs.
Proof.
  induction gs as [|g gs IH]; intros c.
  - exists 1. intros f Hf. destruct f; [lia|]. reflexivity.
  - cbn [lower_all]. destruct (lower_gate cfg c g) as [[l c1]|e|u|] eqn:E; cbn [bind];
      try (exists 1; intros f Hf; destruct f; [lia|]; cbn [drain lower_next ls_queue ls_gates]; now rewrite E).
    destruct (IH c1) as [f0 H0]. exists (length l + f0). intros f Hf.
    pose proof (lower_gate_nonempty _ _ _ _ _ E) as Hn.
    destruct l as [|i l]; [congruence|]. destruct f; [cbn in Hf; lia|].
    cbn [drain lower_next ls_queue ls_gates]. rewrite E. cbn [bind].
    replace f with (length l + (f - length l)) by (cbn in Hf; lia).
    rewrite lower_drain_queue, H0 by (cbn in Hf; lia).
    destruct (lower_all cfg c1 gs) as [[? ?]| | |]; reflexivity.
Qed.

Definition no_fuel {A} (r : outcome A) : Prop := r <> Fuel.
Lemma lower_gate_no_fuel cfg c g : lower_gate cfg c g <> Fuel.
Proof.
  destruct g as [t b|t f|ctl tg ct pl|r t]; cbn [lower_gate]; unfold make_t, make_cnot, new_id.
  - destruct b, (cfg_local cfg); cbn; discriminate.
  - repeat match goal with |- context[if ?b then _ else _] => destruct b end; cbn; discriminate.
  - destruct tg as [t b|]; [destruct b|]; try discriminate;
      destruct ct, (cfg_local cfg), (cfg_corr cfg); cbn; discriminate.
  - destruct text_eqb; discriminate.
Qed.
Lemma lower_all_no_fuel cfg : forall gs c, lower_all cfg c gs <> Fuel.
Proof.
  induction gs as [|g gs IH]; intros c; cbn [lower_all]; [discriminate|].
  pose proof (lower_gate_no_fuel cfg c g). destruct (lower_gate cfg c g) as [[l c1]| | |]; cbn [bind]; try congruence.
  specialize (IH c1). destruct (lower_all cfg c1 gs) as [[? ?]| | |]; cbn [bind]; congruence.
Qed.

Lemma lowers_iff cfg gs c r : lowers cfg gs c r <-> lower_all cfg c gs = r.
Proof.
  destruct (lower_drain cfg gs c) as [f0 H0]. unfold lowers.
  assert (R : reads (lower_next cfg) (mkLS [] gs) c (lower_all cfg c gs)).
  { split; [apply lower_all_no_fuel|]. exists f0. now apply H0. }
  split; intros H; [exact (reads_fun _ _ _ _ _ R H)|now subst r].
Qed.

Lemma lower_all_app cfg gs2 : forall gs1 c, lower_all cfg c (gs1 ++ gs2) =
  do (o1, c1) <- lower_all cfg c gs1 ;; do (o2, c2) <- lower_all cfg c1 gs2 ;; Ok (o1 ++ o2, c2).
Proof.
  induction gs1 as [|g gs1 IH]; intros c; cbn [lower_all app bind].
  - destruct (lower_all cfg c gs2) as [[? ?]| | |]; reflexivity.
  - destruct (lower_gate cfg c g) as [[l c1]| | |]; cbn [bind]; try reflexivity. rewrite IH.
    destruct (lower_all cfg c1 gs1) as [[o1 c2]| | |]; cbn [bind]; try reflexivity.
    destruct (lower_all cfg c2 gs2) as [[o2 c3]| | |]; cbn [bind]; try reflexivity. now rewrite app_assoc.
Qed.

(** ** Ids *)
Lemma ids_upto_app n m : forall c, ids_upto c (n + m) = ids_upto c n ++ ids_upto (c + N.of_nat n) m.
Proof.
  induction n as [|n IH]; intros c; cbn [plus ids_upto app].
  - f_equal. lia.
  - rewrite IH. do 3 f_equal. lia.
Qed.
Lemma id_range_app a b c : (a <= b)%N -> (b <= c)%N -> id_range a c = id_range a b ++ id_range b c.
Proof.
  intros H1 H2. unfold id_range.
  replace (N.to_nat (c - a)) with (N.to_nat (b - a) + N.to_nat (c - b))%nat by lia.
  rewrite ids_upto_app. do 2 f_equal. lia.
Qed.
Lemma id_range_nil c : id_range c c = [].
Proof. unfold id_range. now rewrite N.sub_diag. Qed.
Lemma id_range_1 c : id_range c (c + 1) = [(c mod 2 ^ 32)%N].
Proof. unfold id_range. replace (N.to_nat (c + 1 - c)) with 1%nat by lia. reflexivity. Qed.
Lemma id_range_2 c : id_range c (c + 1 + 1) = [(c mod 2 ^ 32)%N; ((c + 1) mod 2 ^ 32)%N].
Proof. unfold id_range. replace (N.to_nat (c + 1 + 1 - c)) with 2%nat by lia. reflexivity. Qed.
Lemma ids_upto_In h n : forall c, In h (ids_upto c n) <-> exists k, (k < n)%nat /\ h = ((c + N.of_nat k) mod 2 ^ 32)%N.
Proof.
  induction n as [|n IH]; intros c; cbn [ids_upto In].
  - split; [tauto|intros (k & ? & ?); lia].
  - rewrite IH. split.
    + intros [<-|(k & Hk & ->)]; [exists 0%nat; split; [lia|f_equal; lia]|].
      exists (S k). split; [lia|f_equal; lia].
    + intros (k & Hk & ->). destruct k as [|k]; [left; f_equal; lia|right; exists k; split; [lia|f_equal; lia]].
Qed.
Lemma id_range_In h c c' : In h (id_range c c') <-> exists k, (c <= k < c')%N /\ h = (k mod 2 ^ 32)%N.
Proof.
  unfold id_range. rewrite ids_upto_In. split.
  - intros (k & Hk & ->). exists (c + N.of_nat k)%N. split; [lia|reflexivity].
  - intros (k & Hk & ->). exists (N.to_nat (k - c)). split; [lia|f_equal; lia].
Qed.
Lemma id_range_small h c c' : (c' <= 2 ^ 32)%N -> In h (id_range c c') <-> (c <= h < c')%N.
Proof.
  intros H. rewrite id_range_In. split.
  - intros (k & Hk & ->). rewrite N.mod_small; lia.
  - intros Hh. exists h. split; [lia|]. rewrite N.mod_small; lia.
Qed.
Lemma ids_upto_nodup n : forall c, (N.of_nat n <= 2 ^ 32)%N -> NoDup (ids_upto c n).
Proof.
  induction n as [|n IH]; intros c Hn; cbn [ids_upto]; constructor; [|apply IH; lia].
  rewrite ids_upto_In. intros (k & Hk & E).
  pose proof (N.div_mod c (2 ^ 32)). pose proof (N.div_mod (c + 1 + N.of_nat k) (2 ^ 32)).
  assert (2 ^ 32 <> 0)%N by discriminate.
  pose proof (N.mod_lt c (2 ^ 32)). 
  assert (D : ((c + 1 + N.of_nat k) / 2 ^ 32 = c / 2 ^ 32 \/ (c + 1 + N.of_nat k) / 2 ^ 32 >= c / 2 ^ 32 + 1)%N) by
    (assert ((c + 1 + N.of_nat k) / 2 ^ 32 >= c / 2 ^ 32)%N by (apply N.le_ge, N.div_le_mono; lia); lia).
  destruct D; nia.
Qed.
Lemma id_range_nodup c c' : (c' - c <= 2 ^ 32)%N -> NoDup (id_range c c').
Proof. intros. apply ids_upto_nodup. lia. Qed.

Lemma made_by_app a b : made_by (a ++ b) = made_by a ++ made_by b.
Proof. unfold made_by. now rewrite map_app, concat_app. Qed.

Lemma made_by_cons i l : made_by (i :: l) = made i ++ made_by l.
Proof. reflexivity. Qed.

(** What one lowered gate looks like *)
Lemma obs2_fst a p b q x : In x (map fst (obs2 a p b q)) <-> x = a \/ x = b.
Proof. unfold obs2. destruct (N.eqb_spec a b); cbn; subst; intuition congruence. Qed.
Lemma ids2_In a b x : In x (ids2 a b) <-> x = a \/ x = b.
Proof. unfold ids2. rewrite oset_insert_In. cbn. intuition congruence. Qed.

Definition over (P : N -> Prop) (l : list instr) : Prop := Forall (fun i => Forall P (ids_of i)) l.
Lemma over_app P a b : over P (a ++ b) <-> over P a /\ over P b.
Proof. unfold over. apply Forall_app. Qed.
Lemma over_impl (P Q : N -> Prop) l : (forall x, P x -> Q x) -> over P l -> over Q l.
Proof. unfold over. intros H. apply Forall_impl. intros i. now apply Forall_impl. Qed.
Lemma over_mpm (P : N -> Prop) a p b q : P a -> P b -> Forall P (ids_of (mpm (obs2 a p b q))).
Proof. intros. apply Forall_forall. intros x Hx. cbn in Hx. apply obs2_fst in Hx. destruct Hx; now subst. Qed.

Ltac over_tac := unfold over; repeat first
  [ apply Forall_nil | apply over_mpm | apply Forall_cons
  | progress (unfold ids_of; cbn [op clients instr_of sq app pnt_target]) | assumption ].

Lemma make_cnot_spec local c ctl t ct pl corr l c' (P : N -> Prop) :
  make_cnot local c ctl t ct pl corr = Ok (l, c') ->
  (c <= c')%N /\ made_by l = id_range c c' /\
  (P ctl -> P t -> (forall x, In x (id_range c c') -> P x) -> over P l).
Proof.
  unfold make_cnot, new_id.
  assert (Pids : P ctl -> P t -> Forall P (ids2 ctl t)) by
    (intros ? ?; apply Forall_forall; intros x Hx; apply ids2_In in Hx; destruct Hx; now subst).
  destruct ct, local, corr; intros H; try discriminate; injection H as <- <-; (split; [lia|split]);
    rewrite ?id_range_2, ?id_range_1; try reflexivity;
    intros Hc Ht Hx; pose proof (Pids Hc Ht) as Pi; 
    assert (Hx1 : P (c mod 2 ^ 32)%N) by (apply Hx; left; reflexivity);
    try (assert (Hx2 : P ((c + 1) mod 2 ^ 32)%N) by (apply Hx; right; left; reflexivity));
    repeat (apply Forall_cons; [try (now apply over_mpm); unfold ids_of; cbn [op clients instr_of sq app];
      try (apply Forall_app; split; [assumption|]); try destruct pl; cbn [pnt_target]; repeat constructor; assumption|]); try apply Forall_nil.
Qed.

Lemma make_t_spec local c t d l c' (P : N -> Prop) : make_t local c t d = Ok (l, c') ->
  (c <= c')%N /\ made_by l = id_range c c' /\ (P t -> (forall x, In x (id_range c c') -> P x) -> over P l).
Proof.
  unfold make_t, new_id. destruct local; intros H.
  - inv H as [cn c2] Hx. injection H as <- <-.
    destruct (make_cnot_spec _ _ _ _ _ _ _ _ _ P Hx) as (L & M & O).
    assert (R : id_range c c2 = (c mod 2 ^ 32)%N :: id_range (c + 1) c2).
    { rewrite (id_range_app c (c + 1) c2) by lia. now rewrite id_range_1. }
    split; [lia|split].
    + change (made_by (?x :: ?y ++ ?z)) with (made x ++ made_by (y ++ z)). rewrite made_by_app, M, R. cbn. now rewrite app_nil_r.
    + intros Pt Px. rewrite R in Px.
      assert (Hx1 : P (c mod 2 ^ 32)%N) by (apply Px; left; reflexivity).
      apply Forall_cons; [repeat constructor; assumption|].
      apply over_app. split; [apply O; auto; intros; apply Px; now right|]. repeat constructor; assumption.
  - injection H as <- <-. rewrite id_range_1. split; [lia|split; [reflexivity|]].
    intros Pt Px. assert (Hx1 : P (c mod 2 ^ 32)%N) by (apply Px; left; reflexivity).
    repeat (apply Forall_cons; [first [now apply over_mpm | repeat constructor; assumption]|]). apply Forall_nil.
Qed.

Lemma lower_gate_spec cfg c g l c' (P : N -> Prop) : lower_gate cfg c g = Ok (l, c') ->
  (c <= c')%N /\ made_by l = id_range c c' /\
  (Forall P (gate_qubits g) -> (forall x, In x (id_range c c') -> P x) -> over P l).
Proof.
  destruct g as [t b|t f|ctl tg ct pl|r t]; cbn [lower_gate gate_qubits].
  - destruct b; intros H; try (injection H as <- <-; rewrite id_range_nil; split; [lia|split; [reflexivity|]];
      intros HP _; apply Forall_cons; [exact HP|apply Forall_nil]);
      destruct (make_t_spec _ _ _ _ _ _ P H) as (L & M & O); (split; [assumption|split; [assumption|]]);
      intros HP; inversion HP; auto.
  - repeat match goal with |- context[if ?b then _ else _] => destruct b end; intros H; try discriminate;
      try (injection H as <- <-; rewrite id_range_nil; split; [lia|split; [reflexivity|]];
      intros HP _; apply Forall_cons; [exact HP|apply Forall_nil]);
      destruct (make_t_spec _ _ _ _ _ _ P H) as (L & M & O); (split; [assumption|split; [assumption|]]);
      intros HP; inversion HP; auto.
  - destruct tg as [t b|]; [destruct b|]; try discriminate; intros H.
    + destruct (make_cnot_spec _ _ _ _ _ _ _ _ _ P H) as (L & M & O); (split; [assumption|split; [assumption|]]).
      intros HP; inversion HP as [|? ? ? HP']; inversion HP'; auto.
    + inv H as [cn c2] Hx. injection H as <- <-.
      destruct (make_cnot_spec _ _ _ _ _ _ _ _ _ P Hx) as (L & M & O); (split; [assumption|split]).
      * change (made_by (?x :: ?y ++ ?z)) with (made x ++ made_by (y ++ z)). rewrite made_by_app, M. cbn. apply app_nil_r.
      * intros HP Px; inversion HP as [|? ? ? HP']; inversion HP' as [|? ? Pt _]; subst.
        apply Forall_cons; [repeat constructor; assumption|]. apply over_app. split; [apply O; auto|].
        repeat constructor; assumption.
  - destruct text_eqb; intros H; [injection H as <- <-|discriminate]. rewrite id_range_nil.
    split; [lia|split; [reflexivity|]]. intros HP _; apply Forall_cons; [exact HP|apply Forall_nil].
Qed.

(** ** Injection, big step *)
Section Expand.
  Context {M : Type} (e : expander M).
  Fixpoint expand_all (m : M) (c : N) (l : list instr) : outcome (list instr * M * N) :=
    match l with
    | [] => Ok ([], m, c)
    | i :: r => do (o, m1, c1) <- e m c i ;;
                match o with
                | [] => UB UBPop
                | _ => do (o2, m2, c2) <- expand_all m1 c1 r ;; Ok (o ++ o2, m2, c2)
                end
    end.
  Lemma expand_all_cons m c i r o m1 c1 o2 m2 c2 : e m c i = Ok (o, m1, c1) -> o <> [] ->
    expand_all m1 c1 r = Ok (o2, m2, c2) -> expand_all m c (i :: r) = Ok (o ++ o2, m2, c2).
  Proof. intros H1 H2 H3. cbn [expand_all]. rewrite H1. cbn [bind]. destruct o; [congruence|]. now rewrite H3. Qed.
  Lemma expand_all_app r : forall l m c, expand_all m c (l ++ r) =
    do (o, m1, c1) <- expand_all m c l ;; do (o2, m2, c2) <- expand_all m1 c1 r ;; Ok (o ++ o2, m2, c2).
  Proof.
    induction l as [|i l IH]; intros m c; cbn [expand_all app bind].
    - destruct (expand_all m c r) as [[[? ?] ?]| | |]; reflexivity.
    - destruct (e m c i) as [[[o m1] c1]| | |]; cbn [bind]; try reflexivity. destruct o; [reflexivity|]. rewrite IH.
      destruct (expand_all m1 c1 l) as [[[o1 m2] c2]| | |]; cbn [bind]; try reflexivity.
      destruct (expand_all m2 c2 r) as [[[o2 m3] c3]| | |]; cbn [bind]; try reflexivity.
      now rewrite app_assoc.
  Qed.

  Fixpoint gates_out (cfg : lower_cfg) (m : M) (c : N) (gs : list gate) : outcome (list instr * M * N) :=
    match gs with
    | [] => Ok ([], m, c)
    | g :: r => do (l, c1) <- lower_gate cfg c g ;;
                do (o, m1, c2) <- expand_all m c1 l ;;
                do (o2, m2, c3) <- gates_out cfg m1 c2 r ;; Ok (o ++ o2, m2, c3)
    end.

  Lemma inject_lower_ok cfg : forall f q m l gs c out c',
    drain (inject_next e (lower_next cfg)) f (mkIS q m (mkLS l gs)) c = Ok (out, c') ->
    exists o m1 c1 o2 m2, expand_all m c l = Ok (o, m1, c1) /\ gates_out cfg m1 c1 gs = Ok (o2, m2, c') /\
      out = q ++ o ++ o2.
  Proof.
    induction f as [|f IH]; intros q m l gs c out c' H; [discriminate|].
    cbn [drain] in H. inv H as r Hn. destruct r as [[[i st'] c1]|].
    - inv H as [o' c2] Hd. injection H as <- <-.
      unfold inject_next in Hn. cbn [is_queue is_mem is_src] in Hn. destruct q as [|j q].
      + inv Hn as r Hs. destruct r as [[[i0 s'] c0]|]; [|discriminate].
        inv Hn as [[l' m'] c''] He. destruct l' as [|j q']; [discriminate|]. injection Hn as <- <- <-.
        unfold lower_next in Hs. cbn [ls_queue ls_gates] in Hs. destruct l as [|i1 l].
        * destruct gs as [|g gs]; [discriminate|]. inv Hs as [lg cg] Hg. destruct lg as [|i1 lg]; [discriminate|].
          injection Hs as <- <- <-. apply IH in Hd. destruct Hd as (o & m1 & c3 & o2 & m2 & E1 & E2 & ->).
          exists [], m, c, (((j :: q') ++ o) ++ o2), m2. split; [reflexivity|split; [|cbn; now rewrite app_assoc]].
          cbn [gates_out]. rewrite Hg. cbn [bind].
          now rewrite (expand_all_cons _ _ _ _ _ _ _ _ _ _ He ltac:(discriminate) E1); cbn [bind]; rewrite E2.
        * injection Hs as <- <- <-. apply IH in Hd. destruct Hd as (o & m1 & c3 & o2 & m2 & E1 & E2 & ->).
          exists ((j :: q') ++ o), m1, c3, o2, m2. split; [|split; [assumption|cbn; now rewrite app_assoc]].
          eapply expand_all_cons; eauto; discriminate.
      + injection Hn as <- <- <-. apply IH in Hd. destruct Hd as (o & m1 & c3 & o2 & m2 & E1 & E2 & ->).
        exists o, m1, c3, o2, m2. auto.
    - injection H as <- <-. unfold inject_next in Hn. cbn [is_queue is_mem is_src] in Hn. destruct q; [|discriminate].
      inv Hn as r Hs. destruct r as [[[i0 s'] c0]|]; [inv Hn as [[l' m'] c''] He; destruct l'; discriminate|].
      unfold lower_next in Hs. cbn [ls_queue ls_gates] in Hs. destruct l; [|discriminate].
      destruct gs as [|g gs]; [|inv Hs as [lg cg] Hg; destruct lg; discriminate].
      exists [], m, c, [], m. auto.
  Qed.

  (** A list of instructions as the source. *)
  Lemma inject_list_drain : forall l q m c, (forall m c i o m' c', e m c i = Ok (o, m', c') -> o <> []) ->
    (forall m c i, e m c i <> Fuel) ->
    exists f0, forall f, f0 <= f -> drain (inject_next e list_next) f (mkIS q m l) c =
      prepend q (do (o, m', c') <- expand_all m c l ;; Ok (o, c')).
  Proof.
    intros l q m c Hne Hnf. revert q m c. induction l as [|i l IH]; intros q m c.
    - exists (length q + 1). induction q as [|j q IHq]; intros f Hf; (destruct f; [cbn in Hf; lia|]).
      + reflexivity.
      + cbn [drain inject_next is_queue is_mem is_src bind]. rewrite IHq by (cbn in Hf; lia). reflexivity.
    - cbn [expand_all]. destruct (e m c i) as [[[o m1] c1]| | |] eqn:E; cbn [bind]; try (now apply Hnf in E).
      2,3: exists (length q + 1); induction q as [|j q IHq]; intros f Hf; (destruct f; [cbn in Hf; lia|]);
        [cbn [drain inject_next is_queue is_mem is_src list_next bind]; rewrite E; reflexivity
        |cbn [drain inject_next is_queue is_mem is_src bind]; rewrite IHq by (cbn in Hf; lia); reflexivity].
      destruct o as [|j0 o]; [now apply Hne in E|].
      destruct (IH o m1 c1) as [f0 H0].
      exists (length q + S f0). induction q as [|j q IHq]; intros f Hf; (destruct f; [cbn in Hf; lia|]).
      + cbn [drain inject_next is_queue is_mem is_src list_next bind]. rewrite E. cbn [bind]. rewrite H0 by (cbn in Hf; lia).
        destruct (expand_all m1 c1 l) as [[[? ?] ?]| | |]; reflexivity.
      + cbn [drain inject_next is_queue is_mem is_src bind]. rewrite IHq by (cbn in Hf; lia).
        destruct (expand_all m1 c1 l) as [[[? ?] ?]| | |]; reflexivity.
  Qed.
End Expand.

(** Two passes in a row are one pass. *)
Definition comp {M1 M2} (e1 : expander M1) (e2 : expander M2) : expander (M1 * M2) := fun m c i =>
  do (l, m1, c1) <- e1 (fst m) c i ;;
  do (o, m2, c2) <- expand_all e2 (snd m) c1 l ;;
  match l with [] => UB UBPop | _ => Ok (o, (m1, m2), c2) end.

Lemma fuse {Src M1 M2} (e1 : expander M1) (e2 : expander M2) (src : next_fn Src) :
  forall f q2 m2 q1 m1 s c out c',
  drain (inject_next e2 (inject_next e1 src)) f (mkIS q2 m2 (mkIS q1 m1 s)) c = Ok (out, c') ->
  exists o m2' c1 f', expand_all e2 m2 c q1 = Ok (o, m2', c1) /\
    drain (inject_next (comp e1 e2) src) f' (mkIS (q2 ++ o) (m1, m2') s) c1 = Ok (out, c').
Proof.
  induction f as [|f IH]; intros q2 m2 q1 m1 s c out c' H; [discriminate|].
  cbn [drain] in H. inv H as r Hn. destruct r as [[[i st'] c1]|].
  - inv H as [o' c2] Hd. injection H as <- <-.
    unfold inject_next at 1 in Hn. cbn [is_queue is_mem is_src] in Hn. destruct q2 as [|j q2].
    + inv Hn as r Hs. destruct r as [[[i0 s'] c0]|]; [|discriminate].
      inv Hn as [[l' m'] c''] He. destruct l' as [|j q']; [discriminate|]. injection Hn as <- <- <-.
      unfold inject_next in Hs. cbn [is_queue is_mem is_src] in Hs. destruct q1 as [|i1 q1].
      * inv Hs as r Hr. destruct r as [[[k sk] ck]|]; [|discriminate].
        inv Hs as [[l1 m1'] cl] H1. destruct l1 as [|i1 l1]; [discriminate|]. injection Hs as <- <- <-.
        apply IH in Hd. destruct Hd as (o & m2' & c3 & f' & E1 & E2).
        exists [], m2, c, (S f'). split; [reflexivity|].
        cbn [drain app]. unfold inject_next at 1. cbn [is_queue is_mem is_src]. rewrite Hr. cbn [bind].
        unfold comp at 1. cbn [fst snd]. rewrite H1. cbn [bind].
        rewrite (expand_all_cons e2 _ _ _ _ _ _ _ _ _ _ He ltac:(discriminate) E1). cbn [bind app]. now rewrite E2.
      * injection Hs as <- <- <-. apply IH in Hd. destruct Hd as (o & m2' & c3 & f' & E1 & E2).
        exists ((j :: q') ++ o), m2', c3, (S f'). split; [eapply expand_all_cons; eauto; discriminate|].
        cbn [drain app inject_next is_queue is_mem is_src bind]. now rewrite E2.
    + injection Hn as <- <- <-. apply IH in Hd. destruct Hd as (o & m2' & c3 & f' & E1 & E2).
      exists o, m2', c3, (S f'). split; [assumption|].
      cbn [drain app inject_next is_queue is_mem is_src bind]. now rewrite E2.
  - injection H as <- <-. unfold inject_next at 1 in Hn. cbn [is_queue is_mem is_src] in Hn. destruct q2; [|discriminate].
    inv Hn as r Hs. destruct r as [[[i0 s'] c0]|]; [inv Hn as [[l' m'] c''] He; destruct l'; discriminate|].
    unfold inject_next in Hs. cbn [is_queue is_mem is_src] in Hs. destruct q1; [|discriminate].
    inv Hs as r Hr. destruct r as [[[k sk] ck]|]; [inv Hs as [[l1 m1'] cl] H1; destruct l1; discriminate|].
    exists [], m2, c, 1. split; [reflexivity|]. cbn [drain app]. unfold inject_next at 1. cbn [is_queue is_mem is_src].
    rewrite Hr. reflexivity.
Qed.

(** ** What a pass may do to a program *)
Lemma history_app h a b : history h (a ++ b) = history h a ++ history h b.
Proof. apply filter_app. Qed.
Lemma history_in h i l : In h (ids_of i) -> history h (i :: l) = i :: history h l.
Proof.
  intros H. unfold history. cbn [filter]. 
  replace (existsb (N.eqb h) (ids_of i)) with true; [reflexivity|]. symmetry. now apply memN_In.
Qed.
Lemma history_out h i l : ~ In h (ids_of i) -> history h (i :: l) = history h l.
Proof.
  intros H. unfold history. cbn [filter]. 
  replace (existsb (N.eqb h) (ids_of i)) with false; [reflexivity|]. symmetry. now apply memN_notIn.
Qed.
Lemma history_over h l : over (fun x => x <> h) l -> history h l = [].
Proof.
  induction l as [|i l IH]; intros H; [reflexivity|]. inversion H as [|? ? Hi Hl]; subst.
  rewrite history_out; [now apply IH|]. intros Hin. rewrite Forall_forall in Hi. now apply (Hi h Hin).
Qed.

Definition R (s c : N) (l : list instr) (c' : N) (o : list instr) : Prop :=
  (c <= c')%N /\
  Permutation (made_by o) (made_by l ++ id_range c c') /\
  (forall P : N -> Prop, over P l -> (forall x, (x < s)%N -> P x) -> (forall x, In x (id_range c c') -> P x) -> over P o) /\
  (forall h, (s <= h)%N -> ~ In h (id_range c c') -> history h o = history h l) /\
  ((c' <= 2 ^ 32)%N -> (s <= c)%N -> forall h, In h (id_range c c') -> over (fun x => x <> h) l -> lives h (history h o)).

Lemma R_refl s c l : R s c l c l.
Proof.
  unfold R. rewrite id_range_nil, app_nil_r. repeat split; auto; try lia. intros ? ? ? [].
Qed.

Lemma R_app s c l1 c1 o1 l2 c2 o2 : R s c l1 c1 o1 -> R s c1 l2 c2 o2 -> R s c (l1 ++ l2) c2 (o1 ++ o2).
Proof.
  intros (L1 & M1 & P1 & H1 & V1) (L2 & M2 & P2 & H2 & V2). unfold R.
  rewrite (id_range_app c c1 c2) by assumption. split; [lia|]. split; [|split; [|split]].
  - rewrite !made_by_app, M1, M2, <- !app_assoc. apply Permutation_app_head.
    rewrite !app_assoc. apply Permutation_app_tail, Permutation_app_comm.
  - intros P Hl Hs Hr. apply over_app in Hl. apply over_app. split; [apply P1|apply P2]; try tauto;
      intros x Hx; apply Hr, in_or_app; auto.
  - intros h Hh Hn. rewrite in_app_iff in Hn. rewrite !history_app. f_equal; [apply H1|apply H2]; tauto.
  - intros Hc Hs h Hin Ho. apply over_app in Ho. destruct Ho as [O1 O2]. rewrite history_app.
    apply in_app_or in Hin. destruct Hin as [Hin|Hin].
    + rewrite H2; [rewrite (history_over h l2), app_nil_r by assumption; apply V1; auto; lia| |].
      * apply id_range_small in Hin; lia.
      * rewrite id_range_small in * by lia. lia.
    + rewrite H1; [rewrite (history_over h l1) by assumption; apply V2; auto; lia| |].
      * apply id_range_small in Hin; lia.
      * rewrite id_range_small in * by lia. lia.
Qed.

Lemma R_trans s c l c1 o c2 o2 : R s c l c1 o -> R s c1 o c2 o2 -> R s c l c2 o2.
Proof.
  intros (L1 & M1 & P1 & H1 & V1) (L2 & M2 & P2 & H2 & V2). unfold R.
  rewrite (id_range_app c c1 c2) by assumption. split; [lia|]. split; [|split; [|split]].
  - now rewrite M2, M1, app_assoc.
  - intros P Hl Hs Hr. apply P2; auto; [apply P1; auto|]; intros x Hx; apply Hr, in_or_app; auto.
  - intros h Hh Hn. rewrite in_app_iff in Hn. rewrite H2, H1; tauto.
  - intros Hc Hs h Hin Ho. apply in_app_or in Hin. destruct Hin as [Hin|Hin].
    + rewrite H2; [apply V1; auto; lia| |].
      * apply id_range_small in Hin; lia.
      * rewrite id_range_small in * by lia. lia.
    + apply V2; auto; try lia. pose proof Hin as Hin'. apply id_range_small in Hin'; [|lia].
      apply P1; auto; [lia|]. intros x Hx. rewrite id_range_small in Hx by lia. lia.
Qed.

(** Instructions added around one that is kept *)
Definition inert (s : N) (l : list instr) : Prop := over (fun x => (x < s)%N) l /\ made_by l = [].
Lemma R_keep s c pre i post : inert s pre -> inert s post -> R s c [i] c (pre ++ i :: post).
Proof.
  intros [O1 M1] [O2 M2]. unfold R. rewrite id_range_nil, app_nil_r. split; [lia|]. split; [|split; [|split]].
  - change (i :: post) with ([i] ++ post). rewrite !made_by_app, M1, M2, app_nil_r. reflexivity.
  - intros P Hl Hs _. apply over_app. split; [exact (over_impl _ _ _ Hs O1)|]. inversion Hl; subst.
    apply Forall_cons; [assumption|]. exact (over_impl _ _ _ Hs O2).
  - intros h Hh _. change (i :: post) with ([i] ++ post). rewrite !history_app, (history_over h pre), (history_over h post), app_nil_r;
      [reflexivity| |]; (eapply over_impl; [|eassumption]); cbn; intros; lia.
  - intros _ _ h [].
Qed.

Ltac lives_ids := unfold ids_of; cbn [op clients instr_of sq mpm app In map pnt_target];
  rewrite ?in_app_iff, ?obs2_fst, ?ids2_In; cbn [In].
Ltac hist := repeat first
  [ rewrite history_in by (lives_ids; intuition lia)
  | rewrite history_out by (lives_ids; intuition lia)
  | rewrite history_app ]; cbn [history filter app].

Ltac made_tac := cbn [made op instr_of clients sq mpm In]; intuition (try lia).

Lemma ids2_shape a b : exists r, ids2 a b = a :: r.
Proof. unfold ids2, oset_insert. destruct (memN b [a]); eexists; reflexivity. Qed.

Lemma make_cnot_lives local c ctl t ct pl corr l c' :
  make_cnot local c ctl t ct pl corr = Ok (l, c') -> (c' <= 2 ^ 32)%N -> 
  forall h, In h (id_range c c') -> ctl <> h -> t <> h -> (lives h (history h l)).
Proof.
  unfold make_cnot, new_id.
  destruct ct, local, corr; intros H; try discriminate; injection H as <- <-; intros Hc h Hin N1 N2;
    rewrite id_range_small in Hin by lia.
  all: rewrite ?N.mod_small by lia.
  all: try (right; rewrite history_in by (lives_ids; lia); 
       do 9 eexists; split; [reflexivity|]; split; [reflexivity|]; lia).
  all: assert (h = c) by lia; subst h; left.
  all: rewrite history_in by (destruct pl; lives_ids; auto).
  all: repeat first [ rewrite history_in by (lives_ids; intuition lia) | rewrite history_out by (lives_ids; intuition lia) ].
  all: eexists; match goal with |- context[ ?x :: ?y :: ?z :: ?u :: ?v :: history _ _] => exists [y; z; u], v
                | |- context[ ?x :: ?y :: ?z :: ?u :: history _ _] => exists [y; z], u end.
  all: split; [reflexivity|]; split; [reflexivity|].
  all: split; [reflexivity|]; split; [made_tac|]; split; [intros []|].
  all: repeat (apply Forall_cons; [split; [made_tac|intros []]|]); apply Forall_nil.
Qed.

Lemma R_new s c l0 l c' : inert s l0 ->
  (c <= c')%N -> made_by l = id_range c c' -> over (fun x => (x < s)%N \/ In x (id_range c c')) l ->
  ((c' <= 2 ^ 32)%N -> (s <= c)%N -> forall h, In h (id_range c c') -> lives h (history h l)) -> R s c l0 c' l.
Proof.
  intros [O0 M0] L M O V. unfold R. rewrite M0, M. split; [assumption|]. split; [reflexivity|]. split; [|split].
  - intros P _ Hs Hr. eapply over_impl; [|eassumption]. cbn. intros x [?|?]; auto.
  - intros h Hh Hn. rewrite !history_over; [reflexivity| |]; (eapply over_impl; [|eassumption]); cbn; intros x Hx E; subst x; [lia|].
    destruct Hx; [lia|auto].
  - intros Hc Hs h Hh _. auto.
Qed.

Lemma make_t_lives local c t d l c' : make_t local c t d = Ok (l, c') -> (c' <= 2 ^ 32)%N -> (t < c)%N ->
  forall h, In h (id_range c c') -> lives h (history h l).
Proof.
  unfold make_t, new_id. destruct local; intros H Hc Ht h Hin.
  - inv H as [cn c2] Hx. injection H as <- <-.
    destruct (make_cnot_spec _ _ _ _ _ _ _ _ _ (fun _ => True) Hx) as (L & M & _).
    rewrite id_range_small in Hin by lia. rewrite N.mod_small in * by lia.
    destruct (N.eq_dec h c) as [->|Hne].
    + rewrite history_in by (lives_ids; auto). rewrite history_app.
      unfold make_cnot, new_id in Hx. injection Hx as <- <-.
      rewrite !history_in by (lives_ids; auto). cbn [sq]. rewrite history_out by (lives_ids; lia). left.
      match goal with |- context [?x :: (?y :: _) ++ ?z :: _] => exists x, [y], z end.
      split; [reflexivity|]. split; [reflexivity|]. split; [reflexivity|]. split; [intros []|]. split; [intros []|].
      apply Forall_cons; [|apply Forall_nil]. split; [|intros []]. cbn [made op In]. rewrite !N.mod_small by lia. lia.
    + rewrite history_out by (lives_ids; lia). rewrite history_app.
      rewrite (history_out _ (instr_of _)) by (lives_ids; lia). rewrite (history_out _ (sq _ _)) by (lives_ids; lia).
      cbn [history filter]. rewrite app_nil_r. apply (make_cnot_lives _ _ _ _ _ _ _ _ _ Hx); try lia.
      apply id_range_small; lia.
  - injection H as <- <-. rewrite id_range_small in Hin by lia. assert (h = c) by lia. subst h.
    rewrite N.mod_small by lia. left.
    rewrite !history_in by (lives_ids; auto). rewrite history_out by (lives_ids; lia).
    match goal with |- context [?x :: ?y :: ?z :: _] => exists x, [y], z end.
    split; [reflexivity|]. split; [reflexivity|]. split; [reflexivity|]. split; [intros []|]. split; [intros []|].
    apply Forall_cons; [|apply Forall_nil]. split; intros [].
Qed.

Lemma inert_nil s : inert s [].
Proof. split; [apply Forall_nil|reflexivity]. Qed.

Lemma lower_gate_R s cfg c g l c' : lower_gate cfg c g = Ok (l, c') -> Forall (fun q => (q < s)%N) (gate_qubits g) ->
  R s c [] c' l.
Proof.
  intros H Hq. pose proof (lower_gate_spec _ _ _ _ _ (fun x => (x < s)%N \/ In x (id_range c c')) H) as (L & M & O).
  apply R_new; auto using inert_nil.
  { apply O; auto. eapply Forall_impl; [|eassumption]. auto. }
  intros Hc Hs h Hh. clear O. pose proof Hh as Hh'. rewrite id_range_small in Hh' by lia.
  destruct g as [t b|t f|ctl tg ct pl|r t]; cbn [lower_gate gate_qubits] in *.
  - inversion Hq; subst. destruct b; try (injection H as <- <-; rewrite id_range_nil in Hh; destruct Hh);
      eapply make_t_lives; eauto; lia.
  - inversion Hq; subst. repeat match type of H with context[if ?b then _ else _] => destruct b end; try discriminate;
      try (injection H as <- <-; rewrite id_range_nil in Hh; destruct Hh);
      eapply make_t_lives; eauto; lia.
  - destruct tg as [t b|]; [destruct b|]; try discriminate; inversion Hq as [|? ? Hq1 Hq2]; inversion Hq2; subst.
    + eapply make_cnot_lives; eauto; lia.
    + inv H as [cn c2] Hx. injection H as <- <-.
      rewrite history_out by (lives_ids; lia). rewrite history_app. rewrite (history_out _ (sq _ _)) by (lives_ids; lia).
      cbn [history filter]. rewrite app_nil_r. eapply make_cnot_lives; eauto; lia.
  - destruct text_eqb; [|discriminate]. injection H as <- <-. rewrite id_range_nil in Hh; destruct Hh.
Qed.

Definition bare (i : instr) : Prop := match op i with SingleOp _ _ _ => clients i = [] | _ => True end.

Lemma make_cnot_bare local c ctl t ct pl corr l c' : make_cnot local c ctl t ct pl corr = Ok (l, c') -> Forall bare l.
Proof.
  unfold make_cnot, new_id. destruct ct, local, corr; intros H; try discriminate; injection H as <- <-;
    repeat (apply Forall_cons; [first [exact I|reflexivity]|]); apply Forall_nil.
Qed.
Lemma make_t_bare local c t d l c' : make_t local c t d = Ok (l, c') -> Forall bare l.
Proof.
  unfold make_t, new_id. destruct local; intros H.
  - inv H as [cn c2] Hx. injection H as <- <-. apply make_cnot_bare in Hx.
    apply Forall_cons; [exact I|]. apply Forall_app. split; [assumption|]. repeat constructor.
  - injection H as <- <-. repeat constructor.
Qed.
Lemma lower_gate_bare cfg c g l c' : lower_gate cfg c g = Ok (l, c') -> Forall bare l.
Proof.
  destruct g as [t b|t f|ctl tg ct pl|r t]; cbn [lower_gate].
  - destruct b; intros H; try (injection H as <- <-; repeat constructor); eapply make_t_bare; eauto.
  - repeat match goal with |- context[if ?b then _ else _] => destruct b end; intros H; try discriminate;
      try (injection H as <- <-; repeat constructor); eapply make_t_bare; eauto.
  - destruct tg as [t b|]; [destruct b|]; try discriminate; intros H; [eapply make_cnot_bare; eauto|].
    inv H as [cn c2] Hx. injection H as <- <-. apply make_cnot_bare in Hx.
    apply Forall_cons; [reflexivity|]. apply Forall_app. split; [assumption|]. repeat constructor.
  - destruct text_eqb; intros H; [|discriminate]. injection H as <- <-. repeat constructor.
Qed.

Definition tame {M} (s : N) (Inv : M -> Prop) (e : expander M) : Prop :=
  forall m c i l m' c', Inv m -> bare i -> e m c i = Ok (l, m', c') -> Inv m' /\ Forall bare l /\ R s c [i] c' l.

Lemma expand_all_tame {M} s Inv (e : expander M) : tame s Inv e -> forall l m c o m' c',
  Inv m -> Forall bare l -> expand_all e m c l = Ok (o, m', c') -> Inv m' /\ Forall bare o /\ R s c l c' o.
Proof.
  intros T. induction l as [|i l IH]; intros m c o m' c' Hm Hl H; cbn [expand_all] in H.
  - injection H as <- <- <-. auto using R_refl.
  - inversion Hl; subst. inv H as [[o1 m1] c1] He. destruct (T _ _ _ _ _ _ Hm H2 He) as (I1 & B1 & R1).
    destruct o1 as [|j o1]; [discriminate|]. inv H as [[o2 m2] c2] Hr. injection H as <- <- <-.
    destruct (IH _ _ _ _ _ I1 H3 Hr) as (I2 & B2 & R2). split; [assumption|]. 
    split; [exact (proj2 (Forall_app bare (j :: o1) o2) (conj B1 B2))|].
    exact (R_app _ _ [i] _ (j :: o1) _ _ _ R1 R2).
Qed.

Lemma comp_tame {M1 M2} s I1 I2 (e1 : expander M1) (e2 : expander M2) : tame s I1 e1 -> tame s I2 e2 ->
  tame s (fun m => I1 (fst m) /\ I2 (snd m)) (comp e1 e2).
Proof.
  intros T1 T2 [m1 m2] c i l m' c' [H1 H2] B H. unfold comp in H. cbn [fst snd] in *.
  inv H as [[l1 m1'] c1] E1. inv H as [[o m2'] c2] E2. destruct l1 as [|j l1]; [discriminate|]. injection H as <- <- <-.
  destruct (T1 _ _ _ _ _ _ H1 B E1) as (J1 & B1 & R1).
  destruct (expand_all_tame _ _ _ T2 _ _ _ _ _ _ H2 B1 E2) as (J2 & B2 & R2).
  split; [auto|]. split; [assumption|]. eapply R_trans; eauto.
Qed.

Lemma gates_out_tame {M} s Inv (e : expander M) cfg : tame s Inv e -> forall gs m c o m' c',
  Inv m -> Forall (fun g => Forall (fun q => (q < s)%N) (gate_qubits g)) gs ->
  gates_out e cfg m c gs = Ok (o, m', c') -> R s c [] c' o.
Proof.
  intros T. induction gs as [|g gs IH]; intros m c o m' c' Hm Hq H; cbn [gates_out] in H.
  - injection H as <- <- <-. apply R_refl.
  - inversion Hq; subst. inv H as [l c1] Hg. inv H as [[o1 m1] c2] He. inv H as [[o2 m2] c3] Hr. injection H as <- <- <-.
    pose proof (lower_gate_R s _ _ _ _ _ Hg H2) as R1.
    destruct (expand_all_tame _ _ _ T _ _ _ _ _ _ Hm (lower_gate_bare _ _ _ _ _ Hg) He) as (J & _ & R2).
    change [] with (@nil instr ++ []). eapply R_app; [eapply R_trans; eauto|]. eapply IH; eauto.
Qed.

Lemma teleport_tame s core ar : Forall (fun q => (q < s)%N) core -> tame s (fun _ => True) (teleport_expand core ar).
Proof.
  intros Hcore m c i l m' c' _ B H. split; [exact I|]. unfold teleport_expand in H.
  assert (K : forall c, R s c [i] c [i]) by (intros; apply R_refl).
  destruct (op i) as [| | | | | | |t o d| | | |] eqn:Eo; try (injection H as <- <- <-; auto).
  unfold bare in B. rewrite Eo in B. destruct o; try (injection H as <- <- <-; split; [apply Forall_cons; [unfold bare; now rewrite Eo|apply Forall_nil]|apply K]).
  - destruct (ar && memN t core) eqn:E; injection H as <- <- <-.
    + apply andb_true_iff in E. destruct E as [_ E]. apply memN_In in E. rewrite Forall_forall in Hcore. specialize (Hcore _ E).
      split; [apply Forall_cons; [unfold bare; now rewrite Eo|repeat constructor]|].
      apply (R_keep s c [] i [_]); [apply inert_nil|]. split; [|reflexivity]. repeat constructor; assumption.
    + split; [apply Forall_cons; [unfold bare; now rewrite Eo|apply Forall_nil]|apply K].
  - destruct (memN t core) eqn:E.
    + apply memN_In in E. rewrite Forall_forall in Hcore. specialize (Hcore _ E). unfold new_id in H. injection H as <- <- <-.
      split; [repeat constructor|]. apply R_new.
      * split; [|unfold made_by; cbn; unfold made; now rewrite Eo].
        apply Forall_cons; [|apply Forall_nil]. unfold ids_of. rewrite Eo, B. repeat constructor. assumption.
      * lia.
      * rewrite id_range_1. reflexivity.
      * rewrite id_range_1. unfold over. repeat (apply Forall_cons; [first [apply over_mpm|unfold ids_of; cbn [clients op instr_of sq app]; repeat apply Forall_cons]; cbn; auto|]).
        apply Forall_nil.
      * intros Hc Hs h Hh. rewrite id_range_small in Hh by lia. assert (h = c) by lia. subst h. rewrite N.mod_small by lia.
        left. rewrite !history_in by (lives_ids; auto). rewrite history_out by (lives_ids; lia).
        match goal with |- context [?x :: ?y :: ?z :: _] => exists x, [y], z end.
        split; [reflexivity|]. split; [reflexivity|]. split; [reflexivity|]. split; [intros []|].
        split; [intros [_ ?]; discriminate|]. apply Forall_cons; [|apply Forall_nil]. split; intros [].
    + injection H as <- <- <-. split; [apply Forall_cons; [unfold bare; now rewrite Eo|apply Forall_nil]|apply K].
Qed.

Lemma ok3_inj {A B C} (a a' : A) (b b' : B) (c c' : C) : Ok (a, b, c) = Ok (a', b', c') -> a = a' /\ b = b' /\ c = c'.
Proof. intros H. now inversion H. Qed.

Lemma catalytic_tame s local core ar : Forall (fun q => (q < s)%N) core -> tame s (fun _ => True) (catalytic_expand local core ar).
Proof.
  intros Hcore m c i l m' c' _ B H. split; [exact I|]. unfold catalytic_expand in H.
  assert (K : forall c, R s c [i] c [i]) by (intros; apply R_refl).
  destruct (op i) as [| | | | | | |t o d| | | |] eqn:Eo; try (injection H as <- <- <-; auto).
  unfold bare in B. rewrite Eo in B. destruct o; try (injection H as <- <- <-; split; [apply Forall_cons; [unfold bare; now rewrite Eo|apply Forall_nil]|apply K]).
  - destruct (ar && memN t core) eqn:E; injection H as <- <- <-.
    + apply andb_true_iff in E. destruct E as [_ E]. apply memN_In in E. rewrite Forall_forall in Hcore. specialize (Hcore _ E).
      split; [apply Forall_cons; [unfold bare; now rewrite Eo|repeat constructor]|].
      apply (R_keep s c [] i [_]); [apply inert_nil|]. split; [|reflexivity]. repeat constructor; assumption.
    + split; [apply Forall_cons; [unfold bare; now rewrite Eo|apply Forall_nil]|apply K].
  - destruct (memN t core) eqn:E.
    2:{ injection H as <- <- <-. split; [apply Forall_cons; [unfold bare; now rewrite Eo|apply Forall_nil]|apply K]. }
    apply memN_In in E. rewrite Forall_forall in Hcore. specialize (Hcore _ E). unfold new_id in H.
    inv H as [l1 c2] E1. inv H as [l2 c3] E2. apply ok3_inj in H. destruct H as (<- & <- & <-).
    split.
    { apply Forall_cons; [exact I|]. apply Forall_app. split; [eapply make_cnot_bare; eauto|].
      repeat (apply Forall_cons; [first [reflexivity|exact I]|]). apply Forall_app. split; [eapply make_cnot_bare; eauto|].
      repeat constructor. }
    pose proof (make_cnot_spec _ _ _ _ _ _ _ _ _ (fun x => (x < s)%N \/ In x (id_range c c3)) E1) as (L1 & M1 & O1).
    pose proof (make_cnot_spec _ _ _ _ _ _ _ _ _ (fun x => (x < s)%N \/ In x (id_range c c3)) E2) as (L2 & M2 & O2).
    assert (RR : id_range c c3 = (c mod 2 ^ 32)%N :: id_range (c + 1) c2 ++ id_range c2 c3).
    { rewrite (id_range_app c (c + 1) c3), (id_range_app (c + 1) c2 c3), id_range_1 by lia. reflexivity. }
    assert (Hy : In (c mod 2 ^ 32)%N (id_range c c3)) by (rewrite RR; now left).
    apply R_new.
    + split; [|unfold made_by; cbn; unfold made; now rewrite Eo].
      apply Forall_cons; [|apply Forall_nil]. unfold ids_of. rewrite Eo, B. repeat constructor. assumption.
    + lia.
    + rewrite made_by_cons, !made_by_app, M1, M2, RR. cbn. now rewrite app_nil_r.
    + apply Forall_cons; [unfold ids_of; cbn; repeat (apply Forall_cons; auto)|]. apply over_app. split.
      { apply O1; auto. intros x Hx. right. rewrite RR. right. apply in_or_app. now left. }
      apply over_app. split; [repeat (apply Forall_cons; [unfold ids_of; cbn; repeat (apply Forall_cons; auto)|]); apply Forall_nil|].
      apply over_app. split.
      { apply O2; auto. intros x Hx. right. rewrite RR. right. apply in_or_app. now right. }
      repeat (apply Forall_cons; [unfold ids_of; cbn; repeat (apply Forall_cons; auto)|]); apply Forall_nil.
    + intros Hc Hs h Hh. clear O1 O2 Hy. rewrite N.mod_small in * by lia.
      assert (A1 : forall h, (h = c \/ (c2 <= h < c3)%N) -> h <> c -> over (fun x => x <> h) l1).
      { intros h' Hh' Hne. eapply make_cnot_spec; [exact E1|lia|cbn in *; lia|]. intros x Hx. rewrite id_range_small in Hx by lia. lia. }
      assert (A2 : forall h, (c + 1 <= h < c2)%N -> over (fun x => x <> h) l2).
      { intros h' Hh'. eapply make_cnot_spec; [exact E2|lia|lia|]. intros x Hx. rewrite id_range_small in Hx by lia. lia. }
      rewrite id_range_small in Hh by lia.
      destruct (N.eq_dec h c) as [->|Hne]; [|destruct (N.lt_ge_cases h c2)].
      * clear A1 A2. left.
        unfold make_cnot, new_id in E1, E2. destruct local; injection E1 as <- <-; injection E2 as <- <-; rewrite !N.mod_small by lia.
        -- cbn [app]. rewrite !history_in by (lives_ids; auto).
           match goal with |- context [?a1 :: ?a2 :: ?a3 :: ?a4 :: ?a5 :: ?a6 :: ?a7 :: ?a8 :: _] => exists a1, [a2; a3; a4; a5; a6; a7], a8 end.
           split; [reflexivity|]. split; [reflexivity|]. split; [split; reflexivity|]. split; [intros []|].
           split; [intros [_ ?]; discriminate|].
           repeat (apply Forall_cons; [split; [made_tac|intros []]|]). apply Forall_nil.
        -- cbn [app]. repeat first [ rewrite history_in by (lives_ids; intuition lia) | rewrite history_out by (lives_ids; intuition lia) ].
           match goal with |- context [?a1 :: ?a2 :: ?a3 :: ?a4 :: ?a5 :: ?a6 :: ?a7 :: ?a8 :: ?a9 :: ?a10 :: _] => exists a1, [a2; a3; a4; a5; a6; a7; a8; a9], a10 end.
           split; [reflexivity|]. split; [reflexivity|]. split; [split; reflexivity|]. split; [intros []|].
           split; [intros [_ ?]; discriminate|].
           repeat (apply Forall_cons; [split; [made_tac|intros []]|]). apply Forall_nil.
      * rewrite history_out by (lives_ids; intuition lia). rewrite !history_app.
        rewrite (history_over h l2) by (apply A2; lia). rewrite !history_out by (lives_ids; intuition lia).
        cbn [history filter app]. rewrite app_nil_r. eapply make_cnot_lives; eauto; try lia. apply id_range_small; lia.
      * rewrite history_out by (lives_ids; intuition lia). rewrite !history_app.
        rewrite (history_over h l1) by (apply A1; lia). rewrite !history_out by (lives_ids; intuition lia).
        cbn [history filter app]. rewrite app_nil_r. eapply make_cnot_lives; eauto; try lia. apply id_range_small; lia.
Qed.

Definition keys_below (s : N) (m : emap) : Prop := Forall (fun kv => (fst kv < s)%N) m.
Lemma alookup_In {A} (m : list (N * A)) k v : alookup m k = Some v -> In (k, v) m.
Proof.
  induction m as [|[k' v'] m IH]; cbn; [discriminate|]. destruct (N.eqb_spec k k') as [->|]; [|auto].
  intros H. injection H as ->. now left.
Qed.
Lemma aset_keys {A} (m : list (N * A)) k v : map fst (aset m k v) = map fst m.
Proof. induction m as [|[k' v'] m IH]; cbn; [reflexivity|]. destruct (N.eqb_spec k k') as [->|]; cbn; congruence. Qed.
Lemma keys_below_aset s m k v : keys_below s m -> keys_below s (aset m k v).
Proof.
  unfold keys_below. rewrite <- !(Forall_map fst (fun k => (k < s)%N)), aset_keys. auto.
Qed.
Lemma expose_inert s m q p l m' : keys_below s m -> expose m q p = (l, m') ->
  inert s l /\ keys_below s m' /\ Forall bare l.
Proof.
  intros K. unfold expose. destruct (alookup m q) as [e|] eqn:E; [destruct (is_exposed e p)|]; intros H; injection H as <- <-;
    try (split; [apply inert_nil|auto]).
  split; [|split; [now apply keys_below_aset|repeat constructor]].
  split; [|reflexivity]. apply alookup_In in E. unfold keys_below in K. rewrite Forall_forall in K. apply K in E.
  repeat constructor. assumption.
Qed.
Lemma inert_app s a b : inert s a -> inert s b -> inert s (a ++ b).
Proof.
  intros [O1 M1] [O2 M2]. split; [now apply over_app|]. now rewrite made_by_app, M1, M2.
Qed.

Lemma boundary_tame s : tame s (keys_below s) boundary_expand.
Proof.
  intros m c i l m' c' K B H. unfold boundary_expand in H.
  assert (Kp : forall m0 pre, keys_below s m0 -> inert s pre -> Forall bare pre ->
     keys_below s m0 /\ Forall bare (pre ++ [i]) /\ R s c [i] c (pre ++ [i])).
  { intros m0 pre K0 Ip Bp. split; [assumption|]. split; [apply Forall_app; auto|]. apply R_keep; [assumption|apply inert_nil]. }
  destruct (op i) as [| |obs neg loc| | | | |t o d| | |ctl tgt s1 s2 r1 r2 r3 r4|] eqn:Eo; try (injection H as <- <- <-; apply (Kp _ []); auto using inert_nil).
  - inv H as [lr mr] Hf. injection H as <- <- <-.
    assert (Q : (fun st : list instr * emap => inert s (fst st) /\ keys_below s (snd st) /\ Forall bare (fst st)) (lr, mr)).
    { refine (foldM_inv _ (fun st : list instr * emap => inert s (fst st) /\ keys_below s (snd st) /\ Forall bare (fst st)) _ _ _ _ _ Hf);
        [|cbn; auto using inert_nil].
      intros [l0 m0] q [l1 m1] (I0 & K0 & B0) Hs. cbn [fst snd] in *.
      destruct (alookup m0 q); [|injection Hs as <- <-; auto].
      destruct (alookup obs q) as [p|]; [|discriminate]. destruct (expose m0 q p) as [l' m''] eqn:Ex. injection Hs as <- <-.
      destruct (expose_inert _ _ _ _ _ _ K0 Ex) as (I1 & K1 & B1).
      split; [now apply inert_app|]. split; [assumption|]. now apply Forall_app. }
    destruct Q as (I0 & K0 & B0). cbn [fst snd] in *. apply Kp; assumption.
  - destruct o; try (injection H as <- <- <-; apply (Kp _ []); auto using inert_nil).
    + destruct (alookup m t); injection H as <- <- <-; apply (Kp _ []); auto using inert_nil, keys_below_aset.
    + destruct (expose m t PZ) as [l' m''] eqn:Ex. injection H as <- <- <-.
      destruct (expose_inert _ _ _ _ _ _ K Ex) as (I1 & K1 & B1). now apply Kp.
  - destruct (expose m ctl PZ) as [l1 m1] eqn:E1. destruct (expose m1 tgt PX) as [l2 m2] eqn:E2. injection H as <- <- <-.
    destruct (expose_inert _ _ _ _ _ _ K E1) as (I1 & K1 & B1). destruct (expose_inert _ _ _ _ _ _ K1 E2) as (I2 & K2 & B2).
    rewrite app_assoc. apply Kp; [assumption|now apply inert_app|now apply Forall_app].
Qed.

(** ** The pipelines *)
Lemma id_tame s : tame s (fun _ => True) (fun (m : unit) c i => Ok ([i], m, c)).
Proof. intros m c i l m' c' _ B H. injection H as <- <- <-. split; [exact I|]. split; [auto|apply R_refl]. Qed.
Lemma lower_all_R s cfg : forall gs c o c', Forall (fun g => Forall (fun q => (q < s)%N) (gate_qubits g)) gs ->
  lower_all cfg c gs = Ok (o, c') -> R s c [] c' o.
Proof.
  induction gs as [|g gs IH]; intros c o c' Hq H; cbn [lower_all] in H.
  - injection H as <- <-. apply R_refl.
  - inversion Hq; subst. inv H as [l c1] Hg. inv H as [o1 c2] Hr. injection H as <- <-.
    change [] with (@nil instr ++ []). eapply R_app; [eapply lower_gate_R; eauto|eapply IH; eauto].
Qed.

Lemma inject_R {M} s Inv (e : expander M) cfg gs m c out c' : tame s Inv e -> Inv m ->
  Forall (fun g => Forall (fun q => (q < s)%N) (gate_qubits g)) gs ->
  reads (inject_next e (lower_next cfg)) (mkIS [] m (mkLS [] gs)) c (Ok (out, c')) -> R s c [] c' out.
Proof.
  intros T Hm Hq [_ [f H]]. apply inject_lower_ok in H. destruct H as (o & m1 & c1 & o2 & m2 & E1 & E2 & ->).
  cbn in E1. injection E1 as <- <- <-. cbn [app]. eapply gates_out_tame; eauto.
Qed.
Lemma inject2_R {M1 M2} s I1 I2 (e1 : expander M1) (e2 : expander M2) cfg gs m1 m2 c out c' :
  tame s I1 e1 -> tame s I2 e2 -> I1 m1 -> I2 m2 ->
  Forall (fun g => Forall (fun q => (q < s)%N) (gate_qubits g)) gs ->
  reads (inject_next e2 (inject_next e1 (lower_next cfg))) (mkIS [] m2 (mkIS [] m1 (mkLS [] gs))) c (Ok (out, c')) -> R s c [] c' out.
Proof.
  intros T1 T2 H1 H2 Hq [_ [f H]]. apply fuse in H. destruct H as (o & m2' & c1 & f' & E & H).
  cbn in E. injection E as <- <- <-. cbn [app] in H.
  eapply (inject_R s (fun m => I1 (fst m) /\ I2 (snd m))); [eapply comp_tame; eauto| |exact Hq|].
  2:{ split; [discriminate|]. exists f'. exact H. } cbn. auto.
Qed.

(** ** S injection *)
Lemma inject_Forall {S M} (P : instr -> Prop) (e : expander M) (src : next_fn S) :
  (forall m c i l m' c', e m c i = Ok (l, m', c') -> Forall P l) ->
  forall f st c out c', Forall P (is_queue st) -> drain (inject_next e src) f st c = Ok (out, c') -> Forall P out.
Proof.
  intros He. induction f as [|f IH]; intros st c out c' Hq H; [discriminate|].
  cbn [drain] in H. inv H as r Hn. destruct r as [[[i st'] c1]|]; [|injection H as <- <-; apply Forall_nil].
  inv H as [o' c2] Hd. injection H as <- <-. unfold inject_next in Hn. destruct (is_queue st) as [|j q].
  - inv Hn as r Hs. destruct r as [[[i0 s'] c0]|]; [|discriminate].
    inv Hn as [[l' m'] c''] E. apply He in E. destruct l' as [|j q]; [discriminate|]. injection Hn as <- <- <-.
    inversion E; subst. constructor; [assumption|]. eapply IH; [|exact Hd]. assumption.
  - injection Hn as <- <- <-. inversion Hq; subst. constructor; [assumption|]. eapply IH; [|exact Hd]. assumption.
Qed.

Lemma inject_pulled {S M} (e : expander M) (src : next_fn S) (Q : instr -> list instr -> Prop) :
  (forall m c i l m' c', e m c i = Ok (l, m', c') -> (c <= c')%N /\ Q i l) ->
  forall f q m s c out c', drain (inject_next e src) f (mkIS q m s) c = Ok (out, c') ->
  exists l segs, pulled src s c l /\ out = q ++ concat segs /\ Forall2 Q l segs.
Proof.
  intros He. induction f as [|f IH]; intros q m s c out c' H; [discriminate|].
  cbn [drain] in H. inv H as r Hn. unfold inject_next in Hn. cbn [is_queue is_mem is_src] in Hn. destruct r as [[[i st'] c1]|].
  - inv H as [o' c2] Hd. injection H as <- <-. destruct q as [|j q].
    + inv Hn as r Hs. destruct r as [[[i0 s'] c0]|]; [|discriminate].
      inv Hn as [[l' m'] c''] E. apply He in E. destruct E as [Hc HQ]. destruct l' as [|j q]; [discriminate|].
      injection Hn as <- <- <-. apply IH in Hd. destruct Hd as (l & segs & Hp & -> & HF).
      exists (i0 :: l), ((j :: q) :: segs). split; [econstructor; eauto|]. split; [reflexivity|]. constructor; assumption.
    + injection Hn as <- <- <-. apply IH in Hd. destruct Hd as (l & segs & Hp & -> & HF). exists l, segs. auto.
  - injection H as <- <-. destruct q; [|discriminate]. inv Hn as r Hs.
    destruct r as [[[i0 s'] c0]|]; [inv Hn as [[l' m'] c''] E; destruct l'; discriminate|].
    exists [], []. split; [now constructor|]. split; [reflexivity|constructor].
Qed.

Lemma teleport_nonempty core ar m c i o m' c' : teleport_expand core ar m c i = Ok (o, m', c') -> o <> [].
Proof.
  unfold teleport_expand, new_id. destruct (op i) as [| | | | | | |t sop d| | | |]; try (intros H; injection H as <- _ _; discriminate).
  destruct sop; try (intros H; injection H as <- _ _; discriminate).
  - destruct (ar && memN t core); intros H; injection H as <- _ _; discriminate.
  - destruct (memN t core); intros H; injection H as <- _ _; discriminate.
Qed.
Lemma teleport_no_fail core ar m c i : exists o c', teleport_expand core ar m c i = Ok (o, m, c').
Proof.
  unfold teleport_expand, new_id. destruct (op i) as [| | | | | | |t sop d| | | |]; eauto.
  destruct sop; eauto.
  - destruct (ar && memN t core); eauto.
  - destruct (memN t core); eauto.
Qed.
Lemma catalytic_nonempty loc core ar m c i o m' c' : catalytic_expand loc core ar m c i = Ok (o, m', c') -> o <> [].
Proof.
  unfold catalytic_expand, new_id. destruct (op i) as [| | | | | | |t sop d| | | |]; try (intros H; injection H as <- _ _; discriminate).
  destruct sop; try (intros H; injection H as <- _ _; discriminate).
  - destruct (ar && memN t core); intros H; injection H as <- _ _; discriminate.
  - destruct (memN t core); intros H; [|injection H as <- _ _; discriminate].
    inv H as [l1 c1] E1. inv H as [l2 c2] E2. injection H as <- _ _. discriminate.
Qed.
Lemma catalytic_no_fail loc core ar m c i : exists o c', catalytic_expand loc core ar m c i = Ok (o, m, c').
Proof.
  unfold catalytic_expand, new_id. destruct (op i) as [| | | | | | |t sop d| | | |]; eauto.
  destruct sop; eauto.
  - destruct (ar && memN t core); eauto.
  - destruct (memN t core); eauto. destruct loc; cbn; eauto.
Qed.

Lemma alone_iff (e : expander unit) i k seg k' :
  (forall m c i o m' c', e m c i = Ok (o, m', c') -> o <> []) -> (forall m c i, e m c i <> Fuel) ->
  alone e i k seg k' <-> e tt k i = Ok (seg, tt, k').
Proof.
  intros Hne Hnf. destruct (inject_list_drain e [i] [] tt k Hne Hnf) as [f0 H0].
  specialize (H0 f0 (le_n _)). cbn [prepend expand_all] in H0. unfold alone.
  assert (X : drain (inject_next e list_next) f0 (mkIS [] tt [i]) k =
     match e tt k i with Ok (o, _, c') => Ok (o, c') | Throw x => Throw x | UB u => UB u | Fuel => Fuel end).
  { rewrite H0. destruct (e tt k i) as [[[o m1] c1]| | |] eqn:E; cbn [bind]; try reflexivity.
    destruct o; [now apply Hne in E|]. cbn [bind app]. now rewrite app_nil_r. }
  split.
  - intros H. assert (R2 : reads (inject_next e list_next) (mkIS [] tt [i]) k (match e tt k i with Ok (o, _, c') => Ok (o, c') | Throw x => Throw x | UB u => UB u | Fuel => Fuel end)).
    { split; [|eauto]. specialize (Hnf tt k i). destruct (e tt k i) as [[[? ?] ?]| | |]; congruence. }
    pose proof (reads_fun _ _ _ _ _ H R2) as E. destruct (e tt k i) as [[[o []] c1]| | |]; congruence.
  - intros E. rewrite E in X. split; [discriminate|eauto].
Qed.

Lemma S_on_dec core i : is_S_on core i \/ ~ is_S_on core i.
Proof.
  unfold is_S_on. destruct (op i) as [| | | | | | |t sop d| | | |]; try (right; intros (? & ? & ? & ?); discriminate).
  destruct sop; try (right; intros (? & ? & ? & ?); discriminate).
  destruct (in_dec N.eq_dec t core); [left; eauto|right]. intros (? & ? & E & ?). injection E as <- <-. auto.
Qed.
Lemma H_on_dec core i : is_H_on core i \/ ~ is_H_on core i.
Proof.
  unfold is_H_on. destruct (op i) as [| | | | | | |t sop d| | | |]; try (right; intros (? & ? & ? & ?); discriminate).
  destruct sop; try (right; intros (? & ? & ? & ?); discriminate).
  destruct (in_dec N.eq_dec t core); [left; eauto|right]. intros (? & ? & E & ?). injection E as <- <-. auto.
Qed.

Lemma teleport_mono core ar m c i o m' c' : teleport_expand core ar m c i = Ok (o, m', c') -> (c <= c')%N.
Proof.
  unfold teleport_expand, new_id. destruct (op i) as [| | | | | | |t sop d| | | |]; try (intros H; injection H as _ _ <-; lia).
  destruct sop; try (intros H; injection H as _ _ <-; lia).
  - destruct (ar && memN t core); intros H; injection H as _ _ <-; lia.
  - destruct (memN t core); intros H; injection H as _ _ <-; lia.
Qed.
Lemma catalytic_mono loc core ar m c i o m' c' : catalytic_expand loc core ar m c i = Ok (o, m', c') -> (c <= c')%N.
Proof.
  unfold catalytic_expand, new_id. destruct (op i) as [| | | | | | |t sop d| | | |]; try (intros H; injection H as _ _ <-; lia).
  destruct sop; try (intros H; injection H as _ _ <-; lia).
  - destruct (ar && memN t core); intros H; injection H as _ _ <-; lia.
  - destruct (memN t core); intros H; [|injection H as _ _ <-; lia].
    inv H as [l1 c1] E1. inv H as [l2 c2] E2. injection H as _ _ <-.
    destruct (make_cnot_spec _ _ _ _ _ _ _ _ _ (fun _ => True) E1) as (? & _).
    destruct (make_cnot_spec _ _ _ _ _ _ _ _ _ (fun _ => True) E2) as (? & _). lia.
Qed.

Lemma sq_not_S core t o : o <> SqS -> ~ is_S_on core (sq t o).
Proof. intros H (? & ? & E & _). injection E as _ E' _. congruence. Qed.
Lemma make_cnot_no_S core local c ctl t ct pl corr l c' : make_cnot local c ctl t ct pl corr = Ok (l, c') ->
  Forall (fun j => ~ is_S_on core j) l.
Proof.
  unfold make_cnot, new_id. destruct ct, local, corr; intros H; try discriminate; injection H as <- <-;
    repeat (apply Forall_cons; [first [apply sq_not_S; discriminate | intros (? & ? & E & _); discriminate]|]); apply Forall_nil.
Qed.

Lemma teleport_no_S core ar m c i o m' c' : teleport_expand core ar m c i = Ok (o, m', c') ->
  Forall (fun j => ~ is_S_on core j) o.
Proof.
  unfold teleport_expand, new_id. destruct (op i) as [| | | | | | |t sop d| | | |] eqn:Eo;
    try (intros H; injection H as <- _ _; apply Forall_cons; [intros (? & ? & E & _); congruence|apply Forall_nil]).
  destruct sop; try (intros H; injection H as <- _ _; apply Forall_cons; [intros (? & ? & E & _); congruence|apply Forall_nil]).
  - destruct (ar && memN t core); intros H; injection H as <- _ _;
      repeat (apply Forall_cons; [intros (? & ? & E & _); cbn in E; congruence|]); apply Forall_nil.
  - destruct (memN t core) eqn:M; intros H; injection H as <- _ _;
      repeat (apply Forall_cons; [intros (? & ? & E & Hin); cbn in E; try congruence|]); try apply Forall_nil.
    rewrite Eo in E. injection E as <- <-. apply memN_notIn in M. auto.
Qed.
Lemma catalytic_no_S loc core ar m c i o m' c' : catalytic_expand loc core ar m c i = Ok (o, m', c') ->
  Forall (fun j => ~ is_S_on core j) o.
Proof.
  unfold catalytic_expand, new_id. destruct (op i) as [| | | | | | |t sop d| | | |] eqn:Eo;
    try (intros H; injection H as <- _ _; apply Forall_cons; [intros (? & ? & E & _); congruence|apply Forall_nil]).
  destruct sop; try (intros H; injection H as <- _ _; apply Forall_cons; [intros (? & ? & E & _); congruence|apply Forall_nil]).
  - destruct (ar && memN t core); intros H; injection H as <- _ _;
      repeat (apply Forall_cons; [intros (? & ? & E & _); cbn in E; congruence|]); apply Forall_nil.
  - destruct (memN t core) eqn:M; intros H.
    + inv H as [l1 c1] E1. inv H as [l2 c2] E2. injection H as <- _ _.
      apply (make_cnot_no_S core) in E1. apply (make_cnot_no_S core) in E2.
      apply Forall_cons; [intros (? & ? & E & _); discriminate|]. apply Forall_app. split; [assumption|].
      do 2 (apply Forall_cons; [intros (? & ? & E & _); discriminate|]). apply Forall_app. split; [assumption|].
      do 3 (apply Forall_cons; [intros (? & ? & E & _); discriminate|]). apply Forall_nil.
    + injection H as <- _ _. apply Forall_cons; [|apply Forall_nil]. intros (? & ? & E & Hin).
      rewrite Eo in E. injection E as <- <-. apply memN_notIn in M. auto.
Qed.

Lemma teleport_other core ar m c i : ~ is_S_on core i -> (ar = true -> ~ is_H_on core i) ->
  teleport_expand core ar m c i = Ok ([i], m, c).
Proof.
  intros HS HH. unfold teleport_expand. destruct (op i) as [| | | | | | |t sop d| | | |] eqn:Eo; try reflexivity.
  destruct sop; try reflexivity.
  - destruct ar; [|reflexivity]. destruct (memN t core) eqn:M; [|reflexivity]. apply memN_In in M.
    exfalso. apply HH; [reflexivity|]. exists t, d. auto.
  - destruct (memN t core) eqn:M; [|reflexivity]. apply memN_In in M. exfalso. apply HS. exists t, d. auto.
Qed.
Lemma catalytic_other loc core ar m c i : ~ is_S_on core i -> (ar = true -> ~ is_H_on core i) ->
  catalytic_expand loc core ar m c i = Ok ([i], m, c).
Proof.
  intros HS HH. unfold catalytic_expand. destruct (op i) as [| | | | | | |t sop d| | | |] eqn:Eo; try reflexivity.
  destruct sop; try reflexivity.
  - destruct ar; [|reflexivity]. destruct (memN t core) eqn:M; [|reflexivity]. apply memN_In in M.
    exfalso. apply HH; [reflexivity|]. exists t, d. auto.
  - destruct (memN t core) eqn:M; [|reflexivity]. apply memN_In in M. exfalso. apply HS. exists t, d. auto.
Qed.
Lemma teleport_H core m c i t d : op i = SingleOp t SqH d -> In t core ->
  teleport_expand core true m c i = Ok ([i; instr_of (Rotate t)], m, c).
Proof. intros E H. unfold teleport_expand. rewrite E. apply memN_In in H. now rewrite H. Qed.
Lemma catalytic_H loc core m c i t d : op i = SingleOp t SqH d -> In t core ->
  catalytic_expand loc core true m c i = Ok ([i; instr_of (Rotate t)], m, c).
Proof. intros E H. unfold catalytic_expand. rewrite E. apply memN_In in H. now rewrite H. Qed.

(** ** Boundary rotation *)
Definition agrees (m : emap) (r : reachable) : Prop := forall q,
  match alookup m q, r q with
  | None, None => True
  | Some e, Some (x, z) => (x = true /\ z = true) \/ (x_exposed e = x /\ z_exposed e = z /\ x = negb z)
  | _, _ => False
  end.

Lemma alookup_aset {A} (m : list (N * A)) k v q : alookup (aset m k v) q =
  if N.eqb q k then match alookup m q with Some _ => Some v | None => None end else alookup m q.
Proof.
  induction m as [|[k' v'] m IH]; cbn; [now destruct (N.eqb q k)|].
  destruct (N.eqb_spec k k') as [->|].
  - cbn. destruct (N.eqb_spec q k'); reflexivity.
  - cbn. rewrite IH. destruct (N.eqb_spec q k'), (N.eqb_spec q k); congruence.
Qed.

Lemma agrees_rotate m r q e : agrees m r -> alookup m q = Some e -> agrees (aset m q (rotate_exposed e)) (swap_at q r).
Proof.
  intros A E p. specialize (A p). rewrite alookup_aset. unfold swap_at. destruct (N.eqb_spec p q) as [->|]; [|assumption].
  rewrite E in *. destruct (r q) as [[x z]|]; [|assumption].
  destruct A as [[-> ->]|(<- & <- & A)]; [now left|right]. destruct e as [ex ez]; cbn in *. subst ex. now destruct ez.
Qed.
Lemma agrees_init m : one_side m -> agrees m (phys_of m).
Proof.
  intros O q. unfold phys_of. destruct (alookup m q) as [[x z]|] eqn:E; [|exact I]. apply O in E. cbn in *.
  destruct x, z; intuition congruence.
Qed.

Lemma phys_run_app a b r : phys_run (a ++ b) r = phys_run b (phys_run a r).
Proof. revert r. induction a; intros r; cbn; auto. Qed.
Lemma all_reachable_app a : forall r b, all_reachable r (a ++ b) <-> all_reachable r a /\ all_reachable (phys_run a r) b.
Proof. induction a as [|i a IH]; intros r b; cbn; [tauto|]. rewrite IH. tauto. Qed.

Lemma expose_step m r q p l m' : agrees m r -> (alookup m q <> None -> p = PX \/ p = PZ) -> expose m q p = (l, m') ->
  agrees m' (phys_run l r) /\ all_reachable r l /\ can_reach (phys_run l r) (q, p) /\
  (forall n, fst n <> q -> can_reach r n -> can_reach (phys_run l r) n) /\
  Forall (fun i => i = instr_of (Rotate q) /\ alookup m q <> None) l /\ map fst m' = map fst m.
Proof.
  intros A Hp. unfold expose. pose proof (A q) as Aq. destruct (alookup m q) as [e|] eqn:E.
  - destruct (r q) as [[x z]|] eqn:Er; [|contradiction].
    destruct (is_exposed e p) eqn:Ex; intros H; injection H as <- <-; cbn [phys_run].
    + repeat split; auto. unfold can_reach. cbn [fst snd]. rewrite Er.
      destruct Aq as [[-> ->]|(<- & <- & _)]; destruct Hp as [->| ->]; try discriminate; auto.
    + change (phys_step (instr_of (Rotate q)) r) with (swap_at q r). split; [now apply agrees_rotate|].
      split; [repeat constructor|]. split; [|split; [|split]].
      * unfold can_reach, swap_at. cbn [fst snd]. rewrite N.eqb_refl, Er.
        destruct Aq as [[-> ->]|(<- & <- & Aq)]; destruct Hp as [->| ->]; try discriminate; auto;
          destruct e as [[|] [|]]; cbn in *; try discriminate; reflexivity.
      * intros n Hn. unfold can_reach, swap_at. destruct (N.eqb_spec (fst n) q); [congruence|auto].
      * repeat constructor. discriminate.
      * apply aset_keys.
  - intros H; injection H as <- <-. cbn [phys_run]. repeat split; auto. unfold can_reach. cbn [fst].
    destruct (r q); [contradiction|exact I].
Qed.

Lemma alookup_keys {A B} (m : list (N * A)) (m' : list (N * B)) q : map fst m' = map fst m ->
  (alookup m' q = None <-> alookup m q = None).
Proof.
  revert m'. induction m as [|[k v] m IH]; intros [|[k' v'] m'] H; cbn in *; try discriminate; [tauto|].
  injection H as -> H. destruct (N.eqb q k); [split; discriminate|auto].
Qed.

Lemma obs_lookup {A} (obs : list (N * A)) q p : NoDup (map fst obs) -> In (q, p) obs -> alookup obs q = Some p.
Proof.
  induction obs as [|[k v] obs IH]; intros HN Hin; [contradiction|]. cbn in *. inversion HN; subst.
  destruct Hin as [E|Hin]; [injection E as -> ->; now rewrite N.eqb_refl|].
  destruct (N.eqb_spec q k) as [->|]; [|auto]. exfalso. apply H1. apply in_map_iff. exists (k, p). auto.
Qed.

Definition rots_ok (m : emap) (l : list instr) : Prop := Forall (fun j => exists q, j = instr_of (Rotate q) /\ alookup m q <> None) l.

Lemma mpm_fold obs : forall ps l m r lr mr,
  Forall (fun n => alookup m (fst n) <> None -> snd n = PX \/ snd n = PZ) obs ->
  agrees m (phys_run l r) -> all_reachable r l ->
  foldM (fun acc q => let '(l, m) := acc in
           match alookup m q with
           | None => Ok (l, m)
           | Some _ => match alookup obs q with
                       | None => Throw OutOfRange
                       | Some p => let '(l', m') := expose m q p in Ok (l ++ l', m')
                       end
           end) ps (l, m) = Ok (lr, mr) ->
  agrees mr (phys_run lr r) /\ all_reachable r lr /\ map fst mr = map fst m /\
  (rots_ok m l -> rots_ok m lr) /\
  (forall n, In n obs -> alookup obs (fst n) = Some (snd n) -> In (fst n) ps \/ can_reach (phys_run l r) n -> can_reach (phys_run lr r) n).
Proof.
  induction ps as [|q ps IH]; intros l m r lr mr Ho A L H; cbn [foldM] in H.
  - injection H as <- <-. repeat split; auto. intros n _ _ [[]|?]. assumption.
  - inv H as [l1 m1] Hs. pose proof (A q) as Aq. destruct (alookup m q) as [e|] eqn:E.
    + destruct (alookup obs q) as [p|] eqn:Eo; [|discriminate].
      destruct (expose m q p) as [l' m'] eqn:Ex. injection Hs as <- <-.
      assert (Hp : alookup m q <> None -> p = PX \/ p = PZ).
      { intros Hn. apply alookup_In in Eo. rewrite Forall_forall in Ho. apply (Ho _ Eo). exact Hn. }
      destruct (expose_step _ _ _ _ _ _ A Hp Ex) as (A1 & L1 & C1 & F1 & R1 & K1).
      rewrite <- phys_run_app in *.
      apply (IH _ _ r) in H; [|apply Forall_forall; intros n Hn Hn'; rewrite Forall_forall in Ho; apply Ho; [assumption|];
                        rewrite (alookup_keys _ _ _ K1) in Hn'; assumption|assumption|now apply all_reachable_app].
      destruct H as (A2 & L2 & K2 & R2 & C2). split; [assumption|]. split; [assumption|]. split; [congruence|]. split.
      * intros Rl. assert (RE : forall x, rots_ok m x <-> rots_ok m' x).
        { intros x. unfold rots_ok. rewrite !Forall_forall. split; intros Y j Hj; destruct (Y j Hj) as (k & -> & Hk); exists k; (split; [reflexivity|]); rewrite (alookup_keys _ _ _ K1) in *; assumption. }
        apply RE, R2, RE. apply Forall_app. split; [assumption|]. eapply Forall_impl; [|exact R1]. intros j [-> ?]. eauto.
      * intros n Hn Hl Hor. apply C2; auto. destruct (N.eq_dec (fst n) q) as [En|En].
        -- right. destruct n as [nq np]. cbn in *. subst nq. congruence.
        -- destruct Hor as [[Hor|Hor]|Hor]; [congruence|now left|right]. rewrite phys_run_app in *. now apply F1.
    + injection Hs as <- <-. apply (IH _ _ r) in H; auto. destruct H as (A2 & L2 & K2 & R2 & C2).
      split; [assumption|]. split; [assumption|]. split; [assumption|]. split; [assumption|].
      intros n Hn Hl Hor. apply C2; auto. destruct Hor as [[Eq|?]|?]; auto. right. unfold can_reach.
      rewrite <- Eq. destruct (phys_run l r q); [contradiction|exact I].
Qed.

Lemma keys_rotatable m m' i : map fst m' = map fst m -> rotatable m i -> rotatable m' i.
Proof.
  intros K. unfold rotatable. destruct (op i); auto.
  - intros [HN HF]. split; [assumption|]. eapply Forall_impl; [|exact HF]. cbn. intros n Hn Hm. apply Hn.
    now rewrite (alookup_keys _ _ _ K) in Hm.
  - now rewrite (alookup_keys _ _ _ K).
Qed.

Lemma swap_at_agree m r t : agrees m r -> alookup m t = None -> agrees m (swap_at t r).
Proof.
  intros A E p. specialize (A p). unfold swap_at. destruct (N.eqb_spec p t) as [->|]; [|assumption].
  rewrite E in *. destruct (r t); [contradiction|exact I].
Qed.

Lemma boundary_step m r c i l m' c' : agrees m r -> rotatable m i -> boundary_expand m c i = Ok (l, m', c') ->
  c' = c /\ map fst m' = map fst m /\ agrees m' (phys_run l r) /\ all_reachable r l /\
  exists pre, l = pre ++ [i] /\ rots_ok m pre.
Proof.
  intros A Ri H. unfold boundary_expand in H. unfold rotatable in Ri.
  assert (Done : needs i = [] -> phys_step i r = r -> Ok ([i], m, c) = Ok (l, m', c') ->
    c' = c /\ map fst m' = map fst m /\ agrees m' (phys_run l r) /\ all_reachable r l /\
    exists pre, l = pre ++ [i] /\ rots_ok m pre).
  { intros Hn Hp E. injection E as <- <- <-. cbn [phys_run all_reachable]. rewrite Hp, Hn. repeat split; auto.
    exists []. split; [reflexivity|apply Forall_nil]. }
  destruct (op i) as [| |obs neg loc| | | | |t o d|q| |ctl tgt s1 s2 r1 r2 r3 r4|] eqn:Eo.
  1,2,4,5,6,7,10,12: apply Done; [unfold needs; now rewrite Eo|unfold phys_step; now rewrite Eo|exact H].
  - inv H as [lr mr] Hf. injection H as <- <- <-. destruct Ri as [HN HF].
    apply (mpm_fold obs (operating_patches i) [] m r) in Hf; auto; [|exact I].
    destruct Hf as (A1 & L1 & K1 & R1 & C1).
    split; [reflexivity|]. split; [assumption|].
    assert (E1 : forall r0, phys_run [i] r0 = r0) by (intros; cbn; unfold phys_step; now rewrite Eo).
    rewrite phys_run_app, E1. split; [assumption|]. split.
    + apply all_reachable_app. split; [assumption|]. cbn. split; [|exact I]. unfold needs. rewrite Eo.
      apply Forall_forall. intros [nq np] Hn. apply C1; [assumption|now apply obs_lookup|]. left. cbn [fst].
      unfold operating_patches. rewrite Eo. apply fold_oset_In. right. now apply (in_map fst) in Hn.
    + exists lr. split; [reflexivity|]. apply R1. apply Forall_nil.
  - destruct o.
    1,2,3,6: apply Done; [unfold needs; now rewrite Eo|unfold phys_step; now rewrite Eo|exact H].
    + assert (E1 : phys_run [i] r = swap_at t r) by (cbn; unfold phys_step; now rewrite Eo).
      assert (L1 : all_reachable r [i]) by (cbn; unfold needs; rewrite Eo; auto).
      destruct (alookup m t) as [e|] eqn:E; injection H as <- <- <-; (split; [reflexivity|]); (split; [rewrite ?aset_keys; reflexivity|]);
        rewrite E1; (split; [first [now apply agrees_rotate|now apply swap_at_agree]|]); (split; [assumption|]);
        exists []; (split; [reflexivity|apply Forall_nil]).
    + destruct (expose m t PZ) as [l' m''] eqn:Ex. injection H as <- <- <-.
      destruct (expose_step _ _ _ _ _ _ A (fun _ => or_intror eq_refl) Ex) as (A1 & L1 & C1 & F1 & R1 & K1).
      assert (E1 : forall r0, phys_run [i] r0 = r0) by (intros; cbn; unfold phys_step; now rewrite Eo).
      split; [reflexivity|]. split; [assumption|]. rewrite phys_run_app, E1. split; [assumption|]. split.
      * apply all_reachable_app. split; [assumption|]. cbn. unfold needs. rewrite Eo. auto.
      * exists l'. split; [reflexivity|]. eapply Forall_impl; [|exact R1]. intros j [-> ?]. eauto.
  - assert (E1 : phys_run [i] r = swap_at q r) by (cbn; unfold phys_step; now rewrite Eo).
    injection H as <- <- <-. split; [reflexivity|]; split; [reflexivity|]. rewrite E1. split; [now apply swap_at_agree|].
    split; [cbn; unfold needs; rewrite Eo; auto|]. exists []. split; [reflexivity|apply Forall_nil].
  - destruct (expose m ctl PZ) as [l1 m1] eqn:X1. destruct (expose m1 tgt PX) as [l2 m2] eqn:X2. injection H as <- <- <-.
    destruct (expose_step _ _ _ _ _ _ A (fun _ => or_intror eq_refl) X1) as (A1 & L1 & C1 & F1 & R1 & K1).
    destruct (expose_step _ _ _ _ _ _ A1 (fun _ => or_introl eq_refl) X2) as (A2 & L2 & C2 & F2 & R2 & K2).
    assert (E1 : forall r0, phys_run [i] r0 = r0) by (intros; cbn; unfold phys_step; now rewrite Eo).
    split; [reflexivity|]. split; [congruence|]. rewrite !phys_run_app, E1. split; [assumption|]. split.
    + apply all_reachable_app. split; [assumption|]. apply all_reachable_app. split; [assumption|].
      cbn. unfold needs. rewrite Eo. split; [|exact I]. repeat apply Forall_cons; [|assumption|apply Forall_nil].
      apply F2; auto.
    + exists (l1 ++ l2). split; [now rewrite app_assoc|]. apply Forall_app. split.
      * eapply Forall_impl; [|exact R1]. intros j [-> ?]. eauto.
      * eapply Forall_impl; [|exact R2]. intros j [-> Hn]. rewrite (alookup_keys _ _ _ K1) in Hn. eauto.
Qed.

Lemma boundary_all : forall l m r c o m' c', agrees m r -> Forall (rotatable m) l ->
  expand_all boundary_expand m c l = Ok (o, m', c') ->
  c' = c /\ map fst m' = map fst m /\ agrees m' (phys_run o r) /\ all_reachable r o /\
  exists segs, o = concat segs /\ Forall2 (fun i seg => exists pre, seg = pre ++ [i] /\ rots_ok m pre) l segs.
Proof.
  induction l as [|i l IH]; intros m r c o m' c' A Hl H; cbn [expand_all] in H.
  - injection H as <- <- <-. repeat split; auto. exists []. split; [reflexivity|constructor].
  - inversion Hl; subst. inv H as [[o1 m1] c1] He. destruct (boundary_step _ _ _ _ _ _ _ A H2 He) as (-> & K1 & A1 & L1 & pre & -> & P1).
    destruct (pre ++ [i]) eqn:En; [destruct pre; discriminate|]. rewrite <- En in *. clear En.
    inv H as [[o2 m2] c2] Hr. injection H as <- <- <-.
    apply (IH _ (phys_run (pre ++ [i]) r)) in Hr; [|assumption|eapply Forall_impl; [|exact H3]; intros j; now apply keys_rotatable].
    destruct Hr as (-> & K2 & A2 & L2 & segs & -> & F2).
    split; [reflexivity|]. split; [congruence|]. rewrite phys_run_app. split; [assumption|].
    split; [now apply all_reachable_app|]. exists ((pre ++ [i]) :: segs). split; [reflexivity|]. constructor; [eauto|].
    eapply Forall2_impl; [|exact F2]. cbn. intros x y (p & -> & Hp). exists p. split; [reflexivity|].
    unfold rots_ok in *. eapply Forall_impl; [|exact Hp]. intros j (k & -> & Hk). exists k. split; [reflexivity|].
    now rewrite (alookup_keys _ _ _ K1) in Hk.
Qed.

(** Teleporting S after boundary rotation keeps everything reachable. *)
Lemma teleport_all core s : forall l r c o c', (forall q, (s <= q)%N -> r q = None) -> (s <= c)%N -> (c' <= 2 ^ 32)%N ->
  expand_all (teleport_expand core false) tt c l = Ok (o, tt, c') -> all_reachable r l ->
  all_reachable r o /\ phys_run o r = phys_run l r /\ (c <= c')%N.
Proof.
  induction l as [|i l IH]; intros r c o c' Hr Hs Hc H L; cbn [expand_all] in H.
  - injection H as <- <-. repeat split; lia.
  - inv H as [[o1 []] c1] He. pose proof (teleport_mono _ _ _ _ _ _ _ _ He) as Hm.
    destruct o1 as [|j o1]; [discriminate|]. inv H as [[o2 []] c2] Hr2.
    assert (Ho : o = (j :: o1) ++ o2 /\ c' = c2) by (inversion H; auto). destruct Ho as [-> ->]. clear H. cbn [all_reachable] in L. destruct L as [Li Ll].
    assert (Hr' : forall q, (s <= q)%N -> phys_step i r q = None).
    { intros q Hq. unfold phys_step. destruct (op i) as [| | | | | | |t sop d|t| | |]; auto.
      - destruct sop; auto. unfold swap_at. rewrite (Hr q Hq). now destruct (N.eqb q t).
      - unfold swap_at. rewrite (Hr q Hq). now destruct (N.eqb q t). }
    destruct (IH (phys_step i r) c1 o2 c2 Hr' ltac:(lia) Hc Hr2 Ll) as (L2 & P2 & C2).
    assert (X : all_reachable r (j :: o1) /\ phys_run (j :: o1) r = phys_step i r).
    { destruct (S_on_dec core i) as [(t & d & Eo & Hin)|HS].
      - unfold teleport_expand, new_id in He. rewrite Eo in He. apply memN_In in Hin. rewrite Hin in He.
        apply ok3_inj in He. destruct He as (He & _ & <-). rewrite N.mod_small in He by lia. injection He as <- <-.
        unfold phys_step. rewrite Eo. cbn [phys_run]. split; [|reflexivity].
        cbn [all_reachable]. unfold phys_step at 1. cbn [op]. split; [apply Forall_nil|].
        split; [|repeat split; apply Forall_nil].
        unfold needs in Li. rewrite Eo in Li. inversion Li; subst.
        unfold mpm, needs. cbn [op instr_of phys_step]. unfold obs2. destruct (c =? t)%N; repeat apply Forall_cons; try assumption; try apply Forall_nil;
          unfold can_reach; cbn [fst]; rewrite Hr by lia; exact I.
      - rewrite teleport_other in He by (auto; discriminate). injection He as <- <- <-. cbn. auto. }
    destruct X as [X1 X2]. split; [|split].
    + apply all_reachable_app. rewrite X2. auto.
    + rewrite phys_run_app, X2, P2. reflexivity.
    + lia.
Qed.

Lemma obs2_nodup a p b q : NoDup (map fst (obs2 a p b q)).
Proof. unfold obs2. destruct (N.eqb_spec a b); repeat constructor; cbn; intuition congruence. Qed.
Lemma obs2_xz (P : N -> Prop) a p b q : (p = PX \/ p = PZ) -> (q = PX \/ q = PZ) ->
  Forall (fun n : N * pauli => P (fst n) -> snd n = PX \/ snd n = PZ) (obs2 a p b q).
Proof. intros. unfold obs2. destruct (N.eqb_spec a b); repeat (apply Forall_cons; [cbn; auto|]); apply Forall_nil. Qed.
Lemma mpm_rotatable m a p b q : (p = PX \/ p = PZ) -> (q = PX \/ q = PZ) -> rotatable m (mpm (obs2 a p b q)).
Proof. intros. cbn. split; [apply obs2_nodup|]. apply (obs2_xz (fun x => alookup m x <> None)); assumption. Qed.

Lemma make_cnot_rotatable m local c ctl t ct pl corr l c' : make_cnot local c ctl t ct pl corr = Ok (l, c') -> ctl <> t ->
  Forall (rotatable m) l.
Proof.
  unfold make_cnot, new_id. destruct ct, local, corr; intros H Hd; try discriminate; injection H as <- <-;
    repeat (apply Forall_cons; [first [apply mpm_rotatable; tauto | exact Hd | exact I]|]); apply Forall_nil.
Qed.
Lemma make_t_rotatable m local c t d l c' : make_t local c t d = Ok (l, c') -> (t < c)%N -> (c' <= 2 ^ 32)%N -> Forall (rotatable m) l.
Proof.
  unfold make_t, new_id. destruct local; intros H Ht Hc.
  - inv H as [cn c2] Hx. destruct (make_cnot_spec _ _ _ _ _ _ _ _ _ (fun _ => True) Hx) as (L & _ & _).
    injection H as <- <-. rewrite N.mod_small in * by lia. apply (make_cnot_rotatable m) in Hx; [|lia].
    apply Forall_cons; [exact I|]. apply Forall_app. split; [assumption|]. repeat constructor.
  - injection H as <- <-. repeat (apply Forall_cons; [first [apply mpm_rotatable; tauto | exact I]|]); apply Forall_nil.
Qed.
Lemma lower_gate_rotatable m s cfg c g l c' : lower_gate cfg c g = Ok (l, c') -> distinct_ends g ->
  Forall (fun q => (q < s)%N) (gate_qubits g) -> (s <= c)%N -> (c' <= 2 ^ 32)%N -> Forall (rotatable m) l.
Proof.
  intros H Hd Hq Hs Hc. destruct g as [t b|t f|ctl tg ct pl|r t]; cbn [lower_gate gate_qubits distinct_ends] in *.
  - inversion Hq; subst. destruct b; try (injection H as <- <-; repeat constructor); eapply make_t_rotatable; eauto; lia.
  - inversion Hq; subst. repeat match type of H with context[if ?b then _ else _] => destruct b end; try discriminate;
      try (injection H as <- <-; repeat constructor); eapply make_t_rotatable; eauto; lia.
  - destruct tg as [t b|]; [destruct b|]; try discriminate; [eapply make_cnot_rotatable; eauto|].
    inv H as [cn c2] Hx. injection H as <- <-. apply (make_cnot_rotatable m) in Hx; [|assumption].
    apply Forall_cons; [exact I|]. apply Forall_app. split; [assumption|]. repeat constructor.
  - destruct text_eqb; [|discriminate]. injection H as <- <-. repeat constructor.
Qed.

Lemma alookup_below s m q : keys_below s m -> (s <= q)%N -> alookup m q = None.
Proof.
  intros K Hq. destruct (alookup m q) eqn:E; [|reflexivity]. apply alookup_In in E. unfold keys_below in K.
  rewrite Forall_forall in K. apply K in E. cbn in E. lia.
Qed.
Lemma agrees_below s m r q : agrees m r -> keys_below s m -> (s <= q)%N -> r q = None.
Proof. intros A K Hq. specialize (A q). rewrite (alookup_below s) in A by assumption. now destruct (r q). Qed.
Lemma keys_below_keys s m m' : map fst m' = map fst m -> keys_below s m -> keys_below s m'.
Proof. unfold keys_below. rewrite <- !(Forall_map fst (fun k => (k < s)%N)). now intros ->. Qed.

(** expanding with the composition is expanding twice *)
Lemma comp_all {M1 M2} (e1 : expander M1) (e2 : expander M2) : 
  (forall m c i l m' c', e1 m c i = Ok (l, m', c') -> c' = c) ->
  (forall m m' c c' i l m1 c1, e1 m c i = Ok (l, m1, c1) -> m = m' -> e1 m' c' i = Ok (l, m1, c')) ->
  forall l m c o m' c', expand_all (comp e1 e2) m c l = Ok (o, m', c') ->
  exists l1, expand_all e1 (fst m) c l = Ok (l1, fst m', c) /\ expand_all e2 (snd m) c l1 = Ok (o, snd m', c').
Proof.
  intros Hc Hi. induction l as [|i l IH]; intros [m1 m2] c o [m1' m2'] c' H; cbn [expand_all fst snd] in *.
  - injection H as <- <- <- <-. exists []. auto.
  - inv H as [[o1 [a1 a2]] c1] He. destruct o1 as [|j o1]; [discriminate|]. inv H as [[o2 [b1 b2]] c2] Hr.
    assert (Ho : o = (j :: o1) ++ o2 /\ m1' = b1 /\ m2' = b2 /\ c' = c2) by (inversion H; auto). destruct Ho as (-> & -> & -> & ->). clear H.
    unfold comp in He. cbn [fst snd] in He. inv He as [[l1 n1] d1] E1. inv He as [[p n2] d2] E2. destruct l1 as [|k l1]; [discriminate|].
    assert (Ho : p = j :: o1 /\ n1 = a1 /\ n2 = a2 /\ d2 = c1) by (inversion He; auto). destruct Ho as (-> & -> & -> & ->). clear He.
    pose proof (Hc _ _ _ _ _ _ E1) as Hd. subst d1.
    apply IH in Hr. cbn [fst snd] in Hr. destruct Hr as (l2 & F1 & F2).
    exists ((k :: l1) ++ l2). split.
    + rewrite E1. cbn [bind]. assert (F1' : expand_all e1 a1 c l = Ok (l2, b1, c)).
      { clear - Hc Hi F1. revert a1 c1 l2 b1 F1. induction l as [|i l IH]; intros a1 c1 l2 b1 F1; cbn [expand_all] in *.
        - inversion F1; subst. reflexivity.
        - inv F1 as [[o m] d] E. pose proof (Hc _ _ _ _ _ _ E); subst d. rewrite (Hi _ _ _ c _ _ _ _ E eq_refl). cbn [bind].
          destruct o; [discriminate|]. inv F1 as [[o2 m2] d2] E2. assert (Ho : l2 = (i0 :: o) ++ o2 /\ m2 = b1 /\ d2 = c1) by (inversion F1; auto).
          destruct Ho as (-> & -> & ->). now rewrite (IH _ _ _ _ E2). }
      now rewrite F1'.
    + rewrite expand_all_app, E2. cbn [bind]. now rewrite F2.
Qed.

Lemma boundary_counter m c i l m' c' : boundary_expand m c i = Ok (l, m', c') -> c' = c.
Proof.
  unfold boundary_expand. destruct (op i) as [| |obs neg loc| | | | |t o d|q| |ctl tgt s1 s2 r1 r2 r3 r4|];
    try (intros H; apply ok3_inj in H; destruct H as (_ & _ & <-); reflexivity).
  - intros H. inv H as [lr mr] Hf. apply ok3_inj in H. now destruct H as (_ & _ & <-).
  - destruct o; try (intros H; apply ok3_inj in H; destruct H as (_ & _ & <-); reflexivity).
    + destruct (alookup m t); intros H; apply ok3_inj in H; now destruct H as (_ & _ & <-).
    + destruct (expose m t PZ); intros H; apply ok3_inj in H; now destruct H as (_ & _ & <-).
  - destruct (expose m ctl PZ); destruct (expose e tgt PX); intros H; apply ok3_inj in H; now destruct H as (_ & _ & <-).
Qed.
Lemma boundary_anywhere m m0 c c0 i l m' c' : boundary_expand m c i = Ok (l, m', c') -> m = m0 -> boundary_expand m0 c0 i = Ok (l, m', c0).
Proof.
  intros H <-. revert H. unfold boundary_expand. destruct (op i) as [| |obs neg loc| | | | |t o d|q| |ctl tgt s1 s2 r1 r2 r3 r4|];
    try (intros H; apply ok3_inj in H; destruct H as (<- & <- & _); reflexivity).
  - intros H. inv H as [lr mr] Hf. apply ok3_inj in H. destruct H as (<- & <- & _). now rewrite Hf.
  - destruct o; try (intros H; apply ok3_inj in H; destruct H as (<- & <- & _); reflexivity).
    + destruct (alookup m t); intros H; apply ok3_inj in H; now destruct H as (<- & <- & _).
    + destruct (expose m t PZ); intros H; apply ok3_inj in H; now destruct H as (<- & <- & _).
  - destruct (expose m ctl PZ); destruct (expose e tgt PX); intros H; apply ok3_inj in H; now destruct H as (<- & <- & _).
Qed.

Lemma expand_mono {M} (e : expander M) : (forall m c i l m' c', e m c i = Ok (l, m', c') -> (c <= c')%N) ->
  forall l m c o m' c', expand_all e m c l = Ok (o, m', c') -> (c <= c')%N.
Proof.
  intros He. induction l as [|i l IH]; intros m c o m' c' H; cbn [expand_all] in H.
  - apply ok3_inj in H. destruct H as (_ & _ & <-). lia.
  - inv H as [[o1 m1] c1] E. apply He in E. destruct o1; [discriminate|]. inv H as [[o2 m2] c2] E2. apply IH in E2.
    apply ok3_inj in H. destruct H as (_ & _ & <-). lia.
Qed.
Lemma gates_mono {M} (e : expander M) cfg : (forall m c i l m' c', e m c i = Ok (l, m', c') -> (c <= c')%N) ->
  forall gs m c o m' c', gates_out e cfg m c gs = Ok (o, m', c') -> (c <= c')%N.
Proof.
  intros He. induction gs as [|g gs IH]; intros m c o m' c' H; cbn [gates_out] in H.
  - apply ok3_inj in H. destruct H as (_ & _ & <-). lia.
  - inv H as [l c1] E. destruct (lower_gate_spec _ _ _ _ _ (fun _ => True) E) as (L & _). inv H as [[o1 m1] c2] E1.
    apply (expand_mono e He) in E1. inv H as [[o2 m2] c3] E2. apply IH in E2.
    apply ok3_inj in H. destruct H as (_ & _ & <-). lia.
Qed.

Lemma compact_reachable s core cfg : forall gs m r c o m' c',
  agrees m r -> keys_below s m -> (s <= c)%N -> (c' <= 2 ^ 32)%N ->
  Forall (fun g => Forall (fun q => (q < s)%N) (gate_qubits g)) gs -> Forall distinct_ends gs ->
  gates_out (comp boundary_expand (teleport_expand core false)) cfg (m, tt) c gs = Ok (o, m', c') ->
  all_reachable r o.
Proof.
  assert (Mono : forall m c i l m' c', comp boundary_expand (teleport_expand core false) m c i = Ok (l, m', c') -> (c <= c')%N).
  { intros m c i l m' c' H. unfold comp in H. inv H as [[l1 m1] c1] E1. apply boundary_counter in E1. subst c1.
    inv H as [[o m2] c2] E2. apply expand_mono in E2; [|intros *; apply teleport_mono]. destruct l1; [discriminate|].
    apply ok3_inj in H. now destruct H as (_ & _ & <-). }
  induction gs as [|g gs IH]; intros m r c o m' c' A K Hs Hc Hq Hd H; cbn [gates_out] in H.
  - injection H as <- <- <-. exact I.
  - inversion Hq; subst. inversion Hd; subst. inv H as [l c1] E. destruct (lower_gate_spec _ _ _ _ _ (fun _ => True) E) as (L & _).
    inv H as [[o1 [m1 []]] c2] E1. pose proof (expand_mono _ Mono _ _ _ _ _ _ E1).
    inv H as [[o2 m2] c3] E2. pose proof (gates_mono _ _ Mono _ _ _ _ _ _ E2).
    apply ok3_inj in H. destruct H as (<- & <- & <-).
    apply comp_all in E1; [|apply boundary_counter|apply boundary_anywhere]. cbn [fst snd] in E1. destruct E1 as (l1 & B1 & T1).
    apply (boundary_all _ _ r) in B1; [|assumption|eapply lower_gate_rotatable; eauto; lia].
    destruct B1 as (_ & K1 & A1 & L1 & _).
    assert (Hr : forall q, (s <= q)%N -> r q = None) by (intros; eapply agrees_below; eauto).
    destruct (teleport_all core s l1 r c1 o1 c2 Hr ltac:(lia) ltac:(lia) T1 L1) as (L2 & P2 & _).
    apply all_reachable_app. split; [assumption|]. eapply (IH m1 _ c2 o2 m2 c3); [rewrite P2; eassumption|eapply keys_below_keys; eauto|lia|lia|eassumption|eassumption|eassumption].
Qed.

(** ** Totality of the pipelines *)
Lemma inject_queue {Src M} (e : expander M) (src : next_fn Src) m s : forall q f c,
  drain (inject_next e src) (length q + f) (mkIS q m s) c = prepend q (drain (inject_next e src) f (mkIS [] m s) c).
Proof.
  induction q as [|i q IH]; intros f c; cbn [length plus].
  - destruct (drain _ f _ c) as [[? ?]| | |]; reflexivity.
  - cbn [drain]. unfold inject_next at 1. cbn [is_queue is_mem is_src bind]. rewrite IH.
    destruct (drain _ f _ c) as [[? ?]| | |]; reflexivity.
Qed.

Lemma inject_lower_back {M} (e : expander M) cfg : forall gs l m c o m1 c1 o2 m2 c',
  expand_all e m c l = Ok (o, m1, c1) -> gates_out e cfg m1 c1 gs = Ok (o2, m2, c') ->
  exists f, drain (inject_next e (lower_next cfg)) f (mkIS [] m (mkLS l gs)) c = Ok (o ++ o2, c').
Proof.
  induction gs as [|g gs IHg]; induction l as [|i l IHl]; intros m c o m1 c1 o2 m2 c' H1 H2.
  - cbn in H1, H2. inversion H1; subst. inversion H2; subst. exists 1. reflexivity.
  - cbn [expand_all] in H1. inv H1 as [[p n1] d1] E. destruct p as [|j p]; [discriminate|]. inv H1 as [[p2 n2] d2] E2.
    assert (X : o = (j :: p) ++ p2 /\ m1 = n2 /\ c1 = d2) by (inversion H1; auto). destruct X as (-> & -> & ->).
    destruct (IHl _ _ _ _ _ _ _ _ E2 H2) as [f Hf]. exists (S (length p + f)).
    cbn [drain]. unfold inject_next at 1. cbn [is_queue is_mem is_src lower_next ls_queue ls_gates bind].
    rewrite E. cbn [bind]. rewrite inject_queue, Hf. cbn. now rewrite <- app_assoc.
  - cbn in H1. inversion H1; subst. clear H1. cbn [gates_out] in H2. inv H2 as [l d] Eg. inv H2 as [[p n] d2] Ee. inv H2 as [[p2 n2] d3] Er.
    assert (X : o2 = p ++ p2 /\ m2 = n2 /\ c' = d3) by (inversion H2; auto). destruct X as (-> & -> & ->).
    destruct (IHg l m1 d p n d2 p2 n2 d3 Ee Er) as [f Hf]. exists f.
    pose proof (lower_gate_nonempty _ _ _ _ _ Eg) as Hl. destruct l as [|i l]; [congruence|].
    destruct f as [|f]; [discriminate|]. cbn [drain] in *. unfold inject_next at 1 in Hf. unfold inject_next at 1.
    cbn [is_queue is_mem is_src lower_next ls_queue ls_gates bind] in *. rewrite Eg. cbn [bind].
    revert Hf. destruct (e m1 d i) as [[[[|j q] m'] c'']| | |]; cbn [bind]; try discriminate. auto.
  - cbn [expand_all] in H1. inv H1 as [[p n1] d1] E. destruct p as [|j p]; [discriminate|]. inv H1 as [[p2 n2] d2] E2.
    assert (X : o = (j :: p) ++ p2 /\ m1 = n2 /\ c1 = d2) by (inversion H1; auto). destruct X as (-> & -> & ->).
    destruct (IHl _ _ _ _ _ _ _ _ E2 H2) as [f Hf]. exists (S (length p + f)).
    cbn [drain]. unfold inject_next at 1. cbn [is_queue is_mem is_src lower_next ls_queue ls_gates bind].
    rewrite E. cbn [bind]. rewrite inject_queue, Hf. cbn. now rewrite <- app_assoc.
Qed.

Lemma fuse_back {Src M1 M2} (e1 : expander M1) (e2 : expander M2) (src : next_fn Src) : forall f q2 m2 q1 m1 s c o m2' c1 out c',
  expand_all e2 m2 c q1 = Ok (o, m2', c1) ->
  drain (inject_next (comp e1 e2) src) f (mkIS (q2 ++ o) (m1, m2') s) c1 = Ok (out, c') ->
  exists f', drain (inject_next e2 (inject_next e1 src)) f' (mkIS q2 m2 (mkIS q1 m1 s)) c = Ok (out, c').
Proof.
  induction f as [|f IH]; intros q2 m2 q1 m1 s c o m2' c1 out c' E H; [discriminate|].
  cbn [drain] in H. inv H as r Hn. unfold inject_next in Hn. cbn [is_queue is_mem is_src] in Hn.
  destruct q2 as [|j q2].
  - cbn [app] in Hn. destruct q1 as [|i q1].
    + cbn in E. inversion E; subst. clear E. cbn in Hn.
      inv Hn as r' Hr. destruct r' as [[[k sk] ck]|].
      * inv Hn as [[p [n1 n2]] d] Ec. unfold comp in Ec. cbn [fst snd] in Ec. inv Ec as [[l1 a1] d1] E1. inv Ec as [[p2 a2] d2] E2.
        destruct l1 as [|i l1]; [discriminate|]. assert (X : p2 = p /\ a1 = n1 /\ a2 = n2 /\ d2 = d) by (inversion Ec; auto).
        destruct X as (-> & -> & -> & ->). destruct p as [|j p]; [discriminate|]. injection Hn as <-.
        inv H as [o' c2] Hd. injection H as <- <-.
        cbn [expand_all] in E2. inv E2 as [[u v] w] Ei. destruct u as [|j' u]; [discriminate|]. inv E2 as [[u2 v2] w2] El.
        assert (X : j :: p = (j' :: u) ++ u2 /\ n2 = v2 /\ d = w2) by (inversion E2; auto). destruct X as (X & -> & ->).
        injection X as <- ->. destruct (IH u v l1 n1 sk w u2 v2 w2 o' c2 El Hd) as [f' Hf'].
        exists (S f'). cbn [drain]. unfold inject_next at 1. cbn [is_queue is_mem is_src].
        unfold inject_next at 1. cbn [is_queue is_mem is_src].
        rewrite Hr. cbn [bind]. rewrite E1. cbn [bind]. rewrite Ei. cbn [bind]. now rewrite Hf'.
      * injection Hn as <-. injection H as <- <-. exists 1. cbn [drain]. unfold inject_next. cbn [is_queue is_mem is_src]. now rewrite Hr.
    + cbn [expand_all] in E. inv E as [[u v] w] Ei. destruct u as [|j u]; [discriminate|]. inv E as [[u2 v2] w2] El.
      assert (X : o = (j :: u) ++ u2 /\ m2' = v2 /\ c1 = w2) by (inversion E; auto). destruct X as (-> & -> & ->).
      cbn [app] in Hn. injection Hn as <-. inv H as [o' c2] Hd. injection H as <- <-.
      destruct (IH u v q1 m1 s w u2 v2 w2 o' c2 El Hd) as [f' Hf'].
      exists (S f'). cbn [drain]. unfold inject_next at 1. cbn [is_queue is_mem is_src].
      unfold inject_next at 1. cbn [is_queue is_mem is_src bind]. rewrite Ei. cbn [bind]. now rewrite Hf'.
  - cbn [app] in Hn. injection Hn as <-. inv H as [o' c2] Hd. injection H as <- <-.
    destruct (IH q2 m2 q1 m1 s c o m2' c1 o' c2 E Hd) as [f' Hf'].
    exists (S f'). cbn [drain]. unfold inject_next at 1. cbn [is_queue is_mem is_src bind]. now rewrite Hf'.
Qed.

Lemma supported_lowers cfg g c : supported cfg g <-> exists l c', lower_gate cfg c g = Ok (l, c').
Proof.
  destruct g as [t b|t f|ctl tg ct pl|r t]; cbn [lower_gate supported]; unfold make_t, make_cnot, new_id.
  - split; [intros _|auto]. destruct b, (cfg_local cfg); cbn [bind]; eauto.
  - split.
    + intros (H1 & H2). assert (E1 : (fr_num f =? 1)%Z = true) by lia. rewrite E1. cbn [andb].
      destruct (Z.eqb_spec (fr_den f) 1); eauto. destruct (Z.eqb_spec (fr_den f) 2); eauto.
      destruct (Z.eqb_spec (fr_den f) 4); [|lia]. destruct (cfg_local cfg); cbn [bind]; eauto.
    + intros (l & c' & H). destruct (Z.eqb_spec (fr_num f) 1), (Z.eqb_spec (fr_den f) 1), (Z.eqb_spec (fr_den f) 2), (Z.eqb_spec (fr_den f) 4);
        cbn [andb] in H; try discriminate; auto.
  - destruct tg as [t b|]; [|split; [tauto|intros (? & ? & ?); discriminate]].
    split.
    + intros [[->| ->] Hc]; destruct ct, (cfg_local cfg), (cfg_corr cfg); cbn [bind]; eauto; destruct (Hc eq_refl); congruence.
    + intros (l & c' & H). destruct b; try discriminate; (split; [auto|]); intros Hc; rewrite Hc in H;
        destruct ct, (cfg_local cfg); try discriminate; split; congruence.
  - destruct (text_eqb r (cfg_qreg cfg)) eqn:E.
    + apply text_eqb_eq in E. split; eauto.
    + split; [intros ->; rewrite text_eqb_refl in E; discriminate|intros (? & ? & ?); discriminate].
Qed.

Definition total_on {M} (P : instr -> Prop) (e : expander M) : Prop :=
  (forall m c i, P i -> exists l m' c', e m c i = Ok (l, m', c') /\ l <> [] /\ Forall P l).
Lemma expand_total {M} P (e : expander M) : total_on P e -> forall l m c, Forall P l ->
  exists o m' c', expand_all e m c l = Ok (o, m', c') /\ Forall P o.
Proof.
  intros T. induction l as [|i l IH]; intros m c Hl; cbn [expand_all].
  - exists [], m, c. auto.
  - inversion Hl; subst. destruct (T m c i H1) as (o1 & m1 & c1 & -> & Hn & Ho). cbn [bind]. destruct o1 as [|j o1]; [congruence|].
    destruct (IH m1 c1 H2) as (o2 & m2 & c2 & -> & Ho2). cbn [bind]. do 3 eexists. split; [reflexivity|]. 
    exact (proj2 (Forall_app P (j :: o1) o2) (conj Ho Ho2)).
Qed.
Lemma gates_total {M} P (e : expander M) cfg : total_on P e -> 
  (forall c g l c', lower_gate cfg c g = Ok (l, c') -> Forall P l) ->
  forall gs m c, Forall (supported cfg) gs ->
  exists o m' c', gates_out e cfg m c gs = Ok (o, m', c').
Proof.
  intros T HP. induction gs as [|g gs IH]; intros m c Hg; cbn [gates_out]; [eauto|].
  inversion Hg; subst. apply (supported_lowers _ _ c) in H1. destruct H1 as (l & c1 & E). rewrite E. cbn [bind].
  destruct (expand_total P e T l m c1 (HP _ _ _ _ E)) as (o & m1 & c2 & -> & _). cbn [bind].
  destruct (IH m1 c2 H2) as (o2 & m2 & c3 & ->). cbn [bind]. eauto.
Qed.
Lemma inject_total {M} P (e : expander M) cfg gs m c : total_on P e -> 
  (forall c g l c', lower_gate cfg c g = Ok (l, c') -> Forall P l) -> Forall (supported cfg) gs ->
  exists out c', reads (inject_next e (lower_next cfg)) (mkIS [] m (mkLS [] gs)) c (Ok (out, c')).
Proof.
  intros T HP Hg. destruct (gates_total P e cfg T HP gs m c Hg) as (o & m' & c' & E).
  destruct (inject_lower_back e cfg gs [] m c [] m c o m' c' eq_refl E) as [f Hf].
  exists o, c'. split; [discriminate|eauto].
Qed.
Lemma comp_total {M1 M2} P (e1 : expander M1) (e2 : expander M2) : total_on P e1 -> total_on P e2 -> total_on P (comp e1 e2).
Proof.
  intros T1 T2 [m1 m2] c i Hi. unfold comp. cbn [fst snd]. destruct (T1 m1 c i Hi) as (l & m1' & c1 & -> & Hn & Hl). cbn [bind].
  destruct (expand_total P e2 T2 l m2 c1 Hl) as (o & m2' & c2 & E & Ho). rewrite E. cbn [bind]. destruct l as [|j l]; [congruence|].
  do 3 eexists. split; [reflexivity|]. split; [|assumption].
  cbn [expand_all] in E. inv E as [[u v] w] Ei. destruct u; [discriminate|]. inv E as [[u2 v2] w2] El. inversion E. discriminate.
Qed.
Lemma inject2_total {M1 M2} P (e1 : expander M1) (e2 : expander M2) cfg gs m1 m2 c : total_on P e1 -> total_on P e2 ->
  (forall c g l c', lower_gate cfg c g = Ok (l, c') -> Forall P l) -> Forall (supported cfg) gs ->
  exists out c', reads (inject_next e2 (inject_next e1 (lower_next cfg))) (mkIS [] m2 (mkIS [] m1 (mkLS [] gs))) c (Ok (out, c')).
Proof.
  intros T1 T2 HP Hg. destruct (inject_total P _ cfg gs (m1, m2) c (comp_total _ _ _ T1 T2) HP Hg) as (out & c' & _ & f & Hf).
  destruct (fuse_back e1 e2 (lower_next cfg) f [] m2 [] m1 (mkLS [] gs) c [] m2 c out c' eq_refl Hf) as [f' Hf'].
  exists out, c'. split; [discriminate|eauto].
Qed.

(** no clients on measurements *)
Definition free_mpm (i : instr) : Prop := match op i with MultiMeasure _ _ _ => clients i = [] | _ => True end.
Lemma make_cnot_free local c ctl t ct pl corr l c' : make_cnot local c ctl t ct pl corr = Ok (l, c') -> Forall free_mpm l.
Proof.
  unfold make_cnot, new_id. destruct ct, local, corr; intros H; try discriminate; injection H as <- <-;
    repeat (apply Forall_cons; [first [exact I|reflexivity]|]); apply Forall_nil.
Qed.
Lemma make_t_free local c t d l c' : make_t local c t d = Ok (l, c') -> Forall free_mpm l.
Proof.
  unfold make_t, new_id. destruct local; intros H.
  - inv H as [cn c2] Hx. injection H as <- <-. apply make_cnot_free in Hx.
    apply Forall_cons; [exact I|]. apply Forall_app. split; [assumption|]. repeat constructor.
  - injection H as <- <-. repeat constructor.
Qed.
Lemma lower_gate_free cfg c g l c' : lower_gate cfg c g = Ok (l, c') -> Forall free_mpm l.
Proof.
  destruct g as [t b|t f|ctl tg ct pl|r t]; cbn [lower_gate].
  - destruct b; intros H; try (injection H as <- <-; repeat constructor); eapply make_t_free; eauto.
  - repeat match goal with |- context[if ?b then _ else _] => destruct b end; intros H; try discriminate;
      try (injection H as <- <-; repeat constructor); eapply make_t_free; eauto.
  - destruct tg as [t b|]; [destruct b|]; try discriminate; intros H; [eapply make_cnot_free; eauto|].
    inv H as [cn c2] Hx. injection H as <- <-. apply make_cnot_free in Hx.
    apply Forall_cons; [exact I|]. apply Forall_app. split; [assumption|]. repeat constructor.
  - destruct text_eqb; intros H; [|discriminate]. injection H as <- <-. repeat constructor.
Qed.
Lemma teleport_total core ar : total_on free_mpm (teleport_expand core ar).
Proof.
  intros m c i Hi. unfold teleport_expand, new_id. 
  assert (K : exists l m' c', Ok ([i], m, c) = Ok (l, m', c') /\ l <> [] /\ Forall free_mpm l)
    by (do 3 eexists; split; [reflexivity|]; split; [discriminate|]; auto).
  destruct (op i) as [| | | | | | |t o d| | | |] eqn:E; try exact K. destruct o; try exact K.
  - destruct (ar && memN t core); [|exact K]. do 3 eexists; split; [reflexivity|]; split; [discriminate|]. repeat constructor. exact Hi.
  - destruct (memN t core); [|exact K]. do 3 eexists; split; [reflexivity|]; split; [discriminate|]. repeat constructor.
Qed.
Lemma catalytic_total loc core ar : total_on free_mpm (catalytic_expand loc core ar).
Proof.
  intros m c i Hi. unfold catalytic_expand, new_id. 
  assert (K : exists l m' c', Ok ([i], m, c) = Ok (l, m', c') /\ l <> [] /\ Forall free_mpm l)
    by (do 3 eexists; split; [reflexivity|]; split; [discriminate|]; auto).
  destruct (op i) as [| | | | | | |t o d| | | |] eqn:E; try exact K. destruct o; try exact K.
  - destruct (ar && memN t core); [|exact K]. do 3 eexists; split; [reflexivity|]; split; [discriminate|]. repeat constructor. exact Hi.
  - destruct (memN t core); [|exact K]. destruct loc; cbn [make_cnot new_id bind]; (do 3 eexists; split; [reflexivity|]; split; [discriminate|]);
      repeat constructor.
Qed.
Lemma boundary_total : total_on free_mpm boundary_expand.
Proof.
  intros m c i Hi. unfold boundary_expand.
  assert (K : forall (m0 : emap) pre, Forall free_mpm pre -> exists l m' c', Ok (pre ++ [i], m0, c) = Ok (l, m', c') /\ l <> [] /\ Forall free_mpm l).
  { intros m0 pre Hp. do 3 eexists; split; [reflexivity|]; split; [destruct pre; discriminate|]. apply Forall_app; auto. }
  assert (X : forall m q p, Forall free_mpm (fst (expose m q p))).
  { intros m0 q p. unfold expose. destruct (alookup m0 q) as [e|]; [destruct (is_exposed e p)|]; repeat constructor. }
  destruct (op i) as [| |obs neg loc| | | | |t o d|q| |ctl tgt s1 s2 r1 r2 r3 r4|] eqn:Eo; try apply (K _ [] (Forall_nil _)).
  - unfold free_mpm in Hi. rewrite Eo in Hi.
    assert (F : exists lr mr, foldM (fun acc q => let '(l, m) := acc in
           match alookup m q with
           | None => Ok (l, m)
           | Some _ => match alookup obs q with
                       | None => Throw OutOfRange
                       | Some p => let '(l', m') := expose m q p in Ok (l ++ l', m')
                       end
           end) (operating_patches i) ([], m) = Ok (lr, mr) /\ Forall free_mpm lr).
    { assert (Hk : forall q, In q (operating_patches i) -> alookup obs q <> None).
      { intros q Hq. unfold operating_patches in Hq. rewrite Eo, Hi in Hq. apply fold_oset_In in Hq. destruct Hq as [[]|Hq].
        clear - Hq. induction obs as [|[k v] obs IH]; cbn in *; [contradiction|]. destruct (N.eqb_spec q k); [discriminate|].
        apply IH. destruct Hq; [congruence|assumption]. }
      revert Hk. generalize (operating_patches i). intros ps Hk.
      assert (G : forall l m, Forall free_mpm l -> exists lr mr, foldM (fun acc q => let '(l, m) := acc in
           match alookup m q with
           | None => Ok (l, m)
           | Some _ => match alookup obs q with
                       | None => Throw OutOfRange
                       | Some p => let '(l', m') := expose m q p in Ok (l ++ l', m')
                       end
           end) ps (l, m) = Ok (lr, mr) /\ Forall free_mpm lr).
      { induction ps as [|q ps IH]; intros l0 m0 Hl; cbn [foldM]; [eauto|].
        destruct (alookup m0 q) as [e|]; cbn [bind]; [|apply IH; auto; intros; apply Hk; now right].
        pose proof (Hk q (or_introl eq_refl)) as Hq. destruct (alookup obs q) as [p|]; [|congruence].
        specialize (X m0 q p). destruct (expose m0 q p) as [l' m']. cbn [bind fst] in *. apply IH; [intros; apply Hk; now right|].
        apply Forall_app; auto. }
      apply G. apply Forall_nil. }
    destruct F as (lr & mr & -> & Hl). cbn [bind]. now apply K.
  - destruct o; try apply (K _ [] (Forall_nil _)).
    + destruct (alookup m t); apply (K _ [] (Forall_nil _)).
    + specialize (X m t PZ). destruct (expose m t PZ). now apply K.
  - pose proof (X m ctl PZ) as X1. destruct (expose m ctl PZ) as [l1 m1]. pose proof (X m1 tgt PX) as X2. destruct (expose m1 tgt PX) as [l2 m2].
    rewrite app_assoc. apply K. apply Forall_app; auto.
Qed.
