(** Amplitudes through the passes that rotate patches and teleport S gates *)
From Verif Require Import Base PatchesModel InstrModel GatesModel LoweringModel LoweringSpec LoweringProofs AmpSpec AmpProofs.
From Verif Require Import InstrProofs.
From Verif Require CliffordProofs.
Open Scope nat_scope.

Definition still (x : instr) : bool := match op x with Rotate _ => false | _ => true end.
Definition strip (l : list instr) : list instr := filter still l.
Lemma strip_app : forall l l', strip (l ++ l') = strip l ++ strip l'.
Proof. intros l l'. apply filter_app. Qed.

Section Amp.
Variable M : amps.
Notation state := (state M).
Notation turns := (turns M).
Notation twice := (twice M).
Notation realizes := (realizes M).

(** Rotations do not matter. *)
Lemma obeys_strip : forall rule rule' l i i' seen outs u, (forall k s, k < length l -> rule (i + k) s = rule' (i' + length (strip (firstn k l))) s) ->
  obeys M rule i seen outs l u = obeys M rule' i' seen outs (strip l) u.
Proof.
  intros rule rule' l. induction l as [|x l IH]; intros i i' seen outs u H; [reflexivity|]. cbn [obeys strip filter]. unfold still at 1.
  assert (D : (exists t, op x = Rotate t) \/ still x = true) by (unfold still; destruct (op x); eauto). destruct D as [(t & Eo)|Eo].
  - rewrite Eo. cbn [measures carry_out]. apply IH. intros k s Hk. specialize (H (S k) s ltac:(cbn; lia)). cbn [firstn strip filter] in H. unfold still at 1 in H. rewrite Eo in H. unfold strip. rewrite <- H. f_equal. lia.
  - unfold still in Eo at 1. rewrite Eo. cbn [obeys].
    assert (Hn : forall k s, k < length l -> rule (S i + k) s = rule' (S i' + length (strip (firstn k l))) s).
    { intros k s Hk. specialize (H (S k) s ltac:(cbn; lia)). cbn [firstn strip filter] in H. unfold still at 1 in H. rewrite Eo in H. cbn [length] in H. replace (S i + k) with (i + S k) by lia. rewrite H. f_equal. unfold strip. lia. }
    pose proof (H 0 seen ltac:(cbn; lia)) as H0. cbn [firstn strip filter length] in H0. rewrite !Nat.add_0_r in H0.
    destruct (measures (op x)).
    + destruct outs as [|z outs]; [reflexivity|]. destruct (carry_out M (op x) true z u); [now apply IH|reflexivity].
    + rewrite H0. destruct (carry_out M (op x) (rule' i' seen) false u); [now apply IH|reflexivity].
Qed.
Lemma outcomes_strip : forall l, outcomes (strip l) = outcomes l.
Proof.
  unfold outcomes, strip. induction l as [|x l IH]; [reflexivity|]. cbn [filter]. unfold still at 1. destruct (op x) eqn:Eo; cbn [filter]; rewrite ?Eo; cbn [measures length]; congruence.
Qed.
Lemma realizes_strip : forall r l f, realizes r (strip l) f -> realizes r l f.
Proof.
  intros r l f H i n fr Hf. destruct (H i n fr Hf) as (rule & post & Bp & R). exists (fun k s => rule (i + length (strip (firstn (k - i) l))) s), post. split; [exact Bp|].
  intros seen outs Hs Ho. rewrite <- outcomes_strip in Ho. destruct (R seen outs Hs Ho) as (k & j & R1). exists k, j. intros u Hu. destruct (R1 u Hu) as (u' & O & S1). exists u'. split; [|exact S1].
  rewrite <- O. apply obeys_strip. intros x s Hx. cbv beta. now replace (i + x - i) with x by lia.
Qed.

(** An S that is carried out or not, up to a Z *)
Definition cond_s (r q : N) (blk : list instr) : Prop := forall i n (dec : list bool -> bool), exists rule (corr : list bool -> bool),
  forall seen outs, length seen = n -> length outs = outcomes blk -> exists k, forall u, lives M r u -> exists u', obeys M rule i seen outs blk u = Some u'
    /\ scaled M k 0 u' (phase M q ((if dec seen then 2 else 0) + (if corr (seen ++ outs) then 4 else 0)) u).
Lemma cond_one : forall r q, cond_s r q [sq q SqS].
Proof.
  intros r q i n dec. exists (fun _ s => dec s), (fun _ => false). intros seen outs _ Ho. destruct outs; [|discriminate]. exists 0. intros u Hu. eexists. split; [reflexivity|]. apply by_same. intros b. destruct (dec seen); [reflexivity|].
  unfold phase. now destruct (b q).
Qed.
Definition tele (y t : N) : list instr := [mkI (YRequest y t None) SIZE_MAX [t]; mpm (obs2 y PZ t PZ); instr_of (Measure y PX false); sq t SqZ].
Lemma seen_first : forall n (seen outs : list bool), length seen = n -> firstn n (seen ++ outs) = seen.
Proof. intros n seen outs Hs. rewrite firstn_app, Hs, Nat.sub_diag, firstn_O, app_nil_r. rewrite <- Hs. apply firstn_all. Qed.
Lemma seen_skip : forall n (seen outs : list bool), length seen = n -> skipn n (seen ++ outs) = outs.
Proof. intros n seen outs Hs. rewrite skipn_app, Hs, Nat.sub_diag. cbn [skipn]. rewrite <- Hs, skipn_all. reflexivity. Qed.
Lemma cond_tele : forall r q y, (q < r)%N -> (r <= y)%N -> cond_s r q (tele y q).
Proof.
  intros r q y Hq Hr i n dec. exists (fun _ s => dec s), (fun s => let o := skipn n s in xorb (nth 1 o false) (negb (dec (firstn n s) && nth 0 o false))).
  intros seen outs Hs Ho. rewrite (seen_skip n seen outs Hs), (seen_first n seen outs Hs). unfold tele, obs2, mpm in Ho |- *. rewrite (proj2 (N.eqb_neq y q)) in Ho |- * by lia.
  destruct outs as [|z [|x [|? ?]]]; try discriminate Ho. clear Ho. cbn [nth].
  exists (if z then (if x then 4 else 0) + (if dec seen then 2 else 0) else 0). intros u Hu. eexists. split; [reflexivity|]. apply by_turns. intros b.
  assert (E : forall v, u (set_bit b y v) = u b) by (intros v; apply Hu; intros w Hw; apply bit_other; lia).
  assert (Hb : forall v, set_bit b y v q = b q) by (intros v; apply bit_other; lia).
  destruct (dec seen); unfold phase; rewrite ?bit_set, ?Hb, ?E; destruct z, x, (b q); cbn [xorb Bool.eqb andb negb]; rewrite ?turns_zero, ?add_zero, ?zero_add, ?turns_plus; try (apply turns_mod; reflexivity).
Qed.
Lemma realizes_s : forall r q blk k, (q < r)%N -> cond_s r q blk -> k = 2 \/ k = 6 -> realizes r blk (phase M q k).
Proof.
  intros r q blk k Hq C Hk i n fr Hf. destruct (C i n (fun _ => true)) as (rule & corr & R). set (xs := fun s => odd_x q (fr (firstn n s))).
  exists rule, (fun s => fr (firstn n s) ++ (if xorb (xorb (corr s) (xs s)) (k =? 6) then [(q, false)] else [])). split.
  { intros s. apply Forall_app. split; [apply Hf|]. destruct (xorb _ _); [|apply Forall_nil]. apply Forall_cons; [exact Hq|apply Forall_nil]. }
  intros seen outs Hs Ho. destruct (R seen outs Hs Ho) as (k1 & R1). pose proof (seen_first n seen outs Hs) as Fs. set (s := seen ++ outs) in *.
  assert (Xs : xs s = odd_x q (fr seen)) by (unfold xs; now rewrite Fs). set (e := 2 + (if corr s then 4 else 0)) in *.
  destruct (phase_paulis M r q (fr seen) (Hf seen) e) as (k' & P). exists (k1 + (k' + 0)), 0. intros u Hu.
  destruct (R1 (paulis M (fr seen) u)) as (u' & O & S1); [now apply paulis_lives|]. exists u'. split; [exact O|].
  change 0 with (0 + (0 + 0)) at 2. eapply scaled_trans; [exact S1|]. eapply scaled_trans; [apply P, Hu|]. rewrite Fs, paulis_app. apply paulis_even. rewrite <- Xs. unfold e.
  destruct Hk as [->| ->]; destruct (corr s), (xs s); cbn; try (apply phase_mod; reflexivity).
  all: unfold pauli_op; cbn [fst snd]; intros b; unfold phase; change (twice 0 ?y) with y; rewrite turns_0; destruct (b q); rewrite ?turns_plus; apply turns_mod; reflexivity.
Qed.

(** The T gadget before its S *)
Definition t_phase0 (outs : list bool) : nat := (if nth 0 outs false then 7 else 1) + (if nth 1 outs false then 4 else 0).
Definition pre_ok (r q : N) (pre : list instr) : Prop := forall rule i seen outs, length outs = outcomes pre -> exists k, forall u, lives M r u -> exists u', obeys M rule i seen outs pre u = Some u'
  /\ scaled M k 0 u' (phase M q (t_phase0 outs) u).
Lemma t_pre : forall local d c r q l c', (q < r)%N -> (r <= c)%N -> (c' <= 2 ^ 32)%N -> make_t local c q d = Ok (l, c') -> exists pre, l = pre ++ [sq q SqS] /\ pre_ok r q pre /\ Forall (fun x => match op x with SingleOp _ SqS _ | Rotate _ => False | _ => True end) pre.
Proof.
  intros local d c r q l c' Hq Hr Hc H. unfold make_t, new_id in H.
  assert (Hm : (c < 2 ^ 32)%N -> (c mod 2 ^ 32 = c)%N) by (intros L; now apply N.mod_small).
  destruct local.
  - cbn [make_cnot new_id bind] in H. apply ok_pair in H. destruct H as [<- <-]. rewrite Hm by lia. cbn [app]. eexists [_; _; _]. split; [reflexivity|]. split; [|repeat (apply Forall_cons; [exact Logic.I|]); apply Forall_nil].
    intros rule i seen outs Ho. destruct outs as [|z [|? ?]]; try discriminate Ho. clear Ho.
    exists (if z then 1 else 0). intros u Hu. eexists. split; [reflexivity|]. cbn [nth]. apply by_turns. intros b.
    assert (Hb : forall v, set_bit b c v q = b q) by (intros v; apply bit_other; lia).
    assert (E2 : forall v w, u (set_bit (set_bit b c v) c w) = u b) by (intros v w; apply Hu; intros y Hy; rewrite !bit_other by lia; reflexivity).
    unfold phase, cnot; rewrite ?bit_set, ?Hb, ?E2; rewrite !turns_plus; apply turns_mod; destruct z, (b q); reflexivity.
  - apply ok_pair in H. destruct H as [<- <-]. rewrite Hm by lia. eexists [_; _; _]. split; [reflexivity|]. split; [|repeat (apply Forall_cons; [exact Logic.I|]); apply Forall_nil].
    intros rule i seen outs Ho. unfold obs2, mpm in Ho |- *. rewrite (proj2 (N.eqb_neq q c)) in Ho |- * by lia. destruct outs as [|z [|x [|? ?]]]; try discriminate Ho. clear Ho.
    exists (if z then (if x then 5 else 1) else 0). intros u Hu. eexists. split; [reflexivity|]. unfold t_phase0. cbn [nth]. apply by_turns. intros b.
    assert (E : forall v, u (set_bit b c v) = u b) by (intros v; apply Hu; intros y Hy; apply bit_other; lia).
    assert (Hb : forall v, set_bit b c v q = b q) by (intros v; apply bit_other; lia).
    unfold phase; rewrite ?bit_set, ?Hb, ?E; destruct z, x, (b q); cbn [xorb Bool.eqb]; rewrite ?turns_zero, ?add_zero, ?zero_add, ?turns_plus; try (apply turns_mod; reflexivity).
Qed.
Lemma realizes_t2 : forall r q pre blk dg, (q < r)%N -> pre_ok r q pre -> cond_s r q blk -> realizes r (pre ++ blk) (phase M q (if dg : bool then 7 else 1)).
Proof.
  intros r q pre blk dg Hq Pr C i n fr Hf. set (m := outcomes pre). set (o1 := fun s : list bool => firstn m (skipn n s)). set (xs := fun s => xorb (odd_x q (fr (firstn n s))) dg).
  destruct (C (i + length pre) (n + m) (fun s => xorb (nth 0 (o1 s) false) (xs s))) as (rule & corr & R).
  exists rule, (fun s => fr (firstn n s) ++ (if xorb (corr s) (xorb (nth 1 (o1 s) false) (negb (nth 0 (o1 s) false) && xs s)) then [(q, false)] else [])). split.
  { intros s. apply Forall_app. split; [apply Hf|]. destruct (xorb _ _); [|apply Forall_nil]. apply Forall_cons; [exact Hq|apply Forall_nil]. }
  intros seen outs Hs Ho. rewrite outcomes_app in Ho. fold m in Ho.
  rewrite <- (firstn_skipn m outs). set (oa := firstn m outs). set (ob := skipn m outs).
  assert (La : length oa = m) by (unfold oa; rewrite firstn_length; lia). assert (Lb : length ob = outcomes blk) by (unfold ob; rewrite skipn_length; lia). clearbody oa ob. clear Ho outs.
  assert (E1 : o1 (seen ++ oa) = oa) by (unfold o1; rewrite (seen_skip n seen oa Hs), <- La; apply firstn_all).
  assert (E2 : o1 (seen ++ oa ++ ob) = oa) by (unfold o1; rewrite (seen_skip n seen _ Hs); now apply seen_first).
  assert (X1 : xs (seen ++ oa) = xorb (odd_x q (fr seen)) dg) by (unfold xs; now rewrite seen_first).
  assert (X2 : xs (seen ++ oa ++ ob) = xorb (odd_x q (fr seen)) dg) by (unfold xs; now rewrite seen_first).
  destruct (Pr rule i seen oa La) as (k1 & R1). destruct (R (seen ++ oa) ob) as (k2 & R2); [rewrite app_length; lia|exact Lb|]. cbv beta in R2. rewrite E1, X1 in R2. rewrite E2, X2, (seen_first n seen _ Hs).
  rewrite <- app_assoc in R2. set (cr := corr (seen ++ oa ++ ob)) in *. set (z := nth 0 oa false) in *. set (x := nth 1 oa false) in *. set (od := odd_x q (fr seen)) in *.
  set (e := (if xorb z (xorb od dg) then 2 else 0) + (if cr then 4 else 0) + t_phase0 oa).
  destruct (phase_paulis M r q (fr seen) (Hf seen) e) as (k' & P).
  exists (k2 + (k1 + (0 + (k' + 0)))), 0. intros u Hu. destruct (R1 (paulis M (fr seen) u)) as (v & O & S1); [now apply paulis_lives|].
  destruct (R2 (phase M q (t_phase0 oa) (paulis M (fr seen) u))) as (w & O2 & S2); [apply phase_lives; [exact Hq|now apply paulis_lives]|].
  pose proof (obeys_even M rule blk (i + length pre) (seen ++ oa) ob k1 0 _ _ S1) as Ev. rewrite O2 in Ev. rewrite (obeys_app M rule pre blk i seen oa ob _ v La O).
  destruct (obeys M rule (i + length pre) (seen ++ oa) ob blk v) as [w'|]; [|contradiction]. exists w'. split; [reflexivity|]. cbn [scaled_opt] in Ev.
  replace (k2 + (k1 + (0 + (k' + 0)))) with (k1 + (k2 + (0 + (k' + 0)))) by lia. change 0 with (0 + (0 + (0 + (0 + 0)))) at 3.
  eapply scaled_trans; [exact Ev|]. eapply scaled_trans; [exact S2|]. eapply scaled_trans; [apply phase_join|]. fold e. eapply scaled_trans; [apply P, Hu|]. rewrite paulis_app. apply paulis_even. fold od. unfold e, t_phase0. fold z x.
  destruct z, x, od, dg, cr; cbn; try (apply phase_mod; reflexivity).
  all: unfold pauli_op; cbn [fst snd]; intros b; unfold phase; change (twice 0 ?y) with y; rewrite turns_0; destruct (b q); rewrite ?turns_plus; apply turns_mod; reflexivity.
Qed.
End Amp.

(** What the passes do to an instruction: put rotations around it, or teleport an S. *)
Definition mild {A} (e : expander A) : Prop := forall m c i l m' c', e m c i = Ok (l, m', c') ->
  (strip l = strip [i] /\ c' = c) \/ exists t d, op i = SingleOp t SqS d /\ strip l = tele (c mod 2 ^ 32) t /\ c' = (c + 1)%N.
Definition no_s (x : instr) : Prop := match op x with SingleOp _ SqS _ => False | _ => True end.
Lemma turning_strip : forall l, Forall CliffordProofs.turning l -> strip l = [].
Proof. intros l H. induction H as [|i l (q & ->) _ IH]; [reflexivity|exact IH]. Qed.
Lemma boundary_mild : mild boundary_expand.
Proof.
  intros m c i l m' c' H. left. pose proof (boundary_counter _ _ _ _ _ _ H) as ->. split; [|reflexivity].
  assert (X : exists r, l = r ++ [i] /\ Forall CliffordProofs.turning r).
  { unfold boundary_expand in H. destruct (op i) as [| |obs neg loc| | | | |t o d|q| |ctl tgt s1 s2 r1 r2 r3 r4|];
      try (apply ok3_inj in H; destruct H as (<- & _ & _); exists []; split; [reflexivity|constructor]).
    - apply bind_ok in H. destruct H as ([lr mr] & E & H). apply ok3_inj in H. destruct H as (<- & _ & _). exists lr. split; [reflexivity|]. eapply CliffordProofs.fold_turning; [constructor|exact E].
    - destruct o; try (apply ok3_inj in H; destruct H as (<- & _ & _); exists []; split; [reflexivity|constructor]).
      + destruct (alookup m t); apply ok3_inj in H; destruct H as (<- & _ & _); exists []; (split; [reflexivity|constructor]).
      + destruct (expose m t PZ) as [l1 m1] eqn:E1. apply ok3_inj in H. destruct H as (<- & _ & _). exists l1. split; [reflexivity|eapply CliffordProofs.expose_turning; eauto].
    - destruct (expose m ctl PZ) as [l1 m1] eqn:E1. destruct (expose m1 tgt PX) as [l2 m2] eqn:E2. apply ok3_inj in H. destruct H as (<- & _ & _).
      exists (l1 ++ l2). rewrite app_assoc. split; [reflexivity|]. apply Forall_app. split; eapply CliffordProofs.expose_turning; eauto. }
  destruct X as (r & -> & T). now rewrite strip_app, (turning_strip r T).
Qed.
Lemma teleport_mild : forall core al, mild (teleport_expand core al).
Proof.
  intros core al m c i l m' c' H. unfold teleport_expand, new_id in H.
  assert (K : Ok ([i], m, c) = Ok (l, m', c') -> strip l = strip [i] /\ c' = c) by (intros K; apply ok3_inj in K; destruct K as (<- & _ & <-); auto).
  destruct (op i) as [| | | | | | |t o d| | | |] eqn:Eo; try (left; exact (K H)). destruct o; try (left; exact (K H)).
  - destruct (al && memN t core)%bool; [|left; exact (K H)]. left. apply ok3_inj in H. destruct H as (<- & _ & <-). split; [|reflexivity]. unfold strip. cbn [filter]. destruct (still i); reflexivity.
  - destruct (memN t core); [|left; exact (K H)]. right. exists t, d. apply ok3_inj in H. destruct H as (<- & _ & <-). split; [reflexivity|]. split; [|reflexivity].
    unfold tele, mpm, obs2. destruct (N.eqb _ _); reflexivity.
Qed.
Lemma expand_plain : forall A (e : expander A), mild e -> forall l m c o m' c', Forall no_s l -> expand_all e m c l = Ok (o, m', c') -> strip o = strip l /\ c' = c.
Proof.
  intros A e Me. induction l as [|i l IH]; intros m c o m' c' N H; cbn [expand_all] in H; [apply ok3_inj in H; destruct H as (<- & _ & <-); auto|].
  inversion N as [|? ? Ni Nl]; subst. apply bind_ok in H. destruct H as ([[o1 m1] c1] & He & H). assert (Hn : o1 <> []) by (intros ->; discriminate).
  destruct o1 as [|j o1]; [congruence|]. apply bind_ok in H. destruct H as ([[o2 m2] c2] & Hr & H). apply ok3_inj in H. destruct H as (<- & <- & <-).
  destruct (IH m1 c1 o2 m2 c2 Nl Hr) as (E2 & ->). destruct (Me m c i _ m1 c1 He) as [(E1 & ->)|(t & d & Eo & _)]; [|unfold no_s in Ni; rewrite Eo in Ni; contradiction].
  split; [|reflexivity]. change (i :: l) with ([i] ++ l). change (j :: o1 ++ o2) with ((j :: o1) ++ o2). rewrite !strip_app. congruence.
Qed.
Lemma expand_last : forall A (e : expander A), mild e -> forall l s m c o m' c', Forall no_s l -> expand_all e m c (l ++ [s]) = Ok (o, m', c') ->
  (strip o = strip (l ++ [s]) /\ c' = c) \/ exists t d, op s = SingleOp t SqS d /\ strip o = strip l ++ tele (c mod 2 ^ 32) t /\ c' = (c + 1)%N.
Proof.
  intros A e Me. induction l as [|i l IH]; intros s m c o m' c' N H; cbn [app expand_all] in H.
  - apply bind_ok in H. destruct H as ([[o1 m1] c1] & He & H). destruct o1 as [|j o1]; [discriminate|]. cbn [bind] in H. apply ok3_inj in H. destruct H as (<- & <- & <-). rewrite app_nil_r. exact (Me m c s _ m1 c1 He).
  - inversion N as [|? ? Ni Nl]; subst. apply bind_ok in H. destruct H as ([[o1 m1] c1] & He & H).
    destruct o1 as [|j o1]; [discriminate|]. apply bind_ok in H. destruct H as ([[o2 m2] c2] & Hr & H). apply ok3_inj in H. destruct H as (<- & <- & <-).
    destruct (Me m c i _ m1 c1 He) as [(E1 & ->)|(t & d & Eo & _)]; [|unfold no_s in Ni; rewrite Eo in Ni; contradiction].
    change (i :: l) with ([i] ++ l). change (j :: o1 ++ o2) with ((j :: o1) ++ o2). rewrite !strip_app, E1.
    destruct (IH s m1 c o2 m2 c2 Nl Hr) as [(E2 & ->)|(t & d & Eo & E2 & ->)].
    + left. split; [|reflexivity]. rewrite E2, strip_app, app_assoc. reflexivity.
    + right. exists t, d. split; [exact Eo|]. split; [|reflexivity]. rewrite E2, app_assoc. reflexivity.
Qed.
Lemma tele_strip : forall y t, strip (tele y t) = tele y t.
Proof. intros y t. reflexivity. Qed.
(** Rotations go through the second pass as they are *)
Lemma expand_rel : forall A (e : expander A), mild e -> forall l i m c o m' c', strip l = strip [i] -> expand_all e m c l = Ok (o, m', c') ->
  (strip o = strip [i] /\ c' = c) \/ exists t d, op i = SingleOp t SqS d /\ strip o = tele (c mod 2 ^ 32) t /\ c' = (c + 1)%N.
Proof.
  intros A e Me. induction l as [|j l IH]; intros i m c o m' c' E H; cbn [expand_all] in H; [apply ok3_inj in H; destruct H as (<- & _ & <-); left; auto|].
  apply bind_ok in H. destruct H as ([[o1 m1] c1] & He & H). destruct o1 as [|x o1]; [discriminate|]. apply bind_ok in H. destruct H as ([[o2 m2] c2] & Hr & H). apply ok3_inj in H. destruct H as (<- & <- & <-).
  change (x :: o1 ++ o2) with ((x :: o1) ++ o2). rewrite strip_app. destruct (still j) eqn:Sj.
  - assert (Ej : j = i /\ strip l = []).
    { unfold strip in E. cbn [filter] in E. rewrite Sj in E. destruct (still i); [|discriminate]. injection E as <- E. auto. }
    destruct Ej as (-> & El).
    assert (Nl : Forall no_s l).
    { clear -El. induction l as [|y l IHl]; [apply Forall_nil|]. unfold strip in El. cbn [filter] in El. destruct (still y) eqn:Sy; [discriminate|]. apply Forall_cons; [|now apply IHl]. unfold no_s. unfold still in Sy. destruct (op y); try exact Logic.I; discriminate. }
    destruct (expand_plain A e Me l m1 c1 o2 m2 c2 Nl Hr) as (E2 & ->). rewrite E2, El, app_nil_r. exact (Me m c i _ m1 c1 He).
  - assert (El : strip l = strip [i]) by (rewrite <- E; unfold strip; cbn [filter]; now rewrite Sj).
    assert (Ns : no_s j) by (unfold no_s; unfold still in Sj; destruct (op j); try exact Logic.I; discriminate).
    destruct (Me m c j _ m1 c1 He) as [(E1 & ->)|(t & d & Eo & _)]; [|unfold no_s in Ns; rewrite Eo in Ns; contradiction].
    rewrite E1. assert (Sj' : strip [j] = []) by (unfold strip; cbn [filter]; now rewrite Sj). rewrite Sj'. cbn [app]. exact (IH i m1 c o2 m2 c2 El Hr).
Qed.
Lemma comp_mild : forall A B (e1 : expander A) (e2 : expander B), (forall m c i l m' c', e1 m c i = Ok (l, m', c') -> strip l = strip [i] /\ c' = c) -> mild e2 -> mild (comp e1 e2).
Proof.
  intros A B e1 e2 M1 M2 [m1 m2] c i l m' c' H. unfold comp in H. cbn [fst snd] in H. apply bind_ok in H. destruct H as ([[l1 m1'] c1] & E1 & H). apply bind_ok in H. destruct H as ([[o m2'] c2] & E2 & H).
  destruct l1 as [|j l1]; [discriminate|]. apply ok3_inj in H. destruct H as (<- & _ & <-). destruct (M1 _ _ _ _ _ _ E1) as (S1 & ->). exact (expand_rel B e2 M2 _ i m2 c o m2' c2 S1 E2).
Qed.
Lemma mild_grows : forall A (e : expander A), mild e -> forall m c i l m' c', e m c i = Ok (l, m', c') -> (c <= c')%N.
Proof. intros A e Me m c i l m' c' H. destruct (Me _ _ _ _ _ _ H) as [(_ & ->)|(t & d & _ & _ & ->)]; lia. Qed.

Section Amp2.
Variable M : amps.
Lemma gate_pass : forall A (e : expander A), mild e -> forall cfg r c g l c1 m o m1 c2, fine cfg g -> Forall (fun q => (q < r)%N) (gate_qubits g) -> (r <= c)%N -> (c2 <= 2 ^ 32)%N ->
  lower_gate cfg c g = Ok (l, c1) -> expand_all e m c1 l = Ok (o, m1, c2) -> realizes M r o (meant M g).
Proof.
  intros A e Me cfg r c g l c1 m o m1 c2 Hf Hq Hr Hc H He. pose proof (gate_grows cfg c g l c1 Hf H) as Gr. pose proof (expand_mono e (mild_grows A e Me) _ _ _ _ _ _ He) as Gr2.
  assert (Plain : Forall no_s l -> strip l = l -> realizes M r o (meant M g)).
  { intros Nl Sl. destruct (expand_plain A e Me l m c1 o m1 c2 Nl He) as (E & _). apply realizes_strip. rewrite E, Sl. apply (gate_ok M cfg r c g l c1); try assumption. lia. }
  assert (Ss : forall q d k, (q < r)%N -> l = [instr_of (SingleOp q SqS d)] -> k = 2 \/ k = 6 -> meant M g = phase M q k -> realizes M r o (meant M g)).
  { intros q d k H1 -> Hk Em. destruct (expand_last A e Me [] _ m c1 o m1 c2 (Forall_nil _) He) as [(E & _)|(t & d' & Eo & E & Ec)]; apply realizes_strip; rewrite E.
    - apply (gate_ok M cfg r c g _ c1); try assumption. lia.
    - injection Eo as <- _. rewrite N.mod_small by lia. rewrite Em. apply realizes_s; [exact H1| |exact Hk]. apply cond_tele; [exact H1|lia]. }
  assert (Ts : forall q d dg, (q < r)%N -> make_t (cfg_local cfg) c q d = Ok (l, c1) -> meant M g = phase M q (if dg : bool then 7 else 1) -> realizes M r o (meant M g)).
  { intros q d dg H1 Ht Em. destruct (t_pre M _ _ c r q l c1 H1 Hr ltac:(lia) Ht) as (pre & -> & Pr & Np).
    assert (Nl : Forall no_s pre) by (eapply Forall_impl; [|exact Np]; cbv beta; intros x Hx; unfold no_s; destruct (op x); auto).
    assert (Sp : strip pre = pre).
    { clear -Np. induction Np as [|x pre Hx _ IH]; [reflexivity|]. unfold strip. cbn [filter]. unfold still at 1. fold (strip pre). rewrite IH. destruct (op x); try reflexivity; contradiction. }
    destruct (expand_last A e Me pre _ m c1 o m1 c2 Nl He) as [(E & _)|(t & d' & Eo & E & Ec)]; apply realizes_strip; rewrite E.
    - rewrite strip_app, Sp, Em. apply realizes_t2; [exact H1|exact Pr|apply cond_one].
    - injection Eo as <- _. rewrite N.mod_small by lia. rewrite Sp, Em. apply realizes_t2; [exact H1|exact Pr|]. apply cond_tele; [exact H1|lia]. }
  destruct g as [q b|q f|p [t b|t f] ct pl|]; cbn in Hf; try contradiction; cbn [lower_gate] in H; cbn [gate_qubits] in Hq; inversion Hq as [|? ? H1 H2]; subst.
  - destruct b; try (apply ok_pair in H; destruct H as [<- _]).
    all: try (apply Plain; [apply Forall_cons; [exact Logic.I|apply Forall_nil]|reflexivity]).
    + apply (Ss q false 2 H1); auto.
    + apply (Ts q false false H1 H). reflexivity.
    + apply (Ss q true 6 H1); auto.
    + apply (Ts q true true H1 H). reflexivity.
  - revert Ss Ts. unfold meant. destruct (fr_num f =? 1)%Z; cbn [andb] in H; [|discriminate].
    destruct (fr_den f =? 1)%Z eqn:E1; [intros _ _; apply ok_pair in H; destruct H as [<- _]; revert Plain; unfold meant; rewrite E1; intros Plain; apply Plain; [apply Forall_cons; [exact Logic.I|apply Forall_nil]|reflexivity]|].
    destruct (fr_den f =? 2)%Z; [intros Ss _; apply ok_pair in H; destruct H as [<- _]; apply (Ss q false 2 H1); auto|].
    destruct (fr_den f =? 4)%Z; [|discriminate]. intros _ Ts. apply (Ts q false false H1 H). reflexivity.
  - destruct Hf as (Hb & Npt & Ct). destruct Hb as [->| ->].
    + apply cnot_out in H; [|exact Ct]. destruct H as (_ & a & b & i & w & ->). apply Plain; [apply Forall_cons; [exact Logic.I|apply Forall_nil]|reflexivity].
    + destruct (make_cnot _ _ _ _ _ _ _) as [[l1 cc]| | |] eqn:E; cbn [bind] in H; try discriminate. apply cnot_out in E; [|exact Ct]. apply ok_pair in H. destruct H as [<- _]. destruct E as (_ & a & b & i & w & ->).
      apply Plain; [repeat (apply Forall_cons; [exact Logic.I|]); apply Forall_nil|reflexivity].
Qed.
Lemma gates_pass : forall A (e : expander A), mild e -> forall cfg r gs m c o m' c', Forall (fine cfg) gs -> Forall (fun g => Forall (fun q => (q < r)%N) (gate_qubits g)) gs -> (r <= c)%N -> (c' <= 2 ^ 32)%N ->
  gates_out e cfg m c gs = Ok (o, m', c') -> realizes M r o (computes M gs).
Proof.
  intros A e Me cfg r gs. induction gs as [|g gs IH]; intros m c o m' c' Hf Hq Hr Hc H; cbn [gates_out] in H; [apply ok3_inj in H; destruct H as (<- & _ & _); apply realizes_nil|]. inversion Hf; inversion Hq; subst.
  apply bind_ok in H. destruct H as ([l c1] & Hg & H). apply bind_ok in H. destruct H as ([[o1 m1] c2] & He & H). apply bind_ok in H. destruct H as ([[o2 m2] c3] & Hn & H). apply ok3_inj in H. destruct H as (<- & <- & <-).
  assert (G1 : (c <= c1)%N) by (eapply gate_grows; eassumption). pose proof (expand_mono e (mild_grows A e Me) _ _ _ _ _ _ He) as G2. pose proof (gates_mono e cfg (mild_grows A e Me) _ _ _ _ _ _ Hn) as G3.
  change (realizes M r (o1 ++ o2) (fun u => computes M gs (meant M g u))). apply realizes_app.
  - eapply meant_keeps; eassumption.
  - apply (gate_pass A e Me cfg r c g l c1 m o1 m1 c2); try assumption. lia.
  - apply (IH m1 c2 o2 m2 c3); try assumption. lia.
Qed.
End Amp2.
