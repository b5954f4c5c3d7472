(** Stabiliser operations on different patches may be exchanged, and what lowering and injection do to a circuit of
    Clifford gates: C65. *)
From Verif Require Import Base PatchesModel InstrModel InstrProofs InstrSpec GraphSpec GatesModel GatesProofs LoweringModel LoweringSpec LoweringProofs LoweringProps
  StabSpec StabProofs StabProps OrderSpec CliffordSpec.
Open Scope nat_scope.

(** ** Where an instruction acts *)
Definition support (i : instr) : list N :=
  match op i with
  | Init a _ _ => [a]
  | MultiMeasure o _ _ => map fst o
  | Measure a _ _ => [a]
  | SingleOp t _ _ => [t]
  | BellCNOT c t _ _ _ _ _ _ => [c; t]
  | YRequest y _ _ => [y]
  | _ => []
  end.
Lemma support_works : forall i p, In p (support i) -> works_on i p.
Proof.
  intros i p H. right. unfold support in H. destruct (op i); cbn in *; intuition (subst; auto).
Qed.
(** What becomes of one operator *)
Definition rel (i : instr) (g g' : pstr) : Prop :=
  match op i with
  | Init a StPlus _ => exists e, peq g' (pmul g (power e (at_patch a (bits PX))))
  | Init a StZero _ => exists e, peq g' (pmul g (power e (at_patch a (bits PZ))))
  | MultiMeasure o _ _ => anticommutes g o = false /\ exists e, peq g' (pmul g (power e (obs_op o)))
  | Measure a p _ => (anticommutes g [(a, p)] = false /\ exists e, peq g' (pmul g (power e (obs_op [(a, p)])))) /\ g' a = (false, false)
  | SingleOp t SqH _ => peq g' (conj_h t g)
  | SingleOp t SqS _ => peq g' (conj_s t g)
  | BellCNOT c t _ _ _ _ _ _ => peq g' (conj_cnot c t g)
  | YRequest y _ _ => match clients i with [] => peq g' g /\ g' y = (false, false) | _ => exists e, peq g' (pmul g (power e (at_patch y (bits PY)))) end
  | _ => peq g' g
  end.
Definition through (T : pstr -> pstr -> Prop) (G : gset) : gset := fun g' => exists g, G g /\ T g g'.
Lemma through_id : forall G, ext G -> same G (through (fun g g' => peq g' g) G).
Proof. intros G X g. split; [intros H; exists g; split; [exact H|apply peq_refl]|]. intros (f & Hf & E). eapply X; [|exact Hf]. now apply peq_sym. Qed.
Lemma act_through : forall i G G', ext G -> act i G = Some G' -> same G' (through (rel i) G).
Proof.
  intros i G G' X H. unfold act in H. unfold through, rel. destruct (op i) as [| | |a st pl| | |y nr cl|t o d|q| |cc tt s1 s2 r1 r2 r3 r4|]; try discriminate; try (injection H as <-; now apply through_id).
  - injection H as <-. intros g. split.
    + intros ((f & e & Hf & A & E) & Z). exists f. eauto.
    + intros (f & Hf & (A & e & E) & Z). split; [|exact Z]. exists f, e. auto.
  - injection H as <-. intros g. split; [intros (f & e & Hf & A & E)|intros (f & Hf & A & e & E)]; exists f; eauto.
  - destruct st; try discriminate; injection H as <-; intros g; (split; [intros (f & e & Hf & E)|intros (f & Hf & e & E)]; exists f; eauto).
  - destruct (clients i).
    + injection H as <-. intros g. split; [intros [Hg Z]; exists g; split; [exact Hg|split; [apply peq_refl|exact Z]]|]. intros (f & Hf & E & Z). split; [|exact Z].
      eapply X; [|exact Hf]. now apply peq_sym.
    + injection H as <-. intros g. split; [intros (f & e & Hf & E)|intros (f & Hf & e & E)]; exists f; eauto.
  - destruct o; try discriminate; injection H as <-; try (now apply through_id); intros g; split; intros (f & Hf & E); exists f; auto.
  - injection H as <-. intros g. split; intros (f & Hf & E); exists f; auto.
Qed.

(** ** Acting on some patches only *)
Definition on_only (P : list N) (T : pstr -> pstr -> Prop) : Prop :=
  (forall g g', T g g' -> forall q, ~ In q P -> g' q = g q) /\
  (forall g g' h h', T g g' -> (forall q, In q P -> g q = h q) -> (forall q, In q P -> g' q = h' q) -> (forall q, ~ In q P -> h' q = h q) -> T h h').
Lemma obs_off : forall o q, ~ In q (map fst o) -> obs_op o q = (false, false).
Proof.
  induction o as [|[r p] o IH]; intros q H; [reflexivity|]. cbn in *. unfold pmul, at_patch. rewrite IH by tauto.
  destruct (N.eqb_spec q r) as [->|]; [tauto|reflexivity].
Qed.
Lemma anti_on : forall o g h, (forall q, In q (map fst o) -> g q = h q) -> anticommutes g o = anticommutes h o.
Proof. induction o as [|[r p] o IH]; intros g h H; [reflexivity|]. cbn in *. rewrite (H r) by auto. f_equal. apply IH. auto. Qed.
Lemma pmul_zero : forall a, pmul1 a (false, false) = a.
Proof. intros [[] []]; reflexivity. Qed.
Lemma power_off : forall e f q, f q = (false, false) -> power e f q = (false, false).
Proof. intros e f q H. unfold power. rewrite H. cbn. now rewrite !andb_false_r. Qed.
Lemma mul_on : forall P f, (forall q, ~ In q P -> f q = (false, false)) -> on_only P (fun g g' => exists e, peq g' (pmul g (power e f))).
Proof.
  intros P f F. split.
  - intros g g' (e & E) q H. rewrite E. unfold pmul. rewrite power_off by auto. apply pmul_zero.
  - intros g g' h h' (e & E) A B C. exists e. intros q. destruct (in_dec N.eq_dec q P) as [I|I].
    + rewrite <- (B q I), E. unfold pmul. now rewrite (A q I).
    + rewrite (C q I). unfold pmul. rewrite power_off by auto. symmetry. apply pmul_zero.
Qed.
Lemma filter_on : forall P (K L : pstr -> Prop) T, (forall g h, (forall q, In q P -> g q = h q) -> K g -> K h) -> (forall g h, (forall q, In q P -> g q = h q) -> L g -> L h) ->
  on_only P T -> on_only P (fun g g' => (K g /\ T g g') /\ L g').
Proof.
  intros P K L T HK HL [T1 T2]. split; [intros g g' ((_ & H) & _); eauto|]. intros g g' h h' ((Kg & H) & Lg) A B C. split; [split; [eapply HK; eauto|eapply T2; eauto]|eapply HL; eauto].
Qed.
Lemma map_on : forall P F, (forall g q, ~ In q P -> F g q = g q) -> (forall g h q, (forall q, In q P -> g q = h q) -> In q P -> F g q = F h q) ->
  on_only P (fun g g' => peq g' (F g)).
Proof.
  intros P F F1 F2. split; [intros g g' E q H; rewrite E; auto|]. intros g g' h h' E A B C q. destruct (in_dec N.eq_dec q P) as [I|I].
  - rewrite <- (B q I), E. auto.
  - now rewrite (C q I), F1.
Qed.
Lemma on_only_ext : forall P T T', (forall g g', T g g' <-> T' g g') -> on_only P T -> on_only P T'.
Proof. intros P T T' E [A B]. split; [intros g g' H; apply A; now apply E|]. intros g g' h h' H X Y Z. apply E. eapply B; eauto. now apply E. Qed.
Lemma neq_in : forall q (t : N) (P : list N), ~ In q (t :: P) -> N.eqb q t = false.
Proof. intros q t P H. apply N.eqb_neq. intros ->. apply H. now left. Qed.
Lemma at_off : forall a p q, ~ In q [a] -> at_patch a p q = (false, false).
Proof. intros a p q H. unfold at_patch. now rewrite (neq_in _ _ _ H). Qed.
Lemma rel_on : forall i, on_only (support i) (rel i).
Proof.
  assert (Id : forall P, on_only P (fun g g' => peq g' g)) by (intros P; apply (map_on P (fun g => g)); auto).
  intros i. unfold support, rel. destruct (op i) as [l|a p ?|o neg cb|a st pl|s1 s2 l1 l2 r1 r2|m n|y nr cl|t o d|q|r1 r2 l|cc tt s1 s2 r1 r2 r3 r4|t]; try apply Id.
  - apply (filter_on [a] (fun g => anticommutes g [(a, p)] = false) (fun g => g a = (false, false))).
    + intros g h H K. rewrite <- K. symmetry. apply anti_on. intros q [<-|[]]. apply H. now left.
    + intros g h H K. rewrite <- H by now left. exact K.
    + apply mul_on. intros q H. apply obs_off. exact H.
  - eapply on_only_ext; [|apply (filter_on (map fst o) (fun g => anticommutes g o = false) (fun _ => True) (fun g g' => exists e, peq g' (pmul g (power e (obs_op o)))))].
    + intros g g'. cbn. tauto.
    + intros g h H K. rewrite <- K. symmetry. apply anti_on. exact H.
    + auto.
    + apply mul_on. intros q H. now apply obs_off.
  - destruct st; try apply Id; apply mul_on; intros q H; now apply at_off.
  - destruct (clients i).
    + eapply on_only_ext; [|apply (filter_on [y] (fun _ => True) (fun g => g y = (false, false)) (fun g g' => peq g' g))]; [intros; cbn; tauto|auto| |apply Id].
      intros g h H K. rewrite <- H by now left. exact K.
    + apply mul_on. intros q H. now apply at_off.
  - destruct o; try apply Id.
    + apply map_on.
      * intros g q H. unfold conj_h. now rewrite (neq_in _ _ _ H).
      * intros g h q H I. unfold conj_h. now rewrite (H q I).
    + apply map_on.
      * intros g q H. unfold conj_s. now rewrite (neq_in _ _ _ H).
      * intros g h q H I. unfold conj_s. now rewrite (H q I).
  - apply map_on.
    + intros g q H. unfold conj_cnot. rewrite (neq_in _ _ _ H). rewrite (neq_in q tt []); [reflexivity|]. cbn in *. tauto.
    + intros g h q H I. unfold conj_cnot. rewrite (H q I), (H cc), (H tt) by (cbn; auto). reflexivity.
Qed.
Lemma exchange_one : forall P Q T U G, on_only P T -> on_only Q U -> (forall p, In p P -> ~ In p Q) -> forall g, through T (through U G) g -> through U (through T G) g.
Proof.
  intros P Q T U G [T1 T2] [U1 U2] D k (m & (g & Hg & Hu) & Ht).
  set (m' := fun q => if in_dec N.eq_dec q P then k q else g q). exists m'. split.
  - exists g. split; [exact Hg|]. apply (T2 m k); [exact Ht| | |].
    + intros q I. apply (U1 _ _ Hu). auto.
    + intros q I. unfold m'. now destruct (in_dec N.eq_dec q P).
    + intros q I. unfold m'. now destruct (in_dec N.eq_dec q P).
  - apply (U2 g m); [exact Hu| | |].
    + intros q I. unfold m'. destruct (in_dec N.eq_dec q P) as [J|J]; [now apply D in J|reflexivity].
    + intros q I. symmetry. apply (T1 _ _ Ht). intros J. now apply D in J.
    + intros q I. unfold m'. destruct (in_dec N.eq_dec q P) as [J|J]; [reflexivity|]. rewrite (T1 _ _ Ht q J). exact (U1 _ _ Hu q I).
Qed.

(** ** States stay states *)
Lemma state_discard a G : state G -> state (discard a G).
Proof.
  intros (O & M & X). split; [split; [exact O|reflexivity]|]. split.
  - intros f g (Hf & Zf) (Hg & Zg). split; [auto|]. unfold pmul. now rewrite Zf, Zg.
  - intros f g E (Hf & Zf). split; [eapply X; eauto|]. now rewrite <- E.
Qed.
Lemma state_image (F : pstr -> pstr) G : (forall q, F pone q = (false, false)) -> (forall f g, peq (F (pmul f g)) (pmul (F f) (F g))) -> state G -> state (image F G).
Proof.
  intros F1 F2 (O & M & X). split; [|split; [|apply ext_image]].
  - exists pone. split; [exact O|]. intros q. now rewrite F1.
  - intros f g (f1 & H1 & E1) (f2 & H2 & E2). exists (pmul f1 f2). split; [auto|]. eapply peq_trans; [apply pmul_congr2; eassumption|]. apply peq_sym, F2.
Qed.
Ltac bits_of := cbn; repeat match goal with |- context[?g ?q] => is_var g; match type of (g q) with (bool * bool)%type => destruct (g q) as [[] []] end end; reflexivity.
Lemma state_act : forall i G G', state G -> act i G = Some G' -> state G'.
Proof.
  intros i G G' S H. unfold act in H. destruct (op i) as [| | |a st pl| | |y nr cl|t o d|q| |cc tt s1 s2 r1 r2 r3 r4|]; try discriminate; try (injection H as <-; exact S).
  - injection H as <-. now apply state_discard, state_measure.
  - injection H as <-. now apply state_measure.
  - destruct st; try discriminate; injection H as <-; now apply state_prepare.
  - destruct (clients i); injection H as <-; [now apply state_discard|now apply state_prepare].
  - destruct o; try discriminate; injection H as <-; try exact S; [now apply state_h|].
    apply state_image; [| |exact S]; [intros q|intros f g q]; unfold conj_s, pmul, pmul1; destruct (N.eqb q t); bits_of.
  - injection H as <-. apply state_image; [| |exact S]; [intros q|intros f g q]; unfold conj_cnot, pmul, pmul1; destruct (N.eqb q cc); try bits_of; destruct (N.eqb q tt); bits_of.
Qed.
Lemma unused_act : forall i a G G', state G -> ~ In a (support i) -> unused a G -> act i G = Some G' -> unused a G'.
Proof.
  intros i a G G' S I U H g' Hg. apply (act_through i G G' (state_ext _ S) H) in Hg. destruct Hg as (g & Hg & R). rewrite (proj1 (rel_on i) _ _ R a I). now apply U.
Qed.
Lemma state_run : forall l G G', state G -> run l G = Some G' -> state G'.
Proof.
  induction l as [|i l IH]; intros G G' S H; [injection H as <-; exact S|]. cbn in H. destruct (act i G) as [G1|] eqn:E; [|discriminate]. eapply IH; [|exact H]. eapply state_act; eauto.
Qed.
Lemma unused_run : forall l a G G', state G -> Forall (fun i => ~ In a (support i)) l -> unused a G -> run l G = Some G' -> unused a G'.
Proof.
  induction l as [|i l IH]; intros a G G' S F U H; [injection H as <-; exact U|]. cbn in H. destruct (act i G) as [G1|] eqn:E; [|discriminate]. inversion F; subst.
  apply (IH a G1 G'); auto; [eapply state_act; eauto|eapply unused_act; eauto].
Qed.

(** ** Stabiliser operations are lawful *)
Definition alike (d d' : option gset) : Prop := match d, d' with Some G, Some H => state G /\ same G H | None, None => True | _, _ => False end.
Definition means (i : instr) (d : option gset) : option gset := match d with Some G => act i G | None => None end.
Lemma means_run : forall l G, effect_of means l (Some G) = run l G.
Proof.
  assert (N : forall l, effect_of means l None = None) by (induction l as [|i l IH]; [reflexivity|exact IH]).
  induction l as [|i l IH]; intros G; [reflexivity|]. change (effect_of means (i :: l) (Some G)) with (effect_of means l (act i G)). cbn [run]. destruct (act i G); [apply IH|apply N].
Qed.
Lemma act_none : forall i G H, act i G = None -> act i H = None.
Proof.
  intros i G H E. unfold act in *. destruct (op i); try discriminate; try reflexivity.
  - match goal with |- match ?s with _ => _ end = None => destruct s end; congruence.
  - destruct (clients i); discriminate.
  - match goal with |- match ?s with _ => _ end = None => destruct s end; congruence.
Qed.
Theorem act_lawful : lawful alike means.
Proof.
  split.
  - intros [G|] [H|] A; cbn in *; try contradiction; auto. destruct A as [S E]. split; [eapply state_same; eauto|now apply same_sym].
  - intros [G|] [H|] [K|] A B; cbn in *; try contradiction; auto. destruct A as [S E], B as [_ E']. split; [exact S|eapply same_trans; eauto].
  - intros x [G|] [H|] A; cbn in *; try contradiction; auto. destruct A as [S E]. pose proof (act_same x _ _ E) as X. unfold alike. destruct (act x G) eqn:Ex, (act x H); cbn in X; try contradiction; auto.
    split; [eapply state_act; eauto|exact X].
  - intros x y [G|] S D; [|exact I]. destruct S as [S _]. cbn [means]. destruct (act y G) as [Gy|] eqn:Ey.
    + destruct (act x G) as [Gx|] eqn:Ex; cbn [means].
      * destruct (act x Gy) as [Gyx|] eqn:Eyx; [|rewrite (act_none x Gy G Eyx) in Ex; discriminate].
        destruct (act y Gx) as [Gxy|] eqn:Exy; [|rewrite (act_none y Gx G Exy) in Ey; discriminate].
        cbn [alike]. pose proof (state_act _ _ _ S Ey) as Sy. pose proof (state_act _ _ _ S Ex) as Sx. split; [exact (state_act _ _ _ Sy Eyx)|].
        assert (T : forall T A B, same A B -> same (through T A) (through T B)).
        { intros T A B E g. split; intros (f & Hf & R); exists f; (split; [now apply E|exact R]). }
        assert (Dx : forall p, In p (support x) -> ~ In p (support y)) by (intros p H1 H2; apply (D p); now apply support_works).
        intros g. rewrite (act_through _ _ _ (state_ext _ Sy) Eyx g), (act_through _ _ _ (state_ext _ Sx) Exy g).
        rewrite (T (rel x) _ _ (act_through _ _ _ (state_ext _ S) Ey) g), (T (rel y) _ _ (act_through _ _ _ (state_ext _ S) Ex) g).
        split; eapply exchange_one; try apply rel_on; auto. intros p H1 H2. now apply (Dx p).
      * rewrite (act_none x G Gy Ex). exact I.
    + cbn [means]. destruct (act x G) as [Gx|] eqn:Ex; [|exact I]. cbn [means]. rewrite (act_none y G Gx Ey). exact I.
Qed.

(** ** Passes do not change what a program does *)
Definition fresh (c c' : N) (G : gset) : Prop := forall a, (c <= a < c')%N -> unused a G.
Definition below (c : N) (l : list instr) : Prop := Forall (fun i => Forall (fun a => (a < c)%N) (support i)) l.
Definition keeps (c c' : N) (l o : list instr) : Prop := forall G, state G -> fresh c c' G -> same_opt (run o G) (run l G).
Lemma same_opt_trans : forall a b c, same_opt a b -> same_opt b c -> same_opt a c.
Proof. intros [a|] [b|] [c|] H K; cbn in *; try contradiction; auto. eapply same_trans; eauto. Qed.
Lemma same_opt_refl : forall a, same_opt a a.
Proof. intros [a|]; [apply same_refl|exact I]. Qed.
Lemma fresh_same : forall c c' G H, fresh c c' G -> same G H -> fresh c c' H.
Proof. intros c c' G H F E a La. eapply unused_same; eauto. Qed.
Lemma below_off : forall c l a, below c l -> (c <= a)%N -> Forall (fun i => ~ In a (support i)) l.
Proof. intros c l a B La. eapply Forall_impl; [|exact B]. cbn. intros i F I. rewrite Forall_forall in F. apply F in I. lia. Qed.
Lemma fresh_run : forall l c k c' G G', state G -> below k l -> (k <= c)%N -> fresh c c' G -> run l G = Some G' -> fresh c c' G'.
Proof. intros l c k c' G G' S B L F R a La. apply (unused_run l a G G' S); [eapply below_off; eauto; lia|now apply F|exact R]. Qed.
Lemma below_le : forall c c' l, (c <= c')%N -> below c l -> below c' l.
Proof. intros c c' l L B. eapply Forall_impl; [|exact B]. cbn. intros i. apply Forall_impl. intros a. lia. Qed.
Lemma below_app : forall c a b, below c (a ++ b) <-> below c a /\ below c b.
Proof. intros. apply Forall_app. Qed.
Lemma keeps_app : forall c c1 c2 l1 l2 o1 o2, (c <= c1)%N -> (c1 <= c2)%N -> below c l1 -> keeps c c1 l1 o1 -> keeps c1 c2 l2 o2 -> keeps c c2 (l1 ++ l2) (o1 ++ o2).
Proof.
  intros c c1 c2 l1 l2 o1 o2 L1 L2 B K1 K2 G S F. rewrite !run_app.
  assert (F1 : fresh c c1 G) by (intros a La; apply F; lia). assert (F2 : fresh c1 c2 G) by (intros a La; apply F; lia).
  specialize (K1 G S F1). destruct (run l1 G) as [H1|] eqn:E1, (run o1 G) as [H2|] eqn:E2; cbn in K1; try contradiction; [|exact I].
  pose proof (state_run _ _ _ S E1) as S1. pose proof (fresh_run l1 c1 c c2 G H1 S B L1 F2 E1) as F1'.
  eapply same_opt_trans; [apply run_same; exact K1|]. now apply K2.
Qed.
Definition good {M} (s : N) (e : expander M) : Prop := (forall m c i l m' c', e m c i = Ok (l, m', c') -> (c <= c')%N) /\
  forall m c i l m' c', (s <= c)%N -> (c' <= 2 ^ 32)%N -> Forall (fun a => (a < c)%N) (support i) -> e m c i = Ok (l, m', c') -> below c' l /\ keeps c c' [i] l.
Lemma expand_good : forall M s (e : expander M), good s e -> forall l m c o m' c', (s <= c)%N -> (c' <= 2 ^ 32)%N -> below c l -> expand_all e m c l = Ok (o, m', c') ->
  below c' o /\ keeps c c' l o.
Proof.
  intros M s e [Mo Ge]. induction l as [|i l IH]; intros m c o m' c' Ls Lw B H; cbn [expand_all] in H.
  - injection H as <- <- <-. split; [constructor|]. intros G S F. apply same_refl.
  - inversion B as [|? ? Bi Bl]; subst. apply bind_ok in H. destruct H as ([[o1 m1] c1] & He & H). destruct o1 as [|j o1]; [discriminate|].
    apply bind_ok in H. destruct H as ([[o2 m2] c2] & Hr & H). apply ok3_inj in H. destruct H as (<- & <- & <-).
    pose proof (Mo _ _ _ _ _ _ He) as L1. pose proof (expand_mono e Mo _ _ _ _ _ _ Hr) as L2.
    destruct (Ge m c i (j :: o1) m1 c1 Ls ltac:(lia) Bi He) as (B1 & K1). destruct (IH m1 c1 o2 m2 c2 ltac:(lia) Lw (below_le _ _ _ L1 Bl) Hr) as (B2 & K2).
    change (j :: o1 ++ o2) with ((j :: o1) ++ o2). split; [apply below_app; split; [eapply below_le; eauto|exact B2]|].
    change (i :: l) with ([i] ++ l). eapply keeps_app; eauto. constructor; [exact Bi|constructor].
Qed.
Lemma comp_good : forall M1 M2 s (e1 : expander M1) (e2 : expander M2), good s e1 -> good s e2 -> good s (comp e1 e2).
Proof.
  intros M1 M2 s e1 e2 G1 G2. split.
  - intros [m1 m2] c i l m' c' H. unfold comp in H. cbn [fst snd] in H. apply bind_ok in H. destruct H as ([[l1 m1'] c1] & E1 & H). apply bind_ok in H. destruct H as ([[o m2'] c2] & E2 & H).
    destruct l1 as [|j l1]; [discriminate|]. apply ok3_inj in H. destruct H as (_ & _ & <-). apply (proj1 G1) in E1. apply (expand_mono e2 (proj1 G2)) in E2. lia.
  - intros [m1 m2] c i l m' c' Ls Lw B H. unfold comp in H. cbn [fst snd] in H. apply bind_ok in H. destruct H as ([[l1 m1'] c1] & E1 & H). apply bind_ok in H. destruct H as ([[o m2'] c2] & E2 & H).
    destruct l1 as [|j l1]; [discriminate|]. apply ok3_inj in H. destruct H as (<- & _ & <-). pose proof (proj1 G1 _ _ _ _ _ _ E1) as L1. pose proof (expand_mono e2 (proj1 G2) _ _ _ _ _ _ E2) as L2.
    destruct (proj2 G1 m1 c i (j :: l1) m1' c1 Ls ltac:(lia) B E1) as (B1 & K1). destruct (expand_good _ s e2 G2 (j :: l1) m2 c1 o m2' c2 ltac:(lia) Lw B1 E2) as (B2 & K2). split; [exact B2|].
    intros G S F. eapply same_opt_trans; [apply K2; [exact S|intros a La; apply F; lia]|]. apply K1; [exact S|intros a La; apply F; lia].
Qed.

(** ** The passes *)
Definition turning (i : instr) : Prop := exists q, i = instr_of (Rotate q).
Lemma turning_run : forall l r G, Forall turning l -> run (l ++ r) G = run r G.
Proof. intros l r G H. induction H as [|i l (q & ->) H IH]; [reflexivity|exact IH]. Qed.
Lemma turning_below : forall c l, Forall turning l -> below c l.
Proof. intros c l H. eapply Forall_impl; [|exact H]. intros i (q & ->). constructor. Qed.
Lemma expose_turning : forall m q p l m', expose m q p = (l, m') -> Forall turning l.
Proof. intros m q p l m' H. unfold expose in H. destruct (alookup m q) as [e|]; [destruct (is_exposed e p)|]; injection H as <- <-; repeat constructor. now exists q. Qed.
Lemma keep_turning : forall c c' l i, Forall turning l -> Forall (fun a => (a < c')%N) (support i) -> below c' (l ++ [i]) /\ keeps c c' [i] (l ++ [i]).
Proof.
  intros c c' l i T B. split; [apply below_app; split; [now apply turning_below|constructor; [exact B|constructor]]|]. intros G S F. rewrite turning_run by exact T. apply same_opt_refl.
Qed.
Lemma fold_turning : forall obs ps l m r m', Forall turning l ->
  foldM (fun acc q => let '(l, m) := acc in match alookup m q with None => Ok (l, m) | Some _ => match alookup obs q with None => Throw OutOfRange | Some p => let '(l', m') := expose m q p in Ok (l ++ l', m') end end) ps (l, m) = Ok (r, m') ->
  Forall turning r.
Proof.
  intros obs. induction ps as [|q ps IH]; intros l m r m' T H; cbn [foldM] in H; [injection H as <- <-; exact T|].
  destruct (alookup m q); [|cbn [bind] in H; eauto]. destruct (alookup obs q) as [p|]; [|discriminate]. destruct (expose m q p) as [l' m1] eqn:E. cbn [bind] in H.
  apply (IH (l ++ l') m1 r m'); [apply Forall_app; split; [exact T|eapply expose_turning; eauto]|exact H].
Qed.
Lemma boundary_good : forall s, good s boundary_expand.
Proof.
  intros s. split; [intros m c i l m' c' H; apply boundary_counter in H; lia|]. intros m c i l m' c' _ _ B H. pose proof (boundary_counter _ _ _ _ _ _ H) as ->.
  assert (X : exists r, l = r ++ [i] /\ Forall turning r).
  { unfold boundary_expand in H. destruct (op i) as [| |obs neg loc| | | | |t o d|q| |ctl tgt s1 s2 r1 r2 r3 r4|];
      try (apply ok3_inj in H; destruct H as (<- & _ & _); exists []; split; [reflexivity|constructor]).
    - apply bind_ok in H. destruct H as ([lr mr] & E & H). apply ok3_inj in H. destruct H as (<- & _ & _). exists lr. split; [reflexivity|]. eapply fold_turning; [constructor|exact E].
    - destruct o; try (apply ok3_inj in H; destruct H as (<- & _ & _); exists []; split; [reflexivity|constructor]).
      + destruct (alookup m t); apply ok3_inj in H; destruct H as (<- & _ & _); exists []; (split; [reflexivity|constructor]).
      + destruct (expose m t PZ) as [l1 m1] eqn:E1. apply ok3_inj in H. destruct H as (<- & _ & _). exists l1. split; [reflexivity|eapply expose_turning; eauto].
    - destruct (expose m ctl PZ) as [l1 m1] eqn:E1. destruct (expose m1 tgt PX) as [l2 m2] eqn:E2. apply ok3_inj in H. destruct H as (<- & _ & _).
      exists (l1 ++ l2). rewrite app_assoc. split; [reflexivity|]. apply Forall_app. split; eapply expose_turning; eauto. }
  destruct X as (r & -> & T). now apply keep_turning.
Qed.
Lemma keep_self : forall c c' i, (c <= c')%N -> Forall (fun a => (a < c)%N) (support i) -> below c' [i] /\ keeps c c' [i] [i].
Proof. intros c c' i L B. apply (keep_turning c c' [] i); [constructor|]. eapply Forall_impl; [|exact B]. cbn. intros a. lia. Qed.
Lemma keep_h : forall c i t, Forall (fun a => (a < c)%N) (support i) -> below c [i; instr_of (Rotate t)] /\ keeps c c [i] [i; instr_of (Rotate t)].
Proof.
  intros c i t B. split; [constructor; [exact B|constructor; [constructor|constructor]]|]. intros G S F. cbn [run act instr_of op]. destruct (act i G); apply same_opt_refl.
Qed.
Lemma keep_s : forall c c' i t d l, op i = SingleOp t SqS d -> (c < c')%N -> acts_as [c] l (image (conj_s t)) -> keeps c c' [i] l.
Proof.
  intros c c' i t d l E L A G S F. destruct (A G S) as (G' & R & E'); [intros a [<-|[]]; apply F; lia|]. rewrite R. cbn [run]. unfold act. rewrite E. exact E'.
Qed.
Lemma teleport_good : forall s core ar, Forall (fun q => (q < s)%N) core -> good s (teleport_expand core ar).
Proof.
  intros s core ar Hc. split; [intros m c i l m' c' H; eapply teleport_mono; eauto|]. intros [] c i l m' c' Ls Lw B H. pose proof (teleport_mono _ _ _ _ _ _ _ _ H) as Lc.
  destruct (S_on_dec core i) as [(t & d & Eo & It)|NS].
  - pose proof (proj1 (memN_In t core)) as _. assert (Ht : (t < c)%N) by (rewrite Forall_forall in Hc; specialize (Hc t It); lia). destruct m'.
    assert (A : alone (teleport_expand core ar) i c l c').
    { apply alone_iff; [apply teleport_nonempty| |exact H]. intros [] c0 j. destruct (teleport_no_fail core ar tt c0 j) as (o & kk & ->). discriminate. }
    assert (El : l = [mkI (YRequest (c mod 2 ^ 32) t None) SIZE_MAX [t]; mpm (obs2 (c mod 2 ^ 32) PZ t PZ); instr_of (Measure (c mod 2 ^ 32) PX false); sq t SqZ] /\ c' = (c + 1)%N).
    { unfold teleport_expand, new_id in H. rewrite Eo, (proj2 (memN_In t core) It) in H. apply ok3_inj in H. destruct H as (<- & _ & <-). auto. }
    destruct El as [El ->]. split.
    + rewrite El. rewrite N.mod_small by lia. unfold below. apply Forall_forall. intros j Hj. apply Forall_forall. intros x Hx.
      destruct Hj as [<-|[<-|[<-|[<-|[]]]]]; cbn [support op instr_of mpm sq] in Hx; [|apply obs2_fst in Hx| |]; cbn in Hx; lia.
    + eapply keep_s; [exact Eo|lia|]. eapply C16_teleported_s_partial; eauto. lia.
  - destruct ar; [destruct (H_on_dec core i) as [(t & d & Eo & It)|NH]|].
    + rewrite (teleport_H core tt c i t d Eo It) in H. apply ok3_inj in H. destruct H as (<- & _ & <-). now apply keep_h.
    + rewrite (teleport_other core true tt c i NS (fun _ => NH)) in H. apply ok3_inj in H. destruct H as (<- & _ & <-). now apply keep_self.
    + rewrite (teleport_other core false tt c i NS) in H by discriminate. apply ok3_inj in H. destruct H as (<- & _ & <-). now apply keep_self.
Qed.
Lemma catalytic_good : forall s core ar, Forall (fun q => (q < s)%N) core -> good s (catalytic_expand true core ar).
Proof.
  intros s core ar Hc. split; [intros m c i l m' c' H; eapply catalytic_mono; eauto|]. intros [] c i l m' c' Ls Lw B H. pose proof (catalytic_mono _ _ _ _ _ _ _ _ _ H) as Lc.
  destruct (S_on_dec core i) as [(t & d & Eo & It)|NS].
  - assert (Ht : (t < c)%N) by (rewrite Forall_forall in Hc; specialize (Hc t It); lia). destruct m'.
    assert (A : alone (catalytic_expand true core ar) i c l c').
    { apply alone_iff; [apply catalytic_nonempty| |exact H]. intros [] c0 j. destruct (catalytic_no_fail true core ar tt c0 j) as (o & kk & ->). discriminate. }
    assert (Hc' : (c < c')%N /\ below c' l).
    { unfold catalytic_expand, new_id in H. rewrite Eo, (proj2 (memN_In t core) It) in H. cbn [make_cnot new_id bind] in H. apply ok3_inj in H. destruct H as (<- & _ & <-). split; [lia|].
      rewrite N.mod_small by lia. unfold below. apply Forall_forall. intros j Hj. apply Forall_forall. intros x Hx.
      cbn [app In] in Hj. repeat (destruct Hj as [<-|Hj]; [cbn in Hx; lia|]). contradiction. }
    split; [tauto|]. eapply keep_s; [exact Eo|tauto|]. destruct (C16_catalytic_s_partial core ar i c l c' t d A Eo It Ht ltac:(lia)) as (_ & _ & _ & _ & _ & _ & X). exact X.
  - destruct ar; [destruct (H_on_dec core i) as [(t & d & Eo & It)|NH]|].
    + rewrite (catalytic_H true core tt c i t d Eo It) in H. apply ok3_inj in H. destruct H as (<- & _ & <-). now apply keep_h.
    + rewrite (catalytic_other true core true tt c i NS (fun _ => NH)) in H. apply ok3_inj in H. destruct H as (<- & _ & <-). now apply keep_self.
    + rewrite (catalytic_other true core false tt c i NS) in H by discriminate. apply ok3_inj in H. destruct H as (<- & _ & <-). now apply keep_self.
Qed.

(** ** Gates *)
Lemma image_image : forall F F' G, (forall f h, peq f h -> peq (F f) (F h)) -> same (image F (image F' G)) (image (fun g => F (F' g)) G).
Proof.
  intros F F' G X g. split.
  - intros (f & (h & Hh & E) & E'). exists h. split; [exact Hh|]. eapply peq_trans; [exact E'|]. now apply X.
  - intros (h & Hh & E). exists (F' h). split; [exists h; split; [exact Hh|apply peq_refl]|exact E].
Qed.
Lemma image_ext : forall F F' G, (forall g, peq (F g) (F' g)) -> same (image F G) (image F' G).
Proof. intros F F' G X g. split; intros (h & Hh & E); exists h; (split; [exact Hh|]); eapply peq_trans; try exact E; [apply X|apply peq_sym, X]. Qed.
Lemma flip_cnot : forall c t g, c <> t -> peq (conj_h t (conj_cnot c t (conj_h t g))) (conj_flip c t g).
Proof.
  intros c t g D q. unfold conj_h, conj_cnot, conj_flip. rewrite ?N.eqb_refl. rewrite (proj2 (N.eqb_neq c t) D).
  destruct (N.eqb_spec q t) as [->|E].
  - rewrite (proj2 (N.eqb_neq t c)) by congruence. cbn. now destruct (g t) as [[] []], (g c) as [[] []].
  - destruct (N.eqb_spec q c) as [->|E']; reflexivity.
Qed.
Lemma lowers_one : forall cfg g c l c', lower_gate cfg c g = Ok (l, c') -> lowers cfg [g] c (Ok (l, c')).
Proof. intros cfg g c l c' H. apply lowers_iff. cbn [lower_all]. rewrite H. cbn [bind]. now rewrite app_nil_r. Qed.
Lemma support_ids : forall i a, In a (support i) -> In a (ids_of i).
Proof. intros i a H. unfold ids_of. apply in_or_app. right. unfold support in H. destruct (op i); cbn in *; try tauto. destruct place; cbn; tauto. Qed.
Lemma lower_good : forall cfg c g l c', clifford g -> Forall (fun q => (q < c)%N) (gate_qubits g) -> (c' <= 2 ^ 32)%N -> lower_gate cfg c g = Ok (l, c') ->
  (c <= c')%N /\ below c' l /\ forall G, state G -> fresh c c' G -> same_opt (run l G) (Some (really cfg g G)).
Proof.
  intros cfg c g l c' Cl Q Lw H. destruct (lower_gate_spec cfg c g l c' (fun x => (x < c')%N) H) as (Lc & _ & Ov). split; [exact Lc|]. split.
  - assert (O : over (fun x => (x < c')%N) l).
    { apply Ov; [eapply Forall_impl; [|exact Q]; cbn; intros a; lia|]. intros x Hx. apply id_range_small in Hx; lia. }
    eapply Forall_impl; [|exact O]. cbn. intros i F. rewrite Forall_forall in *. intros a Ha. apply F. now apply support_ids.
  - pose proof (lowers_one _ _ _ _ _ H) as Lo. intros G S F. destruct g as [t b|t f|ctl tg ct pl|r t]; cbn [clifford] in Cl; try contradiction.
    + destruct Cl as [C1 C2]. destruct b; try congruence; cbn in H; injection H as <- <-; apply same_refl.
    + destruct Cl as [C1 C2]. cbn [lower_gate] in H. cbn [really does]. rewrite C1 in H. destruct C2 as [C2|C2]; rewrite C2 in *; cbn in H; injection H as <- <-; apply same_refl.
    + destruct tg as [t b|]; [|contradiction]. destruct Cl as [C1 C2]. cbn [gate_qubits] in Q. inversion Q as [|? ? Q1 Q']; subst. inversion Q' as [|? ? Q2 _]; subst.
      assert (Cs : forall m cm, make_cnot (cfg_local cfg) c ctl t ct pl (cfg_corr cfg) = Ok (m, cm) -> if bell_based cfg ct then cfg_corr cfg = CorrNever /\ (cfg_local cfg = true \/ ct = BellBased) else cfg_local cfg = false /\ ct <> BellBased /\ cm = (c + 1)%N).
      { intros m cm E. unfold make_cnot, new_id in E. unfold bell_based. destruct ct; destruct (cfg_local cfg) eqn:El; destruct (cfg_corr cfg); try discriminate; auto; injection E as _ <-; repeat split; congruence. }
      destruct C1 as [-> | ->]; cbn [really does].
      * specialize (Cs l c' H). destruct (bell_based cfg ct).
        -- destruct (C12_bell_cnot_partial cfg ctl t ct pl c l c' (proj2 Cs) (proj1 Cs) Lo G S) as (G' & R & E); [intros a []|]. rewrite R. exact E.
        -- destruct Cs as (Cl & Cb & ->). destruct (C12_measured_cnot_refuted cfg ctl t ct pl c l (c + 1)%N Cl Cb C2 Q1 Q2 ltac:(lia) Lo) as (A & _).
           destruct (A G S) as (G' & R & E); [intros a [<-|[]]; apply F; lia|]. rewrite R. exact E.
      * destruct (lowers_cz cfg ctl t ct pl c l c' Lo) as (m & El & Em). specialize (Cs m c' Em). destruct (bell_based cfg ct) eqn:Eb.
        -- destruct Cs as (Cc & Cb). rewrite Cc in Em. pose proof (bell_run (cfg_local cfg) c ctl t ct pl m c' Cb Em) as A. rewrite El. cbn [run act sq instr_of op].
           destruct (A (image (conj_h t) G) (state_h t G S)) as (G1 & R1 & E1); [intros a []|].
           destruct (run_then m _ _ _ [sq t SqH] _ R1 E1 eq_refl) as (G2 & R2 & E2). rewrite R2. cbn [same_opt]. eapply same_trans; [exact E2|].
           eapply same_trans; [apply same_image, image_image, conj_cnot_congr|]. eapply same_trans; [apply image_image, conj_h_congr|]. apply image_ext. intros g. now apply flip_cnot.
        -- destruct Cs as (Cl & Cb & ->). destruct (C12_measured_cz_refuted cfg ctl t ct pl c l (c + 1)%N Cl Cb C2 Q1 Q2 ltac:(lia) Lo) as (A & _).
           destruct (A G S) as (G' & R & E); [intros a [<-|[]]; apply F; lia|]. rewrite R. exact E.
Qed.

(** ** Circuits *)
Lemma really_same : forall cfg g G H, same G H -> same (really cfg g G) (really cfg g H).
Proof.
  intros cfg g G H E. assert (D : same (does g G) (does g H)).
  { unfold does. destruct g as [t b|t f|ctl tg ct pl|r t]; try exact E; [destruct b|destruct (fr_den f =? 2)%Z|destruct tg as [t b|]; [destruct b|]]; auto using same_image. }
  unfold really. destruct g as [t b|t f|ctl tg ct pl|r t]; try exact D. destruct tg as [t b|]; [|exact D]. destruct b; try exact D; destruct (bell_based cfg ct); auto using same_measure.
Qed.
Lemma really_all_same : forall cfg gs G H, same G H -> same (really_all cfg gs G) (really_all cfg gs H).
Proof. intros cfg. induction gs as [|g gs IH]; intros G H E; [exact E|]. apply IH. now apply really_same. Qed.
Lemma gates_good : forall M s (e : expander M) cfg, good s e -> forall gs m c o m' c', (s <= c)%N -> (c' <= 2 ^ 32)%N -> Forall clifford gs -> Forall (fun g => Forall (fun q => (q < s)%N) (gate_qubits g)) gs ->
  gates_out e cfg m c gs = Ok (o, m', c') -> forall G, state G -> fresh c c' G -> same_opt (run o G) (Some (really_all cfg gs G)).
Proof.
  intros M s e cfg Ge. induction gs as [|g gs IH]; intros m c o m' c' Ls Lw Cl Q H G S F; cbn [gates_out] in H.
  - apply ok3_inj in H. destruct H as (<- & _ & _). apply same_refl.
  - inversion Cl as [|? ? Cg Cl']; subst. inversion Q as [|? ? Qg Q']; subst. apply bind_ok in H. destruct H as ([l c1] & Hg & H). apply bind_ok in H. destruct H as ([[o1 m1] c2] & He & H).
    apply bind_ok in H. destruct H as ([[o2 m2] c3] & Hr & H). apply ok3_inj in H. destruct H as (<- & <- & <-).
    pose proof (expand_mono e (proj1 Ge) _ _ _ _ _ _ He) as L1. pose proof (gates_mono e cfg (proj1 Ge) _ _ _ _ _ _ Hr) as L2.
    assert (Qc : Forall (fun q => (q < c)%N) (gate_qubits g)) by (eapply Forall_impl; [|exact Qg]; cbn; intros; lia).
    destruct (lower_good cfg c g l c1 Cg Qc ltac:(lia) Hg) as (L0 & B & A). destruct (expand_good _ s e Ge l m c1 o1 m1 c2 ltac:(lia) ltac:(lia) B He) as (B1 & K1).
    assert (X : same_opt (run o1 G) (Some (really cfg g G))).
    { eapply same_opt_trans; [apply K1; [exact S|intros a La; apply F; lia]|]. apply A; [exact S|intros a La; apply F; lia]. }
    rewrite run_app. destruct (run o1 G) as [G1|] eqn:R1; [|contradiction]. cbn in X.
    pose proof (state_run _ _ _ S R1) as S1.
    assert (F1 : fresh c2 c3 G1) by (eapply (fresh_run o1 c2 c2 c3 G G1 S B1); [lia|intros a La; apply F; lia|exact R1]).
    eapply same_opt_trans; [exact (IH m1 c2 o2 m2 c3 ltac:(lia) Lw Cl' Q' Hr G1 S1 F1)|]. cbn [same_opt]. exact (really_all_same cfg gs G1 (really cfg g G) X).
Qed.
Lemma id_good : forall s, good s (fun (m : unit) c i => Ok ([i], m, c)).
Proof.
  intros s. split; [intros m c i l m' c' H; apply ok3_inj in H; lia|]. intros m c i l m' c' _ _ B H. apply ok3_inj in H. destruct H as (<- & _ & <-). apply keep_self; [lia|exact B].
Qed.
Lemma lower_all_id : forall cfg gs c o c', lower_all cfg c gs = Ok (o, c') -> gates_out (fun (m : unit) c i => Ok ([i], m, c)) cfg tt c gs = Ok (o, tt, c').
Proof.
  assert (X : forall l c, expand_all (fun (m : unit) c i => Ok ([i], m, c)) tt c l = Ok (l, tt, c)) by (induction l as [|i l IH]; intros c; [reflexivity|]; cbn [expand_all bind]; now rewrite IH).
  intros cfg. induction gs as [|g gs IH]; intros c o c' H; cbn [lower_all gates_out] in *; [now injection H as <- <-|].
  apply bind_ok in H. destruct H as ([l c1] & E & H). apply bind_ok in H. destruct H as ([o2 c2] & E2 & H). injection H as <- <-.
  rewrite E. cbn [bind]. rewrite X. cbn [bind]. now rewrite (IH _ _ _ E2).
Qed.
Lemma really_bell : forall cfg gs G, cfg_local cfg = true -> really_all cfg gs G = circuit gs G.
Proof.
  intros cfg gs. induction gs as [|g gs IH]; intros G H; [reflexivity|]. unfold really_all, circuit in *. cbn [fold_left]. rewrite IH by exact H. f_equal.
  destruct g as [t b|t f|ctl tg ct pl|r t]; try reflexivity. destruct tg as [t b|]; [|reflexivity]. cbn [really]. destruct b; try reflexivity; unfold bell_based; rewrite H; destruct ct; reflexivity.
Qed.
Lemma acts_from : forall c c' out F, (c' <= 2 ^ 32)%N -> (forall G, state G -> fresh c c' G -> same_opt (run out G) (Some (F G))) -> acts_as (id_range c c') out F.
Proof.
  intros c c' out F L H G S U. specialize (H G S). assert (X : fresh c c' G) by (intros a La; apply U, id_range_small; assumption). specialize (H X).
  destruct (run out G) as [G'|]; [|contradiction]. exists G'. split; [reflexivity|exact H].
Qed.
(** Read through one pass, or through two *)
Lemma inject_acts : forall M s (e : expander M) cfg gs m out c', good s e -> (c' <= 2 ^ 32)%N -> Forall clifford gs -> Forall (fun g => Forall (fun q => (q < s)%N) (gate_qubits g)) gs ->
  reads (inject_next e (lower_next cfg)) (mkIS [] m (mkLS [] gs)) s (Ok (out, c')) -> acts_as (id_range s c') out (really_all cfg gs).
Proof.
  intros M s e cfg gs m out c' Ge Lw Cl Q [_ [f H]]. apply inject_lower_ok in H. destruct H as (o & m1 & c1 & o2 & m2 & E1 & E2 & ->). cbn in E1. apply ok3_inj in E1. destruct E1 as (<- & <- & <-).
  cbn [app]. apply acts_from; [exact Lw|]. exact (gates_good M s e cfg Ge gs m s o2 m2 c' (N.le_refl s) Lw Cl Q E2).
Qed.
Lemma inject2_acts : forall M1 M2 s (e1 : expander M1) (e2 : expander M2) cfg gs m1 m2 out c', good s e1 -> good s e2 -> (c' <= 2 ^ 32)%N -> Forall clifford gs ->
  Forall (fun g => Forall (fun q => (q < s)%N) (gate_qubits g)) gs ->
  reads (inject_next e2 (inject_next e1 (lower_next cfg))) (mkIS [] m2 (mkIS [] m1 (mkLS [] gs))) s (Ok (out, c')) -> acts_as (id_range s c') out (really_all cfg gs).
Proof.
  intros M1 M2 s e1 e2 cfg gs m1 m2 out c' G1 G2 Lw Cl Q [_ [f H]]. apply fuse in H. destruct H as (o & m2' & c1 & f' & E & H). cbn in E. apply ok3_inj in E. destruct E as (<- & <- & <-). cbn [app] in H.
  eapply (inject_acts _ s (comp e1 e2)); [now apply comp_good|exact Lw|exact Cl|exact Q|]. split; [discriminate|]. exists f'. exact H.
Qed.
Lemma plain_acts : forall s cfg gs out c', (c' <= 2 ^ 32)%N -> Forall clifford gs -> Forall (fun g => Forall (fun q => (q < s)%N) (gate_qubits g)) gs ->
  lowers cfg gs s (Ok (out, c')) -> acts_as (id_range s c') out (really_all cfg gs).
Proof.
  intros s cfg gs out c' Lw Cl Q H. apply lowers_iff, lower_all_id in H. apply acts_from; [exact Lw|]. exact (gates_good _ s _ cfg (id_good s) gs tt s out tt c' (N.le_refl s) Lw Cl Q H).
Qed.
