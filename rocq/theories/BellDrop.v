(** Steps that never join two parts of the board cannot carry out a CNOT between them;
    the first phase of a route whose second phase is not empty is such a list. *)
From Verif Require Import Base PatchesModel LayoutModel InstrModel StabSpec StabProofs StabProps.
From Verif Require Import SliceModel RouterModel ApplyModel BellSpec BellStabSpec BellStab BellChain BellLong BellStabProps BellIds BellCross.
Open Scope nat_scope.

(** ** States stay states *)
Lemma state_discard a G : state G -> state (discard a G).
Proof.
  intros (O & M & X). split; [split; auto; reflexivity|]. split.
  - intros f g [F1 F2] [G1 G2]. split; [auto|]. unfold pmul. now rewrite F2, G2.
  - intros f g E [F1 F2]. split; [eapply X; eauto|]. now rewrite <- E.
Qed.
Lemma state_swap a b G : state G -> state (image (swap a b) G).
Proof.
  intros (O & M & X). split; [|split].
  - exists pone. split; [exact O|]. intros q. unfold swap, pone. now destruct (N.eqb q a), (N.eqb q b).
  - intros f g (f1 & H1 & E1) (f2 & H2 & E2). exists (pmul f1 f2). split; [auto|]. intros q. unfold pmul at 1. rewrite E1, E2.
    unfold swap, pmul. now destruct (N.eqb q a), (N.eqb q b).
  - intros f g E (f1 & H1 & E1). exists f1. split; [exact H1|]. intros q. now rewrite <- E.
Qed.
Lemma act_state patch shows l G : state G -> state (local_act patch shows l G).
Proof.
  intros H. destruct l; unfold local_act, bell_pair, bell_measure, move, split_off, merge;
    repeat first [apply state_discard|apply state_measure|apply state_prepare|apply state_swap|exact H].
Qed.

(** ** Parts of the board *)
Section Parts.
Variables (patch : cell -> N) (shows : cell -> cell -> pauli) (A : N -> bool).
(** [g] on the patches of [A] *)
Definition part (g : pstr) : pstr := fun q => if A q then g q else i1.
Definition rest (g : pstr) : pstr := fun q => if A q then i1 else g q.
Definition apart (G : gset) : Prop := forall g, G g -> G (part g).
Lemma apart_rest G : state G -> apart G <-> forall g, G g -> G (rest g).
Proof.
  intros (O & M & X).
  assert (E1 : forall g, peq (pmul g (part g)) (rest g)) by (intros g q; unfold pmul, pmul1, part, rest, i1; destruct (A q), (g q) as [[] []]; reflexivity).
  assert (E2 : forall g, peq (pmul g (rest g)) (part g)) by (intros g q; unfold pmul, pmul1, part, rest, i1; destruct (A q), (g q) as [[] []]; reflexivity).
  split; intros H g Hg; eapply X; [apply E1|now apply M; auto|apply E2|now apply M; auto].
Qed.
Definition one_side (l : local_instr) : Prop := exists a b, A a = A b /\ ker a b (local_act patch shows l).
Lemma act_apart l G : one_side l -> state G -> apart G -> apart (local_act patch shows l G).
Proof.
  intros (a & b & E & r & K) S P. pose proof (state_ext _ S) as X. specialize (K G X).
  assert (Up : forall (h : pstr) v w q, upd (upd h a v) b w q = if N.eqb q b then w else if N.eqb q a then v else h q) by (intros; unfold upd; reflexivity).
  destruct (A a) eqn:Ea.
  - intros g Hg. apply K in Hg as (v & w & R & Hg). apply K. exists v, w. unfold part at 1 2. rewrite Ea, <- E. split; [exact R|].
    apply P in Hg. eapply X; [|exact Hg]. intros q. unfold part at 1. rewrite !Up. unfold part.
    destruct (N.eqb_spec q b) as [->|]; [now rewrite <- E|]. destruct (N.eqb_spec q a) as [->|]; [now rewrite Ea|reflexivity].
  - apply apart_rest; [now apply act_state|]. rewrite apart_rest in P by exact S. intros g Hg. apply K in Hg as (v & w & R & Hg). apply K.
    exists v, w. unfold rest at 1 2. rewrite Ea, <- E. split; [exact R|].
    apply P in Hg. eapply X; [|exact Hg]. intros q. unfold rest at 1. rewrite !Up. unfold rest.
    destruct (N.eqb_spec q b) as [->|]; [now rewrite <- E|]. destruct (N.eqb_spec q a) as [->|]; [now rewrite Ea|reflexivity].
Qed.
Lemma run_apart l : Forall one_side l -> forall G, state G -> apart G -> apart (local_run patch shows l G).
Proof. induction 1 as [|x l Hx _ IH]; intros G S P; [exact P|]. cbn [local_run]. apply IH; [now apply act_state|now apply act_apart]. Qed.

(** A CNOT turns Z on the target into Z on both; so does a joint measurement with the identity. *)
Lemma apart_no_cnot helpers l c t : Forall one_side l -> A c = true -> A t = false -> (forall x, In x helpers -> patch x <> t) ->
  ~ tiles_act_as patch shows helpers l (image (conj_cnot c t)).
Proof.
  intros F Ac At Hh T. set (G := only (at_patch t (bits PZ))). pose proof (only_state (at_patch t (bits PZ))) as S. fold G in S.
  assert (U : forall x, In x helpers -> unused (patch x) G).
  { intros x Hx g (e & E). rewrite E. unfold power, at_patch. rewrite (proj2 (N.eqb_neq _ _) (Hh x Hx)). cbn. now rewrite Bool.andb_false_r. }
  assert (P : apart G).
  { intros g (e & E). exists false. intros q. unfold part. rewrite E. unfold power, at_patch. destruct (N.eqb_spec q t) as [->|]; [rewrite At|destruct (A q)]; cbn; rewrite ?Bool.andb_false_r; reflexivity. }
  pose proof (run_apart l F G S P) as R. specialize (T G S U).
  assert (D : c <> t) by congruence.
  pose (g := at_patch t (bits PZ)). assert (Hg : image (conj_cnot c t) G (conj_cnot c t g)).
  { exists g. split; [|intros q; reflexivity]. exists true. intros q. unfold power. cbn [andb]. fold g. now destruct (g q). }
  apply T, R, T in Hg. destruct Hg as (h & (e & Eh) & E). pose proof (E c) as E1. pose proof (E t) as E2.
  unfold part, conj_cnot in E1, E2. rewrite Ac, N.eqb_refl in E1. rewrite At, N.eqb_refl, (proj2 (N.eqb_neq t c)) in E2 by congruence.
  rewrite !Eh in E1, E2. unfold g, power, at_patch in E1, E2. rewrite N.eqb_refl, (proj2 (N.eqb_neq c t)) in E1, E2 by exact D.
  cbn in E1, E2. destruct e; discriminate.
Qed.
Lemma apart_no_measure helpers l c t : Forall one_side l -> A c = true -> A t = false ->
  ~ tiles_act_as patch shows helpers l (measure [(t, PX); (c, PZ)]).
Proof.
  intros F Ac At T. set (G := only pone). pose proof (only_state pone) as S. fold G in S.
  assert (Z : forall g, G g -> peq g pone) by (intros g (e & E) q; rewrite E; unfold power, pone; now rewrite !Bool.andb_false_r).
  assert (U : forall x, In x helpers -> unused (patch x) G) by (intros x Hx g Hg; now rewrite (Z _ Hg)).
  assert (P : apart G) by (intros g Hg; exists false; intros q; unfold part; rewrite (Z _ Hg); unfold pone, power; now destruct (A q)).
  pose proof (run_apart l F G S P) as R. specialize (T G S U).
  assert (D : c <> t) by congruence.
  assert (Hg : measure [(t, PX); (c, PZ)] G (obs_op [(t, PX); (c, PZ)])).
  { exists pone, true. split; [exists false; intros q; reflexivity|]. split; [reflexivity|]. intros q. unfold pmul at 1, pone at 1, power. cbn [fst snd pmul1]. now destruct (obs_op _ q) as [[] []]. }
  apply T, R, T in Hg. destruct Hg as (h & e & Hh & _ & E). pose proof (E c) as E1. pose proof (E t) as E2.
  unfold part in E1, E2. rewrite Ac in E1. rewrite At in E2. unfold pmul, power in E1, E2. rewrite !(Z _ Hh) in E1, E2.
  cbn [obs_op] in E1, E2. unfold pmul, at_patch, pone in E1, E2. rewrite N.eqb_refl, (proj2 (N.eqb_neq c t)) in E1 by exact D.
  rewrite N.eqb_refl, (proj2 (N.eqb_neq t c)) in E2 by congruence. cbn in E1, E2. destruct e; discriminate.
Qed.
End Parts.

(** ** The first phase alone *)
Lemma first_phase_apart patch shows tgt inner ctl s s1 s2 p1 p2 : inner <> [] -> let route := tgt :: inner ++ [ctl] in
  NoDup route -> own_patches patch route -> (forall a b, In a inner -> shows a b = square_shows a b) ->
  edpc_decompose s route s1 s2 = Ok (p1, p2) -> fst p2 ++ snd p2 <> [] ->
  exists A, A (patch ctl) = true /\ A (patch tgt) = false /\ Forall (one_side patch shows A) (fst p1 ++ snd p1).
Proof.
  intros Hi route Nd Op Sq E Ne.
  assert (Ln : length route = length inner + 2) by (unfold route; cbn [length]; rewrite app_length; cbn [length]; lia).
  destruct (edpc_shape s route s1 s2 _ ltac:(lia) E) as [(l & _ & [Q|Q])|(ends & H3 & Rs & Bd & E0 & Ek & Fp & Co)].
  - injection Q as -> ->. now destruct Ne.
  - injection Q as -> ->. exists (N.eqb (patch ctl)). split; [apply N.eqb_refl|]. split; [|constructor].
    apply N.eqb_neq. intros Q. apply Op in Q; [|unfold route; right; apply in_app_iff; right; now left|now left].
    subst ctl. apply NoDup_cons_iff in Nd. destruct Nd as [Nd _]. apply Nd, in_app_iff. right. now left.
  - destruct Co as (l1 & l2 & M1 & M2 & F1 & F2 & Eq & _). injection Eq as -> ->. cbn [fst snd] in *.
    destruct l2 as [|y l2]; [now destruct Ne|]. set (k := length ends - 1) in *. set (j := fst y).
    assert (Hj : In j (filter (fun i => negb (first_phase ends i)) (seq 0 k))) by (rewrite <- M2; now left).
    apply filter_In in Hj. destruct Hj as [Hj Pj]. apply in_seq in Hj. apply Bool.negb_true_iff in Pj.
    pose (at_ := seg route 0). pose (L := length route).
    pose (A := fun q => existsb (fun x => N.eqb (patch (at_ x)) q) (seq (end_at ends (j + 1)) (L - end_at ends (j + 1)))).
    assert (Top : end_at ends (j + 1) <= L - 1) by (unfold L; rewrite <- Ek; apply end_le; auto; lia).
    assert (Lt : end_at ends j < end_at ends (j + 1)) by (apply end_lt; auto; lia).
    assert (HA : forall x, x < L -> A (patch (at_ x)) = (end_at ends (j + 1) <=? x)).
    { intros x Hx. apply Bool.eq_iff_eq_true. unfold A. rewrite existsb_exists, Nat.leb_le. split.
      - intros (z & Hz & Ez). apply in_seq in Hz. apply N.eqb_eq in Ez. apply (at_inj patch tgt inner ctl Nd Op) in Ez; unfold L, route in *; lia.
      - intros Hl. exists x. split; [apply in_seq; lia|apply N.eqb_refl]. }
    exists A. split; [|split].
    + assert (Ec : at_ (L - 1) = ctl) by exact (at_end shows tgt inner ctl Sq). transitivity (A (patch (at_ (L - 1)))); [now rewrite Ec|]. rewrite HA by (unfold L; lia). apply Nat.leb_le. lia.
    + change tgt with (at_ 0). rewrite HA by (unfold L; lia). apply Nat.leb_gt. lia.
    + assert (F : forall x l, In x l1 -> In l (fst (snd x) ++ snd (snd x)) -> one_side patch shows A l).
      { intros x l Hx Hl. rewrite Forall_forall in F1. pose proof (proj2 (segment_like patch shows tgt inner ctl Hi Nd Op Sq ends H3 Rs E0 Ek Fp x (F1 x Hx))) as W.
        unfold fits_area in W. rewrite Forall_forall in W. destruct (W l Hl) as (a & b & (ja & Ha & ->) & (jb & Hb & ->) & K).
        assert (Px : first_phase ends (fst x) = true /\ fst x < k).
        { assert (I : In (fst x) (filter (first_phase ends) (seq 0 k))) by (rewrite <- M1; now apply in_map).
          apply filter_In in I. destruct I as [I ?]. apply in_seq in I. split; [assumption|lia]. }
        assert (D : fst x <> j) by (intros Q; rewrite Q in Px; destruct Px; congruence). exists (patch (at_ ja)), (patch (at_ jb)). split; [|exact K].
        assert (Tx : end_at ends (fst x + 1) <= L - 1) by (unfold L; rewrite <- Ek; apply end_le; auto; lia).
        rewrite !HA by (unfold L; lia). destruct (Nat.lt_gt_cases (fst x) j) as [C _]. destruct (C D) as [Cl|Cg].
        - pose proof (end_le ends (fst x + 1) j Rs ltac:(lia) ltac:(lia)). transitivity false; [|symmetry]; apply Nat.leb_gt; lia.
        - pose proof (end_le ends (j + 1) (fst x) Rs ltac:(lia) ltac:(lia)). transitivity true; [|symmetry]; apply Nat.leb_le; lia. }
      apply Forall_forall. intros l Hl. apply in_app_iff in Hl as [Hl|Hl]; apply in_flat_map in Hl as (x & Hx & Hl); apply (F x); auto; apply in_app_iff; auto.
Qed.
