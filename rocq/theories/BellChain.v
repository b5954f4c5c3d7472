(** Chains of nearest-neighbour steps as operations on encoded states. *)
From Verif Require Import Base PatchesModel LayoutModel InstrModel StabSpec StabProofs.
From Verif Require Import SliceModel RouterModel ApplyModel BellSpec BellStabSpec BellStab.
Open Scope nat_scope.

(** ** The order of steps *)
Definition nearby (k j : nat) : Prop := S k = j \/ S j = k.
Definition before (k j : nat) (l : list nat) : Prop := exists a b, l = a ++ k :: b /\ In j b.
Lemma before_cons x k j l : before k j l -> before k j (x :: l).
Proof. intros (a & b & -> & H). exists (x :: a), b. auto. Qed.
Lemma before_head k j l : In j l -> before k j (k :: l).
Proof. intros H. exists [], l. auto. Qed.
Lemma before_app_l k j a b : before k j a -> before k j (a ++ b).
Proof. intros (x & y & -> & H). exists x, (y ++ b). rewrite <- app_assoc. split; [reflexivity|]. apply in_app_iff. auto. Qed.
Lemma before_app_r k j a b : before k j b -> before k j (a ++ b).
Proof. intros (x & y & -> & H). exists (a ++ x), y. rewrite <- app_assoc. auto. Qed.
Lemma before_across k j a b : In k a -> In j b -> before k j (a ++ b).
Proof. intros Hk Hj. apply in_split in Hk. destruct Hk as (x & y & ->). exists x, (y ++ b). rewrite <- app_assoc. split; [reflexivity|]. apply in_app_iff. auto. Qed.
Lemma before_in k j l : before k j l -> In k l /\ In j l.
Proof. intros (a & b & -> & H). split; apply in_app_iff; right; [left; reflexivity|right; exact H]. Qed.
Lemma before_tail x k j l : before k j (x :: l) -> k <> x -> before k j l.
Proof. intros ([|y a] & b & E & H) D; injection E as ? ?; subst; [congruence|]. exists a, b. auto. Qed.
Lemma before_insert x k j a b : before k j (a ++ b) -> before k j (a ++ x :: b).
Proof.
  intros (c & d & E & H). apply app_eq_app in E. destruct E as (m & [[-> E]|[-> E]]).
  - destruct m as [|y m].
    + cbn [app] in E. subst b. rewrite app_nil_r. apply before_app_r, before_cons, before_head; auto.
    + cbn [app] in E. injection E as -> ->. apply in_app_iff in H. destruct H as [H|H].
      * apply before_app_l. exists c, m. auto.
      * apply before_across; [apply in_app_iff; right; left; reflexivity|right; exact H].
  - subst b. apply before_app_r, before_cons. exists m, d. auto.
Qed.
Lemma before_nodup k j l : NoDup l -> before k j l -> ~ before j k l.
Proof.
  induction l as [|x l IH]; intros N B B'; [destruct B as ([|] & ? & E & _); discriminate|]. apply NoDup_cons_iff in N. destruct N as [Nx N].
  destruct (Nat.eq_dec k x) as [->|Dk].
  - destruct (before_in _ _ _ B') as [Hj _]. destruct B' as ([|y a] & b & E & H); inversion E; subst.
    + destruct B as ([|y a] & c & E' & H'); inversion E'; subst; [auto|]. apply Nx, in_app_iff. right; right; exact H'.
    + apply Nx, in_app_iff. right. right. exact H.
  - apply before_tail in B; auto. destruct (Nat.eq_dec j x) as [->|Dj].
    + apply before_in in B. destruct B as [_ B]. contradiction.
    + apply before_tail in B'; auto. eapply IH; eauto.
Qed.

(** Passing something on by two links at a time. *)
Fixpoint sweep (i m : nat) : list nat := match m with O => [] | S m' => S i :: i :: sweep (S (S i)) m' end.
Lemma sweep_in m : forall i k, In k (sweep i m) <-> i <= k < i + 2 * m.
Proof.
  induction m as [|m IH]; intros i k; cbn [sweep In]; [lia|]. rewrite IH. lia.
Qed.
Lemma sweep_nodup m : forall i, NoDup (sweep i m).
Proof. induction m as [|m IH]; intros i; cbn [sweep]; repeat constructor; auto; cbn [In]; rewrite sweep_in; lia. Qed.
Lemma sweep_before m : forall i k j, nearby k j -> i <= k < i + 2 * m -> i <= j < i + 2 * m -> Nat.odd (k + i) = true -> before k j (sweep i m).
Proof.
  induction m as [|m IH]; intros i k j Nb Hk Hj O; [lia|]. cbn [sweep].
  assert (Ik : k <> i) by (intros ->; rewrite Nat.odd_add, xorb_nilpotent in O; discriminate).
  destruct (Nat.eq_dec k (S i)) as [->|Dk].
  - apply before_head. cbn [In]. rewrite sweep_in. destruct Nb as [<- | E]; [right; lia|left; lia].
  - apply before_cons, before_cons. destruct (Nat.eq_dec j (S i)) as [->|Dj].
    + exfalso. assert (k = S (S i)) by (unfold nearby in Nb; lia). subst k. replace (S (S i) + i) with (2 * (i + 1)) in O by lia.
      now rewrite Nat.odd_mul in O.
    + apply IH; unfold nearby in *; try lia. replace (k + S (S i)) with (k + i + 2 * 1) by lia. now rewrite Nat.odd_add_mul_2.
Qed.
(** The orders of steps *)
Ltac mods := repeat match goal with
  | H : Nat.odd _ = true |- _ => apply Nat.odd_spec in H; destruct H
  | H : Nat.odd _ = false |- _ => rewrite <- Nat.negb_even, Bool.negb_false_iff in H; apply Nat.even_spec in H; destruct H end.
Lemma order_even n m : n = 2 * m + 4 -> let ks := ([1; 0] ++ sweep 2 m) ++ [n - 2] in
  NoDup ks /\ (forall k, In k ks <-> k + 1 < n) /\
  (forall k j, nearby k j -> k + 1 < n -> j + 1 < n -> Nat.odd k = true -> before k j ks).
Proof.
  intros E ks. assert (I : forall k, In k ks <-> k + 1 < n).
  { intros k. unfold ks. rewrite !in_app_iff, sweep_in. cbn [In]. lia. }
  split; [|split; [exact I|]].
  - unfold ks. cbn [app].
    assert (N : NoDup (sweep 2 m ++ [n - 2])).
    { apply NoDup_Add with (a := n - 2) (l := sweep 2 m); [rewrite <- (app_nil_r (sweep 2 m)) at 1; apply Add_app|]. split; [apply sweep_nodup|]. rewrite sweep_in. lia. }
    repeat constructor; auto; cbn [In]; rewrite ?in_app_iff, ?sweep_in; cbn [In]; lia.
  - intros k j Nb Hk Hj O. unfold ks.
    assert (Ck : k = 1 \/ 2 <= k < 2 + 2 * m) by (apply Nat.odd_spec in O; destruct O; lia).
    destruct Ck as [-> |Ck].
    + cbn [app]. apply before_head. cbn [In]. rewrite in_app_iff, sweep_in. cbn [In]. unfold nearby in Nb. lia.
    + assert (Cj : 2 <= j < 2 + 2 * m \/ j = n - 2) by (apply Nat.odd_spec in O; destruct O; unfold nearby in Nb; lia).
      rewrite <- app_assoc. apply before_app_r. destruct Cj as [Cj| ->].
      * apply before_app_l, sweep_before; auto. rewrite (Nat.add_comm k), Nat.add_comm. replace (k + 2) with (k + 2 * 1) by lia. now rewrite Nat.odd_add_mul_2.
      * apply before_across; [apply sweep_in; lia|now left].
Qed.
Lemma order_odd n m : n = 2 * m + 5 -> let ks := ([1; 0] ++ sweep 2 m) ++ [n - 2; n - 3] in
  NoDup ks /\ (forall k, In k ks <-> k + 1 < n) /\
  (forall k j, nearby k j -> k + 1 < n -> j + 1 < n -> Nat.odd k = true -> before k j ks).
Proof.
  intros E. pose proof (sweep_nodup (m + 1) 2) as N.
  assert (Es : forall i, sweep i (m + 1) = sweep i m ++ [i + 2 * m + 1; i + 2 * m]).
  { clear. induction m as [|m IH]; intros i; cbn [sweep app Nat.add]; [replace (i + 2 * 0) with i by lia; now rewrite Nat.add_1_r|].
    rewrite IH. now replace (S (S i) + 2 * m) with (i + 2 * S m) by lia. }
  assert (Eq : ([1; 0] ++ sweep 2 m) ++ [n - 2; n - 3] = 1 :: 0 :: sweep 2 (m + 1)).
  { rewrite Es, <- app_assoc. replace (n - 2) with (2 + 2 * m + 1) by lia. replace (n - 3) with (2 + 2 * m) by lia. reflexivity. }
  cbv zeta. rewrite Eq. clear Eq Es. split; [|split].
  - repeat constructor; auto; cbn [In]; rewrite sweep_in; lia.
  - intros k. cbn [In]. rewrite sweep_in. lia.
  - intros k j Nb Hk Hj O. assert (Ck : k = 1 \/ 2 <= k < 2 + 2 * (m + 1)) by (apply Nat.odd_spec in O; destruct O; lia).
    destruct Ck as [-> |Ck].
    + apply before_head. cbn [In]. rewrite sweep_in. unfold nearby in Nb. lia.
    + apply before_cons, before_cons, sweep_before; auto.
      * apply Nat.odd_spec in O. destruct O. unfold nearby in Nb. lia.
      * replace (k + 2) with (k + 2 * 1) by lia. now rewrite Nat.odd_add_mul_2.
Qed.

Section Chain.
Variables (patch : cell -> N) (shows : cell -> cell -> pauli) (n : nat) (nm : nat -> N).
Notation act := (local_act patch shows).
Notation run := (local_run patch shows).
Hypothesis inj : forall i j, i < n -> j < n -> nm i = nm j -> i = j.
Lemma nm_ne i j : i < n -> j < n -> i <> j -> nm i <> nm j.
Proof. intros Hi Hj D E. apply D. auto. Qed.

Lemma act_same_sets l G H : same G H -> same (act l G) (act l H).
Proof.
  intros S. destruct l; cbn [local_act]; unfold bell_pair, bell_measure, move, merge, split_off;
    auto using same_measure, same_prepare, same_image, same_discard.
Qed.
Lemma run_same_sets l : forall G H, same G H -> same (run l G) (run l H).
Proof. induction l as [|x l IH]; intros G H S; [exact S|]. apply IH, act_same_sets, S. Qed.
Lemma run_app a b G : run (a ++ b) G = run b (run a G).
Proof. revert G. induction a as [|x a IH]; intros G; [reflexivity|]. apply IH. Qed.

(** Each link has a step on its two tiles. *)
Definition on_link (k : nat) (l : local_instr) : Prop := ker (nm k) (nm (k + 1)) (act l).
Section Ops.
Variable op_of : nat -> local_instr.
Notation runs := (fun ks => run (map op_of ks)).
Hypothesis fits : forall k, k + 1 < n -> on_link k (op_of k).

Lemma runs_ext ks : forall G, (forall k, In k ks -> k + 1 < n) -> ext G -> ext (runs ks G).
Proof.
  induction ks as [|k ks IH]; intros G H X; [exact X|]. cbn [map local_run]. apply IH; [intros; apply H; now right|].
  eapply ker_ext; [apply fits, H; now left|exact X].
Qed.
Lemma exchange k j G : k + 1 < n -> j + 1 < n -> k <> j -> ~ nearby k j -> ext G ->
  same (act (op_of k) (act (op_of j) G)) (act (op_of j) (act (op_of k) G)).
Proof.
  intros Hk Hj D N X. unfold nearby in N. eapply ker_commute; try (apply fits; auto); auto; apply nm_ne; lia.
Qed.
Lemma pull l1 x l2 : forall G, (forall k, In k (l1 ++ x :: l2) -> k + 1 < n) -> (forall y, In y l1 -> y <> x /\ ~ nearby x y) -> ext G ->
  same (runs (l1 ++ x :: l2) G) (runs (x :: l1 ++ l2) G).
Proof.
  induction l1 as [|y l1 IH]; intros G H A X; [apply same_refl|]. cbn [app map local_run].
  assert (Hy : y + 1 < n) by (apply H; now left). assert (Hx : x + 1 < n) by (apply H; right; apply in_app_iff; right; now left).
  eapply same_trans; [apply IH; [intros; apply H; now right|intros; apply A; now right|eapply ker_ext; [apply fits; auto|exact X]]|].
  cbn [map local_run]. apply run_same_sets. destruct (A y (or_introl eq_refl)). apply exchange; auto.
Qed.
Lemma reorder ks' : forall ks G, NoDup ks -> NoDup ks' -> (forall k, In k ks <-> In k ks') -> (forall k, In k ks -> k + 1 < n) ->
  (forall k j, nearby k j -> before k j ks -> before k j ks') -> ext G -> same (runs ks G) (runs ks' G).
Proof.
  induction ks' as [|x r IH]; intros ks G N N' I H B X.
  - destruct ks as [|k ks]; [apply same_refl|]. destruct (proj1 (I k) (or_introl eq_refl)).
  - assert (Hx : In x ks) by (apply I; now left). apply in_split in Hx. destruct Hx as (l1 & l2 & ->).
    apply NoDup_cons_iff in N'. destruct N' as [Nx N'].
    assert (Nr : NoDup (l1 ++ l2)) by (eapply NoDup_remove_1; eauto).
    assert (Xn : ~ In x (l1 ++ l2)) by (eapply NoDup_remove_2; eauto).
    eapply same_trans; [apply pull; auto|].
    + intros y Hy. split; [intros ->; apply Xn, in_app_iff; auto|]. intros Nb.
      assert (C : before y x (x :: r)).
      { apply B; [unfold nearby in *; tauto|]. apply before_across; [exact Hy|now left]. }
      apply before_tail in C; [|intros ->; apply Xn, in_app_iff; auto]. apply before_in in C. tauto.
    + cbn [map local_run]. apply IH; auto.
      * intros k. specialize (I k). split; intros Hk.
        -- assert (Hk' : In k (l1 ++ x :: l2)) by (apply in_app_iff in Hk; apply in_app_iff; destruct Hk; [auto|right; now right]).
           apply I in Hk'. destruct Hk' as [->|Hk']; [contradiction|exact Hk'].
        -- assert (Hk' : In k (x :: r)) by now right. apply I in Hk'. apply in_app_iff in Hk'. apply in_app_iff.
           destruct Hk' as [|[->|]]; auto. contradiction.
      * intros k Hk. apply H. apply in_app_iff in Hk. apply in_app_iff. destruct Hk; [auto|right; now right].
      * intros k j Nb Bk. assert (Bk' := before_insert x _ _ _ _ Bk). apply B in Bk'; auto.
        apply before_tail in Bk'; [exact Bk'|]. intros ->. apply before_in in Bk. tauto.
      * eapply ker_ext; [apply fits, H, in_app_iff; right; now left|exact X].
Qed.
End Ops.

(** The operations of a chain, by link. *)
Lemma pick_ops (does : nat -> local_instr -> Prop) ks ops : Forall2 does ks ops -> NoDup ks ->
  exists f, ops = map f ks /\ forall k, In k ks -> does k (f k).
Proof.
  intros F. induction F as [|k l ks ops D F IH]; intros N.
  - exists (fun _ => LPrepareY None (mkCell 0 0)). split; [reflexivity|]. intros k [].
  - apply NoDup_cons_iff in N. destruct N as [Nk N]. destruct (IH N) as (f & E & H).
    exists (fun j => if j =? k then l else f j). split.
    + cbn [map]. rewrite Nat.eqb_refl, E. f_equal. apply map_ext_in. intros j Hj. destruct (Nat.eqb_spec j k) as [->|]; [contradiction|reflexivity].
    + intros j [<-|Hj]; [now rewrite Nat.eqb_refl|]. destruct (Nat.eqb_spec j k) as [->|]; [exact D|auto].
Qed.

(** Two layers of alternating links, in any order that keeps neighbours in theirs. *)
Theorem layers_run (does : nat -> local_instr -> Prop) (sel : nat -> bool) la lb ks' :
  on_links sel does n la -> on_links (fun k => negb (sel k)) does n lb -> (forall k, sel (S k) = negb (sel k)) ->
  (forall k l, k + 1 < n -> does k l -> on_link k l) ->
  NoDup ks' -> (forall k, In k ks' <-> k + 1 < n) ->
  (forall k j, nearby k j -> k + 1 < n -> j + 1 < n -> sel k = true -> before k j ks') ->
  exists f, (forall k, k + 1 < n -> does k (f k)) /\ forall G, ext G -> same (run (la ++ lb) G) (run (map f ks') G).
Proof.
  intros (ka & Fa & Na & Ia) (kb & Fb & Nb & Ib) Alt Hf N' I' B.
  assert (N : NoDup (ka ++ kb)).
  { clear - Na Nb Ia Ib. revert Na Ia. generalize dependent ka. intros ka. 
    assert (Dj : (forall k, In k ka <-> k + 1 < n /\ sel k = true) -> forall x, In x ka -> ~ In x kb).
    { intros Ia x Hx Hy. apply Ia in Hx. apply Ib in Hy. destruct Hx as [_ Hx], Hy as [_ Hy]. now rewrite Hx in Hy. }
    intros Na Ia. specialize (Dj Ia). clear Ia. induction Na as [|x l Hx Na IH]; [exact Nb|]. cbn [app]. constructor.
    - intros H. apply in_app_iff in H. destruct H; [auto|]. eapply Dj; eauto. now left.
    - apply IH. intros y Hy. apply Dj. now right. }
  destruct (pick_ops does (ka ++ kb) (la ++ lb) (Forall2_app Fa Fb) N) as (f & E & Hd).
  assert (I : forall k, In k (ka ++ kb) <-> k + 1 < n).
  { intros k. rewrite in_app_iff, Ia, Ib. destruct (sel k); cbn; tauto. }
  assert (D : forall k, k + 1 < n -> does k (f k)) by (intros k Hk; apply Hd, I, Hk).
  exists f. split; [exact D|]. intros G X. rewrite E. apply reorder; auto.
  - intros k. now rewrite I, I'.
  - intros k. apply I.
  - intros k j Nj Bk. destruct (before_in _ _ _ Bk) as [Hk Hj]. apply B; auto; try now apply I.
    destruct (sel k) eqn:Sk; [reflexivity|]. exfalso.
    assert (Sj : sel j = true) by (destruct Nj as [<-|<-]; rewrite Alt in *; [now rewrite Sk|now destruct (sel j)]).
    assert (Bj : before j k (ka ++ kb)).
    { apply before_across; [apply Ia; split; [now apply I|auto]|apply Ib; split; [now apply I|now rewrite Sk]]. }
    eapply before_nodup; eauto.
Qed.

(** ** Steps passing a patch along *)
Definition pairs_up (k : nat) (F : gset -> gset) : Prop :=
  forall G, ext G -> unused (nm k) G -> unused (nm (k + 1)) G -> same (F G) (bell_pair (nm k) (nm (k + 1)) G).
Definition measures (k : nat) (F : gset -> gset) : Prop := forall G, ext G -> same (F G) (bell_measure (nm k) (nm (k + 1)) G).
Definition carry (i m : nat) (G : gset) : gset := match m with O => G | _ => rename (nm i) (nm (i + 2 * m)) G end.
Lemma carry_ext i m G : ext G -> ext (carry i m G).
Proof. destruct m; cbn [carry]; auto using rename_ext. Qed.
Lemma teleports f m : forall i G, (forall t, t < m -> pairs_up (i + 2 * t + 1) (act (f (i + 2 * t + 1))) /\ measures (i + 2 * t) (act (f (i + 2 * t)))) ->
  i + 2 * m < n -> ext G -> (forall k, i < k <= i + 2 * m -> unused (nm k) G) ->
  same (run (map f (sweep i m)) G) (carry i m G).
Proof.
  induction m as [|m IH]; intros i G H B X U; [apply same_refl|]. cbn [sweep map local_run].
  destruct (H 0 ltac:(lia)) as [P M]. replace (i + 2 * 0 + 1) with (S i) in P by lia. replace (i + 2 * 0) with i in M by lia.
  assert (S1 : same (act (f i) (act (f (S i)) G)) (rename (nm i) (nm (S (S i))) G)).
  { eapply same_trans; [apply act_same_sets, P; auto; apply U; lia|]. eapply same_trans; [apply M, pair_ext|].
    replace (i + 1) with (S i) by lia. replace (S i + 1) with (S (S i)) by lia.
    apply teleport; auto; try (apply nm_ne; lia); apply U; lia. }
  eapply same_trans; [apply run_same_sets, S1|]. eapply same_trans; [apply IH|].
  - intros t Ht. destruct (H (S t) ltac:(lia)) as [P' M']. replace (S (S i) + 2 * t) with (i + 2 * S t) by lia. auto.
  - lia.
  - now apply rename_ext.
  - intros k Hk. apply rename_unused; try (apply nm_ne; lia). apply U. lia.
  - destruct m as [|m]; [cbn [carry]; replace (i + 2 * 1) with (S (S i)) by lia; apply same_refl|].
    cbn [carry]. replace (S (S i) + 2 * S m) with (i + 2 * S (S m)) by lia.
    apply rename_rename; auto; try (apply nm_ne; lia); apply U; lia.
Qed.

Lemma same_act_rename a b G H : same G H -> same (rename a b G) (rename a b H).
Proof. intros S g. unfold rename. now rewrite (S _). Qed.
Lemma carry_same i m G H : same G H -> same (carry i m G) (carry i m H).
Proof. destruct m; cbn [carry]; auto using same_act_rename. Qed.
Section Carried.
Variables (u : N) (i m : nat) (G : gset).
Hypotheses (Hi : i + 2 * m < n) (X : ext G) (U : forall k, i < k <= i + 2 * m -> unused (nm k) G).
Hypothesis (Du : forall k, i <= k <= i + 2 * m -> u <> nm k).
Ltac start := destruct m as [|m']; [cbn [carry]; replace (i + 2 * 0) with i by lia; apply same_refl|cbn [carry]].
Ltac fin := auto; first [apply Du; lia|apply nm_ne; lia|apply U; lia|idtac].
Lemma carry_split p q : xz q -> unused (nm i) G -> same (carry i m (split_off u (nm i) p q G)) (split_off u (nm (i + 2 * m)) p q G).
Proof. intros Q V. start. apply rename_split; fin. Qed.
Lemma carry_pair : unused u G -> unused (nm i) G -> same (carry i m (bell_pair u (nm i) G)) (bell_pair u (nm (i + 2 * m)) G).
Proof. intros V W. start. apply rename_pair; fin. Qed.
Lemma carry_merge p q : xz q -> same (merge u (nm (i + 2 * m)) p q (carry i m G)) (merge u (nm i) p q G).
Proof. intros Q. start. apply rename_merge; fin. Qed.
Lemma carry_measure : same (bell_measure (nm (i + 2 * m)) u (carry i m G)) (bell_measure (nm i) u G).
Proof. start. apply rename_measure; fin. Qed.
Lemma carry_rename : unused u G -> same (rename (nm (i + 2 * m)) u (carry i m G)) (rename (nm i) u G).
Proof. intros V. start. apply rename_rename; fin. apply not_eq_sym; fin. apply not_eq_sym; fin. Qed.
Lemma carry_after : unused (nm i) G -> same (carry i m (rename u (nm i) G)) (rename u (nm (i + 2 * m)) G).
Proof. intros V. start. apply rename_rename; fin. Qed.
End Carried.

(** ** Chains as wholes *)
Lemma ker_unused a b F q G : ker a b F -> ext G -> q <> a -> q <> b -> unused q G -> unused q (F G).
Proof.
  intros (r & K) X Da Db U g H. apply K in H; auto. destruct H as (v & w & _ & H). apply U in H. unfold upd in H.
  now rewrite (proj2 (N.eqb_neq q a) Da), (proj2 (N.eqb_neq q b) Db) in H.
Qed.
Definition inner_unused (G : gset) : Prop := forall k, 0 < k -> k + 1 < n -> unused (nm k) G.
Lemma run_cat (f : nat -> local_instr) a b G : run (map f (a ++ b)) G = run (map f b) (run (map f a) G).
Proof. now rewrite map_app, run_app. Qed.

(** Two ends coupled through the tiles between them *)
Lemma chain_start f p P G : 4 <= n -> xz P -> ext G -> inner_unused G -> pairs_up 1 (act (f 1)) -> (forall H, act (f 0) H = merge (nm 0) (nm 1) p P H) ->
  same (run (map f [1; 0]) G) (split_off (nm 0) (nm 2) p P G).
Proof.
  intros Hn HP X U H1 H0. cbn [map local_run]. rewrite H0.
  eapply same_trans; [unfold merge; apply same_discard, same_measure, same_measure, H1; auto; apply U; lia|].
  apply pair_merge; auto; try (apply nm_ne; lia); apply U; lia.
Qed.
Lemma chain_far f p P m G : 4 <= n -> 2 + 2 * m + 1 < n -> xz P -> ext G -> inner_unused G -> (forall H, act (f 0) H = merge (nm 0) (nm 1) p P H) ->
  pairs_up 1 (act (f 1)) -> (forall t, t < m -> pairs_up (2 + 2 * t + 1) (act (f (2 + 2 * t + 1))) /\ measures (2 + 2 * t) (act (f (2 + 2 * t)))) ->
  same (run (map f ([1; 0] ++ sweep 2 m)) G) (split_off (nm 0) (nm (2 + 2 * m)) p P G).
Proof.
  intros Hn Hm HP X U H0 H1 Ht. rewrite run_cat. eapply same_trans; [apply run_same_sets, (chain_start _ p P); auto|].
  eapply same_trans; [apply teleports; auto; [lia|apply ext_measure|]|].
  - intros k Hk. apply (ker_unused (nm 0) (nm 2)); try (apply nm_ne; lia); auto; [apply ker_split, nm_ne; lia|apply U; lia].
  - apply carry_split; auto; try lia; try (apply U; lia); intros k Hk; first [apply U; lia|apply nm_ne; lia].
Qed.
Lemma chain_even f p P q Q m G : n = 2 * m + 4 -> xz P -> xz Q -> ext G -> inner_unused G -> (forall H, act (f 0) H = merge (nm 0) (nm 1) p P H) ->
  pairs_up 1 (act (f 1)) -> (forall t, t < m -> pairs_up (2 + 2 * t + 1) (act (f (2 + 2 * t + 1))) /\ measures (2 + 2 * t) (act (f (2 + 2 * t)))) ->
  (forall H, act (f (n - 2)) H = merge (nm (n - 1)) (nm (n - 2)) q Q H) ->
  same (run (map f (([1; 0] ++ sweep 2 m) ++ [n - 2])) G) (couple (negb (pauli_eqb P Q)) (nm 0) (nm (n - 1)) p q G).
Proof.
  intros Hn HP HQ X U H0 H1 Ht Hf. rewrite run_cat. eapply same_trans; [apply run_same_sets, (chain_far _ p P); auto; lia|].
  cbn [map local_run]. rewrite Hf. replace (2 + 2 * m) with (n - 2) by lia. apply merge_split; auto; try (apply nm_ne; lia). apply U; lia.
Qed.
Lemma chain_odd f p P q Q m G : n = 2 * m + 5 -> xz P -> xz Q -> ext G -> inner_unused G -> (forall H, act (f 0) H = merge (nm 0) (nm 1) p P H) ->
  pairs_up 1 (act (f 1)) -> (forall t, t < m -> pairs_up (2 + 2 * t + 1) (act (f (2 + 2 * t + 1))) /\ measures (2 + 2 * t) (act (f (2 + 2 * t)))) ->
  measures (n - 3) (act (f (n - 3))) -> (forall H, act (f (n - 2)) H = split_off (nm (n - 1)) (nm (n - 2)) q Q H) ->
  same (run (map f (([1; 0] ++ sweep 2 m) ++ [n - 2; n - 3])) G) (couple (negb (pauli_eqb P Q)) (nm 0) (nm (n - 1)) p q G).
Proof.
  intros Hn HP HQ X U H0 H1 Ht Hm Hf. rewrite run_cat. eapply same_trans; [apply run_same_sets, (chain_far _ p P); auto; lia|].
  cbn [map local_run]. rewrite Hf. eapply same_trans; [apply Hm, ext_measure|].
  replace (n - 3 + 1) with (n - 2) by lia. replace (2 + 2 * m) with (n - 3) by lia.
  eapply same_trans; [apply split_measure; auto; try (apply nm_ne; lia); [apply ext_measure|]|].
  - apply (ker_unused (nm 0) (nm (n - 3))); try (apply nm_ne; lia); auto; [apply ker_split, nm_ne; lia|apply U; lia].
  - apply merge_split; auto; try (apply nm_ne; lia). apply U; lia.
Qed.
Lemma couple_sym b u v pu pv G : u <> v -> ext G -> same (couple b u v pu pv G) (couple b v u pv pu G).
Proof.
  intros D X g. destruct b; cbn [couple].
  - rewrite !image_iff by auto using link_congr, link_inv.
    assert (E : peq (link u v pu pv g) (link v u pv pu g)).
    { intros x. unfold link, upd. destruct (N.eqb_spec x u), (N.eqb_spec x v); subst; try congruence; reflexivity. }
    split; intro H; (eapply X; [|exact H]); [exact E|now apply peq_sym].
  - rewrite !measure2_iff by auto. split; intros (A & e & H); (split; [now symmetry|exists e; eapply X; [|exact H]; apply upd_swap; auto]).
Qed.
Lemma chain_three f p P q Q G : n = 3 -> xz P -> xz Q -> ext G -> inner_unused G -> (forall H, act (f 0) H = merge (nm 0) (nm 1) p P H) ->
  (forall H, act (f 1) H = split_off (nm 2) (nm 1) q Q H) ->
  same (run (map f [1; 0]) G) (couple (negb (pauli_eqb P Q)) (nm 0) (nm 2) p q G).
Proof.
  intros Hn HP HQ X U H0 H1. cbn [map local_run]. rewrite H0, H1.
  eapply same_trans; [apply merge_split; auto; try (apply nm_ne; lia); apply U; lia|].
  replace (pauli_eqb Q P) with (pauli_eqb P Q) by (destruct P, Q; reflexivity). apply couple_sym; auto. apply nm_ne; lia.
Qed.

End Chain.
