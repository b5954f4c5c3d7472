(** Proofs about nearest-neighbour steps as operations on encoded states. *)
From Verif Require Import Base PatchesModel LayoutModel InstrModel StabSpec StabProofs BellStabSpec.

Definition i1 : bool * bool := (false, false).
Definition upd (g : pstr) (a : N) (v : bool * bool) : pstr := fun q => if N.eqb q a then v else g q.
Definition pw (e : bool) (x : bool * bool) : bool * bool := (e && fst x, e && snd x).

Lemma upd_eq g a v : upd g a v a = v. Proof. unfold upd. now rewrite N.eqb_refl. Qed.
Lemma upd_ne g a v q : q <> a -> upd g a v q = g q. Proof. intros H. unfold upd. now rewrite (proj2 (N.eqb_neq q a) H). Qed.
Lemma upd_self g a : peq (upd g a (g a)) g.
Proof. intros q. unfold upd. destruct (N.eqb_spec q a) as [->|]; reflexivity. Qed.
Lemma upd_congr f g a v : peq f g -> peq (upd f a v) (upd g a v).
Proof. intros H q. unfold upd. destruct (N.eqb q a); [reflexivity|apply H]. Qed.
Lemma upd_swap g a b v w : a <> b -> peq (upd (upd g a v) b w) (upd (upd g b w) a v).
Proof. intros H q. unfold upd. destruct (N.eqb_spec q a), (N.eqb_spec q b); congruence. Qed.
Lemma upd_upd g a v w : peq (upd (upd g a v) a w) (upd g a w).
Proof. intros q. unfold upd. now destruct (N.eqb q a). Qed.

(** Compare two updated operators patch by patch. *)
Ltac at_patches := repeat match goal with |- context[N.eqb ?a ?b] => destruct (N.eqb_spec a b); try subst; try congruence end.
Ltac patchwise := let q := fresh "q" in intros q; unfold upd, pmul, power, at_patch, obs_op, at_patch, pmul, pone, pmul1, pw; at_patches;
  cbn [fst snd andb]; rewrite ?andb_false_r, ?xorb_false_r, ?xorb_false_l; try reflexivity.

Lemma pair_eta (x : bool * bool) : (fst x, snd x) = x. Proof. now destruct x. Qed.
Lemma pmul1_i1 x : pmul1 x i1 = x. Proof. destruct x as [[] []]; reflexivity. Qed.

Lemma mul_obs1 g a p e : peq (pmul g (power e (obs_op [(a, p)]))) (upd g a (pmul1 (g a) (pw e (bits p)))).
Proof. patchwise. apply pair_eta. Qed.
Lemma mul_at g a p e : peq (pmul g (power e (at_patch a p))) (upd g a (pmul1 (g a) (pw e p))).
Proof. patchwise. apply pair_eta. Qed.
Lemma mul_obs2 g a b p q e : a <> b ->
  peq (pmul g (power e (obs_op [(a, p); (b, q)]))) (upd (upd g a (pmul1 (g a) (pw e (bits p)))) b (pmul1 (g b) (pw e (bits q)))).
Proof. intros H. patchwise. apply pair_eta. Qed.

(** ** Membership, read backwards *)
Lemma measure1_iff a p G g : ext G -> measure [(a, p)] G g <-> anti1 (g a) (bits p) = false /\ exists e, G (upd g a (pmul1 (g a) (pw e (bits p)))).
Proof.
  intros X. rewrite measure_iff by auto. cbn [anticommutes]. rewrite xorb_false_r.
  split; intros (A & e & H); (split; [exact A|]; exists e; eapply X; [|exact H]); [apply mul_obs1|apply peq_sym, mul_obs1].
Qed.
Lemma measure2_iff a b p q G g : a <> b -> ext G -> measure [(a, p); (b, q)] G g <->
  anti1 (g a) (bits p) = anti1 (g b) (bits q) /\ exists e, G (upd (upd g a (pmul1 (g a) (pw e (bits p)))) b (pmul1 (g b) (pw e (bits q)))).
Proof.
  intros D X. rewrite measure_iff by auto. cbn [anticommutes]. rewrite xorb_false_r.
  assert (E : xorb (anti1 (g a) (bits p)) (anti1 (g b) (bits q)) = false <-> anti1 (g a) (bits p) = anti1 (g b) (bits q))
    by (destruct (anti1 (g a) (bits p)), (anti1 (g b) (bits q)); cbn; split; congruence).
  rewrite E. split; intros (A & e & H); (split; [exact A|]; exists e; eapply X; [|exact H]); [apply mul_obs2; auto|apply peq_sym, mul_obs2; auto].
Qed.
Lemma prepare1_iff a p G g : ext G -> prepare a p G g <-> exists e, G (upd g a (pmul1 (g a) (pw e (bits p)))).
Proof.
  intros X. rewrite prepare_iff by auto. split; intros (e & H); exists e; (eapply X; [|exact H]); [apply mul_at|apply peq_sym, mul_at].
Qed.

(** ** Operations that look at two patches only *)
Definition ker (a b : N) (F : gset -> gset) : Prop :=
  exists r : bool * bool -> bool * bool -> bool * bool -> bool * bool -> Prop,
  forall G, ext G -> forall g, F G g <-> exists v w, r (g a) (g b) v w /\ G (upd (upd g a v) b w).

Lemma ker_ext a b F : ker a b F -> forall G, ext G -> ext (F G).
Proof.
  intros (r & K) G X f g E H. apply K in H; auto. destruct H as (v & w & R & H). apply K; auto. exists v, w.
  rewrite <- !E. split; [exact R|]. eapply X; [|exact H]. now apply upd_congr, upd_congr.
Qed.
Lemma ker_sym a b F : a <> b -> ker a b F -> ker b a F.
Proof.
  intros D (r & K). exists (fun x y v w => r y x w v). intros G X g. rewrite K by auto.
  split; intros (v & w & R & H); exists w, v; (split; [exact R|]; eapply X; [|exact H]); [now apply upd_swap|apply upd_swap; auto].
Qed.
Lemma ker_comp a b F F' : a <> b -> ker a b F -> ker a b F' -> ker a b (fun G => F (F' G)).
Proof.
  intros D K K'. destruct K as (r & K). pose proof K' as (r' & K2).
  exists (fun x y v w => exists v1 w1, r x y v1 w1 /\ r' v1 w1 v w). intros G X g. rewrite K by (eapply ker_ext; eauto). split.
  - intros (v & w & R & H). apply K2 in H; auto. destruct H as (v' & w' & R' & H).
    rewrite upd_ne, !upd_eq in R' by auto. exists v', w'. split; [eauto|]. eapply X; [|exact H]. intros q. unfold upd. at_patches.
  - intros (v & w & (v1 & w1 & R & R') & H). exists v1, w1. split; [exact R|]. apply K2; auto. exists v, w.
    rewrite upd_ne, !upd_eq by auto. split; [exact R'|]. eapply X; [|exact H]. intros q. unfold upd. at_patches.
Qed.
Lemma ker_same a b F F' : (forall G, ext G -> same (F G) (F' G)) -> ker a b F -> ker a b F'.
Proof. intros S (r & K). exists r. intros G X g. rewrite <- (S G X g). now apply K. Qed.
(** Those that look at one only *)
Definition ker1 (a : N) (F : gset -> gset) : Prop :=
  exists r : bool * bool -> bool * bool -> Prop, forall G, ext G -> forall g, F G g <-> exists v, r (g a) v /\ G (upd g a v).
Lemma ker1_l a b F : a <> b -> ker1 a F -> ker a b F.
Proof.
  intros D (r & K). exists (fun x y v w => r x v /\ w = y). intros G X g. rewrite K by auto. split.
  - intros (v & R & H). exists v, (g b). split; [auto|]. eapply X; [|exact H]. intros q. unfold upd. at_patches.
  - intros (v & w & (R & ->) & H). exists v. split; [auto|]. eapply X; [|exact H]. intros q. unfold upd. at_patches.
Qed.
Lemma ker1_r a b F : a <> b -> ker1 b F -> ker a b F.
Proof. intros D K. apply ker_sym; auto. apply ker1_l; auto. Qed.
Lemma ker1_measure a p : ker1 a (measure [(a, p)]).
Proof.
  exists (fun x v => anti1 x (bits p) = false /\ exists e, v = pmul1 x (pw e (bits p))). intros G X g. rewrite measure1_iff by auto. split.
  - intros (A & e & H). eauto 6.
  - intros (v & (A & e & ->) & H). eauto.
Qed.
Lemma ker1_prepare a p : ker1 a (prepare a p).
Proof.
  exists (fun x v => exists e, v = pmul1 x (pw e (bits p))). intros G X g. rewrite prepare1_iff by auto. split.
  - intros (e & H). eauto.
  - intros (v & (e & ->) & H). eauto.
Qed.
Lemma ker1_discard a : ker1 a (discard a).
Proof.
  exists (fun x v => x = i1 /\ v = i1). intros G X g. split.
  - intros [H E]. exists i1. split; [auto|]. eapply X; [|exact H]. intros q. unfold upd. at_patches; auto.
  - intros (v & (E & ->) & H). split; [|exact E]. eapply X; [|exact H]. intros q. unfold upd. at_patches.
Qed.
Lemma ker_measure a b p q : a <> b -> ker a b (measure [(a, p); (b, q)]).
Proof.
  intros D. exists (fun x y v w => anti1 x (bits p) = anti1 y (bits q) /\ exists e, v = pmul1 x (pw e (bits p)) /\ w = pmul1 y (pw e (bits q))).
  intros G X g. rewrite measure2_iff by auto. split.
  - intros (A & e & H). eauto 8.
  - intros (v & w & (A & e & -> & ->) & H). eauto.
Qed.
Lemma swap_inv a b f : peq (swap a b (swap a b f)) f.
Proof. intros q. unfold swap. at_patches. Qed.
Lemma swap_congr a b f h : peq f h -> peq (swap a b f) (swap a b h).
Proof. intros E q. unfold swap. now rewrite !E. Qed.
Lemma ker_swap a b : a <> b -> ker a b (image (swap a b)).
Proof.
  intros D. exists (fun x y v w => v = y /\ w = x). intros G X g. rewrite image_iff by auto using swap_congr, swap_inv. split.
  - intros H. exists (g b), (g a). split; [auto|]. eapply X; [|exact H]. intros q. unfold swap, upd. at_patches.
  - intros (v & w & (-> & ->) & H). eapply X; [|exact H]. intros q. unfold swap, upd. at_patches.
Qed.
Lemma ker_pair a b : a <> b -> ker a b (bell_pair a b).
Proof.
  intros D. unfold bell_pair. apply (ker_comp a b _ (fun G => prepare a PX (prepare b PX G))); auto using ker_measure.
  apply ker_comp; auto using ker1_l, ker1_r, ker1_prepare.
Qed.
Lemma ker_bell_measure a b : a <> b -> ker a b (bell_measure a b).
Proof.
  intros D. unfold bell_measure.
  apply (ker_comp a b (discard a) (fun G => discard b (measure [(a, PX); (b, PX)] (measure [(a, PZ); (b, PZ)] G)))); auto using ker1_l, ker1_discard.
  apply (ker_comp a b (discard b) (fun G => measure [(a, PX); (b, PX)] (measure [(a, PZ); (b, PZ)] G))); auto using ker1_r, ker1_discard.
  apply ker_comp; auto using ker_measure.
Qed.
Lemma ker_move a b : a <> b -> ker a b (move a b).
Proof. intros D. unfold move. apply ker_comp; auto using ker1_l, ker1_discard, ker_swap. Qed.
Lemma ker_merge k m p q : k <> m -> ker k m (merge k m p q).
Proof.
  intros D. unfold merge.
  apply (ker_comp k m (discard m) (fun G => measure [(m, other q)] (measure [(k, p); (m, q)] G))); auto using ker1_r, ker1_discard.
  apply ker_comp; auto using ker1_r, ker1_measure, ker_measure.
Qed.
Lemma ker_split k x p q : k <> x -> ker k x (split_off k x p q).
Proof. intros D. unfold split_off. apply ker_comp; auto using ker_measure, ker1_r, ker1_prepare. Qed.

(** Operations on different patches can be exchanged. *)
Lemma ker_commute a b c d F F' : ker a b F -> ker c d F' -> a <> c -> a <> d -> b <> c -> b <> d -> forall G, ext G -> same (F (F' G)) (F' (F G)).
Proof.
  intros K K' A1 A2 A3 A4 G X g. pose proof K as (r & R). pose proof K' as (r' & R').
  rewrite R by (eapply ker_ext; eauto). rewrite R' by (eapply ker_ext; eauto). split.
  - intros (v & w & H1 & H). apply R' in H; auto. destruct H as (x & y & H2 & H).
    rewrite !upd_ne in H2 by auto. exists x, y. split; [exact H2|]. apply R; auto. exists v, w. rewrite !upd_ne by auto. split; [exact H1|].
    eapply X; [|exact H]. intros q. unfold upd. at_patches.
  - intros (x & y & H2 & H). apply R in H; auto. destruct H as (v & w & H1 & H).
    rewrite !upd_ne in H1 by auto. exists v, w. split; [exact H1|]. apply R'; auto. exists x, y. rewrite !upd_ne by auto. split; [exact H2|].
    eapply X; [|exact H]. intros q. unfold upd. at_patches.
Qed.

(** ** Closed forms *)
Definition rename (j l : N) (G : gset) : gset := fun g => g j = i1 /\ G (upd (upd g l i1) j (g l)).

Ltac evals := repeat first [rewrite upd_eq in *|rewrite upd_ne in * by congruence].
Lemma bell_pair_iff a b G g : a <> b -> ext G -> unused a G -> unused b G -> bell_pair a b G g <-> g a = g b /\ G (upd (upd g a i1) b i1).
Proof.
  intros D X Ua Ub. unfold bell_pair. rewrite measure2_iff by (auto using ext_prepare). split.
  - intros (A & e & H). rewrite prepare1_iff in H by (auto using ext_prepare). destruct H as (e1 & H). rewrite prepare1_iff in H by auto. destruct H as (e2 & H).
    pose proof (Ua _ H) as Va. pose proof (Ub _ H) as Vb. evals.
    assert (E : g a = g b).
    { revert A Va Vb. destruct (g a) as [[] []], (g b) as [[] []], e, e1, e2; vm_compute; congruence. }
    split; [exact E|]. eapply X; [|exact H]. intros q. unfold upd. at_patches. 
    + exact Vb.
    + exact Va.
  - intros (E & H). split; [now rewrite E|]. exists (snd (g a)). rewrite prepare1_iff by (auto using ext_prepare). exists (fst (g a)).
    rewrite prepare1_iff by auto. exists (fst (g a)). eapply X; [|exact H]. evals. rewrite <- E.
    intros q. unfold upd. at_patches; destruct (g a) as [[] []]; reflexivity.
Qed.

Lemma bell_measure_iff a b G g : a <> b -> ext G -> bell_measure a b G g <-> g a = i1 /\ g b = i1 /\ exists v, G (upd (upd g a v) b v).
Proof.
  intros D X. unfold bell_measure. split.
  - intros [[H Eb] Ea]. rewrite measure2_iff in H by (auto using ext_measure). destruct H as (_ & e & H).
    rewrite measure2_iff in H by auto. destruct H as (_ & e' & H). evals. rewrite Ea, Eb in H.
    split; [exact Ea|]. split; [exact Eb|]. exists (e, e'). eapply X; [|exact H]. intros q. unfold upd. at_patches; destruct e, e'; reflexivity.
  - intros (Ea & Eb & [e e'] & H). split; [split; [|exact Eb]|exact Ea]. rewrite measure2_iff by (auto using ext_measure). rewrite Ea, Eb. split; [reflexivity|].
    exists e. rewrite measure2_iff by auto. evals. split; [destruct e; reflexivity|]. exists e'. eapply X; [|exact H].
    intros q. unfold upd. at_patches; destruct e, e'; reflexivity.
Qed.
Lemma move_iff a b G : a <> b -> ext G -> unused b G -> same (move a b G) (rename a b G).
Proof.
  intros D X U g. unfold move, rename, discard. rewrite image_iff by auto using swap_congr, swap_inv. split.
  - intros [H E]. split; [exact E|]. eapply X; [|exact H]. intros q. unfold upd, swap. at_patches; auto.
  - intros [E H]. split; [|exact E]. eapply X; [|exact H]. intros q. unfold upd, swap. at_patches; try (now rewrite E).
Qed.
Definition xz (p : pauli) : Prop := p = PX \/ p = PZ.
Lemma merge_iff k m p q G g : k <> m -> xz q -> ext G -> merge k m p q G g <->
  g m = i1 /\ exists e, G (upd (upd g k (pmul1 (g k) (pw e (bits p)))) m (pmul1 (pw (anti1 (g k) (bits p)) (bits (other q))) (pw e (bits q)))).
Proof.
  intros D Q X. unfold merge, discard. split.
  - intros [H E]. rewrite measure1_iff in H by (auto using ext_measure). destruct H as (_ & e1 & H). rewrite measure2_iff in H by auto.
    destruct H as (A & e & H). evals. rewrite E in A, H. split; [exact E|]. exists e. eapply X; [|exact H].
    assert (e1 = anti1 (g k) (bits p)) by (rewrite A; destruct Q as [-> | ->], e1; reflexivity). subst e1.
    intros x. unfold upd. at_patches; destruct (pw _ (bits (other q))) as [[] []]; reflexivity.
  - intros (E & e & H). split; [|exact E]. rewrite measure1_iff by (auto using ext_measure). rewrite E. split; [reflexivity|].
    exists (anti1 (g k) (bits p)). rewrite measure2_iff by auto. evals. split.
    + destruct Q as [-> | ->], (anti1 (g k) (bits p)); reflexivity.
    + exists e. eapply X; [|exact H]. intros x. unfold upd. at_patches; destruct (pw _ (bits (other q))) as [[] []]; reflexivity.
Qed.
Lemma split_iff k x p q G g : k <> x -> xz q -> ext G -> unused x G -> split_off k x p q G g <->
  anti1 (g k) (bits p) = anti1 (g x) (bits q) /\ G (upd (upd g k (pmul1 (g k) (pw (anti1 (g x) (bits (other q))) (bits p)))) x i1).
Proof.
  intros D Q X U. unfold split_off. rewrite measure2_iff by (auto using ext_prepare). split.
  - intros (A & e & H). split; [exact A|]. rewrite prepare1_iff in H by auto. destruct H as (e1 & H). pose proof (U _ H) as V. evals.
    assert (e = anti1 (g x) (bits (other q))).
    { revert V. destruct Q as [-> | ->], (g x) as [[] []], e, e1; vm_compute; congruence. }
    subst e. eapply X; [|exact H]. intros y. unfold upd. at_patches; auto.
  - intros (A & H). split; [exact A|]. exists (anti1 (g x) (bits (other q))). rewrite prepare1_iff by auto. exists (anti1 (g x) (bits q)).
    evals. eapply X; [|exact H]. intros y. unfold upd. at_patches; destruct Q as [-> | ->], (g x) as [[] []]; reflexivity.
Qed.

(** ** Moving along *)
Lemma unused_upd (a : N) (G : gset) f : unused a G -> G f -> f a = i1. Proof. intros U H. now apply U. Qed.
Lemma rename_ext j l G : ext G -> ext (rename j l G).
Proof.
  intros X f g E [A H]. split; [now rewrite <- E|]. eapply X; [|exact H]. intros q. unfold upd. rewrite !E. at_patches.
Qed.
Lemma pair_ext a b G : ext (bell_pair a b G). Proof. apply ext_measure. Qed.
Lemma teleport j k l G : j <> k -> j <> l -> k <> l -> ext G -> unused k G -> unused l G ->
  same (bell_measure j k (bell_pair k l G)) (rename j l G).
Proof.
  intros D1 D2 D3 X Uk Ul g. rewrite bell_measure_iff by (auto using pair_ext). unfold rename. split.
  - intros (Ej & Ek & v & H). rewrite bell_pair_iff in H by auto. destruct H as [E H]. evals. split; [exact Ej|].
    eapply X; [|exact H]. intros q. unfold upd. at_patches; auto.
  - intros (Ej & H). split; [exact Ej|]. pose proof (Uk _ H) as Ek. evals. split; [exact Ek|]. exists (g l).
    rewrite bell_pair_iff by auto. evals. split; [reflexivity|]. eapply X; [|exact H]. intros q. unfold upd. at_patches; auto.
Qed.
Lemma bell_pair_sym a b G : a <> b -> ext G -> unused a G -> unused b G -> same (bell_pair a b G) (bell_pair b a G).
Proof.
  intros D X Ua Ub g. rewrite !bell_pair_iff by auto. split; intros [E H]; (split; [auto|]; eapply X; [|exact H]); [|]; apply upd_swap; auto.
Qed.
Lemma bell_measure_sym a b G : a <> b -> ext G -> same (bell_measure a b G) (bell_measure b a G).
Proof.
  intros D X g. rewrite !bell_measure_iff by auto. split; intros (A & B & v & H); (split; [auto|]; split; [auto|]; exists v; eapply X; [|exact H]); apply upd_swap; auto.
Qed.
Lemma pair_merge u k l p q G : u <> k -> u <> l -> k <> l -> xz q -> ext G -> unused k G -> unused l G ->
  same (merge u k p q (bell_pair k l G)) (split_off u l p q G).
Proof.
  intros D1 D2 D3 Q X Uk Ul g. rewrite merge_iff by (auto using pair_ext). rewrite split_iff by auto. split.
  - intros (Ek & e & H). rewrite bell_pair_iff in H by auto. destruct H as [E H]. evals.
    assert (e = anti1 (g l) (bits (other q)) /\ anti1 (g u) (bits p) = anti1 (g l) (bits q)) as [-> A].
    { rewrite <- E. destruct Q as [-> | ->], e, (anti1 (g u) (bits p)); split; reflexivity. }
    split; [exact A|]. eapply X; [|exact H]. intros x. unfold upd. at_patches; auto.
  - intros (A & H). pose proof (Uk _ H) as Ek. evals. split; [exact Ek|]. exists (anti1 (g l) (bits (other q))).
    rewrite bell_pair_iff by auto. evals. split.
    + rewrite A. destruct Q as [-> | ->], (g l) as [[] []]; reflexivity.
    + eapply X; [|exact H]. intros x. unfold upd. at_patches; auto.
Qed.
(** Splitting a patch off and measuring the pair is merging. *)
Lemma split_measure v j k p q G : v <> j -> v <> k -> j <> k -> xz q -> ext G -> unused k G ->
  same (bell_measure j k (split_off v k p q G)) (merge v j p q G).
Proof.
  intros D1 D2 D3 Q X Uk g. rewrite bell_measure_iff by (auto; apply ext_measure). rewrite merge_iff by auto. split.
  - intros (Ej & Ek & x & H). rewrite split_iff in H by auto. destruct H as [A H]. evals. split; [exact Ej|].
    exists (anti1 x (bits (other q))). eapply X; [|exact H]. intros y. unfold upd. at_patches; auto.
    rewrite A. destruct Q as [-> | ->], x as [[] []]; reflexivity.
  - intros (Ej & e & H). pose proof (Uk _ H) as Ek. evals. split; [exact Ej|]. split; [exact Ek|].
    exists (pmul1 (pw (anti1 (g v) (bits p)) (bits (other q))) (pw e (bits q))). rewrite split_iff by auto. evals. split.
    + destruct Q as [-> | ->], e, (anti1 (g v) (bits p)); reflexivity.
    + eapply X; [|exact H]. intros y. unfold upd. at_patches; auto.
      f_equal. f_equal. destruct Q as [-> | ->], e, (anti1 (g v) (bits p)); reflexivity.
Qed.

Lemma rename_unused j l a G : a <> j -> a <> l -> unused a G -> unused a (rename j l G).
Proof. intros D1 D2 U g [_ H]. apply U in H. now evals. Qed.
Lemma rename_gone j l G : unused j (rename j l G). Proof. now intros g [E _]. Qed.
Lemma rename_rename j k l G : j <> k -> j <> l -> k <> l -> ext G -> unused k G -> unused l G -> same (rename k l (rename j k G)) (rename j l G).
Proof.
  intros D1 D2 D3 X Uk Ul g. unfold rename. split.
  - intros (Ek & Ej & H). evals. split; [exact Ej|]. eapply X; [|exact H]. intros x. unfold upd. at_patches; auto.
  - intros (Ej & H). pose proof (Uk _ H) as Ek. evals. split; [exact Ek|]. split; [exact Ej|]. eapply X; [|exact H]. intros x. unfold upd. at_patches; auto.
Qed.
Lemma rename_merge u j l p q G : u <> j -> u <> l -> j <> l -> xz q -> ext G -> unused l G -> same (merge u l p q (rename j l G)) (merge u j p q G).
Proof.
  intros D1 D2 D3 Q X Ul g. rewrite !merge_iff by auto using rename_ext. unfold rename. split.
  - intros (El & e & Ej & H). evals. split; [exact Ej|]. exists e. eapply X; [|exact H]. intros x. unfold upd. at_patches; auto.
  - intros (Ej & e & H). pose proof (Ul _ H) as El. evals. split; [exact El|]. exists e. evals. split; [exact Ej|]. eapply X; [|exact H]. intros x. unfold upd. at_patches; auto.
Qed.
Lemma rename_measure b j l G : b <> j -> b <> l -> j <> l -> ext G -> unused l G -> same (bell_measure l b (rename j l G)) (bell_measure j b G).
Proof.
  intros D1 D2 D3 X Ul g. rewrite !bell_measure_iff by auto using rename_ext. unfold rename. split.
  - intros (El & Eb & v & Ej & H). evals. split; [exact Ej|]. split; [exact Eb|]. exists v. eapply X; [|exact H]. intros x. unfold upd. at_patches; auto.
  - intros (Ej & Eb & v & H). pose proof (Ul _ H) as El. evals. split; [exact El|]. split; [exact Eb|]. exists v. evals. split; [exact Ej|]. eapply X; [|exact H]. intros x. unfold upd. at_patches; auto.
Qed.
Lemma rename_split u j l p q G : u <> j -> u <> l -> j <> l -> xz q -> ext G -> unused j G -> unused l G ->
  same (rename j l (split_off u j p q G)) (split_off u l p q G).
Proof.
  intros D1 D2 D3 Q X Uj Ul g. unfold rename. rewrite !split_iff by auto. split.
  - intros (Ej & A & H). evals. split; [exact A|]. eapply X; [|exact H]. intros x. unfold upd. at_patches; auto.
  - intros (A & H). pose proof (Uj _ H) as Ej. evals. split; [exact Ej|]. split; [exact A|]. eapply X; [|exact H]. intros x. unfold upd. at_patches; auto.
Qed.
Lemma rename_pair i j l G : i <> j -> i <> l -> j <> l -> ext G -> unused i G -> unused j G -> unused l G -> same (rename j l (bell_pair i j G)) (bell_pair i l G).
Proof.
  intros D1 D2 D3 X Ui Uj Ul g. unfold rename. rewrite !bell_pair_iff by auto. split.
  - intros (Ej & E & H). evals. split; [exact E|]. eapply X; [|exact H]. intros x. unfold upd. at_patches; auto.
  - intros (E & H). pose proof (Uj _ H) as Ej. evals. split; [exact Ej|]. split; [exact E|]. eapply X; [|exact H]. intros x. unfold upd. at_patches; auto.
Qed.

(** ** Two patches coupled through a third *)
Definition link (u v : N) (pu pv : pauli) (g : pstr) : pstr :=
  upd (upd g u (pmul1 (g u) (pw (anti1 (g v) (bits pv)) (bits pu)))) v (pmul1 (g v) (pw (anti1 (g u) (bits pu)) (bits pv))).
Definition couple (crossed : bool) (u v : N) (pu pv : pauli) (G : gset) : gset :=
  if crossed then image (link u v pu pv) G else measure [(u, pu); (v, pv)] G.
Lemma link_congr u v pu pv f g : peq f g -> peq (link u v pu pv f) (link u v pu pv g).
Proof. intros E q. unfold link, upd. rewrite !E. at_patches. Qed.
Lemma anti1_pw x e p : anti1 (pmul1 x (pw e p)) p = anti1 x p.
Proof. destruct x as [[] []], e, p as [[] []]; reflexivity. Qed.
Lemma link_inv u v pu pv f : u <> v -> peq (link u v pu pv (link u v pu pv f)) f.
Proof.
  intros D q. unfold link. rewrite !upd_eq, (upd_ne _ v _ u), upd_eq by auto. rewrite !anti1_pw.
  unfold upd. at_patches; repeat match goal with |- context[pw ?e ?p] => destruct (pw e p) as [[] []] end; try reflexivity;
    match goal with |- context[f ?x] => destruct (f x) as [[] []]; reflexivity end.
Qed.
Lemma merge_split u v j pu pv P Q G : u <> v -> u <> j -> v <> j -> xz P -> xz Q -> ext G -> unused j G ->
  same (merge v j pv Q (split_off u j pu P G)) (couple (negb (pauli_eqb P Q)) u v pu pv G).
Proof.
  intros D1 D2 D3 HP HQ X U g. rewrite merge_iff by (auto; apply ext_measure).
  assert (E1 : forall e, split_off u j pu P G (upd (upd g v (pmul1 (g v) (pw e (bits pv)))) j (pmul1 (pw (anti1 (g v) (bits pv)) (bits (other Q))) (pw e (bits Q)))) <->
     anti1 (g u) (bits pu) = anti1 (pmul1 (pw (anti1 (g v) (bits pv)) (bits (other Q))) (pw e (bits Q))) (bits P) /\
     G (upd (upd (upd g u (pmul1 (g u) (pw (anti1 (pmul1 (pw (anti1 (g v) (bits pv)) (bits (other Q))) (pw e (bits Q))) (bits (other P))) (bits pu))))
              v (pmul1 (g v) (pw e (bits pv)))) j i1)).
  { intros e. rewrite split_iff by auto. evals. split; intros [A H]; (split; [exact A|]; eapply X; [|exact H]); intros x; unfold upd; at_patches. }
  assert (Cr : forall P Q, xz P -> xz Q -> pauli_eqb P Q = false -> other Q = P /\ other P = Q) by (intros ? ? [-> | ->] [-> | ->]; cbn; auto; discriminate).
  destruct (pauli_eqb P Q) eqn:EPQ; cbn [negb couple].
  - assert (P = Q) by (destruct HP as [-> | ->], HQ as [-> | ->]; auto; discriminate). subst Q.
    rewrite measure2_iff by auto. split.
    + intros (Ej & e & H). apply E1 in H. destruct H as [A H].
      assert (B : anti1 (pmul1 (pw (anti1 (g v) (bits pv)) (bits (other P))) (pw e (bits P))) (bits P) = anti1 (g v) (bits pv)
        /\ anti1 (pmul1 (pw (anti1 (g v) (bits pv)) (bits (other P))) (pw e (bits P))) (bits (other P)) = e)
        by (destruct HP as [-> | ->], (anti1 (g v) (bits pv)), e; split; reflexivity).
      rewrite (proj1 B) in A. rewrite (proj2 B) in H. split; [exact A|]. exists e. eapply X; [|exact H]. intros x. unfold upd. at_patches; auto.
    + intros (A & e & H). pose proof (U _ H) as Ej. evals. split; [exact Ej|]. exists e. apply E1.
      assert (B : anti1 (pmul1 (pw (anti1 (g v) (bits pv)) (bits (other P))) (pw e (bits P))) (bits P) = anti1 (g v) (bits pv)
        /\ anti1 (pmul1 (pw (anti1 (g v) (bits pv)) (bits (other P))) (pw e (bits P))) (bits (other P)) = e)
        by (destruct HP as [-> | ->], (anti1 (g v) (bits pv)), e; split; reflexivity).
      rewrite (proj1 B), (proj2 B). split; [exact A|]. eapply X; [|exact H]. intros x. unfold upd. at_patches; auto.
  - destruct (Cr _ _ HP HQ EPQ) as [C1 C2].
    assert (B : forall e, anti1 (pmul1 (pw (anti1 (g v) (bits pv)) (bits (other Q))) (pw e (bits Q))) (bits P) = e
        /\ anti1 (pmul1 (pw (anti1 (g v) (bits pv)) (bits (other Q))) (pw e (bits Q))) (bits (other P)) = anti1 (g v) (bits pv))
      by (intros e; rewrite C1, C2; destruct HP as [-> | ->], HQ as [-> | ->]; try discriminate; destruct (anti1 (g v) (bits pv)), e; split; reflexivity).
    rewrite image_iff by auto using link_congr, link_inv. split.
    + intros (Ej & e & H). apply E1 in H. destruct H as [A H]. rewrite (proj1 (B e)) in A. rewrite (proj2 (B e)) in H. subst e.
      eapply X; [|exact H]. unfold link. intros x. unfold upd. at_patches; auto.
    + intros H. pose proof (U _ H) as Ej. unfold link in Ej, H. evals. split; [exact Ej|]. exists (anti1 (g u) (bits pu)). apply E1.
      rewrite (proj1 (B _)), (proj2 (B _)). split; [reflexivity|]. eapply X; [|exact H]. intros x. unfold upd. at_patches; auto.
Qed.
Lemma link_cnot c t G : c <> t -> ext G -> same (image (link t c PX PZ) G) (image (conj_cnot c t) G).
Proof.
  intros D X g. rewrite image_iff by auto using link_congr, link_inv. rewrite image_iff by auto using conj_cnot_congr, conj_cnot_inv.
  assert (E : peq (link t c PX PZ g) (conj_cnot c t g)).
  { intros q. unfold link, upd, conj_cnot. at_patches; destruct (g c) as [[] []], (g t) as [[] []]; reflexivity. }
  split; intro H; (eapply X; [|exact H]); [exact E|now apply peq_sym].
Qed.
