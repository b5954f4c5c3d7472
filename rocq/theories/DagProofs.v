(** Proofs about dependency graphs. *)
From Coq Require Import Relations Permutation.
From Verif Require Import Base InstrModel InstrProofs LoweringModel LoweringProofs DagModel DagSpec.

(** ** Maps *)
Definition get (m : adj) (a : N) : list N := match alookup m a with Some l => l | None => [] end.
Definition keys {A} (m : list (N * A)) : list N := map fst m.

Lemma has_In {A} (m : list (N * A)) k : has m k = true <-> In k (keys m).
Proof.
  unfold has, keys. induction m as [|[k' v] m IH]; cbn [alookup map fst In]; [split; [discriminate|intros []]|].
  destruct (N.eqb_spec k k') as [->|D]; [split; auto|]. rewrite IH. intuition congruence.
Qed.
Lemma has_false {A} (m : list (N * A)) k : has m k = false <-> ~ In k (keys m).
Proof. rewrite <- has_In. destruct (has m k); intuition congruence. Qed.
Lemma alookup_app {A} (m m' : list (N * A)) k : alookup (m ++ m') k = match alookup m k with Some v => Some v | None => alookup m' k end.
Proof. induction m as [|[k' v] m IH]; cbn; [reflexivity|]. destruct (N.eqb k k'); auto. Qed.
Lemma alookup_merase {A} (m : list (N * A)) k x : alookup (merase m k) x = if N.eqb x k then None else alookup m x.
Proof.
  unfold merase. induction m as [|[k' v] m IH]; cbn [filter alookup fst]; [now destruct (N.eqb x k)|].
  destruct (N.eqb_spec k k') as [->|D]; cbn [negb].
  - rewrite IH. destruct (N.eqb_spec x k'); reflexivity.
  - cbn [alookup]. destruct (N.eqb_spec x k') as [->|?]; [now rewrite (proj2 (N.eqb_neq k' k)) by auto|exact IH].
Qed.
Lemma alookup_aset' {A} (m : list (N * A)) k v x : alookup (aset m k v) x = if N.eqb x k then (if has m k then Some v else None) else alookup m x.
Proof. 
  unfold has. induction m as [|[k' v'] m IH]; cbn [aset alookup]; [now destruct (N.eqb x k)|].
  destruct (N.eqb_spec k k') as [->|D]; cbn [alookup].
  - destruct (N.eqb x k'); reflexivity.
  - rewrite IH. destruct (N.eqb_spec x k') as [->|?]; [now rewrite (proj2 (N.eqb_neq k' k)) by auto|reflexivity].
Qed.
Lemma keys_merase {A} (m : list (N * A)) k : keys (merase m k) = serase (keys m) k.
Proof. unfold keys, merase, serase. induction m as [|[k' v] m IH]; cbn; [reflexivity|]. destruct (N.eqb k k'); cbn; now rewrite IH. Qed.
Lemma serase_In s x y : In y (serase s x) <-> In y s /\ y <> x.
Proof.
  unfold serase. rewrite filter_In, negb_true_iff, N.eqb_neq. intuition congruence.
Qed.
Lemma serase_NoDup s x : NoDup s -> NoDup (serase s x).
Proof. apply NoDup_filter. Qed.
Lemma oset_insert_NoDup x s : NoDup s -> NoDup (oset_insert x s).
Proof.
  intros H. unfold oset_insert. destruct (memN x s) eqn:E; [exact H|]. apply memN_notIn in E.
  apply (Permutation_NoDup (l := x :: s)); [|constructor; auto]. rewrite <- Permutation_cons_append. reflexivity.
Qed.
Lemma at_map_ok {A} (m : list (N * A)) k v : at_map m k = Ok v <-> alookup m k = Some v.
Proof. unfold at_map. destruct (alookup m k); split; congruence. Qed.
Lemma at_map_has {A} (m : list (N * A)) k : has m k = true -> exists v, at_map m k = Ok v /\ alookup m k = Some v.
Proof. unfold has, at_map. destruct (alookup m k); [eauto|discriminate]. Qed.
Lemma get_has m a l : alookup m a = Some l -> get m a = l.
Proof. unfold get. now intros ->. Qed.
Lemma get_in_has m a b : In b (get m a) -> has m a = true.
Proof. unfold get, has. destruct (alookup m a); [reflexivity|intros []]. Qed.

(** ** Consistency *)
Record inv (g : graph) : Prop := {
  inv_kout : NoDup (keys (g_out g));
  inv_kin : NoDup (keys (g_in g));
  inv_same : forall k, has (g_out g) k = has (g_in g) k;
  inv_edges : forall a b, In b (get (g_out g) a) <-> In a (get (g_in g) b);
  inv_out : forall a, NoDup (get (g_out g) a);
  inv_in : forall a, NoDup (get (g_in g) a)
}.
Definition E (g : graph) (a b : N) : Prop := In b (get (g_out g) a).
Definition V (g : graph) (a : N) : Prop := has (g_out g) a = true.

Lemma E_V1 g a b : E g a b -> V g a.
Proof. apply get_in_has. Qed.
Lemma E_V2 g a b : inv g -> E g a b -> V g b.
Proof. intros I H. unfold V. rewrite (inv_same _ I). apply (inv_edges _ I) in H. eapply get_in_has; eauto. Qed.

Lemma node_V g a : node g a <-> V g a.
Proof.
  unfold node, V, successors. split.
  - intros [l H]. destruct (has (g_out g) a); [reflexivity|discriminate].
  - intros H. rewrite H. cbn [negb]. apply at_map_has in H. destruct H as (v & E & _). eauto.
Qed.
Lemma edge_E g a b : edge g a b <-> E g a b.
Proof.
  unfold edge, E, successors. split.
  - intros (l & H & Hb). destruct (has (g_out g) a); [|discriminate]. cbn [negb] in H. apply at_map_ok in H. now rewrite (get_has _ _ _ H).
  - intros H. pose proof (get_in_has _ _ _ H) as K. rewrite K. cbn [negb]. apply at_map_has in K. destruct K as (v & K & L).
    exists v. split; [exact K|]. now rewrite <- (get_has _ _ _ L).
Qed.
Lemma back_edge_E g a b : inv g -> back_edge g b a <-> E g a b.
Proof.
  intros I. unfold back_edge, E, predecessors. rewrite (inv_edges _ I). split.
  - intros (l & H & Hb). destruct (has (g_out g) b); [|discriminate]. cbn [negb] in H. apply at_map_ok in H. now rewrite (get_has _ _ _ H).
  - intros H. pose proof (get_in_has _ _ _ H) as K. rewrite (inv_same _ I), K. cbn [negb]. apply at_map_has in K. destruct K as (v & K & L).
    exists v. split; [exact K|]. now rewrite <- (get_has _ _ _ L).
Qed.

Lemma inv_empty : inv g_empty.
Proof. constructor; cbn; try constructor; try tauto; auto; try (intros; constructor). Qed.

Lemma get_new m l x : get (m ++ [(l, [])]) x = get m x.
Proof. unfold get. rewrite alookup_app. cbn. destruct (alookup m x); [reflexivity|]. now destruct (N.eqb x l). Qed.
Lemma has_new {A} (m : list (N * A)) l v x : has (m ++ [(l, v)]) x = has m x || N.eqb x l.
Proof. unfold has. rewrite alookup_app. cbn. destruct (alookup m x); [reflexivity|]. now destruct (N.eqb x l). Qed.
Lemma merase_none {A} (m : list (N * A)) k : has m k = false -> merase m k = m.
Proof.
  intros H. apply has_false in H. unfold merase. induction m as [|[k' v] m IH]; [reflexivity|]. cbn [filter fst keys map In] in *.
  rewrite (proj2 (N.eqb_neq k k')) by (intros ->; apply H; now left). cbn [negb]. f_equal. apply IH. intros Hin; apply H; now right.
Qed.
Lemma NoDup_snoc (l : list N) x : NoDup l -> ~ In x l -> NoDup (l ++ [x]).
Proof. intros H1 H2. apply (Permutation_NoDup (l := x :: l)); [|constructor; auto]. apply Permutation_cons_append. Qed.

Lemma add_node_spec g l : inv g ->
  inv (add_node g l) /\ (forall x, V (add_node g l) x <-> V g x \/ x = l) /\ (forall a b, E (add_node g l) a b <-> E g a b).
Proof.
  intros I. unfold add_node. destruct (has (g_out g) l) eqn:H.
  - split; [exact I|]. split; [|tauto]. intros x. split; [auto|]. intros [?| ->]; auto.
  - rewrite (merase_none (g_in g)) by (now rewrite <- (inv_same _ I)).
    assert (Hi : has (g_in g) l = false) by (now rewrite <- (inv_same _ I)).
    split; [|split].
    + constructor; cbn [g_out g_in].
      * unfold keys. rewrite map_app. apply NoDup_snoc; [apply (inv_kout _ I)|now apply has_false].
      * unfold keys. rewrite map_app. apply NoDup_snoc; [apply (inv_kin _ I)|now apply has_false].
      * intros k. rewrite !has_new, (inv_same _ I). reflexivity.
      * intros a b. rewrite !get_new. apply (inv_edges _ I).
      * intros a. rewrite get_new. apply (inv_out _ I).
      * intros a. rewrite get_new. apply (inv_in _ I).
    + intros x. unfold V. cbn [g_out]. rewrite has_new, orb_true_iff, N.eqb_eq. reflexivity.
    + intros a b. unfold E. cbn [g_out]. now rewrite get_new.
Qed.

Lemma get_aset m k v x : has m k = true -> get (aset m k v) x = if N.eqb x k then v else get m x.
Proof. intros H. unfold get. rewrite alookup_aset', H. now destruct (N.eqb x k). Qed.
Lemma has_aset {A} (m : list (N * A)) k v x : has (aset m k v) x = has m x.
Proof.
  unfold has at 1. rewrite alookup_aset'. destruct (N.eqb_spec x k) as [->|?]; [now destruct (has m k)|reflexivity].
Qed.
Lemma keys_aset {A} (m : list (N * A)) k v : keys (aset m k v) = keys m.
Proof. apply aset_keys. Qed.

Lemma set_edge_inv g f t (o i : list N) : inv g -> V g f -> V g t ->
  NoDup o -> NoDup i ->
  (forall b, b <> t -> In b o <-> In b (get (g_out g) f)) -> (forall a, a <> f -> In a i <-> In a (get (g_in g) t)) ->
  (In t o <-> In f i) ->
  inv (mkG (aset (g_out g) f o) (aset (g_in g) t i)).
Proof.
  intros I Vf Vt No Ni Ho Hi Hx. unfold V in Vt. pose proof Vt as Vt'. rewrite (inv_same _ I) in Vt'.
  constructor; cbn [g_out g_in].
  - rewrite keys_aset. apply (inv_kout _ I).
  - rewrite keys_aset. apply (inv_kin _ I).
  - intros k. rewrite !has_aset. apply (inv_same _ I).
  - intros a b. rewrite !get_aset by auto. destruct (N.eqb_spec a f) as [->|Da], (N.eqb_spec b t) as [->|Db].
    + exact Hx.
    + rewrite Ho by auto. apply (inv_edges _ I).
    + rewrite Hi by auto. apply (inv_edges _ I).
    + apply (inv_edges _ I).
  - intros a. rewrite get_aset by auto. destruct (N.eqb a f); [exact No|apply (inv_out _ I)].
  - intros a. rewrite get_aset by auto. destruct (N.eqb a t); [exact Ni|apply (inv_in _ I)].
Qed.

Lemma add_edge_spec g f t : inv g -> exists g', add_edge g f t = Ok g' /\ inv g' /\
  (forall x, V g' x <-> V g x \/ x = f \/ x = t) /\ (forall a b, E g' a b <-> E g a b \/ (a = f /\ b = t)).
Proof.
  intros I. unfold add_edge. destruct (add_node_spec g t I) as (I1 & V1 & E1). destruct (add_node_spec _ f I1) as (I2 & V2 & E2).
  set (g2 := add_node (add_node g t) f) in *.
  assert (Vf : V g2 f) by (apply V2; auto). assert (Vt : V g2 t) by (apply V2; left; apply V1; auto).
  destruct (at_map_has _ _ Vf) as (o & -> & Lo). cbn [bind].
  assert (Vt' : has (g_in g2) t = true) by (rewrite <- (inv_same _ I2); exact Vt).
  destruct (at_map_has _ _ Vt') as (i & -> & Li). cbn [bind].
  pose proof (get_has _ _ _ Lo) as Go. pose proof (get_has _ _ _ Li) as Gi.
  eexists. split; [reflexivity|]. split; [|split].
  - apply set_edge_inv; auto.
    + apply oset_insert_NoDup. rewrite <- Go. apply (inv_out _ I2).
    + apply oset_insert_NoDup. rewrite <- Gi. apply (inv_in _ I2).
    + intros b Db. rewrite oset_insert_In, Go. intuition congruence.
    + intros a Da. rewrite oset_insert_In, Gi. intuition congruence.
    + rewrite !oset_insert_In. tauto.
  - intros x. unfold V. cbn [g_out]. rewrite has_aset. fold (V g2 x). rewrite V2, V1. tauto.
  - intros a b. unfold E. cbn [g_out]. rewrite get_aset by exact Vf. destruct (N.eqb_spec a f) as [->|D].
    + rewrite oset_insert_In, <- Go. change (In b (get (g_out g2) f)) with (E g2 f b). rewrite E2, E1. intuition congruence.
    + change (In b (get (g_out g2) a)) with (E g2 a b). rewrite E2, E1. unfold E. intuition congruence.
Qed.

Lemma remove_edge_spec g f t : inv g -> E g f t -> exists g', remove_edge g f t = Ok g' /\ inv g' /\
  (forall x, V g' x <-> V g x) /\ (forall a b, E g' a b <-> E g a b /\ ~ (a = f /\ b = t)).
Proof.
  intros I He. pose proof (E_V1 _ _ _ He) as Vf. pose proof (E_V2 _ _ _ I He) as Vt. unfold remove_edge.
  unfold V in Vf, Vt. rewrite Vf, Vt. cbn [negb].
  destruct (at_map_has _ _ Vf) as (o & -> & Lo). cbn [bind].
  assert (Vt' : has (g_in g) t = true) by (rewrite <- (inv_same _ I); exact Vt).
  destruct (at_map_has _ _ Vt') as (i & Ai & Li).
  pose proof (get_has _ _ _ Lo) as Go. pose proof (get_has _ _ _ Li) as Gi.
  pose proof He as He'. unfold E in He'. pose proof (proj1 (inv_edges _ I _ _) He') as Hi. rewrite Go in He'. rewrite Gi in Hi.
  unfold erase_found. rewrite (proj2 (memN_In _ _) He'). cbn [bind]. rewrite Ai. cbn [bind]. rewrite (proj2 (memN_In _ _) Hi). cbn [bind].
  eexists. split; [reflexivity|]. split; [|split].
  - apply set_edge_inv; auto.
    + apply serase_NoDup. rewrite <- Go. apply (inv_out _ I).
    + apply serase_NoDup. rewrite <- Gi. apply (inv_in _ I).
    + intros b Db. rewrite serase_In, Go. intuition.
    + intros a Da. rewrite serase_In, Gi. intuition.
    + rewrite !serase_In. tauto.
  - intros x. unfold V. cbn [g_out]. now rewrite has_aset.
  - intros a b. unfold E. cbn [g_out]. rewrite get_aset by exact Vf. destruct (N.eqb_spec a f) as [->|D].
    + rewrite serase_In, <- Go. intuition congruence.
    + intuition congruence.
Qed.

Lemma remove_edge_absent g f t : inv g -> V g f -> V g t -> ~ E g f t -> remove_edge g f t = UB UBDeref.
Proof.
  intros I Vf Vt He. unfold remove_edge. unfold V in Vf, Vt. rewrite Vf, Vt. cbn [negb].
  destruct (at_map_has _ _ Vf) as (o & -> & Lo). cbn [bind]. unfold erase_found.
  destruct (memN t o) eqn:M; [|reflexivity]. exfalso. apply He. unfold E. rewrite (get_has _ _ _ Lo). now apply memN_In.
Qed.

(** ** Loops over edges *)
Lemma visit_erasing_ok : forall l base fuel, (length l <= fuel)%nat -> visit_erasing fuel base l base (base + length l)%nat = Ok l.
Proof.
  induction l as [|x l IH]; intros base fuel Hf; cbn [length] in *.
  - rewrite Nat.add_0_r. destruct fuel; cbn [visit_erasing]; now rewrite Nat.eqb_refl.
  - destruct fuel as [|f]; [lia|]. cbn [visit_erasing]. rewrite (proj2 (Nat.eqb_neq base (base + S (length l))%nat)) by lia.
    rewrite Nat.ltb_irrefl, Nat.sub_diag. cbn [nth_error firstn skipn app length].
    destruct l as [|y l].
    + cbn [length Nat.div2 Nat.ltb Nat.leb]. destruct f; cbn [visit_erasing]; rewrite (proj2 (Nat.eqb_eq _ _)) by (cbn; lia); reflexivity.
    + replace (Nat.ltb 0 (Nat.div2 (S (length (y :: l))))) with true by (symmetry; apply Nat.ltb_lt; cbn; lia).
      replace (base + S (length (y :: l)))%nat with (S base + length (y :: l))%nat by (cbn; lia).
      rewrite IH by (cbn in *; lia). reflexivity.
Qed.
Lemma visit_all_ok l : visit_all l = Ok l.
Proof. apply (visit_erasing_ok l 0). lia. Qed.

Lemma remove_outs t : forall tos g, inv g -> NoDup tos -> Forall (E g t) tos ->
  exists g', foldM (fun g to => remove_edge g t to) tos g = Ok g' /\ inv g' /\
  (forall x, V g' x <-> V g x) /\ (forall a b, E g' a b <-> E g a b /\ ~ (a = t /\ In b tos)).
Proof.
  induction tos as [|x tos IH]; intros g I ND F; cbn [foldM].
  - exists g. split; [reflexivity|]. split; [exact I|]. cbn. split; [tauto|]. intros a b. tauto.
  - inversion ND as [|? ? Hx ND']; subst. inversion F as [|? ? Fx F']; subst.
    destruct (remove_edge_spec _ _ _ I Fx) as (g1 & -> & I1 & V1 & E1). cbn [bind].
    destruct (IH g1 I1 ND') as (g2 & -> & I2 & V2 & E2).
    { rewrite Forall_forall in *. intros y Hy. apply E1. split; [auto|]. intros [_ ->]. auto. }
    exists g2. split; [reflexivity|]. split; [exact I2|]. split; [intros y; now rewrite V2, V1|].
    intros a b. rewrite E2, E1. cbn [In]. assert (x = b <-> b = x) by (split; congruence). tauto.
Qed.
Lemma remove_ins t : forall froms g, inv g -> NoDup froms -> Forall (fun f => E g f t) froms ->
  exists g', foldM (fun g from => remove_edge g from t) froms g = Ok g' /\ inv g' /\
  (forall x, V g' x <-> V g x) /\ (forall a b, E g' a b <-> E g a b /\ ~ (b = t /\ In a froms)).
Proof.
  induction froms as [|x froms IH]; intros g I ND F; cbn [foldM].
  - exists g. split; [reflexivity|]. split; [exact I|]. cbn. split; [tauto|]. intros a b. tauto.
  - inversion ND as [|? ? Hx ND']; subst. inversion F as [|? ? Fx F']; subst.
    destruct (remove_edge_spec _ _ _ I Fx) as (g1 & -> & I1 & V1 & E1). cbn [bind].
    destruct (IH g1 I1 ND') as (g2 & -> & I2 & V2 & E2).
    { rewrite Forall_forall in *. intros y Hy. apply E1. split; [auto|]. intros [-> _]. auto. }
    exists g2. split; [reflexivity|]. split; [exact I2|]. split; [intros y; now rewrite V2, V1|].
    intros a b. rewrite E2, E1. cbn [In]. assert (x = a <-> a = x) by (split; congruence). tauto.
Qed.
Lemma add_outs t : forall tos g, inv g ->
  exists g', foldM (fun g to => add_edge g t to) tos g = Ok g' /\ inv g' /\
  (forall x, V g' x <-> V g x \/ (tos <> [] /\ x = t) \/ In x tos) /\ (forall a b, E g' a b <-> E g a b \/ (a = t /\ In b tos)).
Proof.
  induction tos as [|x tos IH]; intros g I; cbn [foldM].
  - exists g. split; [reflexivity|]. split; [exact I|]. cbn. split; [intuition|]. intros a b. tauto.
  - destruct (add_edge_spec g t x I) as (g1 & -> & I1 & V1 & E1). cbn [bind].
    destruct (IH g1 I1) as (g2 & -> & I2 & V2 & E2). exists g2. split; [reflexivity|]. split; [exact I2|]. split.
    + intros y. rewrite V2, V1. cbn [In]. assert (x :: tos <> []) by discriminate. intuition congruence.
    + intros a b. rewrite E2, E1. cbn [In]. intuition congruence.
Qed.
Lemma add_ins t : forall froms g, inv g ->
  exists g', foldM (fun g from => add_edge g from t) froms g = Ok g' /\ inv g' /\
  (forall x, V g' x <-> V g x \/ (froms <> [] /\ x = t) \/ In x froms) /\ (forall a b, E g' a b <-> E g a b \/ (b = t /\ In a froms)).
Proof.
  induction froms as [|x froms IH]; intros g I; cbn [foldM].
  - exists g. split; [reflexivity|]. split; [exact I|]. cbn. split; [intuition|]. intros a b. tauto.
  - destruct (add_edge_spec g x t I) as (g1 & -> & I1 & V1 & E1). cbn [bind].
    destruct (IH g1 I1) as (g2 & -> & I2 & V2 & E2). exists g2. split; [reflexivity|]. split; [exact I2|]. split.
    + intros y. rewrite V2, V1. cbn [In]. assert (x :: froms <> []) by discriminate. intuition congruence.
    + intros a b. rewrite E2, E1. cbn [In]. intuition congruence.
Qed.

Lemma remove_node_spec g t : inv g -> V g t -> exists g', remove_node g t = Ok g' /\ inv g' /\
  (forall x, V g' x <-> V g x /\ x <> t) /\ (forall a b, E g' a b <-> E g a b /\ a <> t /\ b <> t).
Proof.
  intros I Vt. unfold remove_node. pose proof Vt as Vt0. unfold V in Vt0. rewrite Vt0. cbn [negb].
  destruct (at_map_has _ _ Vt0) as (o & -> & Lo). cbn [bind]. rewrite visit_all_ok. cbn [bind].
  pose proof (get_has _ _ _ Lo) as Go.
  destruct (remove_outs t o g I) as (g1 & -> & I1 & V1 & E1).
  { rewrite <- Go. apply (inv_out _ I). } { apply Forall_forall. intros x Hx. unfold E. now rewrite Go. }
  cbn [bind]. assert (Vt1 : has (g_in g1) t = true) by (rewrite <- (inv_same _ I1); now apply V1).
  destruct (at_map_has _ _ Vt1) as (i & -> & Li). cbn [bind]. rewrite visit_all_ok. cbn [bind]. pose proof (get_has _ _ _ Li) as Gi.
  destruct (remove_ins t i g1 I1) as (g2 & -> & I2 & V2 & E2).
  { rewrite <- Gi. apply (inv_in _ I1). } { apply Forall_forall. intros x Hx. apply (inv_edges _ I1). now rewrite Gi. }
  cbn [bind]. eexists. split; [reflexivity|].
  assert (EE : forall a b, E g2 a b <-> E g a b /\ a <> t /\ b <> t).
  { assert (Ho : forall b, In b o <-> E g t b) by (intros b; unfold E; now rewrite Go).
    assert (Hi : forall a, In a i <-> E g1 a t) by (intros a; unfold E; now rewrite (inv_edges _ I1), Gi).
    intros a b. rewrite E2, Hi, !E1, !Ho.
    destruct (N.eq_dec a t) as [->|Da], (N.eq_dec b t) as [->|Db]; tauto. }
  assert (G2o : get (g_out g2) t = []).
  { destruct (get (g_out g2) t) as [|x l] eqn:X; [reflexivity|]. exfalso. assert (E g2 t x) by (unfold E; rewrite X; now left).
    apply EE in H. tauto. }
  assert (G2i : get (g_in g2) t = []).
  { destruct (get (g_in g2) t) as [|x l] eqn:X; [reflexivity|]. exfalso. assert (E g2 x t) by (apply (inv_edges _ I2); rewrite X; now left).
    apply EE in H. tauto. }
  assert (Gm : forall m x, get m t = [] -> get (merase m t) x = get m x).
  { intros m x Hm. unfold get in *. rewrite alookup_merase. destruct (N.eqb_spec x t) as [->|?]; [now rewrite Hm|reflexivity]. }
  assert (Hm : forall (m : adj) x, has (merase m t) x = has m x && negb (N.eqb x t)).
  { intros m x. unfold has. rewrite alookup_merase. destruct (N.eqb x t), (alookup m x); reflexivity. }
  split; [|split].
  - constructor; cbn [g_out g_in].
    + rewrite keys_merase. apply serase_NoDup, (inv_kout _ I2).
    + rewrite keys_merase. apply serase_NoDup, (inv_kin _ I2).
    + intros k. now rewrite !Hm, (inv_same _ I2).
    + intros a b. rewrite !Gm by auto. apply (inv_edges _ I2).
    + intros a. rewrite Gm by auto. apply (inv_out _ I2).
    + intros a. rewrite Gm by auto. apply (inv_in _ I2).
  - intros x. unfold V. cbn [g_out]. rewrite Hm, andb_true_iff, negb_true_iff, N.eqb_neq. fold (V g2 x). now rewrite V2, V1.
  - intros a b. unfold E. cbn [g_out]. rewrite Gm by auto. apply EE.
Qed.

Lemma chain_spec : forall r g, inv g -> (forall x, r = [x] -> V g x) -> exists g', chain g r = Ok g' /\ inv g' /\
  (forall x, V g' x <-> V g x \/ In x r) /\ (forall a b, E g' a b <-> E g a b \/ follows r a b).
Proof.
  induction r as [|x [|y r] IH]; intros g I H1.
  - exists g. cbn. split; [reflexivity|]. split; [exact I|]. split; tauto.
  - exists g. cbn. split; [reflexivity|]. split; [exact I|]. split; [|tauto]. intros z. split; [auto|]. intros [?|[<-|[]]]; auto.
  - cbn [chain]. destruct (add_edge_spec g x y I) as (g1 & -> & I1 & V1 & E1). cbn [bind].
    destruct (IH g1 I1) as (g2 & E0 & I2 & V2 & E2); [intros z Hz; injection Hz as ->; apply V1; auto|].
    exists g2. split; [exact E0|]. split; [exact I2|]. split.
    + intros z. rewrite V2, V1. cbn [In]. intuition.
    + intros a b. rewrite E2, E1. cbn [follows]. tauto.
Qed.
Lemma follows_In l a b : follows l a b -> In a l /\ In b l.
Proof.
  induction l as [|x [|y l] IH]; cbn [follows]; [tauto|tauto|]. intros [[-> ->]|H]; [cbn; auto|]. apply IH in H. cbn [In] in *. tauto.
Qed.
Lemma last_In (l : list N) d : l <> [] -> In (last l d) l.
Proof.
  induction l as [|x [|y l] IH]; intros H; [congruence|now left|]. right. apply IH. discriminate.
Qed.

Lemma expand_spec g t front r : inv g -> V g t -> existsb (has (g_out g)) (front :: r) = false ->
  exists g', expand g t (front :: r) = Ok g' /\ inv g' /\ let back := last (front :: r) front in
  (forall x, V g' x <-> (V g x /\ x <> t) \/ In x (front :: r)) /\
  (forall a b, E g' a b <->
     (E g a b /\ a <> t /\ b <> t) \/ follows (front :: r) a b \/
     (a = back /\ b <> t /\ E g t b) \/ (b = front /\ a <> t /\ E g a t) \/ (a = back /\ b = front /\ E g t t)).
Proof.
  intros I Vt Hx. unfold expand. pose proof Vt as Vt0. unfold V in Vt0. rewrite Vt0. cbn [negb].
  rewrite Hx. set (R := front :: r) in *. set (bk := last R front).
  assert (Fresh : forall x, In x R -> ~ V g x).
  { intros x Hin Vx. assert (existsb (has (g_out g)) R = true) by (apply existsb_exists; exists x; auto). congruence. }
  assert (Ht : ~ In t R) by (intros Hin; exact (Fresh _ Hin Vt)).
  assert (Hbk : In bk R) by (apply last_In; discriminate).
  assert (Hfr : In front R) by now left.
  destruct (add_node_spec g front I) as (I0 & V0 & E0).
  destruct (chain_spec R _ I0) as (g1 & -> & I1 & V1 & E1). { intros x Hr. apply V0. right. unfold R in Hr. congruence. }
  cbn [bind]. assert (Vt1 : V g1 t) by (apply V1; left; apply V0; auto).
  assert (E1' : forall a b, E g1 a b <-> E g a b \/ follows R a b) by (intros a b; now rewrite E1, E0).
  assert (V1' : forall x, V g1 x <-> V g x \/ In x R).
  { intros x. rewrite V1, V0. intuition. subst; auto. }
  destruct (at_map_has _ _ Vt1) as (o & -> & Lo). cbn [bind]. pose proof (get_has _ _ _ Lo) as Go.
  assert (Ho : forall b, In b o <-> E g t b).
  { intros b. rewrite <- Go. change (In b (get (g_out g1) t)) with (E g1 t b). rewrite E1'. split; [|auto].
    intros [?|F]; [auto|]. apply follows_In in F. tauto. }
  destruct (remove_outs t o g1 I1) as (g2 & -> & I2 & V2 & E2).
  { rewrite <- Go. apply (inv_out _ I1). } { apply Forall_forall. intros x Hin. unfold E. now rewrite Go. }
  cbn [bind]. destruct (add_outs bk o g2 I2) as (g3 & -> & I3 & V3 & E3). cbn [bind].
  assert (Vt3 : has (g_in g3) t = true) by (rewrite <- (inv_same _ I3); apply V3; left; apply V2; exact Vt1).
  destruct (at_map_has _ _ Vt3) as (i & -> & Li). cbn [bind]. pose proof (get_has _ _ _ Li) as Gi.
  assert (E3' : forall a b, E g3 a b <-> (E g a b /\ a <> t) \/ follows R a b \/ (a = bk /\ E g t b)).
  { intros a b. rewrite E3, E2, E1', !Ho. split.
    - intros [[[H|H] K]|[-> H]]; auto. left. split; [exact H|]. intros ->. apply K; auto.
    - intros [[H K]|[H|[-> H]]]; auto; [left; split; [auto|]; intros [? _]; auto|]. left. split; [auto|].
      intros [-> _]. apply follows_In in H. tauto. }
  assert (Hi : forall a, In a i <-> (E g a t /\ a <> t) \/ (a = bk /\ E g t t)).
  { intros a. rewrite <- Gi, <- (inv_edges _ I3). change (In t (get (g_out g3) a)) with (E g3 a t). rewrite E3'. split; [|tauto].
    intros [?|[F|?]]; auto. apply follows_In in F. tauto. }
  destruct (remove_ins t i g3 I3) as (g4 & -> & I4 & V4 & E4).
  { rewrite <- Gi. apply (inv_in _ I3). } { apply Forall_forall. intros x Hin. apply (inv_edges _ I3). now rewrite Gi. }
  cbn [bind]. destruct (add_ins front i g4 I4) as (g5 & -> & I5 & V5 & E5). cbn [bind].
  assert (Vt5 : V g5 t) by (apply V5; left; apply V4, V3; left; apply V2; exact Vt1).
  destruct (remove_node_spec _ _ I5 Vt5) as (g6 & -> & I6 & V6 & E6). exists g6. split; [reflexivity|]. split; [exact I6|].
  cbv zeta. split.
  - intros x. rewrite V6, V5, V4, V3, V2, V1'. split.
    + intros [[[[H|H]|[[_ ->]|H]]|[[_ ->]|H]] K]; auto.
      * apply Ho in H. left. split; [eapply E_V2; eauto|auto].
      * apply Hi in H. destruct H as [[H _]|[-> _]]; [left; split; [eapply E_V1; eauto|auto]|auto].
    + intros [[H K]|H]; [tauto|]. split; [tauto|]. intros ->; auto.
  - intros a b. rewrite E6, E5, E4, E3', !Hi. 
    assert (NF : forall x y, follows R x y -> x <> t /\ y <> t).
    { intros x y F. apply follows_In in F. split; intros ->; tauto. }
    assert (bk <> t) by (intros Eq; rewrite Eq in Hbk; auto). assert (front <> t) by (intros Eq; rewrite Eq in Hfr; auto).
    split.
    + intros [[[[[H1 H2]|[H1|[-> H1]]] K]|[-> [[H1 H2]|[-> H1]]]] [Ka Kb]]; auto 8.
    + intros [(H1 & H2 & H3)|[H1|[(-> & H1 & H2)|[(-> & H1 & H2)|(-> & -> & H1)]]]].
      * split; [left; split; [auto|]; intros [-> _]; auto|auto].
      * destruct (NF _ _ H1). split; [left; split; [auto|]; intros [-> _]; auto|auto].
      * split; [left; split; [auto|]; intros [-> _]; auto|auto].
      * split; [right; auto|auto].
      * split; [right; auto|auto].
Qed.

(** ** All operations *)
Lemma apply_inv g o g' : inv g -> g_apply g o = Ok g' -> inv g'.
Proof.
  intros I H. destruct o as [l|a b|a b|l|t r]; cbn [g_apply] in H.
  - injection H as <-. now apply add_node_spec.
  - destruct (add_edge_spec g a b I) as (g1 & H1 & I1 & _). congruence.
  - destruct (has (g_out g) a) eqn:Ha; [|unfold remove_edge in H; rewrite Ha in H; discriminate].
    destruct (has (g_out g) b) eqn:Hb; [|unfold remove_edge in H; rewrite Ha, Hb in H; discriminate].
    destruct (in_dec N.eq_dec b (get (g_out g) a)) as [He|He].
    + destruct (remove_edge_spec g a b I He) as (g1 & H1 & I1 & _). congruence.
    + rewrite remove_edge_absent in H by auto. discriminate.
  - destruct (has (g_out g) l) eqn:Hl; [|unfold remove_node in H; rewrite Hl in H; discriminate].
    destruct (remove_node_spec g l I Hl) as (g1 & H1 & I1 & _). congruence.
  - destruct (has (g_out g) t) eqn:Ht; [|unfold expand in H; rewrite Ht in H; discriminate].
    destruct r as [|f r]; [unfold expand in H; rewrite Ht in H; discriminate|].
    destruct (existsb (has (g_out g)) (f :: r)) eqn:Hx; [unfold expand in H; rewrite Ht, Hx in H; discriminate|].
    destruct (expand_spec g t f r I Ht Hx) as (g1 & H1 & I1 & _). congruence.
Qed.
Lemma made_inv g : made g -> inv g.
Proof. induction 1; [apply inv_empty|eapply apply_inv; eauto]. Qed.

(** ** Heads *)
Lemma heads_go (m : adj) f : (forall kv, In kv m -> exists v, f (fst kv) = Ok v) -> forall hs, NoDup hs ->
  exists hs', foldM (fun hs (kv : N * list N) => do i <- f (fst kv) ;; Ok (match i : list N with [] => oset_insert (fst kv) hs | _ => hs end)) m hs = Ok hs'
  /\ NoDup hs' /\ forall x, In x hs' <-> In x hs \/ (In x (keys m) /\ f x = Ok []).
Proof.
  induction m as [|[k v] m IH]; intros Hf hs ND; cbn [foldM keys map fst In].
  - exists hs. split; [reflexivity|]. split; [exact ND|]. tauto.
  - destruct (Hf (k, v)) as [w Hw]; [now left|]. cbn [fst] in *. rewrite Hw. cbn [bind].
    destruct (IH (fun kv H => Hf kv (or_intror H)) (match w with [] => oset_insert k hs | _ => hs end)) as (hs' & -> & ND' & H').
    { destruct w; [now apply oset_insert_NoDup|exact ND]. }
    exists hs'. split; [reflexivity|]. split; [exact ND'|]. intros x. rewrite H'. destruct w as [|w0 w].
    + rewrite oset_insert_In. unfold keys. intuition (subst; auto).
    + unfold keys. intuition. subst. congruence.
Qed.
Lemma heads_spec g : inv g -> exists hs, heads g = Ok hs /\ NoDup hs /\ forall x, In x hs <-> V g x /\ forall a, ~ E g a x.
Proof.
  intros I. unfold heads. destruct (heads_go (g_out g) (at_map (g_in g))) with (hs := @nil N) as (hs & Hh & ND & H); [|constructor|].
  - intros kv Hin. destruct (at_map_has (g_in g) (fst kv)) as (v & Hv & _); [|eauto].
    rewrite <- (inv_same _ I). apply has_In. now apply in_map.
  - exists hs. split; [exact Hh|]. split; [exact ND|]. intros x. rewrite H, <- has_In. fold (V g x). cbn [In]. rewrite at_map_ok. split.
    + intros [[]|[Vx L]]. split; [exact Vx|]. intros a He. apply (inv_edges _ I) in He. rewrite (get_has _ _ _ L) in He. destruct He.
    + intros [Vx N0]. right. split; [exact Vx|]. unfold V in Vx. rewrite (inv_same _ I) in Vx. destruct (at_map_has _ _ Vx) as (v & _ & L).
      destruct v as [|a v]; [exact L|]. exfalso. apply (N0 a). apply (inv_edges _ I). rewrite (get_has _ _ _ L). now left.
Qed.
Lemma tails_spec g : inv g -> exists ts, tails g = Ok ts /\ NoDup ts /\ forall x, In x ts <-> V g x /\ forall b, ~ E g x b.
Proof.
  intros I. unfold tails. destruct (heads_go (g_out g) (at_map (g_out g))) with (hs := @nil N) as (hs & Hh & ND & H); [|constructor|].
  - intros kv Hin. destruct (at_map_has (g_out g) (fst kv)) as (v & Hv & _); [|eauto]. apply has_In. now apply in_map.
  - exists hs. split; [exact Hh|]. split; [exact ND|]. intros x. rewrite H, <- has_In. fold (V g x). cbn [In]. rewrite at_map_ok. split.
    + intros [[]|[Vx L]]. split; [exact Vx|]. intros a He. unfold E in He. rewrite (get_has _ _ _ L) in He. destruct He.
    + intros [Vx N0]. right. split; [exact Vx|]. destruct (at_map_has _ _ Vx) as (v & _ & L).
      destruct v as [|a v]; [exact L|]. exfalso. apply (N0 a). unfold E. rewrite (get_has _ _ _ L). now left.
Qed.

(** ** Topological order *)
Section Topo.
  Variable g : graph.
  Hypothesis I : inv g.
  Local Notation rt := (clos_refl_trans N (E g)).

  Fixpoint good (vis l : list N) : Prop :=
    match l with [] => True | x :: q => (forall y, E g x y -> In y vis \/ rt y x) /\ good (x :: vis) q end.
  Lemma good_mono l : forall vis vis', incl vis vis' -> good vis l -> good vis' l.
  Proof.
    induction l as [|x l IH]; intros vis vis' H G; [exact Logic.I|]. destruct G as [G1 G2]. split.
    - intros y Hy. destruct (G1 y Hy); auto.
    - eapply IH; [|exact G2]. intros z [->|Hz]; [now left|right; auto].
  Qed.
  Lemma good_app l : forall vis l', good vis l -> good (l ++ vis) l' -> good vis (l ++ l').
  Proof.
    induction l as [|x l IH]; intros vis l' G G'; [exact G'|]. destruct G as [G1 G2]. split; [exact G1|].
    apply IH; [exact G2|]. eapply good_mono; [|exact G']. intros z. cbn [app In]. rewrite !in_app_iff. cbn [In]. tauto.
  Qed.
  Lemma good_drop c l : forall vis, (forall x, In x l -> rt c x) -> good (c :: vis) l -> good vis l.
  Proof.
    induction l as [|x l IH]; intros vis H G; [exact Logic.I|]. destruct G as [G1 G2]. split.
    - intros y Hy. destruct (G1 y Hy) as [[->|?]|?]; auto. right. apply H. now left.
    - apply IH; [intros z Hz; apply H; now right|]. eapply good_mono; [|exact G2]. intros z. cbn [In]. tauto.
  Qed.
  Lemma good_split l : forall vis p x q y, good vis l -> l = p ++ x :: q -> E g x y -> In y vis \/ In y p \/ rt y x.
  Proof.
    induction l as [|z l IH]; intros vis p x q y G El Hy; [destruct p; discriminate|]. destruct G as [G1 G2].
    destruct p as [|p0 p]; cbn [app] in El; injection El as -> ->.
    - destruct (G1 y Hy); auto.
    - destruct (IH _ p x q y G2 eq_refl Hy) as [[->|?]|[?|?]]; cbn [In]; auto.
  Qed.

  Definition Q (vis vis' new roots : list N) : Prop :=
    NoDup vis' /\ (forall x, In x vis' <-> In x vis \/ In x new) /\ NoDup new /\ (forall x, In x new -> ~ In x vis) /\
    (forall x, In x new -> V g x /\ exists r, In r roots /\ rt r x) /\ incl roots vis' /\ good vis new /\
    (forall x y, In x new -> E g x y -> In y vis').
  Lemma Q_refl vis roots : NoDup vis -> incl roots vis -> Q vis vis [] roots.
  Proof.
    intros H1 H2. split; [exact H1|]. cbn. split; [tauto|]. split; [constructor|]. split; [tauto|]. split; [tauto|]. split; [exact H2|]. tauto.
  Qed.
  Lemma Q_app vis vis1 vis2 new1 new2 n ns : Q vis vis1 new1 [n] -> Q vis1 vis2 new2 ns -> Q vis vis2 (new1 ++ new2) (n :: ns).
  Proof.
    intros (A1 & A2 & A3 & A4 & A5 & A6 & A7 & A8) (B1 & B2 & B3 & B4 & B5 & B6 & B7 & B8).
    split; [exact B1|]. split; [intros x; rewrite B2, A2, in_app_iff; tauto|]. split.
    { assert (forall x, In x new1 -> ~ In x new2) by (intros x Hx Hy; apply (B4 x Hy), A2; auto).
      clear - A3 B3 H. induction new1 as [|x l IH]; [exact B3|]. inversion A3; subst. cbn. constructor.
      - rewrite in_app_iff. intros [?|?]; [auto|]. apply (H x); [now left|auto].
      - apply IH; auto. intros z Hz. apply H. now right. }
    split. { intros x Hx. apply in_app_iff in Hx. destruct Hx as [Hx|Hx]; [auto|]. intros Hv. apply (B4 x Hx), A2. auto. }
    split. { intros x Hx. apply in_app_iff in Hx. destruct Hx as [Hx|Hx].
      - destruct (A5 x Hx) as (Vx & r & [<-|[]] & Hr). split; [exact Vx|]. exists n. split; [now left|exact Hr].
      - destruct (B5 x Hx) as (Vx & r & Hr & Hr'). split; [exact Vx|]. exists r. split; [now right|exact Hr']. }
    split. { intros x [<-|Hx]; [|auto]. apply B2. left. apply A6. now left. }
    split. { apply good_app; [exact A7|]. eapply good_mono; [|exact B7]. intros z Hz. apply A2 in Hz. apply in_app_iff. tauto. }
    intros x y Hx Hy. apply in_app_iff in Hx. destruct Hx as [Hx|Hx]; [|eauto]. apply B2. left. eauto.
  Qed.

  Definition state_ok (vis : list N) : Prop := NoDup vis /\ (forall x, In x vis -> V g x).
  Lemma Q_ok vis vis' new roots : state_ok vis -> Q vis vis' new roots -> state_ok vis' /\ (length vis <= length vis')%nat.
  Proof.
    intros [S1 S2] (A1 & A2 & A3 & A4 & A5 & _). split; [split; [exact A1|]|].
    - intros x Hx. apply A2 in Hx. destruct Hx; [auto|]. now apply A5.
    - apply NoDup_incl_length; [exact S1|]. intros x Hx. apply A2. auto.
  Qed.
  Lemma ok_length vis : state_ok vis -> (length vis <= length (g_out g))%nat.
  Proof.
    intros [S1 S2]. rewrite <- (map_length fst (g_out g)). apply NoDup_incl_length; [exact S1|]. intros x Hx. apply has_In. now apply S2.
  Qed.

  Lemma topo_fold f : (forall cur vis ord, state_ok vis -> V g cur -> (length vis + f > length (g_out g))%nat ->
      exists vis' new, topo_helper f g cur (vis, ord) = Ok (vis', ord ++ new) /\ Q vis vis' new [cur]) ->
    forall ns vis ord, state_ok vis -> Forall (V g) ns -> (length vis + f > length (g_out g))%nat ->
      exists vis' new, foldM (fun st n => topo_helper f g n st) ns (vis, ord) = Ok (vis', ord ++ new) /\ Q vis vis' new ns.
  Proof.
    intros Hh. induction ns as [|n ns IH]; intros vis ord S0 Fn Hf; cbn [foldM].
    - exists vis, []. rewrite app_nil_r. split; [reflexivity|]. apply Q_refl; [apply S0|intros x []].
    - inversion Fn as [|? ? Vn Fn']; subst. destruct (Hh n vis ord S0 Vn Hf) as (vis1 & new1 & -> & Q1). cbn [bind].
      destruct (Q_ok _ _ _ _ S0 Q1) as [S1 L1].
      destruct (IH vis1 (ord ++ new1) S1 Fn') as (vis2 & new2 & -> & Q2); [lia|].
      exists vis2, (new1 ++ new2). rewrite app_assoc. split; [reflexivity|]. eapply Q_app; eauto.
  Qed.
  Lemma topo_helper_ok : forall f cur vis ord, state_ok vis -> V g cur -> (length vis + f > length (g_out g))%nat ->
    exists vis' new, topo_helper f g cur (vis, ord) = Ok (vis', ord ++ new) /\ Q vis vis' new [cur].
  Proof.
    induction f as [|f IH]; intros cur vis ord S0 Vc Hf; [pose proof (ok_length _ S0); lia|].
    cbn [topo_helper]. destruct (memN cur vis) eqn:M.
    - apply memN_In in M. exists vis, []. rewrite app_nil_r. split; [reflexivity|]. apply Q_refl; [apply S0|].
      intros x [<-|[]]. exact M.
    - pose proof M as M'. apply memN_notIn in M'. destruct (at_map_has _ _ Vc) as (ns & -> & L). cbn [bind].
      assert (Hns : forall y, In y ns <-> E g cur y) by (intros y; unfold E; now rewrite (get_has _ _ _ L)).
      assert (S1 : state_ok (oset_insert cur vis)).
      { destruct S0 as [S1 S2]. split; [now apply oset_insert_NoDup|]. intros x Hx. apply oset_insert_In in Hx. destruct Hx; subst; auto. }
      assert (Hl : length (oset_insert cur vis) = S (length vis)).
      { unfold oset_insert. rewrite M, app_length. cbn. lia. }
      destruct (topo_fold f IH ns _ ord S1) as (vis' & new & -> & Q1).
      { apply Forall_forall. intros y Hy. apply Hns in Hy. eapply E_V2; eauto. } { lia. }
      cbn [bind]. exists vis', (new ++ [cur]). rewrite app_assoc. split; [reflexivity|].
      destruct Q1 as (A1 & A2 & A3 & A4 & A5 & A6 & A7 & A8).
      assert (R : forall x, In x new -> rt cur x).
      { intros x Hx. destruct (A5 x Hx) as (_ & r & Hr & Hrt). apply Hns in Hr. eapply rt_trans; [apply rt_step; exact Hr|exact Hrt]. }
      assert (Nc : ~ In cur new) by (intros Hc; apply (A4 _ Hc), oset_insert_In; auto).
      split; [exact A1|]. split; [intros x; rewrite A2, in_app_iff, oset_insert_In; cbn [In]; intuition|].
      split; [now apply NoDup_snoc|].
      split. { intros x Hx. apply in_app_iff in Hx. destruct Hx as [Hx|[<-|[]]]; [|exact M']. intros Hv. apply (A4 _ Hx), oset_insert_In. auto. }
      split. { intros x Hx. apply in_app_iff in Hx. destruct Hx as [Hx|[<-|[]]].
        - split; [now apply A5|]. exists cur. split; [now left|auto].
        - split; [exact Vc|]. exists cur. split; [now left|apply rt_refl]. }
      split. { intros x [<-|[]]. apply A2. left. apply oset_insert_In. auto. }
      split. { apply good_app.
        - eapply good_drop; [exact R|]. eapply good_mono; [|exact A7]. intros z Hz. apply oset_insert_In in Hz. cbn [In]. intuition.
        - split; [|exact Logic.I]. intros y Hy. apply Hns in Hy. apply A6, A2 in Hy. rewrite oset_insert_In in Hy. rewrite in_app_iff.
          destruct Hy as [[->|?]|?]; auto. right. apply rt_refl. }
      intros x y Hx Hy. apply in_app_iff in Hx. destruct Hx as [Hx|[<-|[]]]; [eauto|]. apply A6. now apply Hns.
  Qed.

  Lemma topo_total : exists o hs, topological_order g = Ok o /\ heads g = Ok hs /\ NoDup o /\
    (forall x, In x o <-> exists h, In h hs /\ rt h x) /\ good [] o.
  Proof.
    unfold topological_order. destruct (heads_spec g I) as (hs & -> & ND & Hh). cbn [bind].
    destruct (topo_fold (length (g_out g) + 1) (topo_helper_ok _) hs [] []) as (vis & o & -> & Q0).
    { split; [constructor|intros x []]. } { apply Forall_forall. intros x Hx. now apply Hh. } { cbn. lia. }
    cbn [bind app]. exists o, hs. split; [reflexivity|]. split; [reflexivity|].
    destruct Q0 as (A1 & A2 & A3 & A4 & A5 & A6 & A7 & A8). split; [exact A3|]. split; [|exact A7].
    intros x. split; [intros Hx; now apply A5|]. intros (h & Hin & Hr).
    assert (Ho : In h o). { apply A6, A2 in Hin. destruct Hin as [[]|]; auto. }
    apply clos_rt_rtn1 in Hr. induction Hr as [|y z Hyz _ IHr]; [exact Ho|]. pose proof (A8 _ _ IHr Hyz) as K. apply A2 in K. destruct K as [[]|]; auto.
  Qed.
End Topo.

(** A finite nonempty set in which everything has a predecessor has a cycle. *)
Fixpoint path (R : N -> N -> Prop) (l : list N) : Prop :=
  match l with x :: ((y :: _) as r) => R y x /\ path R r | _ => True end.
Lemma path_tail R x l : path R (x :: l) -> path R l.
Proof. destruct l; cbn; tauto. Qed.
Lemma path_app R p l : path R (p ++ l) -> path R l.
Proof. induction p as [|x p IH]; [auto|]. intros H. apply IH. eapply path_tail. exact H. Qed.
Lemma path_reach R : forall q a b r, path R (a :: q ++ b :: r) -> clos_trans N R b a.
Proof.
  induction q as [|c q IH]; intros a b r H; cbn [app path] in H; destruct H as [H1 H2].
  - now apply t_step.
  - eapply t_trans; [eapply IH; exact H2|now apply t_step].
Qed.
Lemma path_exists (R : N -> N -> Prop) (Ss : list N) : (forall x, In x Ss -> exists y, In y Ss /\ R y x) ->
  forall n x, In x Ss -> exists l, length l = n /\ path R (x :: l) /\ incl l Ss.
Proof.
  intros H. induction n as [|n IH]; intros x Hx.
  - exists []. split; [reflexivity|]. split; [exact Logic.I|intros z []].
  - destruct (H x Hx) as (y & Hy & Hr). destruct (IH y Hy) as (l & Hl & Hp & Hi). exists (y :: l).
    split; [cbn; lia|]. split; [split; [exact Hr|exact Hp]|]. intros z [<-|Hz]; auto.
Qed.
Lemma dup_split (l : list N) : ~ NoDup l -> exists p a q r, l = p ++ a :: q ++ a :: r.
Proof.
  induction l as [|x l IH]; intros H; [exfalso; apply H; constructor|].
  destruct (in_dec N.eq_dec x l) as [Hx|Hx].
  - apply in_split in Hx. destruct Hx as (q & r & ->). exists [], x, q, r. reflexivity.
  - destruct IH as (p & a & q & r & ->). { intros ND. apply H. now constructor. } exists (x :: p), a, q, r. reflexivity.
Qed.
Lemma cycle_exists (R : N -> N -> Prop) (Ss : list N) x : In x Ss -> (forall x, In x Ss -> exists y, In y Ss /\ R y x) ->
  exists a, clos_trans N R a a.
Proof.
  intros Hx H. destruct (path_exists R Ss H (length Ss) x Hx) as (l & Hl & Hp & Hi).
  destruct (dup_split (x :: l)) as (p & a & q & r & Ed).
  - intros ND. assert (Hlen : (length (x :: l) <= length Ss)%nat) by (apply NoDup_incl_length; [exact ND|]; intros z [<-|Hz]; auto).
    cbn in Hlen. lia.
  - exists a. rewrite Ed in Hp. apply path_app in Hp. eapply path_reach. exact Hp.
Qed.

Lemma ct_iff (R R' : N -> N -> Prop) a b : (forall x y, R x y <-> R' x y) -> clos_trans N R a b <-> clos_trans N R' a b.
Proof. intros H. split; induction 1; [apply t_step; now apply H|eapply t_trans; eauto|apply t_step; now apply H|eapply t_trans; eauto]. Qed.
Lemma before_E g a b : before g a b <-> clos_trans N (E g) a b.
Proof. apply ct_iff. intros. apply edge_E. Qed.
Lemma t_rt {R : N -> N -> Prop} {a b c} : R a b -> clos_refl_trans N R b c -> clos_trans N R a c.
Proof. intros H1 H2. apply clos_rt_rt1n in H2. revert a H1. induction H2 as [|x y z Hxy _ IH]; intros a H1; [now apply t_step|]. eapply t_trans; [apply t_step; exact H1|]. now apply IH. Qed.

Lemma t_to_rt {R : N -> N -> Prop} {a b} : clos_trans N R a b -> clos_refl_trans N R a b.
Proof. induction 1; [now apply rt_step|eapply rt_trans; eauto]. Qed.

Lemma topo_spec g : inv g -> acyclic g -> exists o, topological_order g = Ok o /\ NoDup o /\ (forall x, In x o <-> V g x) /\
  (forall a b, E g a b -> earlier o b a).
Proof.
  intros I Ac. destruct (topo_total g I) as (o & hs & Ho & Hh & ND & Hin & G). exists o. split; [exact Ho|]. split; [exact ND|].
  destruct (heads_spec g I) as (hs' & Hh' & _ & Hhs). assert (hs' = hs) by congruence. subst hs'.
  assert (All : forall x, In x o <-> V g x).
  { intros x. split.
    - intros Hx. apply Hin in Hx. destruct Hx as (h & H1 & H2). apply clos_rt_rtn1 in H2. destruct H2; [now apply Hhs|eapply E_V2; eauto].
    - intros Vx. destruct (in_dec N.eq_dec x o) as [?|Hn]; [auto|]. exfalso.
      destruct (cycle_exists (E g) (filter (fun k => negb (memN k o)) (keys (g_out g))) x) as [a Ha].
      + apply filter_In. split; [now apply has_In|]. apply negb_true_iff. now apply memN_notIn.
      + intros y Hy. apply filter_In in Hy. destruct Hy as [Hy Hy']. apply has_In in Hy. apply negb_true_iff, memN_notIn in Hy'.
        destruct (get (g_in g) y) as [|a l] eqn:Gy.
        * exfalso. apply Hy', Hin. exists y. split; [|apply rt_refl]. apply Hhs. split; [exact Hy|]. intros a He.
          apply (inv_edges _ I) in He. rewrite Gy in He. destruct He.
        * assert (He : E g a y) by (apply (inv_edges _ I); rewrite Gy; now left). exists a. split; [|exact He].
          apply filter_In. split; [apply has_In; eapply E_V1; eauto|]. apply negb_true_iff, memN_notIn. intros Ha. apply Hy', Hin.
          apply Hin in Ha. destruct Ha as (h & H1 & H2). exists h. split; [exact H1|]. eapply rt_trans; [exact H2|now apply rt_step].
      + apply (Ac a). now apply before_E. }
  split; [exact All|]. intros a b He. assert (Ha : In a o) by (apply All; eapply E_V1; eauto).
  apply in_split in Ha. destruct Ha as (p & q & Ep).
  destruct (good_split g o [] p a q b G Ep He) as [[]|[Hb|Hb]].
  - apply in_split in Hb. destruct Hb as (p1 & p2 & ->). exists p1, p2, q. rewrite Ep, <- app_assoc. reflexivity.
  - exfalso. apply (Ac a), before_E. eapply t_rt; eauto.
Qed.

(** ** Expansion and reachability *)
Section ExpandReach.
  Variables (g g' : graph) (t front : N) (r : list N).
  Let R := front :: r.
  Let back := last R front.
  Hypothesis ND : NoDup R.
  Hypothesis Fresh : forall x, In x R -> ~ V g x.
  Hypothesis I : inv g.
  Hypothesis Vt : V g t.
  Hypothesis Ett : ~ E g t t.
  Hypothesis HE : forall a b, E g' a b <->
     (E g a b /\ a <> t /\ b <> t) \/ follows R a b \/
     (a = back /\ b <> t /\ E g t b) \/ (b = front /\ a <> t /\ E g a t) \/ (a = back /\ b = front /\ E g t t).

  (** where each new node came from *)
  Definition old (x : N) : N := if memN x R then t else x.
  Lemma back_R : In back R.
  Proof. apply last_In. discriminate. Qed.
  Lemma front_R : In front R.
  Proof. now left. Qed.
  Lemma old_R x : In x R -> old x = t.
  Proof. unfold old. intros H. apply memN_In in H. now rewrite H. Qed.
  Lemma old_V x : V g x -> old x = x.
  Proof. unfold old. intros H. destruct (memN x R) eqn:M; [|reflexivity]. apply memN_In in M. exfalso. eapply Fresh; eauto. Qed.

  Lemma step_old a b : E g' a b -> E g (old a) (old b) \/ (In a R /\ In b R /\ follows R a b).
  Proof.
    intros H. apply HE in H. destruct H as [(H & _)|[H|[(-> & Hb & H)|[(-> & Ha & H)|(-> & -> & H)]]]].
    - left. rewrite !old_V; [exact H|eapply E_V2; eauto|eapply E_V1; eauto].
    - right. destruct (follows_In _ _ _ H). auto.
    - left. rewrite (old_R back back_R), old_V; [exact H|eapply E_V2; eauto].
    - left. rewrite (old_R front front_R), old_V; [exact H|eapply E_V1; eauto].
    - tauto.
  Qed.
  Lemma follows_chain l a b : follows l a b -> NoDup l -> earlier l a b.
  Proof.
    induction l as [|x [|y l] IH]; cbn [follows]; [tauto|tauto|]. intros [[-> ->]|H] N0.
    - exists [], [], l. reflexivity.
    - inversion N0; subst. destruct (IH H) as (p & q & s & Eq); [auto|]. exists (x :: p), q, s. cbn. now rewrite Eq.
  Qed.
  Lemma earlier_trans l a b c : NoDup l -> earlier l a b -> earlier l b c -> earlier l a c.
  Proof.
    intros N0 (p & q & s & E1) (p' & q' & s' & E2).
    (* positions of b agree *)
    assert (Eb : p ++ a :: q = p' /\ s = q' ++ c :: s').
    { assert (X : (p ++ a :: q) ++ b :: s = p' ++ b :: q' ++ c :: s') by (rewrite <- app_assoc; cbn; congruence).
      assert (N1 : NoDup ((p ++ a :: q) ++ b :: s)) by (rewrite <- app_assoc; cbn; congruence).
      clear - X N1. revert p' X N1. induction (p ++ a :: q) as [|x l IH]; intros p' X N1; cbn [app] in *.
      - destruct p' as [|y p']; cbn in X; [injection X as X1; auto|]. injection X as X1 X2. exfalso. subst. inversion N1 as [|? ? N2 _]. apply N2.
        apply in_app_iff. right. now left.
      - destruct p' as [|y p']; cbn in X; injection X as X1 X2.
        + exfalso. subst x. inversion N1; subst. apply H1. apply in_app_iff. right. now left.
        + inversion N1; subst. destruct (IH _ X2 H2) as [-> ->]. auto. }
    destruct Eb as [<- ->]. exists p, (q ++ b :: q'), s'. rewrite E1. rewrite <- app_assoc. reflexivity.
  Qed.
  Lemma chain_reach l : forall a b, earlier l a b -> clos_trans N (follows l) a b.
  Proof.
    assert (G : forall q p a b s, l = p ++ a :: q ++ b :: s -> clos_trans N (follows l) a b).
    { assert (F : forall p a b s, l = p ++ a :: b :: s -> follows l a b).
      { clear. revert l. intros l p. revert l. induction p as [|x p IH]; intros l a b s ->; [cbn; auto|].
        cbn [app]. destruct (p ++ a :: b :: s) as [|y z] eqn:Y; [destruct p; discriminate|]. change ((a = x /\ b = y) \/ follows (y :: z) a b). right. apply (IH _ a b s). congruence. }
      induction q as [|c q IH]; intros p a b s El.
      - apply t_step. eapply F. exact El.
      - eapply t_trans; [apply t_step; eapply F; exact El|]. apply (IH (p ++ [a]) c b s). now rewrite <- app_assoc. }
    intros a b (p & q & s & El). eapply G; exact El.
  Qed.

  Lemma reach_old a b : clos_trans N (E g') a b -> clos_trans N (E g) (old a) (old b) \/ (In a R /\ In b R /\ earlier R a b).
  Proof.
    induction 1 as [a b H|a b c _ IH1 _ IH2].
    - destruct (step_old _ _ H) as [H1|(H1 & H2 & H3)]; [left; now apply t_step|]. right. repeat split; auto. now apply follows_chain.
    - destruct IH1 as [H1|(A1 & B1 & C1)], IH2 as [H2|(A2 & B2 & C2)].
      + left. eapply t_trans; eauto.
      + left. rewrite (old_R c), <- (old_R b); auto.
      + left. rewrite (old_R a), <- (old_R b); auto.
      + right. repeat split; auto. eapply earlier_trans; eauto.
  Qed.
  Lemma chain_new a b : earlier R a b -> clos_trans N (E g') a b.
  Proof.
    intros H. apply chain_reach in H. induction H as [a b H|a b c _ IH1 _ IH2]; [|eapply t_trans; eauto].
    apply t_step, HE. auto.
  Qed.
  Lemma front_to x : In x R -> clos_refl_trans N (E g') front x.
  Proof.
    intros [<-|Hx]; [apply rt_refl|]. apply t_to_rt, chain_new. apply in_split in Hx. destruct Hx as (p & q & Er).
    exists [], p, q. unfold R. now rewrite Er.
  Qed.
  Lemma to_back x : In x R -> clos_refl_trans N (E g') x back.
  Proof.
    intros Hx. destruct (N.eq_dec x back) as [->|D]; [apply rt_refl|]. apply t_to_rt, chain_new.
    assert (El : exists l, R = l ++ [back]).
    { exists (removelast R). unfold back. apply app_removelast_last. discriminate. }
    destruct El as [l El]. assert (Hl : In x l). { rewrite El in Hx. apply in_app_iff in Hx. destruct Hx as [?|[?|[]]]; [auto|congruence]. }
    apply in_split in Hl. destruct Hl as (p & q & ->). exists p, q, []. rewrite El, <- app_assoc. reflexivity.
  Qed.
  Lemma step_new a b x y : E g a b -> (a = t -> In x R) -> (a <> t -> x = a) -> (b = t -> In y R) -> (b <> t -> y = b) ->
    clos_trans N (E g') x y.
  Proof.
    intros H X1 X2 Y1 Y2. destruct (N.eq_dec a t) as [->|Da], (N.eq_dec b t) as [->|Db].
    - tauto.
    - rewrite (Y2 Db). eapply clos_rt_t; [apply to_back; auto|]. apply t_step, HE. right; right; left; auto.
    - rewrite (X2 Da). apply (t_rt (b := front)); [apply HE; right; right; right; left; auto|apply front_to; auto].
    - rewrite (X2 Da), (Y2 Db). apply t_step, HE. auto.
  Qed.
  Definition stands (a x : N) : Prop := (a = t /\ In x R) \/ (a <> t /\ x = a).
  Lemma reach_new a b : clos_trans N (E g) a b -> forall x y, stands a x -> stands b y -> clos_trans N (E g') x y.
  Proof.
    intros H. apply clos_trans_t1n in H. induction H as [a b H|a b c H _ IH]; intros x y Hx Hy.
    - apply (step_new a b); [exact H|..]; unfold stands in *; tauto.
    - set (z := if N.eqb b t then front else b).
      assert (Hz : stands b z).
      { unfold z, stands. destruct (N.eqb_spec b t) as [->|D]; [left; split; [reflexivity|apply front_R]|auto]. }
      eapply t_trans; [|apply IH; eauto]. apply (step_new a b); [exact H|..]; unfold stands in *; tauto.
  Qed.
End ExpandReach.
