(** C19, C20, C21, C22, C54: dependency graphs. *)
From Coq Require Import Relations Permutation.
From Verif Require Import Base PatchesModel InstrModel InstrProofs GatesModel LoweringModel LoweringProofs DagModel DagSpec DagProofs DagSim.
Local Open Scope nat_scope.

(** exhibit a computed result *)
Ltac give t := let v := eval vm_compute in t in match v with Ok ?d => exists d end.

(** ** C19 *)

(** Whatever was done to a graph, its successors and its predecessors describe the
    same relation, between nodes of the graph, without repetitions. *)
Theorem C19_consistent : forall g, made g ->
  (forall a b, edge g a b <-> back_edge g b a) /\
  (forall a b, edge g a b -> node g a /\ node g b) /\
  (forall a l, successors g a = Ok l -> NoDup l) /\ (forall a l, predecessors g a = Ok l -> NoDup l) /\
  (forall a, node g a <-> exists l, predecessors g a = Ok l).
Proof.
  intros g M. pose proof (made_inv _ M) as I. split; [|split; [|split; [|split]]].
  - intros a b. rewrite edge_E, back_edge_E by exact I. reflexivity.
  - intros a b H. apply edge_E in H. rewrite !node_V. split; [eapply E_V1|eapply E_V2]; eauto.
  - intros a l H. unfold successors in H. destruct (has (g_out g) a); [|discriminate]. cbn [negb] in H. apply at_map_ok in H.
    rewrite <- (get_has _ _ _ H). apply (inv_out _ I).
  - intros a l H. unfold predecessors in H. destruct (has (g_out g) a); [|discriminate]. cbn [negb] in H. apply at_map_ok in H.
    rewrite <- (get_has _ _ _ H). apply (inv_in _ I).
  - intros a. rewrite node_V. unfold V, predecessors. split.
    + intros H. pose proof H as H'. rewrite H. cbn [negb]. rewrite (inv_same _ I) in H'. destruct (at_map_has _ _ H') as (v & -> & _). eauto.
    + intros [l H]. destruct (has (g_out g) a); [reflexivity|discriminate].
Qed.
Print Assumptions C19_consistent.

(** Each operation that succeeds does to nodes and edges what it should. *)
Theorem C19_effects : forall g o g', made g -> g_apply g o = Ok g' -> effect o g g'.
Proof.
  intros g o g' M H. pose proof (made_inv _ M) as I.
  assert (N' : forall x, node g x <-> V g x) by (intros; apply node_V). assert (E' : forall a b, edge g a b <-> E g a b) by (intros; apply edge_E).
  assert (N2 : forall x, node g' x <-> V g' x) by (intros; apply node_V). assert (E2 : forall a b, edge g' a b <-> E g' a b) by (intros; apply edge_E).
  destruct o as [l|a b|a b|l|t r]; cbn [g_apply effect] in *.
  - injection H as <-. destruct (add_node_spec g l I) as (_ & V1 & E1). split; intros.
    + rewrite N2, N'. apply V1. + rewrite E2, E'. apply E1.
  - destruct (add_edge_spec g a b I) as (g1 & H1 & _ & V1 & E1). assert (g1 = g') by congruence. subst. split; intros.
    + rewrite N2, N'. apply V1. + rewrite E2, E'. apply E1.
  - destruct (has (g_out g) a) eqn:Ha; [|unfold remove_edge in H; rewrite Ha in H; discriminate].
    destruct (has (g_out g) b) eqn:Hb; [|unfold remove_edge in H; rewrite Ha, Hb in H; discriminate].
    destruct (in_dec N.eq_dec b (get (g_out g) a)) as [He|He]; [|rewrite remove_edge_absent in H by auto; discriminate].
    destruct (remove_edge_spec g a b I He) as (g1 & H1 & _ & V1 & E1). assert (g1 = g') by congruence. subst. split; intros.
    + rewrite N2, N'. apply V1. + rewrite E2, E'. apply E1.
  - destruct (has (g_out g) l) eqn:Hl; [|unfold remove_node in H; rewrite Hl in H; discriminate].
    destruct (remove_node_spec g l I Hl) as (g1 & H1 & _ & V1 & E1). assert (g1 = g') by congruence. subst. split; intros.
    + rewrite N2, N'. apply V1. + rewrite E2, E'. apply E1.
  - destruct (has (g_out g) t) eqn:Ht; [|unfold expand in H; rewrite Ht in H; discriminate].
    destruct r as [|f r]; [unfold expand in H; rewrite Ht in H; discriminate|].
    destruct (existsb (has (g_out g)) (f :: r)) eqn:Hx; [unfold expand in H; rewrite Ht, Hx in H; discriminate|].
    destruct (expand_spec g t f r I Ht Hx) as (g1 & H1 & _ & V1 & E1). assert (g1 = g') by congruence. subst. exists f. split; [reflexivity|]. split; intros.
    + rewrite N2, N'. apply V1. + rewrite E2, !E'. apply E1.
Qed.
Print Assumptions C19_effects.

(** What can go wrong, exactly. *)
Theorem C19_outcomes : forall g o, made g ->
  (exists g', g_apply g o = Ok g') \/
  (g_apply g o = Throw RuntimeError /\
     match o with
     | AddNode _ | AddEdge _ _ => False
     | RemoveEdge a b => ~ node g a \/ ~ node g b
     | RemoveNode l => ~ node g l
     | Expand t r => ~ node g t \/ r = [] \/ exists x, In x r /\ node g x
     end) \/
  (g_apply g o = UB UBDeref /\ exists a b, o = RemoveEdge a b /\ node g a /\ node g b /\ ~ edge g a b).
Proof.
  intros g o M. pose proof (made_inv _ M) as I.
  assert (Nn : forall x, has (g_out g) x = false -> ~ node g x) by (intros x Hx Hn; apply node_V in Hn; unfold V in Hn; congruence).
  destruct o as [l|a b|a b|l|t r]; cbn [g_apply].
  - left. eauto.
  - left. destruct (add_edge_spec g a b I) as (g1 & H1 & _). eauto.
  - destruct (has (g_out g) a) eqn:Ha; [|right; left; unfold remove_edge; rewrite Ha; auto].
    destruct (has (g_out g) b) eqn:Hb; [|right; left; unfold remove_edge; rewrite Ha, Hb; auto].
    destruct (in_dec N.eq_dec b (get (g_out g) a)) as [He|He].
    + left. destruct (remove_edge_spec g a b I He) as (g1 & H1 & _). eauto.
    + right; right. split; [now apply remove_edge_absent|]. exists a, b. rewrite !node_V, edge_E. auto.
  - destruct (has (g_out g) l) eqn:Hl; [|right; left; unfold remove_node; rewrite Hl; auto].
    left. destruct (remove_node_spec g l I Hl) as (g1 & H1 & _). eauto.
  - destruct (has (g_out g) t) eqn:Ht; [|right; left; unfold expand; rewrite Ht; auto].
    destruct r as [|f r]; [right; left; unfold expand; rewrite Ht; auto|].
    destruct (existsb (has (g_out g)) (f :: r)) eqn:Hx.
    + right; left. split; [unfold expand; rewrite Ht; cbn [negb]; rewrite Hx; reflexivity|]. right; right. apply existsb_exists in Hx. destruct Hx as (x & H1 & H2).
      exists x. split; [exact H1|]. now apply node_V.
    + left. destruct (expand_spec g t f r I Ht Hx) as (g1 & H1 & _). eauto.
Qed.
Print Assumptions C19_outcomes.

(** Removing an edge that is not there is not reported: it is undefined. *)
Theorem C19_absent_edge_refuted : exists g, made g /\ node g 1%N /\ node g 2%N /\ g_apply g (RemoveEdge 1 2) = UB UBDeref.
Proof.
  exists (mkG [(1%N, []); (2%N, [1%N])] [(1%N, [2%N]); (2%N, [])]). split; [|split; [|split]].
  - eapply made_op; [apply made_empty|]. instantiate (1 := AddEdge 2 1). reflexivity.
  - eexists; reflexivity. - eexists; reflexivity. - reflexivity.
Qed.
Print Assumptions C19_absent_edge_refuted.

(** A history with every operation. *)
Definition history : list gop :=
  [AddEdge 0 1; AddEdge 1 2; AddNode 3; AddEdge 0 2; AddEdge 3 1; AddEdge 2 2; RemoveEdge 0 2; Expand 1 [10; 11; 12]%N; RemoveNode 0].
Example C19_history : foldM g_apply history g_empty =
  Ok (mkG [(2, [2]); (3, [10]); (10, [11]); (11, [12]); (12, [2])] [(2, [2; 12]); (3, []); (10, [3]); (11, [10]); (12, [11])])%N.
Proof. reflexivity. Qed.
Example C19_made : exists g, foldM g_apply history g_empty = Ok g /\ made g.
Proof.
  assert (G : forall ops g g', made g -> foldM g_apply ops g = Ok g' -> made g').
  { induction ops as [|o ops IH]; intros g g' M H; cbn [foldM] in H; [congruence|]. apply bind_ok in H. destruct H as (g1 & H1 & H2).
    eapply IH; [eapply made_op; eauto|exact H2]. }
  rewrite C19_history. eexists. split; [reflexivity|]. eapply G; [apply made_empty|apply C19_history].
Qed.

(** ** C20 *)

(** The order of an acyclic graph lists every node once, after everything it
    points to. *)
Theorem C20_order : forall g, made g -> acyclic g -> exists o, topological_order g = Ok o /\ NoDup o /\
  (forall x, In x o <-> node g x) /\ (forall a b, edge g a b -> earlier o b a).
Proof.
  intros g M Ac. destruct (topo_spec g (made_inv _ M) Ac) as (o & H1 & H2 & H3 & H4). exists o. split; [exact H1|]. split; [exact H2|].
  split; [intros x; now rewrite node_V|]. intros a b H. apply H4. now apply edge_E.
Qed.
Print Assumptions C20_order.

(** On any graph, cyclic ones included, the search ends and lists exactly what
    can be reached from the nodes without predecessors. *)
Theorem C20_total : forall g, made g -> exists o hs, topological_order g = Ok o /\ heads g = Ok hs /\ NoDup o /\
  (forall h, In h hs <-> node g h /\ forall a, ~ edge g a h) /\
  (forall x, In x o <-> exists h, In h hs /\ (h = x \/ before g h x)).
Proof.
  intros g M. pose proof (made_inv _ M) as I. destruct (topo_total g I) as (o & hs & H1 & H2 & H3 & H4 & _). exists o, hs.
  split; [exact H1|]. split; [exact H2|]. split; [exact H3|]. split.
  - destruct (heads_spec g I) as (hs' & Hh & _ & Hs). assert (hs' = hs) by congruence. subst. intros h. rewrite Hs, node_V.
    split; intros [A B]; (split; [exact A|]); intros a; specialize (B a); now rewrite ?edge_E in *.
  - intros x. rewrite H4. split; intros (h & Hh & Hr); exists h; (split; [exact Hh|]).
    + apply clos_rt_rt1n in Hr. destruct Hr as [|y z Hy Hr]; [now left|right]. apply before_E. eapply t_rt; [exact Hy|]. now apply clos_rt1n_rt.
    + destruct Hr as [->|Hr]; [apply rt_refl|]. apply before_E in Hr. now apply t_to_rt.
Qed.
Print Assumptions C20_total.

(** The graphs of programs are acyclic, before and while they run, whatever
    notion of commutation is used. *)
Theorem C20_programs : forall A (can : A -> A -> outcome bool) prog d0 tr d, dag_of can prog = Ok d0 -> dag_run d0 tr d -> acyclic (d_graph d).
Proof.
  intros A can prog d0 tr d H R. destruct (dag_of_inv A can prog d0 H) as [S _].
  destruct (run_sim A can prog d0 tr d R _ _ S) as (mtr & p' & L' & _ & S' & _). eapply sim_acyclic; eauto.
Qed.
Print Assumptions C20_programs.

Definition diamond : list gop := [AddEdge 0 1; AddEdge 0 2; AddEdge 1 3; AddEdge 2 3; AddNode 9].
Example C20_diamond : exists g, foldM g_apply diamond g_empty = Ok g /\ topological_order g = Ok [3; 1; 2; 0; 9]%N.
Proof. eexists. split; reflexivity. Qed.
Example C20_cycle : exists g, foldM g_apply [AddEdge 0 1; AddEdge 1 2; AddEdge 2 1; AddEdge 5 6; AddEdge 6 5] g_empty = Ok g /\
  topological_order g = Ok [2; 1; 0]%N.
Proof. eexists. split; reflexivity. Qed.

(** ** C21 *)

Section C21.
  Variable A : Type.
  Variable can : A -> A -> outcome bool.

  (** Running a program through its dependency graph, with any choice among the
      applicable instructions and any follow-ups, is a run of the dependency machine. *)
  Theorem C21_simulation : forall prog d0 tr d, dag_of can prog = Ok d0 -> dag_run d0 tr d ->
    exists mtr p, machine_run can prog (start prog) mtr p /\ map (fun e => (snd (fst e), snd e)) mtr = tr /\
      (dag_is_empty d = true <-> finished p) /\
      (exists hs, applicable d = Ok hs /\
         forall x, (exists l, In l hs /\ dag_at d l = Ok x) <-> exists j rest, enabled can prog p j x rest).
  Proof.
    intros prog d0 tr d H R. destruct (dag_of_inv A can prog d0 H) as [S _].
    destruct (run_sim A can prog d0 tr d R _ _ S) as (mtr & p & L & M & S' & Em). exists mtr, p. split; [exact M|]. split; [exact Em|].
    split; [eapply empty_finished; eauto|]. destruct (heads_spec _ (s_inv _ _ _ _ _ _ S')) as (hs & Hh & _ & Hs). exists hs. split; [exact Hh|].
    intros x. split.
    - intros (l & Hl & Hx). apply Hs in Hl. apply (proj1 (heads_enabled A can prog d p L l S')) in Hl. destruct Hl as (j & x' & rest & lr & _ & Hx' & He).
      unfold dag_at in Hx. apply at_map_ok in Hx. assert (x' = x) by congruence. subst. eauto.
    - intros (j & rest & He). destruct (enabled_head A can prog d p L j x rest S' He) as (l & hs' & Ha & Hl & Hx & _).
      assert (hs' = hs) by (unfold applicable in Ha; congruence). subst. eauto.
  Qed.

  (** Two instructions that do not commute, with all their follow-ups, are
      executed in program order.  [mtr] tells which instruction of the program
      each executed one belongs to. *)
  Theorem C21_order : forall prog d0 tr d, dag_of can prog = Ok d0 -> dag_run d0 tr d ->
    exists mtr, map (fun e => (snd (fst e), snd e)) mtr = tr /\
      forall i j a b, i < j -> nth_error prog i = Some a -> nth_error prog j = Some b -> can a b = Ok false ->
      forall t1 x fs t2, mtr = t1 ++ (j, x, fs) :: t2 -> forall y gs, ~ In (i, y, gs) t2.
  Proof.
    intros prog d0 tr d H R. destruct (C21_simulation prog d0 tr d H R) as (mtr & p & M & Em & _). exists mtr. split; [exact Em|].
    intros i j a b Hij Pa Pb Hc t1 x fs t2 Et. eapply machine_order; eauto. apply map_length.
  Qed.

  (** Without follow-ups a complete run executes each instruction exactly once,
      those that do not commute in program order. *)
  Lemma machine_pops prog p mtr p' : machine_run can prog p mtr p' -> (forall i l, nth_error p i = Some l -> l = [] \/ exists x, nth_error prog i = Some x /\ l = [x]) ->
    (forall e, In e mtr -> snd e = []) ->
    NoDup (map (fun e => fst (fst e)) mtr) /\ (forall j x fs, In (j, x, fs) mtr -> nth_error prog j = Some x).
  Proof.
    induction 1 as [p|p j x fs p' mtr p'' H R IH]; intros Hp Hf; [split; [constructor|intros ? ? ? []]|].
    inversion H as [? ? ? rest ? [Hj He]]; subst. assert (fs = []) by (apply (Hf (j, x, fs)); now left). subst fs.
    assert (Hx : nth_error prog j = Some x /\ rest = []).
    { destruct (Hp _ _ Hj) as [X|(y & Hy & X)]; [discriminate|]. injection X as <- ->. auto. }
    destruct Hx as [Hx ->]. cbn [app] in *. destruct IH as [ND W].
    - intros i l Hi. destruct (Nat.eq_dec j i) as [<-|D]; [rewrite set_nth_same in Hi by (eapply nth_lt; eauto); left; congruence|].
      rewrite set_nth_other in Hi by auto. eauto.
    - intros e He'. apply Hf. now right.
    - split.
      + cbn [map fst]. constructor; [|exact ND]. intros Hin. apply in_map_iff in Hin. destruct Hin as ([[j' y] gs] & E1 & E2). cbn [fst] in E1. subst j'.
        destruct (machine_stays A can _ _ _ _ R j) as [_ W']; [rewrite set_nth_same by (eapply nth_lt; eauto); reflexivity|]. eapply W'; eauto.
      + intros k y gs [Eq|Hin]; [congruence|]. eapply W; eauto.
  Qed.
  Theorem C21_once : forall prog d0 tr d, dag_of can prog = Ok d0 -> dag_run d0 tr d -> dag_is_empty d = true -> (forall e, In e tr -> snd e = []) ->
    exists ids, Permutation ids (seq 0 (length prog)) /\ Forall2 (fun i e => nth_error prog i = Some (fst e)) ids tr /\
      forall i j a b, i < j -> nth_error prog i = Some a -> nth_error prog j = Some b -> can a b = Ok false ->
        exists u v w, ids = u ++ i :: v ++ j :: w.
  Proof.
    intros prog d0 tr d H R Em Hf. destruct (C21_simulation prog d0 tr d H R) as (mtr & p & M & Et & Hfin & _). apply Hfin in Em.
    destruct (machine_pops _ _ _ _ M) as [ND W].
    { intros i l Hi. apply (start_nth A) in Hi. right. exact Hi. }
    { intros e He. apply (Hf (snd (fst e), snd e)). rewrite <- Et. apply in_map_iff. eauto. }
    exists (map (fun e => fst (fst e)) mtr). split; [|split].
    - apply NoDup_Permutation; [exact ND|apply seq_NoDup|]. intros i. rewrite in_map_iff, in_seq. split.
      + intros ([[j x] fs] & <- & Hin). cbn [fst]. apply W in Hin. apply nth_lt in Hin. lia.
      + intros [_ Hi]. destruct (nth_ex prog i Hi) as [x Hx].
        destruct (machine_all A can _ _ _ _ M Em i x []) as (fs & t1 & t2 & Emt & _); [apply (start_nth A); eauto|].
        exists (i, x, fs). split; [reflexivity|]. rewrite Emt. apply in_app_iff. right. now left.
    - rewrite <- Et. clear - W. induction mtr as [|[[j x] fs] mtr IH]; [constructor|]. cbn [map fst snd]. constructor; [cbn; apply (W j x fs); now left|].
      apply IH. intros j' x' fs' Hin. apply (W j' x' fs'). now right.
    - intros i j a b Hij Pa Pb Hc.
      assert (Len : length (start prog) = length prog) by apply map_length.
      destruct (machine_all A can _ _ _ _ M Em i a []) as (fs & t1 & t2 & Ei & _); [apply (start_nth A); eauto|].
      destruct (machine_all A can _ _ _ _ M Em j b []) as (gs & s1 & s2 & Ej & _); [apply (start_nth A); eauto|].
      assert (Hin : In (j, b, gs) t2).
      { assert (X : In (j, b, gs) mtr) by (rewrite Ej; apply in_app_iff; right; now left). rewrite Ei in X. apply in_app_iff in X.
        destruct X as [X|[X|X]]; [|injection X as -> _ _; lia|exact X]. exfalso. apply in_split in X. destruct X as (u & v & ->).
        refine (machine_order A can _ _ _ _ M Len i j a b Hij Pa Pb Hc u b gs (v ++ (i, a, fs) :: t2) _ a fs _).
        - rewrite Ei, <- app_assoc. reflexivity.
        - apply in_app_iff. right. now left. }
      apply in_split in Hin. destruct Hin as (u & v & ->). exists (map (fun e => fst (fst e)) t1), (map (fun e => fst (fst e)) u), (map (fun e => fst (fst e)) v).
      rewrite Ei, map_app. cbn [map fst]. rewrite map_app. reflexivity.
  Qed.

  (** While something remains, an instruction is applicable and can be popped;
      marking it proximate or not makes no difference. *)
  Theorem C21_progress : forall prog d0 tr d, dag_of can prog = Ok d0 -> dag_run d0 tr d -> dag_is_empty d = false ->
    exists hs l, applicable d = Ok hs /\ In l hs /\
      forall l', In l' hs -> exists x d', dag_at d l' = Ok x /\ pop_head d l' = Ok d' /\ dag_run d0 (tr ++ [(x, [])]) d'.
  Proof.
    intros prog d0 tr d H R Hne. destruct (dag_of_inv A can prog d0 H) as [S _].
    destruct (run_sim A can prog d0 tr d R _ _ S) as (mtr & p & L & M & S' & Em).
    destruct (progress A can prog p L d S') as (j & x & rest & He).
    { intros Hf. apply (empty_finished A can prog d p L S') in Hf. congruence. }
    destruct (enabled_head A can prog d p L j x rest S' He) as (l & hs & Ha & Hl & Hx & _). exists hs, l. split; [exact Ha|]. split; [exact Hl|].
    assert (G : forall (d0 : dag A) tr d, dag_run d0 tr d -> forall l y d', dag_step d l y [] d' -> dag_run d0 (tr ++ [(y, [])]) d').
    { clear. induction 1 as [d|d l x fs d' tr d'' H _ IH]; intros k y e Hs; [econstructor; [exact Hs|constructor]|]. cbn. econstructor; [exact H|]. eapply IH; eauto. }
    intros l' Hl'. destruct (heads_spec _ (s_inv _ _ _ _ _ _ S')) as (hs' & Hh & _ & Hs). assert (hs' = hs) by (unfold applicable in Ha; congruence). subst hs'.
    pose proof Hl' as Hen. apply Hs in Hen. apply (proj1 (heads_enabled A can prog d p L l' S')) in Hen. destruct Hen as (k & y & r' & lr & _ & Hy & _).
    assert (Hy' : dag_at d l' = Ok y) by (now apply at_map_ok).
    destruct (pop_step A can prog d p L l' y hs S' Ha Hl' Hy') as (d' & _ & _ & Hp & _). exists y, d'. split; [exact Hy'|]. split; [exact Hp|].
    eapply G; [exact R|]. econstructor; eauto.
  Qed.
  (** Each instruction of the program is executed, first itself, then follow-ups. *)
  Theorem C21_complete : forall prog d0 tr d, dag_of can prog = Ok d0 -> dag_run d0 tr d -> dag_is_empty d = true ->
    exists mtr, map (fun e => (snd (fst e), snd e)) mtr = tr /\
      forall i x, nth_error prog i = Some x -> exists fs t1 t2, mtr = t1 ++ (i, x, fs) :: t2 /\ forall y gs, ~ In (i, y, gs) t1.
  Proof.
    intros prog d0 tr d H R Em. destruct (C21_simulation prog d0 tr d H R) as (mtr & p & M & Et & Hfin & _). exists mtr. split; [exact Et|].
    intros i x Hi. eapply (machine_all A can _ _ _ _ M); [now apply Hfin|]. apply (start_nth A). eauto.
  Qed.
End C21.
Print Assumptions C21_simulation.
Print Assumptions C21_order.
Print Assumptions C21_once.
Print Assumptions C21_progress.
Print Assumptions C21_complete.

(** Every LLI program has a dependency graph. *)
Theorem C21_lli_builds : forall prog, exists d, dag_of lli_can prog = Ok d.
Proof.
  intros prog. destruct (dag_of_built instr lli_can prog) as (d & H & _); [|eauto]. intros i j x y _ _ _. unfold lli_can. eauto.
Qed.
Print Assumptions C21_lli_builds.

(** Gate circuits with a reset followed or preceded by another gate have none:
    building it throws. *)
Theorem C21_gate_reset_refuted : exists e, dag_of gates_can_commute [GBasic 0 GH; GReset (lit "c") 0] = Throw e.
Proof. eexists. reflexivity. Qed.
Print Assumptions C21_gate_reset_refuted.

(** Measuring 1 and 2 together has to wait for both to be prepared; either may be
    prepared first, and something about 3 at any time. *)
Definition prog4 : list instr :=
  [instr_of (Init 1 StZero None); instr_of (Init 2 StZero None); instr_of (MultiMeasure [(1%N, PX); (2%N, PZ)] false None);
   instr_of (Init 3 StZero None)].
Example C21_prog4 : (do d <- dag_of lli_can prog4 ;; do h <- applicable d ;; do d1 <- pop_head d 1 ;; do h1 <- applicable d1 ;;
    do d2 <- pop_head d1 0 ;; do h2 <- applicable d2 ;; do d3 <- pop_head d2 2 ;; do d4 <- pop_head d3 3 ;; Ok (h, h1, h2, dag_is_empty d4))
  = Ok ([0; 1; 3]%N, [0; 3]%N, [2; 3]%N, true).
Proof. vm_compute. reflexivity. Qed.
(** The same with a follow-up: the measurement now waits for it. *)
Example C21_followup : (do d <- dag_of lli_can prog4 ;; do (f, d1) <- dag_expand d 0 [instr_of (Rotate 1)] true ;; do h1 <- applicable d1 ;;
    do d2 <- pop_head d1 1 ;; do h2 <- applicable d2 ;; Ok (f, h1, h2)) = Ok (4%N, [1; 3; 4]%N, [3; 4]%N).
Proof. vm_compute. reflexivity. Qed.

(** ** C22 *)

(** Replacing node [t] by the sequence [r]: whatever had to come before or after
    [t] has to come before or after every new node, the new nodes come in
    sequence, and nothing else changes. *)
Theorem C22_expand : forall g t r g', made g -> NoDup r -> ~ edge g t t -> expand g t r = Ok g' ->
  (forall x, node g' x <-> (node g x /\ x <> t) \/ In x r) /\
  (forall x y, node g x -> node g y -> x <> t -> y <> t -> before g' x y <-> before g x y) /\
  (forall x c, node g x -> x <> t -> In c r -> before g' x c <-> before g x t) /\
  (forall x c, node g x -> x <> t -> In c r -> before g' c x <-> before g t x) /\
  (forall c c', In c r -> In c' r -> before g' c c' <-> earlier r c c' \/ before g t t).
Proof.
  intros g t r g' M ND Ht H. pose proof (made_inv _ M) as I.
  destruct (C19_outcomes g (Expand t r) M) as [_|[[X _]|[X _]]]; [|cbn [g_apply] in X; congruence|cbn [g_apply] in X; congruence].
  destruct (has (g_out g) t) eqn:Vt; [|unfold expand in H; rewrite Vt in H; discriminate].
  destruct r as [|f r]; [unfold expand in H; rewrite Vt in H; discriminate|].
  destruct (existsb (has (g_out g)) (f :: r)) eqn:Hx; [unfold expand in H; rewrite Vt in H; cbn [negb] in H; rewrite Hx in H; discriminate|].
  destruct (expand_spec g t f r I Vt Hx) as (g1 & H1 & I1 & V1 & E1). assert (g1 = g') by congruence. subst g1.
  assert (Fresh : forall x, In x (f :: r) -> ~ V g x).
  { intros x Hin Vx. assert (X : existsb (has (g_out g)) (f :: r) = true) by (apply existsb_exists; exists x; auto). congruence. }
  assert (Ett : ~ E g t t) by (now rewrite <- edge_E).
  assert (OV : forall x, V g x -> old t f r x = x) by (intros x Vx; eapply old_V; eauto).
  assert (OR : forall c, In c (f :: r) -> old t f r c = t) by (intros c Hc; apply old_R; exact Hc).
  assert (Hold : forall a b, clos_trans N (E g') a b -> clos_trans N (E g) (old t f r a) (old t f r b) \/ (In a (f :: r) /\ In b (f :: r) /\ earlier (f :: r) a b)).
  { intros a b Hab. eapply reach_old; eauto. }
  assert (Hnew : forall a b x y, clos_trans N (E g) a b -> stands t f r a x -> stands t f r b y -> clos_trans N (E g') x y).
  { intros a b x y Hab. eapply reach_new; eauto. }
  split; [intros x; rewrite !node_V; apply V1|]. split; [|split; [|split]].
  - intros x y Vx Vy Dx Dy. apply node_V in Vx, Vy. rewrite !before_E. split.
    + intros Hr. apply Hold in Hr. destruct Hr as [Hr|(Hr & _)]; [now rewrite !OV in Hr by auto|]. exfalso. eapply Fresh; eauto.
    + intros Hr. eapply Hnew; [exact Hr|right; auto|right; auto].
  - intros x c Vx Dx Hc. apply node_V in Vx. rewrite !before_E. split.
    + intros Hr. apply Hold in Hr. destruct Hr as [Hr|(Hr & _)]; [now rewrite (OV x), (OR c) in Hr by auto|]. exfalso. eapply Fresh; eauto.
    + intros Hr. eapply Hnew; [exact Hr|right; auto|left; auto].
  - intros x c Vx Dx Hc. apply node_V in Vx. rewrite !before_E. split.
    + intros Hr. apply Hold in Hr. destruct Hr as [Hr|(_ & Hr & _)]; [now rewrite (OV x), (OR c) in Hr by auto|]. exfalso. eapply Fresh; eauto.
    + intros Hr. eapply Hnew; [exact Hr|left; auto|right; auto].
  - intros c c' Hc Hc'. rewrite !before_E. split.
    + intros Hr. apply Hold in Hr. destruct Hr as [Hr|(_ & _ & Hr)]; [right; now rewrite !OR in Hr by auto|auto].
    + intros [Hr|Hr]; [eapply chain_new; eauto|]. eapply Hnew; [exact Hr|left; auto|left; auto].
Qed.
Print Assumptions C22_expand.

(** Expanding keeps a graph acyclic. *)
Theorem C22_acyclic : forall g t r g', made g -> NoDup r -> acyclic g -> expand g t r = Ok g' -> acyclic g'.
Proof.
  intros g t r g' M ND Ac H. assert (Ht : ~ edge g t t) by (intros He; apply (Ac t); now apply t_step).
  destruct (C22_expand g t r g' M ND Ht H) as (Hn & H1 & _ & _ & H4). intros a Ha.
  assert (Na : node g' a).
  { assert (X : forall x y, before g' x y -> node g' y).
    { assert (M' : made g') by (eapply (made_op g (Expand t r)); eauto). induction 1 as [x y Hxy|]; [|auto].
      now apply (proj1 (proj2 (C19_consistent g' M')) x y). }
    eauto. }
  apply Hn in Na. destruct Na as [[Na Dn]|Na].
  - apply H1 in Ha; auto. exact (Ac a Ha).
  - apply H4 in Ha; auto. destruct Ha as [Ha|Ha]; [|exact (Ac t Ha)]. eapply earlier_irrefl; eauto.
Qed.
Print Assumptions C22_acyclic.

(** In a running program, an instruction is replaced in place: the follow-ups
    take its turn, one after the other, before anything that depended on it. *)
Theorem C22_followups : forall A (can : A -> A -> outcome bool) prog d0 tr d l x fs d', dag_of can prog = Ok d0 -> dag_run d0 tr d ->
  dag_step d l x fs d' ->
  exists mtr p j rest, machine_run can prog (start prog) mtr p /\ map (fun e => (snd (fst e), snd e)) mtr = tr /\
    enabled can prog p j x rest /\
    exists hs, applicable d' = Ok hs /\
      forall y, (exists k, In k hs /\ dag_at d' k = Ok y) <-> exists i rest', enabled can prog (set_nth j (fs ++ rest) p) i y rest'.
Proof.
  intros A can prog d0 tr d l x fs d' H R St. destruct (dag_of_inv A can prog d0 H) as [S _].
  destruct (run_sim A can prog d0 tr d R _ _ S) as (mtr & p & L & M & S1 & Em).
  destruct (step_sim A can prog d p L l x fs d' S1 St) as (j & p' & L' & Ms & S2). inversion Ms as [? ? ? rest ? He]; subst.
  exists mtr, p, j, rest. split; [exact M|]. split; [reflexivity|]. split; [exact He|].
  destruct (heads_spec _ (s_inv _ _ _ _ _ _ S2)) as (hs & Hh & _ & Hs). exists hs. split; [exact Hh|]. intros y. split.
  - intros (k & Hk & Hy). apply Hs in Hk. apply (proj1 (heads_enabled A can prog d' _ L' k S2)) in Hk. destruct Hk as (i & y' & rest' & lr & _ & Hy' & He').
    unfold dag_at in Hy. apply at_map_ok in Hy. assert (y' = y) by congruence. subst. eauto.
  - intros (i & rest' & He'). destruct (enabled_head A can prog d' _ L' i y rest' S2 He') as (k & hs' & Ha & Hk & Hy & _).
    assert (hs' = hs) by (unfold applicable in Ha; congruence). subst. eauto.
Qed.
Print Assumptions C22_followups.

Example C22_diamond : exists g g', foldM g_apply diamond g_empty = Ok g /\ expand g 1 [20; 21]%N = Ok g' /\
  successors g' 0 = Ok [2; 20]%N /\ successors g' 20 = Ok [21]%N /\ successors g' 21 = Ok [3]%N.
Proof. do 2 eexists. repeat (split; [reflexivity|]). reflexivity. Qed.

(** ** C54 *)

(** Executing an applicable instruction never makes another one proximate: the
    pairs recorded by [expand] are looked up at the predecessors of the executed
    instruction, and an applicable instruction has none. *)
Theorem C54_no_promotion : forall A (can : A -> A -> outcome bool) prog d0 tr d hs l d', dag_of can prog = Ok d0 -> dag_run d0 tr d ->
  applicable d = Ok hs -> In l hs -> pop_head d l = Ok d' -> forall k, In k (proximate d') <-> In k (proximate d) /\ k <> l.
Proof.
  intros A can prog d0 tr d hs l d' H R Ha Hl Hp k. destruct (dag_of_inv A can prog d0 H) as [S _].
  destruct (run_sim A can prog d0 tr d R _ _ S) as (mtr & p & L & M & S1 & Em). pose proof (s_inv _ _ _ _ _ _ S1) as I.
  destruct (heads_spec _ I) as (hs' & Hh & _ & Hs). assert (hs' = hs) by (unfold applicable in Ha; congruence). subst hs'. apply Hs in Hl. destruct Hl as [Vl Hn].
  unfold pop_head in Hp. apply bind_ok in Hp. destruct Hp as (i & _ & Hp). apply bind_ok in Hp. destruct Hp as (pr & Hpr & Hp).
  assert (pr = []).
  { unfold predecessors in Hpr. unfold V in Vl. rewrite Vl in Hpr. cbn [negb] in Hpr. apply at_map_ok in Hpr. destruct pr as [|q pr]; [reflexivity|].
    exfalso. apply (Hn q), (inv_edges _ I). rewrite (get_has _ _ _ Hpr). now left. }
  subst pr. cbn [fold_left] in Hp. apply bind_ok in Hp. destruct Hp as (g & _ & Hp). injection Hp as <-. unfold proximate. cbn [d_pheads]. apply serase_In.
Qed.
Print Assumptions C54_no_promotion.

(** So of two proximate follow-ups the second is not proximate when its turn comes. *)
Theorem C54_second_followup_refuted : exists d d1 d2, dag_of lli_can [instr_of (Rotate 1)] = Ok d /\
  dag_expand d 0 [instr_of (Rotate 1); instr_of (Rotate 1)] true = Ok (1%N, d1) /\
  pop_head (make_proximate d1 1) 1 = Ok d2 /\ applicable d2 = Ok [2%N] /\ proximate d2 = [].
Proof.
  give (dag_of lli_can [instr_of (Rotate 1)]). let v := eval vm_compute in (do d <- dag_of lli_can [instr_of (Rotate 1)] ;; do (f, e) <- dag_expand d 0 [instr_of (Rotate 1); instr_of (Rotate 1)] true ;; Ok e) in
  match v with Ok ?d => exists d; give (pop_head (make_proximate d 1) 1) end.
  repeat (split; [vm_compute; reflexivity|]). reflexivity.
Qed.
Print Assumptions C54_second_followup_refuted.

(** And expanding one of two proximate follow-ups erases from the set of pairs
    while walking over it. *)
Theorem C54_expand_again_refuted : exists d d1, dag_of lli_can [instr_of (Rotate 1)] = Ok d /\
  dag_expand d 0 [instr_of (Rotate 1); instr_of (Rotate 1)] true = Ok (1%N, d1) /\
  dag_expand d1 1 [instr_of (Rotate 1)] true = UB UBDangling.
Proof.
  give (dag_of lli_can [instr_of (Rotate 1)]). give (do d <- dag_of lli_can [instr_of (Rotate 1)] ;; do (f, e) <- dag_expand d 0 [instr_of (Rotate 1); instr_of (Rotate 1)] true ;; Ok e).
  repeat (split; [vm_compute; reflexivity|]). vm_compute. reflexivity.
Qed.
Print Assumptions C54_expand_again_refuted.
(** With one follow-up at a time there are no pairs, and the follow-up is proximate. *)
Theorem C54_single_followup : forall A (d : dag A) l f, d_deps d = [] ->
  forall r d', dag_expand d l [f] true = Ok (r, d') -> d_deps d' = [] /\ In r (proximate (make_proximate d' r)) /\ dag_at d' r = Ok f.
Proof.
  intros A d l f Hd r d' H. unfold dag_expand in H. cbn [length labels_from seq map consecutive fold_left] in H.
  apply bind_ok in H. destruct H as (g & _ & H). rewrite Hd in H. cbn [existsb] in H. apply ok2_inj in H. destruct H as [<- <-]. split; [reflexivity|]. split.
  - unfold proximate, make_proximate. cbn [d_pheads]. apply oset_insert_In. auto.
  - unfold dag_at. cbn [d_ins]. apply at_map_ok. rewrite alookup_app. cbn [labels_from seq map]. rewrite N.add_0_r.
    rewrite (alookup_filter A (d_ins d) (fun k => negb (memN k [d_next d]))). unfold memN. cbn [existsb combine alookup]. rewrite !N.eqb_refl. reflexivity.
Qed.
Print Assumptions C54_single_followup.
