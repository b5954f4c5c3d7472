(** C50: the search a compilation looks for routes with is the one the command line asks for. *)
From Verif Require Import Base TextModel PatchesModel LayoutModel SliceModel SliceSpec SliceProofs InstrSpec RouterModel RouterSpec RouterProofs RouterProps BoostModel ApplyModel.
From Verif Require Import SlicerModel SlicerSpec SlicerProps.
Open Scope Z_scope.

Lemma route_exact : forall L edpc pick stop s source sop target top a b, sized (l_furthest L) s -> valid_pick pick ->
  get_cell_by_id s source = Some a -> get_cell_by_id s target = Some b -> (sop = PX \/ sop = PZ) -> (top = PX \/ top = PZ) ->
  exists r, find_route L edpc pick stop s source sop target top = Ok r
    /\ match r with Some reg => walk edpc L s a sop b top (rev (map sc_cell (rg_cells reg))) | None => forall mid, ~ walk edpc L s a sop b top mid end.
Proof.
  intros L edpc pick stop s source sop target top a b Hs Hp Ea Eb Os Ot.
  pose proof (C29_outcome L edpc pick stop s source sop target top Hs Hp) as Ho.
  destruct (find_route L edpc pick stop s source sop target top) as [[reg|]|e|u|] eqn:E; [| | |destruct Ho|destruct Ho].
  - exists (Some reg). split; [reflexivity|].
    destruct (C29_route _ _ _ _ _ _ _ _ _ _ Hs Hp E) as (a' & b' & Ea' & Eb' & _ & _ & _ & (Hw & _)).
    assert (a' = a) by congruence. assert (b' = b) by congruence. subst a' b'. exact Hw.
  - exists None. split; [reflexivity|]. intros mid Hm.
    destruct (C30_complete L edpc pick stop s source sop target top a b mid Hs Hp Ea Eb Os Ot Hm) as [r Hr]. congruence.
  - exfalso. pose proof (get_cell_by_id_Some _ _ _ _ Hs Ea) as (c1 & _).
    pose proof (get_cell_by_id_Some _ _ _ _ Hs Eb) as (c2 & _).
    destruct e; try contradiction.
    + apply Ho. split; auto.
    + destruct Ho as [h|h]; eapply h; eauto.
Qed.

Section Search.
Variables (gs : text -> outcome text) (use : bool).

(** A command line that names no router, or the plain one, and no search, or one of the two searches of the project: during slicing a route
    is found exactly when there is one; a search by distance also finds one of the shortest; and routes may cross only in the EDPC pipeline. *)
Theorem C50_search : forall fuel bad m o p p' j, slicer gs use fuel bad m o p = (p', Ok (On j)) ->
  o "r"%string = None \/ asked o "r" ["graph_search"]%string ->
  o "g"%string = None \/ asked o "g" ["djikstra"; "astar"]%string ->
  forall pick cache s source sop target top a b, valid_pick pick -> sized (l_furthest (j_layout j)) s ->
  get_cell_by_id s source = Some a -> get_cell_by_id s target = Some b -> (sop = PX \/ sop = PZ) -> (top = PX \/ top = PZ) ->
  let crossing := match o "pipeline"%string with Some v => text_eqb v (lit "edpc") | None => false end in
  exists r, e_route (job_env pick j) cache s source sop target top = Ok (r, cache)
    /\ match r with
       | None => forall mid, ~ walk crossing (j_layout j) s a sop b top mid
       | Some reg => walk crossing (j_layout j) s a sop b top (rev (map sc_cell (rg_cells reg)))
           /\ (least_pick pick -> ~ asked o "g" ["astar"]%string ->
                forall mid, walk crossing (j_layout j) s a sop b top mid -> (length (rg_cells reg) <= length mid)%nat)
       end.
Proof.
  intros fuel bad m o p p' j H Hr Hg pick cache s source sop target top a b Hp Hs Ea Eb Os Ot crossing.
  destruct (C50_meaning _ _ _ _ _ _ _ _ _ H) as (Mp & Mg & Mr & _).
  assert (Cr : match j_pipeline j with PEdpc => true | _ => false end = crossing).
  { subst crossing. unfold means in Mp. destruct (o "pipeline"%string) as [v|]; [|now rewrite Mp].
    destruct Mp as (k & [E|[E|[E|[E|[E|[]]]]]] & ->); injection E as <- <-; reflexivity. }
  assert (Cc : j_cached j = false).
  { unfold means in Mr. destruct Hr as [Hr|(v & Hv & Hr)]; rewrite Hr in Mr; [exact Mr|]. destruct Hv as [<-|[]].
    destruct Mr as (k & [E|[E|[]]] & Q); injection E as <- <-; [reflexivity|discriminate]. }
  assert (Cg : j_provider j = AStar /\ asked o "g" ["astar"]%string \/ j_provider j = Djikstra).
  { unfold means in Mg. destruct Hg as [Hg|(v & Hv & Hg)]; rewrite Hg in Mg; [auto|]. destruct Hv as [<-|[<-|[]]].
    - right. destruct Mg as (k & [E|[E|[E|[]]]] & Q); injection E as <- <-; [reflexivity|discriminate|discriminate].
    - left. split; [|exists "astar"%string; split; [now left|exact Hg]].
      destruct Mg as (k & [E|[E|[E|[]]]] & Q); injection E as <- <-; [discriminate|reflexivity|discriminate]. }
  unfold job_env. cbv zeta. cbn [e_route]. rewrite Cr. unfold job_router. rewrite Cc.
  destruct Cg as [[Cg As]|Cg]; rewrite Cg; unfold plain_router.
  - destruct (route_exact (j_layout j) crossing pick true s source sop target top a b Hs Hp Ea Eb Os Ot) as (r & E & R).
    rewrite E. exists r. split; [reflexivity|]. destruct r; [|exact R]. split; [exact R|]. intros _ N. now contradiction N.
  - destruct (route_exact (j_layout j) crossing pick false s source sop target top a b Hs Hp Ea Eb Os Ot) as (r & E & R).
    rewrite E. exists r. split; [reflexivity|]. destruct r as [reg|]; [|exact R]. split; [exact R|].
    intros Hl _ mid Hm. exact (C30_shortest _ _ _ _ _ _ _ _ _ _ _ _ Hs Hp Hl Ea Eb Os Ot E Hm).
Qed.
End Search.
Print Assumptions C50_search.

(** The default command line on the program of C50_ex: its first slice, and a shortest route of five tiles between the two qubits. *)
Example C50_search_ex : exists p j w reg, ex_run [] = (p, Ok (On j)) /\ job_world 0 j = Ok w
  /\ e_route (job_env pick_min j) [] (w_slice w) 0 PX 1 PX = Ok (Some reg, []).
Proof.
  do 4 eexists. split; [vm_compute; reflexivity|]. split; [vm_compute; reflexivity|]. vm_compute. reflexivity.
Qed.

(** The compiler is given what the command line says: local instructions, twists, operation ids, crossing routes and the layout. *)
Theorem C50_environment : forall gs use fuel bad m o p p' j pick, slicer gs use fuel bad m o p = (p', Ok (On j)) ->
  (e_local (job_env pick j) = true <-> absent o "local" = false)
  /\ (e_twists (job_env pick j) = true <-> absent o "notwists" = true)
  /\ (e_opids (job_env pick j) = true <-> absent o "op-ids" = false \/ asked o "input-format" ["pandora"; "p"]%string)
  /\ (e_edpc (job_env pick j) = true <-> o "pipeline"%string = Some (lit "edpc"))
  /\ lays_out m o (st_core (j_stream j)) (e_layout (job_env pick j)) (st_passes (j_stream j)).
Proof.
  intros gs use fuel bad m o p p' j pick H. pose proof (C50_layout _ _ _ _ _ _ _ _ _ H) as HL. pose proof (C50_circuit _ _ _ _ _ _ _ _ _ H) as HC.
  destruct (C50_meaning _ _ _ _ _ _ _ _ _ H) as (Mp & _ & _ & _ & _ & Ml & Mt & _). unfold job_env. cbv zeta. cbn [e_local e_twists e_opids e_edpc e_layout].
  split; [rewrite Ml, absent_has; now destruct (has o "local")|]. split; [rewrite Mt, absent_has; now destruct (has o "notwists")|]. split; [apply HC|]. split; [|exact HL].
  unfold means in Mp. destruct (o "pipeline"%string) as [v|]; [|rewrite Mp; split; discriminate].
  destruct Mp as (n & I & ->). unfold pipelines in I. cbn [In] in I.
  destruct I as [I|[I|[I|[I|[I|[]]]]]]; injection I as <- <-; split; intro X; try discriminate X; reflexivity.
Qed.
Print Assumptions C50_environment.
