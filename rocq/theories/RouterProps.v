(** C29, C30, C31: routes. *)
From Verif Require Import Base TextModel PatchesModel LayoutModel LayoutSpec LayoutProofs SliceModel SliceSpec SliceProofs.
From Verif Require Import InstrSpec InstrProofs RouterModel RouterSpec RouterProofs.
Open Scope Z_scope.

(** ** C29: soundness *)

(** Whatever order the queue yields vertices in (so for the plain search and
    for A-star alike), a route that is returned is a walk over adjacent tiles of
    the lattice from the source's tile to the target's, without repetition, over
    usable tiles only, and its tiles are joined exactly along the walk. *)
Theorem C29_route : forall L edpc pick stop s source sop target top reg,
  sized (l_furthest L) s -> valid_pick pick ->
  find_route L edpc pick stop s source sop target top = Ok (Some reg) ->
  exists a b, get_cell_by_id s source = Some a /\ get_cell_by_id s target = Some b
    /\ carries s a source /\ carries s b target
    /\ rg_id reg = None /\ is_route edpc L s a sop b top (rg_cells reg).
Proof.
  intros L edpc pick stop s source sop target top reg Hs Hp H. unfold find_route in H.
  destruct (get_cell_by_id s source) as [a|] eqn:Ea; [|discriminate].
  destruct (get_cell_by_id s target) as [b|] eqn:Eb; [|discriminate]. cbn [value_ bind] in H.
  pose proof (search_ok _ pick stop (find_query L edpc s source sop target top a b Hs Ea Eb) Hp) as Hk.
  rewrite H in Hk. destruct Hk as [h1 h2]. exists a, b.
  pose proof (get_cell_by_id_Some _ _ _ _ Hs Ea) as (c1 & _ & _). pose proof (get_cell_by_id_Some _ _ _ _ Hs Eb) as (c2 & _ & _).
  auto 8.
Qed.
Print Assumptions C29_route.

Lemma walk_ends : forall edpc L s a sop b top mid, walk edpc L s a sop b top mid ->
  ~ usable edpc s a -> ~ usable edpc s b ->
  adjacent a (hd b mid) /\ shows s a (hd b mid) sop /\ adjacent (last mid a) b /\ shows s b (last mid a) top.
Proof.
  intros edpc L s a sop b top mid [Hc _] Ha Hb.
  assert (H1 : forall x, may_step edpc s a sop b top a x -> shows s a x sop).
  { intros x Hx. inversion Hx; subst; auto; try contradiction. }
  assert (H2 : forall x, may_step edpc s a sop b top x b -> shows s b x top).
  { intros x Hx. inversion Hx; subst; auto; try contradiction. }
  destruct mid as [|m mid].
  - destruct Hc as [[h1 h2] _]. cbn. auto 6.
  - pose proof Hc as [[h1 h2] _]. cbn [hd]. split; [auto|]. split; [auto|].
    assert (Hne : m :: mid <> []) by discriminate.
    pose proof (app_removelast_last a Hne) as E. rewrite E in Hc at 1. rewrite <- app_assoc in Hc. cbn [app] in Hc.
    rewrite app_comm_cons in Hc.
    assert (G : forall (l : list cell) x y, consecutive (fun p q => adjacent p q /\ may_step edpc s a sop b top p q) (l ++ [x; y]) ->
       adjacent x y /\ may_step edpc s a sop b top x y).
    { induction l as [|u l IH]; intros x y Hl; [apply Hl|]. apply IH. destruct l; apply Hl. }
    apply G in Hc as [h3 h4]. auto.
Qed.

(** For ordinary routes: every tile on the way is free, the first step leaves
    the source through a side showing the source's operator, and the last one
    enters the target through a side showing the target's. *)
Theorem C29_free_and_ends : forall L pick stop s source sop target top reg,
  sized (l_furthest L) s -> valid_pick pick ->
  find_route L false pick stop s source sop target top = Ok (Some reg) ->
  exists a b, carries s a source /\ carries s b target
    /\ (forall t, In t (rg_cells reg) -> on_lattice (l_furthest L) (sc_cell t) /\ tile_at s (sc_cell t) = None)
    /\ (let mid := rev (map sc_cell (rg_cells reg)) in
        adjacent a (hd b mid) /\ shows s a (hd b mid) sop
        /\ adjacent (last mid a) b /\ shows s b (last mid a) top).
Proof.
  intros L pick stop s source sop target top reg Hs Hp H.
  destruct (C29_route _ _ _ _ _ _ _ _ _ _ Hs Hp H) as (a & b & _ & _ & Ca & Cb & _ & (Hw & _ & _ & _ & Hu & _)).
  exists a, b. split; [auto|]. split; [auto|]. split.
  - intros t Ht. assert (Hin : In (sc_cell t) (rev (map sc_cell (rg_cells reg)))) by (apply -> in_rev; apply in_map; auto).
    destruct Hw as [_ Hf]. rewrite Forall_forall in Hf, Hu. split; [apply Hf; auto|].
    pose proof (Hu _ Hin) as h. unfold usable in h. destruct (tile_at s (sc_cell t)); [destruct h; discriminate|reflexivity].
  - cbv zeta. destruct Ca as (pa & Ta & _), Cb as (pb & Tb & _). eapply walk_ends; eauto.
    + unfold usable. rewrite Ta. intros [h _]. discriminate.
    + unfold usable. rewrite Tb. intros [h _]. discriminate.
Qed.
Print Assumptions C29_free_and_ends.

(** Routes that may cross: never over a patch that is not itself part of such
    a route, and never over a side already taken. *)
Theorem C29_crossing : forall L pick stop s source sop target top reg,
  sized (l_furthest L) s -> valid_pick pick ->
  find_route L true pick stop s source sop target top = Ok (Some reg) ->
  (forall t, In t (rg_cells reg) -> tile_at s (sc_cell t) = None
      \/ exists p, tile_at s (sc_cell t) = Some p /\ p_act (dp p) = AEDPC)
  /\ consecutive (fun x y => side_reserved s y x -> False) (map sc_cell (rg_cells reg)).
Proof.
  intros L pick stop s source sop target top reg Hs Hp H.
  destruct (C29_route _ _ _ _ _ _ _ _ _ _ Hs Hp H) as (a & b & _ & _ & Ca & Cb & _ & (Hw & _ & Na & Nb & Hu & _)).
  set (cells := map sc_cell (rg_cells reg)) in *. split.
  - intros t Ht. assert (Hin : In (sc_cell t) (rev cells)) by (apply -> in_rev; apply in_map; auto).
    rewrite Forall_forall in Hu. pose proof (Hu _ Hin) as h. unfold usable in h.
    destruct (tile_at s (sc_cell t)) as [p|]; [right; exists p; tauto|left; reflexivity].
  - rewrite <- (rev_involutive cells).
    apply (consecutive_rev cell (fun x y => side_reserved s y x -> False)).
    cbv beta. apply (consecutive_impl cell (fun x y => adjacent x y /\ may_step true s a sop b top x y)).
    + intros x y hx hy [_ hs] hr.
      assert (x <> a) by (intros ->; auto). assert (y <> b) by (intros ->; auto).
      inversion hs as [? ? h1 h2 h3|? h1 h2 h3|? h1 h2 h3|h1 h2]; subst; try congruence.
      apply h3; auto.
    + destruct Hw as [Hw _]. clear - Hw. assert (E : forall P (x : cell) l y, consecutive P (x :: l ++ [y]) -> consecutive P l).
      { intros P x l y Hc. assert (consecutive P (l ++ [y])) by (destruct l; [exact I|apply Hc]). clear Hc.
        induction l as [|u l IH]; [exact I|]. destruct l as [|v l]; [exact I|]. destruct H as [h1 h2]. split; auto. }
      eapply E; eauto.
Qed.
Print Assumptions C29_crossing.

(** A search never goes wrong in any other way: it ends, without undefined
    behaviour, and throws only for a missing patch or for an operator that is
    neither X nor Z. *)
Theorem C29_outcome : forall L edpc pick stop s source sop target top,
  sized (l_furthest L) s -> valid_pick pick ->
  match find_route L edpc pick stop s source sop target top with
  | Ok _ => (exists a, carries s a source) /\ (exists b, carries s b target)
  | Throw BadOptional => (forall a, ~ carries s a source) \/ (forall b, ~ carries s b target)
  | Throw LogicError => ~ ((sop = PX \/ sop = PZ) /\ (top = PX \/ top = PZ))
  | _ => False
  end.
Proof.
  intros L edpc pick stop s source sop target top Hs Hp. unfold find_route.
  destruct (get_cell_by_id s source) as [a|] eqn:Ea.
  2:{ left. apply (get_cell_by_id_None _ _ _ Hs). auto. }
  destruct (get_cell_by_id s target) as [b|] eqn:Eb.
  2:{ right. apply (get_cell_by_id_None _ _ _ Hs). auto. }
  cbn [value_ bind].
  pose proof (search_ok _ pick stop (find_query L edpc s source sop target top a b Hs Ea Eb) Hp) as Hk.
  destruct (do_search _ pick stop) as [o|e|u|]; [|destruct Hk as [-> h]; exact h|exact Hk|exact Hk].
  split; [exists a|exists b]; eapply get_cell_by_id_Some; eauto.
Qed.
Print Assumptions C29_outcome.

(** ** C30: completeness and optimality *)

(** Whatever the queue order, a route is found whenever a walk exists. *)
Theorem C30_complete : forall L edpc pick stop s source sop target top a b mid,
  sized (l_furthest L) s -> valid_pick pick ->
  get_cell_by_id s source = Some a -> get_cell_by_id s target = Some b ->
  (sop = PX \/ sop = PZ) -> (top = PX \/ top = PZ) ->
  walk edpc L s a sop b top mid ->
  exists reg, find_route L edpc pick stop s source sop target top = Ok (Some reg).
Proof.
  intros L edpc pick stop s source sop target top a b mid Hs Hp Ea Eb Os Ot Hw. unfold find_route.
  rewrite Ea, Eb. cbn [value_ bind].
  pose proof (search_ok _ pick stop (find_query L edpc s source sop target top a b Hs Ea Eb) Hp) as Hk.
  destruct (do_search _ pick stop) as [[r|]|e|u|].
  - eauto.
  - exfalso. apply (Hk (conj Os Ot) mid). exact Hw.
  - destruct Hk as [_ h]. exfalso. apply h. split; auto.
  - destruct Hk.
  - destruct Hk.
Qed.
Print Assumptions C30_complete.

(** With a queue that yields a vertex of least distance (the plain search), no
    walk visits fewer tiles than the route that is returned. *)
Theorem C30_shortest : forall L edpc pick s source sop target top a b mid reg,
  sized (l_furthest L) s -> valid_pick pick -> least_pick pick ->
  get_cell_by_id s source = Some a -> get_cell_by_id s target = Some b ->
  (sop = PX \/ sop = PZ) -> (top = PX \/ top = PZ) ->
  find_route L edpc pick false s source sop target top = Ok (Some reg) ->
  walk edpc L s a sop b top mid ->
  (length (rg_cells reg) <= length mid)%nat.
Proof.
  intros L edpc pick s source sop target top a b mid reg Hs Hp Hl Ea Eb Os Ot H Hw. unfold find_route in H.
  rewrite Ea, Eb in H. cbn [value_ bind] in H.
  eapply (search_shortest (mkQ L s a b sop top (N.eqb source target) edpc)); eauto.
  - apply find_query; auto.
  - split; auto.
Qed.
Print Assumptions C30_shortest.

(** Both together for the queue of the model. *)
Theorem C30_search : forall L edpc s source sop target top a b,
  sized (l_furthest L) s ->
  get_cell_by_id s source = Some a -> get_cell_by_id s target = Some b ->
  (sop = PX \/ sop = PZ) -> (top = PX \/ top = PZ) ->
  (exists reg, find_route L edpc pick_min false s source sop target top = Ok (Some reg)
     /\ walk edpc L s a sop b top (rev (map sc_cell (rg_cells reg)))
     /\ forall mid, walk edpc L s a sop b top mid -> (length (rg_cells reg) <= length mid)%nat)
  \/ (find_route L edpc pick_min false s source sop target top = Ok None
     /\ forall mid, ~ walk edpc L s a sop b top mid).
Proof.
  intros L edpc s source sop target top a b Hs Ea Eb Os Ot.
  pose proof (C29_outcome L edpc pick_min false s source sop target top Hs pick_min_valid) as Ho.
  destruct (find_route L edpc pick_min false s source sop target top) as [[reg|]|e|u|] eqn:E.
  - left. exists reg. split; [reflexivity|].
    destruct (C29_route _ _ _ _ _ _ _ _ _ _ Hs pick_min_valid E) as (a' & b' & Ea' & Eb' & _ & _ & _ & (Hw & _)).
    assert (a' = a) by congruence. assert (b' = b) by congruence. subst a' b'. split; [exact Hw|].
    intros mid Hm. apply (C30_shortest L edpc pick_min s source sop target top a b mid reg Hs pick_min_valid pick_min_least Ea Eb Os Ot E Hm).
  - right. split; [reflexivity|]. intros mid Hm.
    destruct (C30_complete L edpc pick_min false s source sop target top a b mid Hs pick_min_valid Ea Eb Os Ot Hm) as [r Hr].
    congruence.
  - exfalso. pose proof (get_cell_by_id_Some _ _ _ _ Hs Ea) as (c1 & _).
    pose proof (get_cell_by_id_Some _ _ _ _ Hs Eb) as (c2 & _).
    destruct e; try contradiction.
    + apply Ho. split; auto.
    + destruct Ho as [h|h]; eapply h; eauto.
  - destruct Ho.
  - destruct Ho.
Qed.
Print Assumptions C30_search.

(** ** C31: the caching router *)

Record request := mkReq { rq_slice : slice; rq_source : N; rq_sop : pauli; rq_target : N; rq_top : pauli }.

(** The router answering requests one after the other, router.cpp:22-37. *)
Fixpoint serve (L : layout) (pick : pick_fun) (cache : list (path_id * region)) (rs : list request)
  : outcome (list (option region)) :=
  match rs with
  | [] => Ok []
  | r :: rest =>
      do (o, cache') <- cached_route (find_route L false pick false) cache (rq_slice r) (rq_source r) (rq_sop r) (rq_target r) (rq_top r) ;;
      do os <- serve L pick cache' rest ;;
      Ok (o :: os)
  end.

(** The answer [reg] fits a request on slice [s] whose patches are on [a] and [b]. *)
Definition fits (L : layout) (s : slice) (a b : cell) (r : request) (reg : region) : Prop :=
  rg_id reg = None /\ is_route false L s a (rq_sop r) b (rq_top r) (rg_cells reg).

Definition placed (r : request) (a b : cell) : Prop :=
  get_cell_by_id (rq_slice r) (rq_source r) = Some a /\ get_cell_by_id (rq_slice r) (rq_target r) = Some b.

Definition cache_ok (L : layout) (past : list request) (cache : list (path_id * region)) : Prop :=
  forall a sop b top reg, In ((a, sop, b, top), reg) cache ->
    exists r, In r past /\ placed r a b /\ rq_sop r = sop /\ rq_top r = top /\ fits L (rq_slice r) a b r reg.

Lemma pauli_eqb_eq : forall x y, pauli_eqb x y = true -> x = y.
Proof. intros [] []; cbn; congruence. Qed.

Lemma path_id_eqb_eq : forall k k', path_id_eqb k k' = true -> k = k'.
Proof.
  intros [[[a1 a2] a3] a4] [[[b1 b2] b3] b4]. unfold path_id_eqb. rewrite !andb_true_iff. intros [[[h1 h2] h3] h4].
  apply cell_eqb_eq in h1, h3. apply pauli_eqb_eq in h2, h4. congruence.
Qed.

Lemma cache_lookup_In : forall k c r, cache_lookup k c = Some r -> In (k, r) c.
Proof.
  induction c as [|[k' r'] c IH]; intros r H; [discriminate|]. cbn in H. destruct (path_id_eqb k k') eqn:E.
  - apply path_id_eqb_eq in E. left. congruence.
  - right. auto.
Qed.

Lemma serve_ok : forall L pick, valid_pick pick -> forall rs past cache os,
  Forall (fun r => sized (l_furthest L) (rq_slice r)) rs -> cache_ok L past cache ->
  serve L pick cache rs = Ok os ->
  forall i r reg, nth_error rs i = Some r -> nth_error os i = Some (Some reg) ->
  exists a b r', In r' (past ++ firstn (S i) rs) /\ placed r a b /\ placed r' a b
    /\ rq_sop r' = rq_sop r /\ rq_top r' = rq_top r /\ fits L (rq_slice r') a b r reg.
Proof.
  intros L pick Hp. induction rs as [|q rs IH]; intros past cache os Hs Hc H i r reg Hi Ho; [destruct i; discriminate|].
  cbn [serve] in H. inversion Hs as [|? ? Hq Hs']; subst.
  unfold cached_route in H.
  destruct (get_cell_by_id (rq_slice q) (rq_source q)) as [a|] eqn:Ea; [|discriminate].
  destruct (get_cell_by_id (rq_slice q) (rq_target q)) as [b|] eqn:Eb; [|discriminate]. cbn [value_ bind] in H.
  assert (Hmono : forall c, cache_ok L past c -> cache_ok L (past ++ [q]) c).
  { intros c hc a' sop b' top reg' hin. destruct (hc _ _ _ _ _ hin) as (r' & h1 & h2). exists r'. split; [apply in_or_app; auto|exact h2]. }
  assert (G : exists o cache' os', os = o :: os' /\ serve L pick cache' rs = Ok os' /\ cache_ok L (past ++ [q]) cache'
     /\ forall reg, o = Some reg -> exists r', In r' (past ++ [q]) /\ placed r' a b /\ rq_sop r' = rq_sop q /\ rq_top r' = rq_top q
         /\ fits L (rq_slice r') a b q reg).
  { destruct (cache_lookup (a, rq_sop q, b, rq_top q) cache) as [reg0|] eqn:El; cbn [bind] in H.
    - destruct (serve L pick cache rs) as [os'|e|u|] eqn:Es; try discriminate. cbn [bind] in H.
      exists (Some reg0), cache, os'. split; [congruence|]. split; [auto|]. split; [auto|].
      intros reg1 E. assert (reg1 = reg0) by congruence. subst reg1. apply cache_lookup_In in El.
      destruct (Hc _ _ _ _ _ El) as (r' & h1 & h2 & h3 & h4 & h5). exists r'. split; [apply in_or_app; auto|].
      repeat (split; [assumption|]). unfold fits in *. rewrite h3, h4 in h5. exact h5.
    - destruct (find_route L false pick false (rq_slice q) (rq_source q) (rq_sop q) (rq_target q) (rq_top q)) as [o|e|u|] eqn:Ef; try discriminate.
      cbn [bind] in H. destruct o as [reg0|].
      + destruct (serve L pick (((a, rq_sop q, b, rq_top q), reg0) :: cache) rs) as [os'|e|u|] eqn:Es; try discriminate. cbn [bind] in H.
        destruct (C29_route _ _ _ _ _ _ _ _ _ _ Hq Hp Ef) as (a' & b' & Ea' & Eb' & _ & _ & Hid & Hr).
        assert (a' = a) by congruence. assert (b' = b) by congruence. subst a' b'.
        exists (Some reg0), (((a, rq_sop q, b, rq_top q), reg0) :: cache), os'. split; [congruence|]. split; [auto|]. split.
        * intros a' sop b' top reg' [E|hin]; [|apply (Hmono _ Hc); exact hin].
          inversion E; subst. exists q. split; [apply in_or_app; right; left; reflexivity|].
          split; [split; auto|]. split; [auto|]. split; [auto|]. split; auto.
        * intros reg1 E. assert (reg1 = reg0) by congruence. subst reg1.
          exists q. split; [apply in_or_app; right; left; reflexivity|]. split; [split; auto|]. split; [auto|]. split; [auto|]. split; auto.
      + destruct (serve L pick cache rs) as [os'|e|u|] eqn:Es; try discriminate. cbn [bind] in H.
        exists None, cache, os'. split; [congruence|]. split; [auto|]. split; [auto|]. discriminate. }
  destruct G as (o & cache' & os' & -> & Hserve & Hc' & Hans). destruct i as [|i].
  - cbn in Hi, Ho. assert (q = r) by congruence. subst q. destruct (Hans reg) as (r' & h1 & h2); [congruence|].
    exists a, b, r'. split; [cbn [firstn]; exact h1|]. split; [split; auto|]. tauto.
  - cbn [nth_error] in Hi, Ho. destruct (IH (past ++ [q]) cache' os' Hs' Hc' Hserve i r reg Hi Ho) as (a' & b' & r' & h1 & h2).
    exists a', b', r'. split; [|exact h2]. rewrite <- app_assoc in h1. exact h1.
Qed.

(** What can be said of every answer: it is a route for the slice of some
    request made so far with the patches on the same tiles and the same
    operators. *)
Theorem C31_some_slice : forall L pick rs os, valid_pick pick ->
  Forall (fun r => sized (l_furthest L) (rq_slice r)) rs ->
  serve L pick [] rs = Ok os ->
  forall i r reg, nth_error rs i = Some r -> nth_error os i = Some (Some reg) ->
  exists a b r', In r' (firstn (S i) rs) /\ placed r a b /\ placed r' a b
    /\ is_route false L (rq_slice r') a (rq_sop r) b (rq_top r) (rg_cells reg).
Proof.
  intros L pick rs os Hp Hs H i r reg Hi Ho.
  destruct (serve_ok L pick Hp rs [] [] os Hs) with (i := i) (r := r) (reg := reg) as (a & b & r' & h1 & h2 & h3 & _ & _ & h4 & h5); auto.
  - intros a sop b top reg' [].
  - exists a, b, r'. auto.
Qed.
Print Assumptions C31_some_slice.

Lemma shows_same : forall s s' a n o, tile_at s a = tile_at s' a -> shows s' a n o -> shows s a n o.
Proof. intros s s' a n o E (p & d & t & h1 & h2). exists p, d, t. rewrite E. auto. Qed.

Lemma route_transfer : forall L s s' a sop b top cells,
  is_route false L s' a sop b top cells ->
  tile_at s' a <> None -> tile_at s' b <> None ->
  tile_at s a = tile_at s' a -> tile_at s b = tile_at s' b ->
  (forall t, In t cells -> tile_at s (sc_cell t) = None) ->
  is_route false L s a sop b top cells.
Proof.
  intros L s s' a sop b top cells ((Hc & Hf) & Hnd & Na & Nb & _ & Hj) Oa Ob Ea Eb Hfree.
  set (mid := rev (map sc_cell cells)) in *.
  assert (Hmid : forall c, In c mid -> tile_at s c = None).
  { intros c h. apply in_rev in h. apply in_map_iff in h as (t & <- & ht). auto. }
  assert (Hnot : forall c, tile_at s' c <> None -> ~ usable false s' c).
  { intros c h hu. unfold usable in hu. destruct (tile_at s' c); [destruct hu; discriminate|congruence]. }
  split; [split; [|exact Hf]|]; [|split; [auto|split; [auto|split; [auto|split; [|auto]]]]].
  - eapply consecutive_impl; [|exact Hc]. intros x y hx hy [hadj hs]. split; [exact hadj|].
    assert (Ux : x <> a -> x <> b -> usable false s x).
    { intros n1 n2. unfold usable. rewrite Hmid; [exact I|]. destruct hx as [e|hx]; [congruence|].
      apply in_app_or in hx as [hx|[e|[]]]; [auto|congruence]. }
    assert (Uy : y <> a -> y <> b -> usable false s y).
    { intros n1 n2. unfold usable. rewrite Hmid; [exact I|]. destruct hy as [e|hy]; [congruence|].
      apply in_app_or in hy as [hy|[e|[]]]; [auto|congruence]. }
    inversion hs as [? ? h1 h2 h3|? h1 h2 h3|? h1 h2 h3|h1 h2]; subst.
    + apply step_open; [apply Ux|apply Uy|discriminate]; intros e; rewrite e in *;
        first [exact (Hnot _ Oa h1)|exact (Hnot _ Ob h1)|exact (Hnot _ Oa h2)|exact (Hnot _ Ob h2)].
    + apply step_leave; [auto| |exact (shows_same _ _ _ _ _ Ea h3)]. apply Uy; [|auto]. intros e. rewrite e in h2. exact (Hnot _ Oa h2).
    + apply step_arrive; [auto| |exact (shows_same _ _ _ _ _ Eb h3)]. apply Ux; [auto|]. intros e. rewrite e in h2. exact (Hnot _ Ob h2).
    + apply step_direct; [exact (shows_same _ _ _ _ _ Ea h1)|exact (shows_same _ _ _ _ _ Eb h2)].
  - rewrite Forall_forall. intros c h. unfold usable. rewrite Hmid; auto.
Qed.

(** Full statement: an answer is a route on the slice it was requested for.
    What is missing: it needs the tiles of the route to be still free, and the
    two patches to be turned as they were in the earlier requests. *)
Theorem C31_valid_partial : forall L pick rs os, valid_pick pick ->
  Forall (fun r => sized (l_furthest L) (rq_slice r)) rs ->
  serve L pick [] rs = Ok os ->
  forall i r reg a b, nth_error rs i = Some r -> nth_error os i = Some (Some reg) -> placed r a b ->
  (forall t, In t (rg_cells reg) -> tile_at (rq_slice r) (sc_cell t) = None) ->
  (forall r', In r' (firstn i rs) -> placed r' a b ->
     tile_at (rq_slice r) a = tile_at (rq_slice r') a /\ tile_at (rq_slice r) b = tile_at (rq_slice r') b) ->
  is_route false L (rq_slice r) a (rq_sop r) b (rq_top r) (rg_cells reg).
Proof.
  intros L pick rs os Hp Hs H i r reg a b Hi Ho [Pa Pb] Hfree Hsame.
  destruct (C31_some_slice L pick rs os Hp Hs H i r reg Hi Ho) as (a' & b' & r' & Hin & [Pa' Pb'] & Hpl & Hr).
  assert (a' = a) by congruence. assert (b' = b) by congruence. subst a' b'.
  assert (Hs' : sized (l_furthest L) (rq_slice r')).
  { rewrite Forall_forall in Hs. apply Hs. rewrite <- (firstn_skipn (S i) rs). apply in_or_app. auto. }
  destruct Hpl as [Pa2 Pb2].
  destruct (get_cell_by_id_Some _ _ _ _ Hs' Pa2) as ((pa & Ta & _) & _).
  destruct (get_cell_by_id_Some _ _ _ _ Hs' Pb2) as ((pb & Tb & _) & _).
  assert (Hcase : In r' (firstn i rs) \/ r' = r).
  { clear - Hin Hi. revert rs Hin Hi. induction i as [|i IH]; intros [|x rs] Hin Hi; try discriminate.
    - cbn in Hi, Hin. destruct Hin as [e|[]]. right. congruence.
    - cbn [firstn] in Hin. destruct Hin as [e|Hin]; [left; left; auto|]. cbn in Hi.
      destruct (IH rs Hin Hi) as [h|h]; [left; right; auto|right; auto]. }
  destruct Hcase as [Hc| ->]; [|exact Hr].
  destruct (Hsame r' Hc (conj Pa2 Pb2)) as [E1 E2].
  eapply route_transfer; eauto; congruence.
Qed.
Print Assumptions C31_valid_partial.

(** ** Examples *)

Definition route_text : text := lit "rrrrr
rQrQr
rrrrr".
Definition route_layout : outcome layout := layout_from_spec route_text (mkDO true 2).
Definition route_start : outcome (layout * slice) :=
  do L <- route_layout ;; do s <- new_slice L [7; 3]%N ;; Ok (L, s).


Ltac small_sized := unfold sized; cbn; repeat (split; [lia|]); repeat constructor.

(** The cells of a route, from the target's end. *)
Definition route_cells (o : option region) : option (list cell) := option_map (fun r => map sc_cell (rg_cells r)) o.

Example C29_ex : exists L s r, route_start = Ok (L, s) /\ sized (l_furthest L) s
  /\ find_route L false pick_min false s 7 PX 3 PZ = Ok (Some r)
  /\ map sc_cell (rg_cells r) = [mkCell 0 3; mkCell 0 2; mkCell 1 2].
Proof.
  do 3 eexists. split; [vm_compute; reflexivity|]. split.
  - small_sized.
  - split; vm_compute; reflexivity.
Qed.

(** A cyclic route, from one patch back to itself, and a walled-in patch. *)
Example C29_ex_cycle : (do (L, s) <- route_start ;; do r <- find_route L false pick_min true s 7 PX 7 PZ ;; Ok (route_cells r))
  = Ok (Some [mkCell 0 1; mkCell 0 0; mkCell 1 0]).
Proof. vm_compute. reflexivity. Qed.

Example C30_ex_none :
  (do L <- layout_from_spec (lit "QrQ
QQQ") (mkDO true 2) ;; do s <- new_slice L [1; 2; 3; 4; 5]%N ;; do r <- find_route L false pick_min false s 1 PX 5 PX ;; Ok (route_cells r))
  = Ok None.
Proof. vm_compute. reflexivity. Qed.

(** Crossing routes may pass over tiles of other such routes. *)
Example C29_ex_crossing :
  (do (L, s) <- route_start ;;
   do s1 <- set_patch s (mkCell 1 2) (Some (mkDP (mkPatch TRouting AEDPC None None None) bare_bounds)) ;;
   do r <- find_route L true pick_min false s1 7 PX 3 PX ;;
   do r' <- find_route L false pick_min false s1 7 PX 3 PX ;;
   Ok (route_cells r, option_map (fun l => length l) (route_cells r')))
  = Ok (Some [mkCell 1 2], Some 7%nat).
Proof. vm_compute. reflexivity. Qed.

(** An operator that is neither X nor Z is refused; so is a missing patch. *)
Example C29_ex_throw :
  (do (L, s) <- route_start ;; find_route L false pick_min false s 7 PY 3 PX) = Throw LogicError
  /\ (do (L, s) <- route_start ;; find_route L false pick_min false s 8 PX 3 PX) = Throw BadOptional.
Proof. split; vm_compute; reflexivity. Qed.

(** The caching router does hand out a route over a patch that was put on it
    since, although another route exists. *)
Definition ex_start : layout * slice := Eval vm_compute in
  match route_start with Ok x => x | _ => (mkLayout [] (mkCell 0 0) [] [] [] [] [] [] [] false, mkSlice [] [] [] 0 [] [] []) end.
Definition ex_blocked : slice := Eval vm_compute in
  match set_patch (snd ex_start) (mkCell 1 2) (Some (square None None)) with Ok s => s | _ => snd ex_start end.

Theorem C31_refuted : exists L s1 s2 reg other,
  let r1 := mkReq s1 7 PX 3 PX in let r2 := mkReq s2 7 PX 3 PX in
  sized (l_furthest L) s1 /\ set_patch s1 (mkCell 1 2) (Some (square None None)) = Ok s2 /\ sized (l_furthest L) s2
  /\ serve L pick_min [] [r1; r2] = Ok [Some reg; Some reg]
  /\ (forall a b, placed r2 a b -> ~ is_route false L s2 a PX b PX (rg_cells reg))
  /\ find_route L false pick_min false s2 7 PX 3 PX = Ok (Some other).
Proof.
  exists (fst ex_start), (snd ex_start), ex_blocked. do 2 eexists. cbv zeta.
  split; [small_sized|]. split; [vm_compute; reflexivity|]. split; [small_sized|]. split; [vm_compute; reflexivity|]. split; [|vm_compute; reflexivity].
  intros a b _ (_ & _ & _ & _ & Hu & _). cbn in Hu. inversion Hu as [|? ? h _]; subst. vm_compute in h. destruct h; discriminate.
Qed.
Print Assumptions C31_refuted.

(** The hypotheses of [C31_valid_partial]: asking twice on an unchanged slice. *)
Example C31_ex : (do (L, s) <- route_start ;;
    do os <- serve L pick_min [] [mkReq s 7 PX 3 PX; mkReq s 7 PX 3 PZ; mkReq s 7 PX 3 PX] ;; Ok (map route_cells os))
  = Ok [Some [mkCell 1 2]; Some [mkCell 0 3; mkCell 0 2; mkCell 1 2]; Some [mkCell 1 2]].
Proof. vm_compute. reflexivity. Qed.
