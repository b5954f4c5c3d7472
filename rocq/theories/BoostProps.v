(** C58: the routes of the Boost based search. *)
From Verif Require Import Base TextModel PatchesModel LayoutModel LayoutSpec LayoutProofs SliceModel SliceSpec SliceProofs.
From Verif Require Import InstrSpec InstrProofs RouterModel RouterSpec RouterProofs RouterProps BoostModel BoostProofs.
Open Scope Z_scope.

(** What this search takes for a route, listed from the target's end.  The tile in the
    middle of a route of one need not be free, and if it is free the target need not
    show the operator there; a route of two leads over a patch that is in the way. *)
Inductive short_way (L : layout) (s : slice) (a : cell) (sop : pauli) (b : cell) (top : pauli) : list cell -> Prop :=
| sw_none : a <> b -> adjacent a b -> shows s a b sop \/ shows s b a top -> short_way L s a sop b top []
| sw_one x : on_lattice (l_furthest L) x -> adjacent a x -> shows s a x sop -> adjacent x b ->
    shows s b x top \/ a <> b /\ tile_at s x = None -> short_way L s a sop b top [x]
| sw_two x y : on_lattice (l_furthest L) x -> adjacent a x -> shows s a x sop -> tile_at s x = None ->
    on_lattice (l_furthest L) y -> adjacent x y -> tile_at s y <> None -> y <> a -> adjacent y b -> shows s b y top ->
    short_way L s a sop b top [y; x].

Lemma way_short : forall L s a sop b top cyc l, on_lattice (l_furthest L) b -> (cyc = true <-> a = b) -> tile_at s a <> None -> tile_at s b <> None ->
  let q := mkQ L s a b sop top false false in way q cyc (end_vertex q cyc) l <-> short_way L s a sop b top l.
Proof.
  intros L s a sop b top cyc l Ob Hc Ta Tb q.
  assert (Q : forall Oa : on_lattice (l_furthest L) a, forall Hs : sized (l_furthest L) s, b_ok q cyc) by (intros Oa Hs; constructor; auto).
  assert (E : forall x, on_lattice (l_furthest L) x -> make_vertex q x = end_vertex q cyc -> a <> b /\ x = b).
  { intros x Ox Ex. unfold end_vertex in Ex. destruct cyc.
    - pose proof (vertex_lt q x Ox). lia.
    - split; [intros X; apply Hc in X; discriminate|]. rewrite <- (cell_of_vertex q x Ox), Ex. apply cell_of_vertex. exact Ob. }
  assert (F : a <> b -> end_vertex q cyc = make_vertex q b) by (intros N; unfold end_vertex; destruct cyc; [exfalso; apply N, Hc; reflexivity|reflexivity]).
  split.
  - intros W. inversion W as [x X1 X2 X3 X4|X1 X2 X3 X4|x y X1 X2 X3 X4 X5 X6 X7 X8 X9|x X1 X2 X3 X4 X5 X6 X7|x y X1 X2 X3 X4 X5 X6 X7 X8 X9 X10 X11];
      cbn [q_source q_target q_slice q_sop q_top] in *; subst.
    + destruct (E x X1 X4) as [N ->]. apply sw_none; auto.
    + apply sw_none; auto. intros ->. exact (not_next_to_self _ X2).
    + destruct (E y X5 X9) as [N ->]. apply sw_one; auto.
    + apply sw_one; auto. apply adjacent_sym. auto.
    + eapply sw_two; eauto. apply adjacent_sym. auto.
  - intros W. inversion W as [X1 X2 X3|x X1 X2 X3 X4 X5|x y X1 X2 X3 X4 X5 X6 X7 X8 X9 X10]; subst.
    + destruct X3 as [X3|X3]; [rewrite F by auto; apply way_leave; auto|apply way_direct; auto].
      apply not_true_is_false. intros X. apply Hc in X. contradiction.
    + destruct X5 as [X5|[N X5]].
      * apply way_arrive; auto; [apply adjacent_sym; auto|]. intros ->. exact (not_next_to_self _ X2).
      * rewrite F by auto. apply way_through; auto.
    + eapply way_two; eauto. apply adjacent_sym. auto.
Qed.

(** The search, for every order in which vertices come out of the queue: it finds
    something exactly when there is such a short way, and what it finds is one, with the
    tiles joined along it.  For operators other than X and Z it throws; and where source
    and target are the same patch and no neighbouring tile is on a side for the target's
    operator it reads past the end of the graph's vertices. *)
Theorem C58_search : forall L pick s source sop target top a b, sized (l_furthest L) s -> valid_pick pick ->
  get_cell_by_id s source = Some a -> get_cell_by_id s target = Some b ->
  match boost_route L pick s source sop target top with
  | Ok (Some reg) => short_way L s a sop b top (map sc_cell (rg_cells reg)) /\ rg_id reg = None
      /\ all_joined (join_mark false) b (rg_cells reg) a
  | Ok None => forall l, ~ short_way L s a sop b top l
  | Throw e => e = LogicError /\ ~ ((sop = PX \/ sop = PZ) /\ (top = PX \/ top = PZ))
  | UB u => u = UBIndex /\ a = b /\ forall x, on_lattice (l_furthest L) x -> adjacent b x -> ~ shows s b x top
  | Fuel => False
  end.
Proof.
  intros L pick s source sop target top a b Hs Hp Ea Eb. unfold boost_route. rewrite Ea, Eb. cbn [deref bind].
  pose proof (get_cell_by_id_Some _ _ _ _ Hs Ea) as ((pa & Ta & Ia) & Oa & Fa). pose proof (get_cell_by_id_Some _ _ _ _ Hs Eb) as ((pb & Tb & Ib) & Ob & _).
  assert (Hc : (source =? target)%N = true <-> a = b).
  { rewrite N.eqb_eq. split; intros X; subst; congruence. }
  set (q := mkQ L s a b sop top false false).
  assert (Q : b_ok q (source =? target)%N) by (constructor; auto).
  assert (Na : tile_at s a <> None) by congruence. assert (Nb : tile_at s b <> None) by congruence.
  pose proof (boost_search_ok q (source =? target)%N pick Q Hp eq_refl Na Nb) as H.
  pose proof (fun l => way_short L s a sop b top (source =? target)%N l Ob Hc Na Nb) as W. cbv zeta in W. fold q in W.
  destruct (boost_search q (source =? target)%N pick) as [[reg|]|e|u|].
  - destruct H as (H1 & H2 & H3). split; [apply W; exact H1|]. auto.
  - intros l X. apply (H l). apply W. exact X.
  - exact H.
  - destruct H as (H1 & H2 & H3). split; [exact H1|]. split; [apply Hc; exact H2|exact H3].
  - exact H.
Qed.
Print Assumptions C58_search.

(** Where the ends touch, or have a free tile between them that both sides face, a route
    is found, as by the other searches. *)
Theorem C58_near_partial : forall L pick s source sop target top a b mid, sized (l_furthest L) s -> valid_pick pick ->
  get_cell_by_id s source = Some a -> get_cell_by_id s target = Some b -> (sop = PX \/ sop = PZ) -> (top = PX \/ top = PZ) ->
  walk false L s a sop b top mid -> (length mid <= 1)%nat ->
  exists reg, boost_route L pick s source sop target top = Ok (Some reg).
Proof.
  intros L pick s source sop target top a b mid Hs Hp Ea Eb Hso Hto W Hl.
  pose proof (get_cell_by_id_Some _ _ _ _ Hs Ea) as ((pa & Ta & Ia) & Oa & Fa). pose proof (get_cell_by_id_Some _ _ _ _ Hs Eb) as ((pb & Tb & Ib) & Ob & _).
  assert (Ua : ~ usable false s a) by (unfold usable; rewrite Ta; intros [X _]; discriminate).
  assert (Ub : ~ usable false s b) by (unfold usable; rewrite Tb; intros [X _]; discriminate).
  assert (Free : forall c, usable false s c -> tile_at s c = None) by (intros c X; unfold usable in X; destruct (tile_at s c); [destruct X; discriminate|reflexivity]).
  assert (S : exists l, short_way L s a sop b top l).
  { destruct W as [W O]. destruct mid as [|x [|]]; cbn in Hl, W; [| |lia].
    - destruct W as [[A St] _]. exists []. apply sw_none; auto.
      + intros ->. exact (not_next_to_self _ A).
      + inversion St; subst; tauto.
    - destruct W as [[A1 S1] [[A2 S2] _]]. inversion O as [|? ? Ox _]; subst.
      assert (Nxa : x <> a) by (intros ->; exact (not_next_to_self _ A1)). assert (Nxb : x <> b) by (intros ->; exact (not_next_to_self _ A2)).
      exists [x]. apply sw_one; auto.
      + inversion S1; subst; try tauto.
      + left. inversion S2; subst; tauto. }
  destruct S as (l & S). pose proof (C58_search L pick s source sop target top a b Hs Hp Ea Eb) as H.
  destruct (boost_route L pick s source sop target top) as [[reg|]|e|u|].
  - eauto.
  - exfalso. exact (H l S).
  - destruct H as [_ H]. exfalso. apply H. auto.
  - destruct H as (_ & E & H). exfalso. destruct S as [N _ _|x X1 X2 X3 X4 [X5|[X5 _]]|x y X1 X2 X3 X4 X5 X6 X7 X8 X9 X10]; try contradiction.
    + apply (H x X1); [apply adjacent_sym; exact X4|exact X5].
    + apply (H y X5); [apply adjacent_sym; exact X9|exact X10].
  - destruct H.
Qed.
Print Assumptions C58_near_partial.

(** A small lattice with the ids on its qubit tiles. *)
Definition made (t : text) (ids : list N) : layout * slice :=
  match (do L <- layout_from_spec t (mkDO true 2) ;; do s <- new_slice L ids ;; Ok (L, s)) with Ok x => x | _ => ex_start end.
Definition long_start : layout * slice := Eval vm_compute in made (lit "QrrQ") [7; 3]%N.

(** No route has more than two tiles, however large the lattice ... *)
Theorem C58_refuted_long : (forall L pick s source sop target top reg, sized (l_furthest L) s -> valid_pick pick ->
    boost_route L pick s source sop target top = Ok (Some reg) -> (length (rg_cells reg) <= 2)%nat)
  /\ exists L s reg, sized (l_furthest L) s /\ find_route L false pick_min false s 7 PX 3 PX = Ok (Some reg)
       /\ length (rg_cells reg) = 2%nat /\ forall pick, valid_pick pick -> boost_route L pick s 7 PX 3 PX = Ok None.
Proof.
  split.
  - intros L pick s source sop target top reg Hs Hp H.
    destruct (get_cell_by_id s source) as [a|] eqn:Ea; [|unfold boost_route in H; rewrite Ea in H; discriminate].
    destruct (get_cell_by_id s target) as [b|] eqn:Eb; [|unfold boost_route in H; rewrite Ea, Eb in H; discriminate].
    pose proof (C58_search L pick s source sop target top a b Hs Hp Ea Eb) as X. rewrite H in X. destruct X as (X & _).
    rewrite <- (map_length sc_cell). inversion X; cbn; lia.
  - exists (fst long_start), (snd long_start). eexists. split; [small_sized|]. split; [vm_compute; reflexivity|]. split; [reflexivity|].
    intros pick Hp. assert (Hs : sized (l_furthest (fst long_start)) (snd long_start)) by small_sized.
    pose proof (C58_search (fst long_start) pick (snd long_start) 7 PX 3 PX (mkCell 0 0) (mkCell 0 3) Hs Hp eq_refl eq_refl) as X.
    set (L0 := fst long_start) in *. set (s0 := snd long_start) in *.
    assert (A : forall x, adjacent (mkCell 0 0) x -> on_lattice (l_furthest L0) x -> x = mkCell 0 1).
    { intros [r c] Ax Ox. unfold adjacent, on_lattice in *. cbn in Ax, Ox. f_equal; lia. }
    assert (S0 : forall l, ~ short_way L0 s0 (mkCell 0 0) PX (mkCell 0 3) PX l).
    { intros l S. destruct S as [N Ad _|x X1 X2 X3 X4 X5|x y X1 X2 X3 X4 X5 X6 X7 X8 X9 X10].
      - unfold adjacent in Ad. cbn in Ad. lia.
      - apply A in X2; auto. subst x. unfold adjacent in X4. cbn in X4. lia.
      - apply A in X2; auto. subst x. assert (Y : y = mkCell 0 2).
        { destruct y as [r c]. unfold adjacent, on_lattice in *. cbn in X5, X6, X9. f_equal; lia. }
        subst y. apply X7. reflexivity. }
    destruct (boost_route L0 pick s0 7 PX 3 PX) as [[reg|]|e|u|].
    + destruct X as (X & _). exfalso. exact (S0 _ X).
    + reflexivity.
    + destruct X as [_ X]. exfalso. apply X. auto.
    + destruct X as (_ & X & _). discriminate.
    + destruct X.
Qed.
Print Assumptions C58_refuted_long.

(** ... a route may lead over another qubit, where the other searches find none ... *)
Lemma only_way : forall L pick s source sop target top a b l0, sized (l_furthest L) s -> valid_pick pick ->
  get_cell_by_id s source = Some a -> get_cell_by_id s target = Some b -> (sop = PX \/ sop = PZ) -> (top = PX \/ top = PZ) -> a <> b ->
  short_way L s a sop b top l0 -> (forall l, short_way L s a sop b top l -> l = l0) ->
  exists reg, boost_route L pick s source sop target top = Ok (Some reg) /\ map sc_cell (rg_cells reg) = l0.
Proof.
  intros L pick s source sop target top a b l0 Hs Hp Ea Eb H1 H2 N W U. pose proof (C58_search L pick s source sop target top a b Hs Hp Ea Eb) as X.
  destruct (boost_route L pick s source sop target top) as [[reg|]|e|u|].
  - exists reg. split; [reflexivity|]. apply U. apply X.
  - exfalso. exact (X _ W).
  - destruct X as [_ X]. exfalso. auto.
  - destruct X as (_ & X & _). contradiction.
  - destruct X.
Qed.
Lemma row_of_three : forall L s sop top l, l_furthest L = mkCell 0 2 -> short_way L s (mkCell 0 0) sop (mkCell 0 2) top l -> l = [mkCell 0 1].
Proof.
  intros L s sop top l F S.
  assert (A : forall x, adjacent (mkCell 0 0) x -> on_lattice (l_furthest L) x -> x = mkCell 0 1).
  { rewrite F. intros [r c] Ax Ox. unfold adjacent, on_lattice in *. cbn [row col] in Ax, Ox. f_equal; lia. }
  destruct S as [N Ad _|x X1 X2 X3 X4 X5|x y X1 X2 X3 X4 X5 X6 X7 X8 X9 X10].
  - unfold adjacent in Ad. cbn in Ad. lia.
  - apply A in X2; auto. now subst x.
  - exfalso. apply A in X2; auto. subst x. rewrite F in X5. destruct y as [r c]. unfold adjacent, on_lattice in *. cbn [row col] in X5, X6, X9.
    lia.
Qed.
Definition taken_start : layout * slice := Eval vm_compute in made (lit "QQQ") [7; 5; 3]%N.
Theorem C58_refuted_taken : exists L s, sized (l_furthest L) s
  /\ find_route L false pick_min false s 7 PX 3 PX = Ok None
  /\ forall pick, valid_pick pick -> exists reg c, boost_route L pick s 7 PX 3 PX = Ok (Some reg)
       /\ map sc_cell (rg_cells reg) = [c] /\ carries s c 5.
Proof.
  exists (fst taken_start), (snd taken_start). split; [small_sized|]. split; [vm_compute; reflexivity|]. intros pick Hp.
  destruct (only_way (fst taken_start) pick (snd taken_start) 7 PX 3 PX (mkCell 0 0) (mkCell 0 2) [mkCell 0 1]) as (reg & R1 & R2); auto; try discriminate.
  - small_sized.
  - apply sw_one; try (unfold adjacent, on_lattice; cbn; lia).
    + do 3 eexists. split; [reflexivity|]. split; [|split; [constructor|]]; [exact (eq_refl (step (mkCell 0 0) DRight))|reflexivity].
    + left. do 3 eexists. split; [reflexivity|]. split; [|split; [constructor|]]; [exact (eq_refl (step (mkCell 0 2) DLeft))|reflexivity].
  - intros l. apply row_of_three. reflexivity.
  - exists reg, (mkCell 0 1). split; [exact R1|]. split; [exact R2|]. eexists. split; reflexivity.
Qed.
Print Assumptions C58_refuted_taken.

(** ... or end at a side of the target that does not show the operator. *)
Definition side_start : layout * slice := Eval vm_compute in made (lit "QrQ") [7; 3]%N.
Theorem C58_refuted_side : exists L s, sized (l_furthest L) s
  /\ find_route L false pick_min false s 7 PX 3 PZ = Ok None
  /\ forall pick, valid_pick pick -> exists reg b c, boost_route L pick s 7 PX 3 PZ = Ok (Some reg) /\ carries s b 3
       /\ map sc_cell (rg_cells reg) = [c] /\ ~ shows s b c PZ.
Proof.
  exists (fst side_start), (snd side_start). split; [small_sized|]. split; [vm_compute; reflexivity|]. intros pick Hp.
  destruct (only_way (fst side_start) pick (snd side_start) 7 PX 3 PZ (mkCell 0 0) (mkCell 0 2) [mkCell 0 1]) as (reg & R1 & R2); auto; try discriminate.
  - small_sized.
  - apply sw_one; try (unfold adjacent, on_lattice; cbn; lia).
    + do 3 eexists. split; [reflexivity|]. split; [|split; [constructor|]]; [exact (eq_refl (step (mkCell 0 0) DRight))|reflexivity].
    + right. split; [discriminate|reflexivity].
  - intros l. apply row_of_three. reflexivity.
  - exists reg, (mkCell 0 2), (mkCell 0 1). split; [exact R1|]. split; [eexists; split; reflexivity|]. split; [exact R2|].
    intros (p & d & t & T & St & Sf & Bt). injection T as <-. inversion Sf; subst t. destruct d; cbn in St; discriminate.
Qed.
Print Assumptions C58_refuted_side.

(** A patch that does not exist is looked up all the same, and a patch in a row of its own, asked for a route from an X to
    a Z side, has the search read a vertex that the graph does not have. *)
Definition alone_start : layout * slice := Eval vm_compute in made (lit "rQr") [7]%N.
Theorem C58_refuted_undefined : (forall L pick s source sop target top, get_cell_by_id s source = None -> exists u, boost_route L pick s source sop target top = UB u)
  /\ exists L s, sized (l_furthest L) s /\ find_route L false pick_min false s 7 PX 7 PZ = Ok None
       /\ forall pick, valid_pick pick -> boost_route L pick s 7 PX 7 PZ = UB UBIndex.
Proof.
  split.
  - intros L pick s source sop target top E. eexists. unfold boost_route. rewrite E. reflexivity.
  - exists (fst alone_start), (snd alone_start). split; [small_sized|]. split; [vm_compute; reflexivity|]. intros pick Hp.
    set (q := mkQ (fst alone_start) (snd alone_start) (mkCell 0 1) (mkCell 0 1) PX PZ false false).
    change (boost_search q true pick = UB UBIndex).
    (* the graph has three vertices, the search looks for the fourth *)
    assert (Es : boost_edges q true = Ok [(0, 1); (2, 1); (1, 0); (1, 2)]%nat) by (vm_compute; reflexivity).
    unfold boost_search. rewrite Es. cbn [bind].
    destruct (start_ok [(0, 1); (2, 1); (1, 0); (1, 2)]%nat 1 3 ltac:(lia)) as [B0 C0].
    assert (Hb : forall a b, In (a, b) [(0, 1); (2, 1); (1, 0); (1, 2)]%nat -> (a < 3 /\ b < 3)%nat).
    { intros a b H. cbn in H. repeat (destruct H as [H|H]; [injection H as <- <-; lia|]). destruct H. }
    destruct (flood_ok _ _ _ pick 4 _ _ Hp Hb B0) as (m & E & B).
    + rewrite C0. cbn. lia.
    + match goal with |- bind ?x _ = _ => change x with (flood 4 [(0, 1); (2, 1); (1, 0); (1, 2)]%nat pick (set_row (map (mkPD None) (seq 0 3)) 1 (mkPD (Some 0%nat) 1)) [1%nat]) end.
      rewrite E. cbn [bind]. unfold idx at 1. rewrite (proj2 (nth_error_None m (end_vertex q true))); [reflexivity|].
      rewrite (bi_len _ _ _ _ _ B). vm_compute. lia.
Qed.
Print Assumptions C58_refuted_undefined.

(** Two qubits with one free tile between them: the search finds it, for every order of visits, as the other searches do. *)
Example C58_ex : exists L s reg0, sized (l_furthest L) s /\ find_route L false pick_min false s 7 PX 3 PX = Ok (Some reg0)
  /\ map sc_cell (rg_cells reg0) = [mkCell 0 1]
  /\ forall pick, valid_pick pick -> exists reg, boost_route L pick s 7 PX 3 PX = Ok (Some reg) /\ map sc_cell (rg_cells reg) = [mkCell 0 1].
Proof.
  exists (fst side_start), (snd side_start). eexists. split; [small_sized|]. split; [vm_compute; reflexivity|]. split; [reflexivity|]. intros pick Hp.
  apply (only_way (fst side_start) pick (snd side_start) 7 PX 3 PX (mkCell 0 0) (mkCell 0 2) [mkCell 0 1]); auto; try discriminate.
  - small_sized.
  - apply sw_one; try (unfold adjacent, on_lattice; cbn; lia).
    + do 3 eexists. split; [reflexivity|]. split; [|split; [constructor|]]; [exact (eq_refl (step (mkCell 0 0) DRight))|reflexivity].
    + left. do 3 eexists. split; [reflexivity|]. split; [|split; [constructor|]]; [exact (eq_refl (step (mkCell 0 2) DLeft))|reflexivity].
  - intros l. apply row_of_three. reflexivity.
Qed.
