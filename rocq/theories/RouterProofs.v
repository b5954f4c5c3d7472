(** Proofs about routes. *)
From Verif Require Import Base TextModel PatchesModel LayoutModel LayoutSpec LayoutProofs SliceModel SliceSpec SliceProofs.
From Verif Require Import InstrSpec InstrProofs RouterModel RouterSpec.
Open Scope Z_scope.

(** ** Vertices *)

Record q_ok (q : query) : Prop := {
  qk_sized : sized (q_far q) (q_slice q);
  qk_src : on_lattice (q_far q) (q_source q);
  qk_tgt : on_lattice (q_far q) (q_target q);
  qk_cycle : q_cycle q = true <-> q_source q = q_target q }.

Definition ops_ok (q : query) : Prop :=
  (q_sop q = PX \/ q_sop q = PZ) /\ (q_top q = PX \/ q_top q = PZ).

Definition root (q : query) : nat := if q_cycle q then simulated_source q else make_vertex q (q_source q).
Definition size (q : query) : nat := if q_cycle q then S (num_vertices q) else num_vertices q.

Lemma far_pos : forall q, q_ok q -> 0 <= row (q_far q) /\ 0 <= col (q_far q).
Proof. intros q H. destruct (qk_sized q H) as (h1 & h2 & _). auto. Qed.

Lemma vertex_lt : forall q c, on_lattice (q_far q) c -> (make_vertex q c < num_vertices q)%nat.
Proof.
  intros q c [H1 H2]. unfold num_vertices, make_vertex.
  assert (row c * (col (q_far q) + 1) + col c <= row (q_far q) * (col (q_far q) + 1) + col (q_far q)) by nia.
  assert (0 <= row c * (col (q_far q) + 1) + col c) by nia. lia.
Qed.

Lemma cell_of_vertex : forall q c, on_lattice (q_far q) c -> cell_of q (make_vertex q c) = c.
Proof.
  intros q c H. pose proof (vertex_lt q c H) as Hlt. unfold cell_of, simulated_source.
  assert ((make_vertex q c =? num_vertices q)%nat = false) as -> by (apply Nat.eqb_neq; lia).
  rewrite andb_false_r. destruct H as [H1 H2]. unfold make_vertex.
  rewrite Z2Nat.id by nia. set (w := col (q_far q) + 1). assert (Hw : 0 < w) by lia.
  assert (E : (row c * w + col c) mod w = col c).
  { rewrite Z.add_comm, Z.mod_add by lia. apply Z.mod_small. lia. }
  cbv zeta. rewrite E. replace (row c * w + col c - col c) with (row c * w) by lia.
  rewrite Z.div_mul by lia. destruct c; reflexivity.
Qed.

Lemma vertex_of_cell : forall q v, q_ok q -> (v < num_vertices q)%nat ->
  on_lattice (q_far q) (cell_of q v) /\ make_vertex q (cell_of q v) = v.
Proof.
  intros q v Q Hv. destruct (far_pos q Q) as [F1 F2]. unfold cell_of, simulated_source.
  assert ((v =? num_vertices q)%nat = false) as -> by (apply Nat.eqb_neq; lia).
  rewrite andb_false_r. cbv zeta. unfold num_vertices, make_vertex in Hv.
  set (w := col (q_far q) + 1) in *. assert (Hw : 0 < w) by lia.
  pose proof (Z.mod_pos_bound (Z.of_nat v) w Hw) as Hm.
  pose proof (Z.div_mod (Z.of_nat v) w ltac:(lia)) as Hd.
  assert (E : (Z.of_nat v - Z.of_nat v mod w) / w = Z.of_nat v / w).
  { replace (Z.of_nat v - Z.of_nat v mod w) with (Z.of_nat v / w * w) by lia. apply Z.div_mul. lia. }
  rewrite E. assert (Hn : 0 <= Z.of_nat v / w) by (apply Z.div_pos; lia).
  assert (Hr : Z.of_nat v / w <= row (q_far q)).
  { assert (Z.of_nat v < (row (q_far q) + 1) * w) by nia. nia. }
  split; [unfold on_lattice; cbn; lia|]. unfold make_vertex. cbn [row col]. fold w. lia.
Qed.

Lemma sim_cell : forall q, q_cycle q = true -> cell_of q (simulated_source q) = q_target q.
Proof. intros q H. unfold cell_of. rewrite H, Nat.eqb_refl. reflexivity. Qed.

Lemma cell_of_on : forall q v, q_ok q -> (v < size q)%nat -> on_lattice (q_far q) (cell_of q v).
Proof.
  intros q v Q Hv. unfold size in Hv. destruct (q_cycle q) eqn:E.
  - destruct (Nat.eq_dec v (num_vertices q)) as [->|Hn].
    + fold (simulated_source q). rewrite sim_cell by auto. apply (qk_tgt q Q).
    + apply vertex_of_cell; auto. lia.
  - apply vertex_of_cell; auto.
Qed.

Lemma num_le_size : forall q, (num_vertices q <= size q)%nat.
Proof. intros q. unfold size. destruct (q_cycle q); lia. Qed.

Lemma root_lt : forall q, q_ok q -> (root q < size q)%nat.
Proof.
  intros q Q. unfold root, size, simulated_source. destruct (q_cycle q); [lia|].
  apply vertex_lt. apply (qk_src q Q).
Qed.

Lemma root_cell : forall q, q_ok q -> cell_of q (root q) = q_source q.
Proof.
  intros q Q. unfold root. destruct (q_cycle q) eqn:E.
  - rewrite sim_cell by auto. symmetry. apply (qk_cycle q Q). auto.
  - apply cell_of_vertex. apply (qk_src q Q).
Qed.

Lemma target_not_root : forall q, q_ok q -> make_vertex q (q_target q) <> root q.
Proof.
  intros q Q E. unfold root in E. destruct (q_cycle q) eqn:Ec.
  - pose proof (vertex_lt q (q_target q) (qk_tgt q Q)). unfold simulated_source in E. lia.
  - assert (q_source q = q_target q); [|apply (qk_cycle q Q) in H; congruence].
    rewrite <- (cell_of_vertex q (q_source q)) by apply (qk_src q Q).
    rewrite <- E. apply cell_of_vertex. apply (qk_tgt q Q).
Qed.

(** ** Edges *)

Lemma neighbours_iff : forall q a b, on_lattice (q_far q) a ->
  (In b (neighbours (q_layout q) a) <-> adjacent a b /\ on_lattice (q_far q) b).
Proof.
  intros q a b Ha. unfold neighbours. fold (q_far q). rewrite neighbours_in_iff; [|exact Ha].
  unfold in_box, on_lattice. cbn. tauto.
Qed.

Lemma boundary_type_of : forall o, (o = PX \/ o = PZ) -> exists t, boundary_for_operator o = Ok t /\ side_for o t.
Proof. intros o [->| ->]; eexists; (split; [reflexivity|constructor]). Qed.

Lemma side_for_fun : forall o t t', side_for o t -> side_for o t' -> t = t'.
Proof. intros o t t' H H'. inversion H; inversion H'; subst; congruence. Qed.

Lemma step_inj : forall c d d', step c d = step c d' -> d = d'.
Proof. intros c [] [] H; cbn in H; try reflexivity; exfalso; inversion H; lia. Qed.

Lemma btype_eqb_eq : forall a b, btype_eqb a b = true <-> a = b.
Proof. intros a b. unfold btype_eqb. destruct (boundary_type_eq_dec a b); split; congruence. Qed.

Lemma boundary_between_step : forall far s c d, sized far s -> on_lattice far c ->
  boundary_between s c (step c d) = Ok (match tile_at s c with Some p => Some (side (db p) d) | None => None end).
Proof.
  intros far s c d Hs Hc. unfold boundary_between, boundary_ref. rewrite (patch_at_ok far) by auto. cbn [bind].
  destruct (tile_at s c) as [p|] eqn:E; [|reflexivity].
  assert (side_towards c (step c d) = Some d) as -> by (apply side_towards_iff; auto).
  cbn [bind]. unfold read_ref. cbn [fst snd]. rewrite (patch_at_ok far) by auto. cbn [bind]. rewrite E. reflexivity.
Qed.

Lemma hb_spec : forall far s c n o, sized far s -> on_lattice far c -> adjacent c n ->
  (exists r, has_boundary_of_type s c n o = Ok r /\ (r = true <-> shows s c n o))
  \/ (has_boundary_of_type s c n o = Throw LogicError /\ ~ (o = PX \/ o = PZ)).
Proof.
  intros far s c n o Hs Hc Ha. apply adjacent_step in Ha as [d ->]. unfold has_boundary_of_type.
  rewrite (boundary_between_step far) by auto. cbn [bind].
  destruct (tile_at s c) as [p|] eqn:E.
  - destruct o; try (right; split; [reflexivity|intros [h|h]; discriminate]); left;
      (eexists; split; [reflexivity|]); rewrite btype_eqb_eq; split.
    + intros H. exists p, d, BRough. repeat split; auto. constructor.
    + intros (p' & d' & t & H1 & H2 & H3 & H4). apply step_inj in H2. subst d'. inversion H3; subst t. congruence.
    + intros H. exists p, d, BSmooth. repeat split; auto. constructor.
    + intros (p' & d' & t & H1 & H2 & H3 & H4). apply step_inj in H2. subst d'. inversion H3; subst t. congruence.
  - left. exists false. split; [reflexivity|]. split; [discriminate|].
    intros (p' & d' & t & H1 & _). congruence.
Qed.

Lemma act_eqb_eq : forall a b, act_eqb a b = true <-> a = b.
Proof. intros a b. unfold act_eqb. destruct (activity_eq_dec a b); split; congruence. Qed.

Lemma fe_spec : forall far (edpc : bool) s c, sized far s -> on_lattice far c ->
  exists r, (if edpc then is_free_or_activity s c [AEDPC] else is_free s c) = Ok r
            /\ (r = true <-> usable edpc s c).
Proof.
  intros far edpc s c Hs Hc. unfold is_free_or_activity, is_free, usable. rewrite (patch_at_ok far) by auto. cbn [bind].
  destruct (tile_at s c) as [p|]; [|destruct edpc; eexists; (split; [reflexivity|]); tauto].
  destruct edpc; eexists; (split; [reflexivity|]).
  - cbn [existsb]. rewrite orb_false_r, act_eqb_eq. tauto.
  - split; [discriminate|]. intros [h _]. discriminate.
Qed.

Lemma reserved_spec : forall far s a b, sized far s -> on_lattice far a -> adjacent a b ->
  exists r, is_boundary_reserved s a b = Ok r /\ (r = true <-> side_reserved s a b).
Proof.
  intros far s a b Hs Ha Hab. apply adjacent_step in Hab as [d ->]. unfold is_boundary_reserved.
  rewrite (boundary_between_step far) by auto. cbn [bind]. eexists. split; [reflexivity|].
  destruct (tile_at s a) as [p|] eqn:E.
  - unfold is_label. rewrite orb_true_iff, !btype_eqb_eq. split.
    + intros H. exists p, d. auto.
    + intros (p' & d' & H1 & H2 & H3). apply step_inj in H2. subst d'. assert (p' = p) by congruence. subst. auto.
  - split; [discriminate|]. intros (p' & d' & H1 & _). congruence.
Qed.

(** One common form of the two edge functions. *)
Lemma edge_form : forall q a b, edge q a b =
  (let s := q_slice q in
   let fe := fun c => if q_edpc q then is_free_or_activity s c [AEDPC] else is_free s c in
   do both <- andM (andM (fe a) (fe b))
                   (if q_edpc q then do r <- is_boundary_reserved s a b ;; Ok (negb r) else Ok true) ;;
   if both then Ok true else
   if cell_eqb a (q_source q) && cell_eqb b (q_target q)
   then andM (has_boundary_of_type s (q_source q) b (q_sop q))
             (has_boundary_of_type s (q_target q) a (q_top q))
   else
   do from <- (if cell_eqb a (q_source q) then fe b else Ok false) ;;
   if from then has_boundary_of_type s (q_source q) b (q_sop q) else
   do to <- andM (fe a) (Ok (cell_eqb b (q_target q))) ;;
   if to then has_boundary_of_type s (q_target q) a (q_top q) else Ok false).
Proof.
  intros q a b. unfold edge. destruct (q_edpc q); [reflexivity|].
  unfold have_edge. cbv zeta. unfold andM. destruct (is_free (q_slice q) a) as [[]|e|u|]; cbn [bind]; try reflexivity.
  destruct (is_free (q_slice q) b) as [[]|e|u|]; reflexivity.
Qed.

Definition allowed (q : query) : cell -> cell -> Prop :=
  may_step (q_edpc q) (q_slice q) (q_source q) (q_sop q) (q_target q) (q_top q).

Lemma edge_spec : forall q a b, q_ok q -> on_lattice (q_far q) a -> on_lattice (q_far q) b -> adjacent a b ->
  (exists r, edge q a b = Ok r /\ (r = true <-> allowed q a b))
  \/ (edge q a b = Throw LogicError /\ ~ ops_ok q).
Proof.
  intros q a b Q Ha Hb Hab. pose proof (qk_sized q Q) as Hs. rewrite edge_form. cbv zeta.
  destruct (fe_spec _ (q_edpc q) _ a Hs Ha) as (ra & Ea & Pa).
  destruct (fe_spec _ (q_edpc q) _ b Hs Hb) as (rb & Eb & Pb).
  rewrite !Ea, !Eb.
  assert (Hres : exists rr, (if q_edpc q then do r <- is_boundary_reserved (q_slice q) a b ;; Ok (negb r) else Ok true) = Ok rr
                 /\ (rr = true <-> (q_edpc q = true -> ~ side_reserved (q_slice q) a b))).
  { destruct (q_edpc q).
    - destruct (reserved_spec _ _ a b Hs Ha Hab) as (r & -> & P). cbn [bind]. eexists. split; [reflexivity|].
      destruct r; cbn; split; intros H; try discriminate.
      + exfalso. apply H; [reflexivity|]. apply P. reflexivity.
      + intros _ Hx. apply P in Hx. discriminate.
      + reflexivity.
    - exists true. split; [reflexivity|]. split; [discriminate|reflexivity]. }
  destruct Hres as (rr & Err & Prr). rewrite Err.
  assert (Hboth : andM (andM (Ok ra) (Ok rb)) (Ok rr) = Ok (ra && rb && rr)).
  { destruct ra, rb; reflexivity. }
  rewrite Hboth. cbn [bind].
  destruct (ra && rb && rr) eqn:E3.
  { left. exists true. split; [reflexivity|]. split; [intros _|reflexivity].
    apply andb_prop in E3 as [E3 E4]. apply andb_prop in E3 as [E3 E5].
    apply step_open; [apply Pa|apply Pb|apply Prr]; auto. }
  assert (Hno : ~ (usable (q_edpc q) (q_slice q) a /\ usable (q_edpc q) (q_slice q) b
                   /\ (q_edpc q = true -> ~ side_reserved (q_slice q) a b))).
  { intros (h1 & h2 & h3). apply Pa in h1. apply Pb in h2. apply Prr in h3. subst. discriminate. }
  assert (Hirr : a <> b) by (intros ->; unfold adjacent in Hab; lia).
  destruct (cell_eqb_spec a (q_source q)) as [Esrc|Esrc], (cell_eqb_spec b (q_target q)) as [Etgt|Etgt]; cbn [andb bind].
  - (* source to target *)
    destruct (hb_spec _ _ (q_source q) b (q_sop q) Hs (qk_src q Q)) as [(r1 & -> & P1)|[-> N1]]; [congruence| |].
    2:{ right. split; [reflexivity|]. intros [h _]. auto. }
    unfold andM. cbn [bind]. destruct r1.
    + destruct (hb_spec _ _ (q_target q) a (q_top q) Hs (qk_tgt q Q)) as [(r2 & -> & P2)|[-> N2]].
      * rewrite <- Etgt. apply adjacent_sym. auto.
      * left. exists r2. split; [reflexivity|]. rewrite P2. split.
        -- intros H. rewrite Esrc, Etgt in *. apply step_direct; [|auto]. apply P1. auto.
        -- intros H. inversion H; subst; try (exfalso; tauto); try congruence.
      * right. split; [reflexivity|]. intros [_ h]. auto.
    + left. exists false. split; [reflexivity|]. split; [discriminate|]. intros H.
      inversion H; subst; try (exfalso; tauto); try congruence.
      apply P1. congruence.
  - (* leaving the source *)
    destruct rb.
    + destruct (hb_spec _ _ (q_source q) b (q_sop q) Hs (qk_src q Q)) as [(r1 & -> & P1)|[-> N1]]; [congruence| |].
      * left. exists r1. split; [reflexivity|]. rewrite P1. split.
        -- intros H. rewrite Esrc. apply step_leave; auto. apply Pb. auto.
        -- intros H. inversion H; subst; try (exfalso; tauto); try congruence.
      * right. split; [reflexivity|]. intros [h _]. auto.
    + left. exists false. split; [destruct ra; reflexivity|]. split; [discriminate|].
      intros H. inversion H; subst; try (exfalso; tauto); try congruence.
      apply Pb. auto.
  - (* arriving *)
    unfold andM. cbn [bind]. destruct ra; cbn [bind].
    + destruct (hb_spec _ _ (q_target q) a (q_top q) Hs (qk_tgt q Q)) as [(r2 & -> & P2)|[-> N2]].
      * rewrite <- Etgt. apply adjacent_sym. auto.
      * left. exists r2. split; [reflexivity|]. rewrite P2. split.
        -- intros H. rewrite Etgt. apply step_arrive; auto. apply Pa. auto.
        -- intros H. inversion H; subst; try (exfalso; tauto); try congruence.
      * right. split; [reflexivity|]. intros [_ h]. auto.
    + left. exists false. split; [reflexivity|]. split; [discriminate|].
      intros H. inversion H; subst; try (exfalso; tauto); try congruence.
      apply Pa. auto.
  - left. exists false. split; [destruct ra; reflexivity|]. split; [discriminate|].
    intros H. inversion H; subst; try (exfalso; tauto); try congruence.
Qed.

(** ** The search *)

(** [w] is reached from [v] along an edge. *)
Definition R (q : query) (v w : nat) : Prop :=
  exists nc, In nc (neighbours (q_layout q) (cell_of q v)) /\ edge q (cell_of q v) nc = Ok true /\ w = make_vertex q nc.

Definition known (m : list pdata) (v : nat) : Prop := exists d, cost m v = Some d.

Record inv (q : query) (m : list pdata) (fr : list nat) : Prop := {
  iv_len : length m = size q;
  iv_root : nth_error m (root q) = Some (mkPD (Some 0%nat) (root q));
  iv_none : forall v, (v < size q)%nat -> cost m v = None -> nth_error m v = Some (mkPD None v);
  iv_some : forall v d, cost m v = Some d -> v <> root q ->
     exists u d', nth_error m v = Some (mkPD (Some d) u) /\ cost m u = Some d' /\ (d' < d)%nat /\ R q u v;
  iv_nodup : NoDup fr;
  iv_fr : forall v, In v fr -> known m v }.

Lemma cost_nth : forall m v p, nth_error m v = Some p -> cost m v = pd_dist p.
Proof. intros m v p H. unfold cost. rewrite H. reflexivity. Qed.

Lemma cost_lt : forall m v d, cost m v = Some d -> (v < length m)%nat.
Proof.
  intros m v d H. unfold cost in H. apply nth_error_Some. destruct (nth_error m v); [congruence|discriminate].
Qed.

Lemma cost_same : forall m n p, (n < length m)%nat -> cost (set_row m n p) n = pd_dist p.
Proof. intros m n p H. unfold cost. rewrite set_row_same by auto. reflexivity. Qed.

Lemma cost_other : forall m n v p, n <> v -> cost (set_row m n p) v = cost m v.
Proof. intros m n v p H. unfold cost. rewrite set_row_other by auto. reflexivity. Qed.

Definition unreached (p : pdata) : bool := match pd_dist p with None => true | Some _ => false end.
Definition none_count (m : list pdata) : nat := length (filter unreached m).

Lemma none_count_fill : forall m n p d c, nth_error m n = Some p -> pd_dist p = None ->
  none_count m = S (none_count (set_row m n (mkPD (Some d) c))).
Proof.
  unfold none_count. induction m as [|x m IH]; intros [|n] p d c H Hp; cbn in *; try discriminate.
  - inversion H; subst x. unfold unreached at 1. rewrite Hp. reflexivity.
  - destruct (unreached x); cbn; erewrite (IH n p d c); eauto.
Qed.

Lemma none_count_keep : forall m n p e d c, nth_error m n = Some p -> pd_dist p = Some e ->
  none_count (set_row m n (mkPD (Some d) c)) = none_count m.
Proof.
  unfold none_count. induction m as [|x m IH]; intros [|n] p e d c H Hp; cbn in *; try discriminate.
  - inversion H; subst x. unfold unreached at 2. rewrite Hp. reflexivity.
  - destruct (unreached x); cbn; erewrite (IH n p e d c); eauto.
Qed.

(** What a step of the neighbour loop does to the distances. *)
Definition changed (d : nat) (m m' : list pdata) (fr' : list nat) : Prop :=
  forall v, cost m' v = cost m v
    \/ (cost m' v = Some (S d) /\ match cost m v with None => In v fr' | Some dv => (S d < dv)%nat end).

Lemma relax_ok : forall q m fr curr d nc, q_ok q -> inv q m fr -> cost m curr = Some d ->
  In nc (neighbours (q_layout q) (cell_of q curr)) ->
  match relax q curr d (m, fr) nc with
  | Ok (m', fr') =>
      inv q m' fr' /\ cost m' curr = Some d
      /\ (edge q (cell_of q curr) nc = Ok true ->
           exists dw, cost m' (make_vertex q nc) = Some dw /\ (dw <= S d)%nat)
      /\ changed d m m' fr'
      /\ incl fr fr' /\ (forall v, In v fr' -> In v fr \/ (cost m v = None /\ v = make_vertex q nc))
      /\ (forall v, cost m v = None -> known m' v -> In v fr')
      /\ (none_count m' + length fr' = none_count m + length fr)%nat
  | Throw e => e = LogicError /\ ~ ops_ok q
  | _ => False
  end.
Proof.
  intros q m fr curr d nc Q I Hc Hin.
  pose proof (cost_lt _ _ _ Hc) as Hlt. rewrite (iv_len q m fr I) in Hlt.
  pose proof (cell_of_on q curr Q Hlt) as Hon.
  pose proof (proj1 (neighbours_iff q _ nc Hon) Hin) as [Hadj Hnc].
  unfold relax. destruct (edge_spec q _ nc Q Hon Hnc Hadj) as [(r & Er & Pr)|[Er Nr]]; rewrite Er; cbn [bind].
  2:{ auto. }
  assert (Hstay : inv q m fr /\ cost m curr = Some d /\ changed d m m fr /\ incl fr fr
     /\ (forall v, In v fr -> In v fr \/ (cost m v = None /\ v = make_vertex q nc)) /\ (forall v, cost m v = None -> known m v -> In v fr)).
  { repeat (split; [first [assumption | intros x; left; reflexivity | apply incl_refl | intros x hx; left; exact hx]|]).
    intros v Hv [x Hx]. congruence. }
  destruct Hstay as (S1 & S2 & S3 & S4 & S5 & S6).
  destruct r; cbn [negb].
  2:{ split; [exact S1|]. split; [exact S2|]. split; [discriminate|]. auto 8. }
  set (n := make_vertex q nc) in *.
  assert (Hn : (n < size q)%nat).
  { pose proof (vertex_lt q nc Hnc). pose proof (num_le_size q). unfold n. lia. }
  assert (HR : R q curr n) by (exists nc; auto).
  assert (Hnl : (n < length m)%nat) by (rewrite (iv_len q m fr I); exact Hn).
  unfold idx. destruct (nth_error m n) as [p|] eqn:En; [|apply nth_error_None in En; lia]. cbn [bind].
  pose proof (cost_nth m n p En) as Ecn.
  destruct (pd_dist p) as [dn|] eqn:Ep.
  - destruct (S d <? dn)%nat eqn:El.
    + apply Nat.ltb_lt in El.
      assert (Hcn : curr <> n) by (intros e; rewrite e in Hc; rewrite Ecn in Hc; assert (dn = d) by congruence; lia).
      assert (Hrn : n <> root q).
      { intros e. rewrite e in En. rewrite (iv_root q m fr I) in En. assert (p = mkPD (Some 0%nat) (root q)) by congruence.
        subst p. cbn in Ep. assert (dn = 0%nat) by congruence. lia. }
      assert (Hcs : cost (set_row m n (mkPD (Some (S d)) curr)) n = Some (S d)) by (rewrite cost_same by auto; reflexivity).
      split; [|split; [|split; [|split; [|split; [|split; [|split]]]]]].
      * constructor.
        -- rewrite set_row_length. apply (iv_len q m fr I).
        -- rewrite set_row_other by auto. apply (iv_root q m fr I).
        -- intros v Hv H. destruct (Nat.eq_dec n v) as [<-|Hne]; [congruence|].
           rewrite cost_other in H by auto. rewrite set_row_other by auto. apply (iv_none q m fr I); auto.
        -- intros v dv H Hvr. destruct (Nat.eq_dec n v) as [<-|Hne].
           ++ assert (dv = S d) by congruence. subst dv. exists curr, d.
              rewrite set_row_same, cost_other by auto. repeat split; auto; lia.
           ++ rewrite cost_other in H by auto. destruct (iv_some q m fr I v dv H Hvr) as (u & d' & h1 & h2 & h3 & h4).
              destruct (Nat.eq_dec n u) as [<-|Hnu].
              ** exists n, (S d). rewrite set_row_other by auto. assert (d' = dn) by congruence. repeat split; auto; lia.
              ** exists u, d'. rewrite set_row_other, cost_other by auto. auto.
        -- apply (iv_nodup q m fr I).
        -- intros v Hv. destruct (Nat.eq_dec n v) as [<-|Hne]; [eexists; eauto|].
           unfold known. rewrite cost_other by auto. apply (iv_fr q m fr I); auto.
      * rewrite cost_other by auto. auto.
      * intros _. exists (S d). auto.
      * intros v. destruct (Nat.eq_dec n v) as [<-|Hne]; [|left; apply cost_other; auto].
        right. split; auto. rewrite Ecn. auto.
      * exact S4.
      * exact S5.
      * intros v Hv [x Hx]. destruct (Nat.eq_dec n v) as [<-|Hne]; [congruence|].
        rewrite cost_other in Hx by auto. congruence.
      * erewrite none_count_keep by eauto. reflexivity.
    + apply Nat.ltb_ge in El. split; [exact S1|]. split; [exact S2|]. split; [|auto 8].
      intros _. exists dn. auto.
  - assert (Hcn : curr <> n) by (intros e; rewrite e in Hc; congruence).
    assert (Hrn : n <> root q).
    { intros e. rewrite e in En. rewrite (iv_root q m fr I) in En. assert (p = mkPD (Some 0%nat) (root q)) by congruence.
      subst p. discriminate. }
    assert (Hnfr : ~ In n fr) by (intros h; apply (iv_fr q m fr I) in h as [x hx]; congruence).
    assert (Hcs : cost (set_row m n (mkPD (Some (S d)) curr)) n = Some (S d)) by (rewrite cost_same by auto; reflexivity).
    split; [|split; [|split; [|split; [|split; [|split; [|split]]]]]].
    + constructor.
      * rewrite set_row_length. apply (iv_len q m fr I).
      * rewrite set_row_other by auto. apply (iv_root q m fr I).
      * intros v Hv H. destruct (Nat.eq_dec n v) as [<-|Hne]; [congruence|].
        rewrite cost_other in H by auto. rewrite set_row_other by auto. apply (iv_none q m fr I); auto.
      * intros v dv H Hvr. destruct (Nat.eq_dec n v) as [<-|Hne].
        -- assert (dv = S d) by congruence. subst dv. exists curr, d.
           rewrite set_row_same, cost_other by auto. repeat split; auto; lia.
        -- rewrite cost_other in H by auto. destruct (iv_some q m fr I v dv H Hvr) as (u & d' & h1 & h2 & h3 & h4).
           assert (n <> u) by congruence.
           exists u, d'. rewrite set_row_other, cost_other by auto. auto.
      * apply NoDup_app_intro; [apply (iv_nodup q m fr I)|repeat constructor; auto|].
        intros x h1 [<-|[]]. auto.
      * intros v Hv. destruct (Nat.eq_dec n v) as [<-|Hne]; [eexists; eauto|].
        unfold known. rewrite cost_other by auto. apply in_app_or in Hv as [Hv|[Hv|[]]]; [|congruence].
        apply (iv_fr q m fr I); auto.
    + rewrite cost_other by auto. auto.
    + intros _. exists (S d). auto.
    + intros v. destruct (Nat.eq_dec n v) as [<-|Hne]; [|left; apply cost_other; auto].
      right. split; auto. rewrite Ecn. apply in_or_app. right. left. reflexivity.
    + apply incl_appl, incl_refl.
    + intros v Hv. apply in_app_or in Hv as [Hv|[<-|[]]]; auto.
    + intros v Hv [x Hx]. destruct (Nat.eq_dec n v) as [<-|Hne]; [apply in_or_app; right; left; reflexivity|].
      rewrite cost_other in Hx by auto. congruence.
    + rewrite (none_count_fill m n p (S d) curr) by auto. rewrite app_length. cbn [length]. lia.
Qed.

Lemma changed_le : forall d m m' fr' v x, changed d m m' fr' -> cost m v = Some x ->
  exists y, cost m' v = Some y /\ (y <= x)%nat.
Proof.
  intros d m m' fr' v x H Hx. destruct (H v) as [e|[e h]].
  - exists x. split; [congruence|lia].
  - rewrite Hx in h. exists (S d). split; [auto|lia].
Qed.

Lemma expand_ok : forall q curr d ncs m fr, q_ok q -> inv q m fr -> cost m curr = Some d ->
  incl ncs (neighbours (q_layout q) (cell_of q curr)) ->
  match foldM (relax q curr d) ncs (m, fr) with
  | Ok (m', fr') =>
      inv q m' fr' /\ cost m' curr = Some d
      /\ (forall nc, In nc ncs -> edge q (cell_of q curr) nc = Ok true ->
           exists dw, cost m' (make_vertex q nc) = Some dw /\ (dw <= S d)%nat)
      /\ changed d m m' fr'
      /\ incl fr fr' /\ (forall v, In v fr' -> In v fr \/ cost m v = None)
      /\ (forall v, cost m v = None -> known m' v -> In v fr')
      /\ (none_count m' + length fr' = none_count m + length fr)%nat
  | Throw e => e = LogicError /\ ~ ops_ok q
  | _ => False
  end.
Proof.
  intros q curr d. induction ncs as [|nc ncs IH]; intros m fr Q I Hc Hin; cbn [foldM].
  - split; [exact I|]. split; [exact Hc|]. split; [intros x []|]. split; [intros v; left; reflexivity|].
    split; [apply incl_refl|]. split; [auto|]. split; [|reflexivity]. intros v h [x hx]. congruence.
  - pose proof (relax_ok q m fr curr d nc Q I Hc (Hin nc (or_introl eq_refl))) as H.
    destruct (relax q curr d (m, fr) nc) as [[m1 fr1]|e|u|]; cbn [bind]; [|exact H|destruct H|destruct H].
    destruct H as (I1 & Hc1 & He1 & Ch1 & In1 & Or1 & Kn1 & Me1).
    pose proof (IH m1 fr1 Q I1 Hc1 (fun x hx => Hin x (or_intror hx))) as H.
    destruct (foldM (relax q curr d) ncs (m1, fr1)) as [[m2 fr2]|e|u|]; [|exact H|destruct H|destruct H].
    destruct H as (I2 & Hc2 & He2 & Ch2 & In2 & Or2 & Kn2 & Me2).
    split; [exact I2|]. split; [exact Hc2|]. split.
    { intros x [<-|Hx] Ex; [|apply He2; auto]. destruct (He1 Ex) as (dw & h1 & h2).
      destruct (changed_le _ _ _ _ _ _ Ch2 h1) as (y & h3 & h4). exists y. split; [auto|lia]. }
    assert (Kn : forall v, cost m v = None -> known m2 v -> In v fr2).
    { intros v Hv [x Hx]. destruct (cost m1 v) as [y|] eqn:E1; [|apply Kn2; [auto|eexists; eauto]].
      apply In2. apply Kn1; [auto|]. eexists; eauto. }
    split.
    { intros v. destruct (Ch2 v) as [e2|[e2 h2]].
      - rewrite e2. destruct (Ch1 v) as [e1|[e1 h1]]; [left; auto|]. right. split; [auto|].
        destruct (cost m v); auto.
      - destruct (Ch1 v) as [e1|[e1 h1]].
        + rewrite e1 in h2. right. split; auto.
        + rewrite e1 in h2. lia. }
    split; [eapply incl_tran; eauto|]. split.
    { intros v Hv. destruct (Or2 v Hv) as [h|h].
      - destruct (Or1 v h) as [h'|[h' _]]; auto.
      - right. destruct (Ch1 v) as [e1|[e1 _]]; [congruence|congruence]. }
    split; [exact Kn|lia].
Qed.

(** *** The starting point *)

Lemma fresh_length : forall q, length (fresh_map q) = num_vertices q.
Proof. intros q. unfold fresh_map. rewrite map_length, seq_length. reflexivity. Qed.

Lemma fresh_nth : forall q v, (v < num_vertices q)%nat -> nth_error (fresh_map q) v = Some (mkPD None v).
Proof.
  intros q v H. unfold fresh_map. rewrite nth_error_map.
  assert (E : nth_error (seq 0 (num_vertices q)) v = Some v).
  { rewrite nth_error_nth' with (d := O) by (rewrite seq_length; auto). rewrite seq_nth by auto. reflexivity. }
  rewrite E. reflexivity.
Qed.

Lemma fresh_none_count : forall q, none_count (fresh_map q) = num_vertices q.
Proof.
  intros q. unfold none_count, fresh_map. generalize 0%nat. induction (num_vertices q) as [|n IH]; intros k; [reflexivity|].
  cbn. rewrite IH. reflexivity.
Qed.

Definition start_map (q : query) : list pdata :=
  if q_cycle q then fresh_map q ++ [mkPD (Some 0%nat) (simulated_source q)]
  else set_row (fresh_map q) (make_vertex q (q_source q)) (mkPD (Some 0%nat) (make_vertex q (q_source q))).
Definition start_frontier (q : query) : list nat :=
  if q_cycle q then [] else [make_vertex q (q_source q)].

Lemma start_nth_other : forall q v, (v < size q)%nat -> v <> root q -> nth_error (start_map q) v = Some (mkPD None v).
Proof.
  intros q v Hv Hr. unfold start_map, size, root, simulated_source in *. destruct (q_cycle q).
  - rewrite nth_error_app1 by (rewrite fresh_length; lia). apply fresh_nth. lia.
  - rewrite set_row_other by auto. apply fresh_nth. auto.
Qed.

Lemma start_nth_root : forall q, q_ok q -> nth_error (start_map q) (root q) = Some (mkPD (Some 0%nat) (root q)).
Proof.
  intros q Q. unfold start_map, root, simulated_source. destruct (q_cycle q).
  - rewrite nth_error_app2 by (rewrite fresh_length; lia). rewrite fresh_length, Nat.sub_diag. reflexivity.
  - apply set_row_same. rewrite fresh_length. apply vertex_lt, (qk_src q Q).
Qed.

Lemma start_cost : forall q v d, q_ok q -> cost (start_map q) v = Some d -> v = root q /\ d = 0%nat.
Proof.
  intros q v d Q H. destruct (Nat.eq_dec v (root q)) as [->|Hn].
  - split; [auto|]. unfold cost in H. rewrite start_nth_root in H by auto. cbn in H. congruence.
  - assert (Hl : (v < size q)%nat).
    { apply cost_lt in H. unfold start_map, size in *. destruct (q_cycle q).
      - rewrite app_length, fresh_length in H. cbn [length] in H. lia.
      - rewrite set_row_length, fresh_length in H. auto. }
    unfold cost in H. rewrite start_nth_other in H by auto. discriminate.
Qed.

Lemma start_inv : forall q, q_ok q -> inv q (start_map q) (start_frontier q).
Proof.
  intros q Q. constructor.
  - unfold start_map, size. destruct (q_cycle q); [rewrite app_length, fresh_length; cbn [length]; lia|].
    rewrite set_row_length. apply fresh_length.
  - apply start_nth_root. auto.
  - intros v Hv H. apply start_nth_other; auto. intros ->. unfold cost in H. rewrite start_nth_root in H by auto. discriminate.
  - intros v d H Hv. apply start_cost in H as [h _]; auto. contradiction.
  - unfold start_frontier. destruct (q_cycle q); repeat constructor. intros [].
  - intros v Hv. exists 0%nat. unfold start_frontier in Hv. unfold cost.
    assert (v = root q) as ->. { unfold root. destruct (q_cycle q); [destruct Hv|]. destruct Hv as [h|[]]; auto. }
    rewrite start_nth_root by auto. reflexivity.
Qed.

Lemma start_measure : forall q, q_ok q -> (none_count (start_map q) + length (start_frontier q) = num_vertices q)%nat.
Proof.
  intros q Q. unfold start_map, start_frontier. destruct (q_cycle q).
  - pose proof (fresh_none_count q) as H. unfold none_count in *. rewrite filter_app, app_length.
    change (length (filter unreached [mkPD (Some 0%nat) (simulated_source q)])) with 0%nat. cbn [length]. lia.
  - pose proof (none_count_fill (fresh_map q) (make_vertex q (q_source q)) (mkPD None (make_vertex q (q_source q))) 0%nat
       (make_vertex q (q_source q)) (fresh_nth q _ (vertex_lt q _ (qk_src q Q))) eq_refl) as H.
    rewrite fresh_none_count in H. cbn [length]. lia.
Qed.

Lemma vertex_inj : forall q a b, on_lattice (q_far q) a -> on_lattice (q_far q) b -> make_vertex q a = make_vertex q b -> a = b.
Proof. intros q a b Ha Hb E. rewrite <- (cell_of_vertex q a Ha), <- (cell_of_vertex q b Hb), E. reflexivity. Qed.

Definition seed_step (q : query) (st : list pdata * list nat) (nc : cell) : outcome (list pdata * list nat) :=
  let '(m, fr) := st in
  do e <- edge q (q_source q) nc ;;
  if e : bool
  then let n := make_vertex q nc in
       do _ <- idx m n ;;
       Ok (set_row m n (mkPD (Some 1%nat) (simulated_source q)), fr ++ [n])
  else Ok st.

(** Seeding a cyclic search is the first expansion, from the simulated source. *)
Lemma seed_relax : forall q ncs m fr, q_ok q -> q_cycle q = true -> NoDup ncs ->
  incl ncs (neighbours (q_layout q) (q_source q)) -> inv q m fr ->
  (forall nc, In nc ncs -> cost m (make_vertex q nc) = None) ->
  foldM (seed_step q) ncs (m, fr)
  = foldM (relax q (simulated_source q) 0) ncs (m, fr).
Proof.
  intros q. induction ncs as [|nc ncs IH]; intros m fr Q Hcy Hnd Hin I Hno; [reflexivity|].
  cbn [foldM]. inversion Hnd as [|? ? Hnot Hnd']; subst.
  assert (Es : cell_of q (simulated_source q) = q_source q).
  { rewrite sim_cell by auto. symmetry. apply (qk_cycle q Q). auto. }
  assert (Hroot : cost m (simulated_source q) = Some 0%nat).
  { pose proof (iv_root q m fr I) as h. unfold root in h. rewrite Hcy in h. unfold cost. rewrite h. reflexivity. }
  assert (Hnn : In nc (neighbours (q_layout q) (cell_of q (simulated_source q)))) by (rewrite Es; apply Hin; left; reflexivity).
  pose proof (relax_ok q m fr (simulated_source q) 0 nc Q I Hroot Hnn) as Hr.
  assert (Estep : seed_step q (m, fr) nc = relax q (simulated_source q) 0 (m, fr) nc).
  { unfold seed_step, relax. rewrite Es. destruct (edge q (q_source q) nc) as [[]|e|u|]; cbn [bind negb]; try reflexivity.
    cbv zeta. pose proof (Hno nc (or_introl eq_refl)) as Hn. unfold cost in Hn. unfold idx.
    destruct (nth_error m (make_vertex q nc)); [|reflexivity]. cbn [bind]. rewrite Hn. reflexivity. }
  rewrite Estep. destruct (relax q (simulated_source q) 0 (m, fr) nc) as [[m1 fr1]|e|u|]; cbn [bind]; try reflexivity.
  destruct Hr as (I1 & _ & _ & Ch & _ & Or & Kn & _).
  apply IH; auto. { intros x hx. apply Hin. right. exact hx. }
  intros x Hx. destruct (cost m1 (make_vertex q x)) as [y|] eqn:E; [exfalso|reflexivity].
  assert (Hxm : cost m (make_vertex q x) = None) by (apply Hno; right; auto).
  assert (Hf : In (make_vertex q x) fr1) by (apply Kn; [auto|eexists; eauto]).
  destruct (Or _ Hf) as [h|[_ h]].
  - apply (iv_fr q m fr I) in h as [z hz]. congruence.
  - apply vertex_inj in h.
    + subst x. auto.
    + apply (neighbours_iff q (q_source q) x (qk_src q Q)). apply Hin. right. exact Hx.
    + apply (neighbours_iff q (q_source q) nc (qk_src q Q)). apply Hin. left. reflexivity.
Qed.

Lemma seed_cycle : forall q, q_ok q -> q_cycle q = true ->
  seed q = foldM (relax q (root q) 0) (neighbours (q_layout q) (cell_of q (root q))) (start_map q, start_frontier q).
Proof.
  intros q Q H. rewrite root_cell by auto. unfold seed, root. rewrite H.
  assert (Em : fresh_map q ++ [mkPD (Some 0%nat) (simulated_source q)] = start_map q) by (unfold start_map; rewrite H; reflexivity).
  assert (Ef : @nil nat = start_frontier q) by (unfold start_frontier; rewrite H; reflexivity).
  change (foldM (seed_step q) (neighbours (q_layout q) (q_source q)) (fresh_map q ++ [mkPD (Some 0%nat) (simulated_source q)], [])
    = foldM (relax q (simulated_source q) 0) (neighbours (q_layout q) (q_source q)) (start_map q, start_frontier q)).
  rewrite Em, Ef. apply seed_relax; auto.
  - unfold neighbours. apply neighbours_in_nodup.
  - apply incl_refl.
  - apply start_inv. auto.
  - intros nc Hnc. destruct (cost (start_map q) (make_vertex q nc)) as [y|] eqn:E; [exfalso|reflexivity].
    apply start_cost in E as [E _]; auto. unfold root in E. rewrite H in E.
    pose proof (vertex_lt q nc (proj2 (proj1 (neighbours_iff q _ nc (qk_src q Q)) Hnc))). unfold simulated_source in E. lia.
Qed.

Lemma seed_plain : forall q, q_ok q -> q_cycle q = false -> seed q = Ok (start_map q, start_frontier q).
Proof.
  intros q Q H. unfold seed, start_map, start_frontier. rewrite H. cbv zeta. unfold idx.
  rewrite fresh_nth by (apply vertex_lt, (qk_src q Q)). reflexivity.
Qed.

(** *** The loop *)

(** The queue yields one of its members. *)
Definition valid_pick (pick : pick_fun) : Prop :=
  forall m fr, fr <> [] -> (pick m fr < length fr)%nat.
(** The queue yields a member of least distance. *)
Definition least_pick (pick : pick_fun) : Prop :=
  forall m fr v w dv dw, nth_error fr (pick m fr) = Some v -> In w fr ->
    cost m v = Some dv -> cost m w = Some dw -> (dv <= dw)%nat.

Lemma pop_ok : forall pick m fr, valid_pick pick -> fr <> [] ->
  exists v l1 l2, fr = l1 ++ v :: l2 /\ pop pick m fr = Ok (v, l1 ++ l2) /\ nth_error fr (pick m fr) = Some v.
Proof.
  intros pick m fr Hp Hne. pose proof (Hp m fr Hne) as Hlt. unfold pop.
  destruct (nth_error fr (pick m fr)) as [v|] eqn:E; [|apply nth_error_None in E; lia].
  exists v, (firstn (pick m fr) fr), (skipn (S (pick m fr)) fr). split; [|auto].
  clear Hp Hne Hlt. revert E. generalize (pick m fr). clear. induction fr as [|x fr IH]; intros [|i] E; cbn in *; try discriminate.
  - congruence.
  - f_equal. apply IH. auto.
Qed.

Definition closed (q : query) (m : list pdata) (fr : list nat) : Prop :=
  forall v w, known m v -> ~ In v fr -> R q v w -> known m w.

Definition tight (q : query) (m : list pdata) (fr : list nat) : Prop :=
  forall v w d, cost m v = Some d -> ~ In v fr -> R q v w -> exists dw, cost m w = Some dw /\ (dw <= S d)%nat.

Definition layered (k : nat) (m : list pdata) (fr : list nat) : Prop :=
  forall v d, cost m v = Some d ->
    (In v fr -> (k <= d <= S k)%nat) /\ (~ In v fr -> (d <= k)%nat).

Lemma inv_remove : forall q m l1 v l2, inv q m (l1 ++ v :: l2) -> inv q m (l1 ++ l2).
Proof.
  intros q m l1 v l2 [H1 H2 H3 H4 H5 H6]. constructor; auto.
  - apply NoDup_remove_1 in H5. exact H5.
  - intros w Hw. apply H6. apply in_app_or in Hw. apply in_or_app. destruct Hw; [left|right; right]; auto.
Qed.

Lemma not_in_remove : forall (v curr : nat) l1 l2, ~ In v (l1 ++ l2) -> v <> curr -> ~ In v (l1 ++ curr :: l2).
Proof.
  intros v curr l1 l2 H Hne Hin. apply H. apply in_app_or in Hin. apply in_or_app.
  destruct Hin as [h|[h|h]]; [left|congruence|right]; auto.
Qed.

Lemma closed_step : forall q m m' curr d l1 l2 fr', closed q m (l1 ++ curr :: l2) ->
  (forall nc, In nc (neighbours (q_layout q) (cell_of q curr)) -> edge q (cell_of q curr) nc = Ok true ->
     exists dw, cost m' (make_vertex q nc) = Some dw /\ (dw <= S d)%nat) ->
  changed d m m' fr' -> incl (l1 ++ l2) fr' -> (forall v, cost m v = None -> known m' v -> In v fr') ->
  closed q m' fr'.
Proof.
  intros q m m' curr d l1 l2 fr' Hcl He Ch Hi Kn v w Hv Hnf HR.
  destruct (Nat.eq_dec v curr) as [->|Hne].
  - destruct HR as (nc & h1 & h2 & ->). destruct (He nc h1 h2) as (dw & h & _). eexists; eauto.
  - destruct (cost m v) as [x|] eqn:E.
    2:{ exfalso. apply Hnf. apply Kn; auto. }
    assert (known m w) as [y Hy].
    { apply (Hcl v w); [eexists; eauto| |auto]. apply not_in_remove; auto. }
    destruct (changed_le _ _ _ _ _ _ Ch Hy) as (z & h & _). eexists; eauto.
Qed.

Lemma loop_ok : forall q pick stop fuel m fr, q_ok q -> valid_pick pick -> inv q m fr -> closed q m fr ->
  (none_count m + length fr <= fuel)%nat ->
  match search_loop fuel q pick stop m fr with
  | Ok m' => exists fr', inv q m' fr' /\ (closed q m' [] \/ known m' (make_vertex q (q_target q)))
  | Throw e => e = LogicError /\ ~ ops_ok q
  | _ => False
  end.
Proof.
  intros q pick stop. induction fuel as [|fuel IH]; intros m fr Q Hp I Hcl Hm.
  - destruct fr as [|x fr]; [|cbn in Hm; lia]. cbn. exists []. auto.
  - destruct fr as [|x fr]; [cbn; exists []; auto|].
    destruct (pop_ok pick m (x :: fr) Hp) as (curr & l1 & l2 & El & Ep & _); [discriminate|].
    cbn [search_loop]. rewrite Ep. cbn [bind]. rewrite El in *. clear El Ep x fr.
    destruct (iv_fr q m _ I curr) as [d Hd]; [apply in_elt|].
    assert (En : exists p, nth_error m curr = Some p /\ pd_dist p = Some d).
    { unfold cost in Hd. destruct (nth_error m curr) as [p|]; [eauto|discriminate]. }
    destruct En as (p & En & Edp). unfold idx. rewrite En. cbn [bind]. rewrite Edp. cbn [deref bind].
    destruct (stop && (curr =? make_vertex q (q_target q))%nat) eqn:Es.
    { exists (l1 ++ curr :: l2). split; [auto|]. right. apply andb_prop in Es as [_ Es]. apply Nat.eqb_eq in Es.
      rewrite <- Es. eexists; eauto. }
    pose proof (expand_ok q curr d _ m (l1 ++ l2) Q (inv_remove _ _ _ _ _ I) Hd (incl_refl _)) as H.
    destruct (foldM (relax q curr d) (neighbours (q_layout q) (cell_of q curr)) (m, l1 ++ l2)) as [[m1 fr1]|e|u|]; cbn [bind];
      [|exact H|destruct H|destruct H].
    destruct H as (I1 & Hc1 & He1 & Ch1 & In1 & Or1 & Kn1 & Me1).
    apply IH; auto.
    + eapply closed_step; eauto.
    + rewrite !app_length in *. cbn [length] in Hm. lia.
Qed.

Lemma loop_min : forall q pick fuel m fr k, q_ok q -> valid_pick pick -> least_pick pick -> inv q m fr ->
  tight q m fr -> layered k m fr ->
  (none_count m + length fr <= fuel)%nat ->
  match search_loop fuel q pick false m fr with
  | Ok m' => inv q m' [] /\ tight q m' []
  | Throw e => e = LogicError /\ ~ ops_ok q
  | _ => False
  end.
Proof.
  intros q pick. induction fuel as [|fuel IH]; intros m fr k Q Hp Hl I Ht Hla Hm.
  - destruct fr as [|x fr]; [|cbn in Hm; lia]. cbn. auto.
  - destruct fr as [|x fr]; [cbn; auto|].
    destruct (pop_ok pick m (x :: fr) Hp) as (curr & l1 & l2 & El & Ep & Enth); [discriminate|].
    cbn [search_loop]. rewrite Ep. cbn [bind]. 
    pose proof (fun w dv dw => Hl m (x :: fr) curr w dv dw Enth) as Hleast. clear Enth.
    rewrite El in *. clear El Ep x fr.
    destruct (iv_fr q m _ I curr) as [d Hd]; [apply in_elt|].
    assert (En : exists p, nth_error m curr = Some p /\ pd_dist p = Some d).
    { unfold cost in Hd. destruct (nth_error m curr) as [p|]; [eauto|discriminate]. }
    destruct En as (p & En & Edp). unfold idx. rewrite En. cbn [bind]. rewrite Edp. cbn [deref bind andb].
    pose proof (expand_ok q curr d _ m (l1 ++ l2) Q (inv_remove _ _ _ _ _ I) Hd (incl_refl _)) as H.
    destruct (foldM (relax q curr d) (neighbours (q_layout q) (cell_of q curr)) (m, l1 ++ l2)) as [[m1 fr1]|e|u|]; cbn [bind];
      [|exact H|destruct H|destruct H].
    destruct H as (I1 & Hc1 & He1 & Ch1 & In1 & Or1 & Kn1 & Me1).
    pose proof (proj1 (Hla curr d Hd) (in_elt curr l1 l2)) as Hdk.
    assert (Hkeep : forall v y, cost m v = Some y -> cost m1 v = Some y).
    { intros v y Hy. destruct (Ch1 v) as [e|[_ h]]; [congruence|]. rewrite Hy in h. exfalso.
      destruct (Hla v y Hy) as [h1 h2].
      destruct (in_dec Nat.eq_dec v (l1 ++ curr :: l2)) as [i|i]; [apply h1 in i|apply h2 in i]; lia. }
    apply (IH m1 fr1 d); auto.
    + intros v w y Hy Hnf HR. destruct (Nat.eq_dec v curr) as [->|Hne].
      * destruct HR as (nc & h1 & h2 & ->). assert (y = d) by congruence. subst y. auto.
      * destruct (cost m v) as [y'|] eqn:E.
        2:{ exfalso. apply Hnf. apply Kn1; [auto|]. eexists; eauto. }
        assert (y' = y) by (apply Hkeep in E; congruence). subst y'.
        destruct (Ht v w y E) as (z & h1 & h2); [apply not_in_remove; auto|auto|].
        exists z. auto.
    + intros v y Hy. destruct (cost m v) as [y'|] eqn:E.
      * assert (y' = y) by (apply Hkeep in E; congruence). subst y'. destruct (Hla v y E) as [h1 h2]. split.
        -- intros Hin. destruct (Or1 v Hin) as [i|i]; [|congruence].
           assert (i' : In v (l1 ++ curr :: l2)).
           { apply in_app_or in i. apply in_or_app. destruct i; [left|right; right]; auto. }
           pose proof (Hleast v d y i' Hd E). apply h1 in i'. lia.
        -- intros Hnf. destruct (Nat.eq_dec v curr) as [->|Hne]; [assert (y = d) by congruence; lia|].
           assert (y <= k)%nat; [|lia]. apply h2. apply not_in_remove; auto.
      * split; [|intros Hnf; exfalso; apply Hnf, Kn1; [auto|eexists; eauto]].
        intros _. destruct (Ch1 v) as [e|[e _]]; [congruence|]. assert (y = S d) by congruence. lia.
    + rewrite !app_length in *. cbn [length] in Hm. lia.
Qed.

(** The state after seeding. *)
Lemma seed_ok : forall q, q_ok q ->
  match seed q with
  | Ok (m, fr) => inv q m fr /\ closed q m fr /\ tight q m fr /\ layered 0 m fr
                  /\ (none_count m + length fr = num_vertices q)%nat
  | Throw e => e = LogicError /\ ~ ops_ok q
  | _ => False
  end.
Proof.
  intros q Q. destruct (q_cycle q) eqn:Ec.
  - rewrite seed_cycle by auto.
    assert (Hr : cost (start_map q) (root q) = Some 0%nat) by (unfold cost; rewrite start_nth_root by auto; reflexivity).
    pose proof (expand_ok q (root q) 0 _ (start_map q) (start_frontier q) Q (start_inv q Q) Hr (incl_refl _)) as H.
    destruct (foldM (relax q (root q) 0) (neighbours (q_layout q) (cell_of q (root q))) (start_map q, start_frontier q))
      as [[m1 fr1]|e|u|]; cbn [bind]; [|exact H|destruct H|destruct H].
    destruct H as (I1 & Hc1 & He1 & Ch1 & In1 & Or1 & Kn1 & Me1).
    assert (Hk : forall v y, cost m1 v = Some y -> (v = root q /\ y = 0%nat) \/ (In v fr1 /\ y = 1%nat)).
    { intros v y Hy. destruct (cost (start_map q) v) as [z|] eqn:E.
      - destruct (start_cost q v z Q E) as [-> ->]. left. split; [auto|congruence].
      - right. split; [apply Kn1; [auto|eexists; eauto]|]. destruct (Ch1 v) as [e|[e _]]; congruence. }
    assert (Hroot : ~ In (root q) fr1).
    { intros h. destruct (Or1 _ h) as [h'|h']; [|congruence]. unfold start_frontier in h'. rewrite Ec in h'. destruct h'. }
    assert (Ht : tight q m1 fr1).
    { intros v w y Hy Hnf HR. destruct (Hk v y Hy) as [[-> ->]|[h _]]; [|contradiction].
      destruct HR as (nc & h1 & h2 & ->). auto. }
    split; [auto|]. split; [|split; [auto|split]].
    + intros v w [y Hy] Hnf HR. destruct (Ht v w y Hy Hnf HR) as (z & h & _). eexists; eauto.
    + intros v y Hy. destruct (Hk v y Hy) as [[-> ->]|[h ->]]; split; intros h'; try lia; contradiction.
    + rewrite Me1. apply start_measure. auto.
  - rewrite seed_plain by auto. split; [apply start_inv; auto|].
    assert (Hk : forall v y, cost (start_map q) v = Some y -> In v (start_frontier q)).
    { intros v y Hy. apply start_cost in Hy as [-> _]; auto. unfold start_frontier, root. rewrite Ec. left. reflexivity. }
    split; [|split; [|split]].
    + intros v w [y Hy] Hnf. exfalso. eauto.
    + intros v w y Hy Hnf. exfalso. eauto.
    + intros v y Hy. split; [|intros h; exfalso; eauto]. intros _. apply start_cost in Hy as [_ ->]; auto.
    + apply start_measure. auto.
Qed.

(** *** Following the predecessors *)

Inductive follow (q : query) (m : list pdata) : nat -> list nat -> Prop :=
| follow_root : follow q m (root q) [root q]
| follow_step v d u l : v <> root q -> nth_error m v = Some (mkPD (Some d) u) -> u <> v -> R q u v ->
    follow q m u l -> follow q m v (v :: l).

Lemma follow_exists : forall q m fr, inv q m fr -> forall d v, cost m v = Some d ->
  exists l, follow q m v l /\ (length l <= S d)%nat /\ NoDup l
            /\ (forall u, In u l -> exists du, cost m u = Some du /\ (du <= d)%nat).
Proof.
  intros q m fr I. induction d as [d IH] using lt_wf_ind. intros v Hv.
  destruct (Nat.eq_dec v (root q)) as [->|Hne].
  - exists [root q]. split; [constructor|]. split; [cbn; lia|]. split; [repeat constructor; intros []|].
    intros u [<-|[]]. eauto.
  - destruct (iv_some q m fr I v d Hv Hne) as (u & d' & h1 & h2 & h3 & h4).
    destruct (IH d' h3 u h2) as (l & F & Hl & Hnd & Hall). exists (v :: l).
    assert (Hv' : ~ In v l). { intros h. destruct (Hall v h) as (x & hx & hx'). assert (x = d) by congruence. lia. }
    split; [eapply follow_step; eauto; intros ->; assert (d' = d) by congruence; lia|].
    split; [cbn; lia|]. split; [constructor; auto|].
    intros x [<-|Hx]; [exists d; split; [auto|lia]|]. destruct (Hall x Hx) as (y & h5 & h6). exists y. split; [auto|lia].
Qed.

Fixpoint route_tiles (q : query) (prec : nat) (l : list nat) : list scell :=
  match l with
  | curr :: (next :: _) as r => route_tile q (cell_of q prec) (cell_of q curr) (cell_of q next) :: route_tiles q curr r
  | _ => []
  end.

Lemma follow_hd : forall q m v l, follow q m v l -> exists l', l = v :: l'.
Proof. intros q m v l H. inversion H; subst; eauto. Qed.

Lemma trace_ok : forall q m fr, inv q m fr -> forall v l, follow q m v l -> forall fuel prec u p,
  (length l <= fuel)%nat -> nth_error m v = Some p -> u = pd_pred p ->
  trace fuel q m prec v u = Ok (route_tiles q prec l, root q).
Proof.
  intros q m fr I v l F. induction F as [|v d u' l Hvr Hn Hne HR F IH]; intros fuel prec u p Hf Hp Hu.
  - rewrite (iv_root q m fr I) in Hp. assert (Ep : p = mkPD (Some 0%nat) (root q)) by congruence. subst p u. cbn [pd_pred].
    destruct fuel; cbn [trace]; rewrite Nat.eqb_refl; reflexivity.
  - assert (Ep : p = mkPD (Some d) u') by congruence. subst p u. cbn [pd_pred].
    destruct fuel as [|fuel]; [cbn in Hf; lia|]. cbn [trace].
    assert ((v =? u')%nat = false) as -> by (apply Nat.eqb_neq; auto).
    assert (Hu' : exists p, nth_error m u' = Some p).
    { inversion F; subst; [rewrite (iv_root q m fr I); eauto|eauto]. }
    destruct Hu' as [p Hp']. unfold idx. rewrite Hp'. cbn [bind].
    rewrite (IH fuel v (pd_pred p) p); [|cbn in Hf; lia|auto|auto]. cbn [bind].
    destruct (follow_hd _ _ _ _ F) as [l' ->]. reflexivity.
Qed.

(** *** The tiles of a route *)

Lemma route_tile_fold : forall mark prec next curr ncs t, NoDup ncs -> sc_cell t = curr ->
  (forall n, In n ncs -> adjacent curr n) ->
  let t' := fold_left (fun t n =>
     if cell_eqb prec n || cell_eqb next n
     then match set_boundary_with t n mark with Some t' => t' | None => t end
     else t) ncs t in
  sc_cell t' = curr
  /\ forall d, side (sc_b t') d =
       if existsb (cell_eqb (step curr d)) ncs && (cell_eqb (step curr d) prec || cell_eqb (step curr d) next)
       then mark else side (sc_b t) d.
Proof.
  intros mark prec next curr. induction ncs as [|n ncs IH]; intros t Hnd Ht Hadj; cbn [fold_left].
  - cbv zeta. split; [auto|]. intros d. reflexivity.
  - inversion Hnd as [|? ? Hn Hnd']; subst x l.
    pose proof (proj1 (adjacent_step curr n) (Hadj n (or_introl eq_refl))) as [dn En].
    assert (Est : set_boundary_with t n mark = Some (mkSC (set_side (sc_b t) dn mark) curr)).
    { unfold set_boundary_with. rewrite Ht.
      assert (side_towards curr n = Some dn) as -> by (apply side_towards_iff; auto). reflexivity. }
    rewrite Est. cbv zeta.
    assert (Hadj' : forall x, In x ncs -> adjacent curr x) by (intros x hx; apply Hadj; right; auto).
    assert (Hsym : cell_eqb prec n || cell_eqb next n = cell_eqb n prec || cell_eqb n next).
    { destruct (cell_eqb_spec prec n), (cell_eqb_spec next n), (cell_eqb_spec n prec), (cell_eqb_spec n next); try congruence; reflexivity. }
    rewrite Hsym. cbn [existsb].
    assert (Hd : forall d, existsb (cell_eqb (step curr d)) ncs = true -> step curr d <> n).
    { intros d h e. apply existsb_exists in h as (x & hx & ex). apply cell_eqb_eq in ex. congruence. }
    destruct (cell_eqb n prec || cell_eqb n next) eqn:Ein.
    + destruct (IH (mkSC (set_side (sc_b t) dn mark) curr) Hnd' eq_refl Hadj') as [H1 H2]. split; [auto|].
      intros d. rewrite H2. cbn [sc_b]. rewrite side_set_side.
      destruct (existsb (cell_eqb (step curr d)) ncs) eqn:Ex; cbn [andb orb].
      * rewrite orb_true_r. cbn [andb]. destruct (cell_eqb (step curr d) prec || cell_eqb (step curr d) next); [reflexivity|].
        pose proof (Hd d Ex) as Hne. destruct (dir_eqb dn d) eqn:Edd; [|reflexivity].
        exfalso. apply Hne. subst n. destruct dn, d; cbn in Edd; congruence.
      * rewrite orb_false_r. destruct (cell_eqb_spec (step curr d) n) as [e|e]; cbn [andb].
        -- rewrite e, Ein. assert (dn = d) by (apply (step_inj curr); congruence). subst dn. destruct d; reflexivity.
        -- destruct (dir_eqb dn d) eqn:Edd; [|reflexivity]. exfalso. apply e. subst n. destruct dn, d; cbn in Edd; congruence.
    + destruct (IH t Hnd' Ht Hadj') as [H1 H2]. split; [auto|]. intros d. rewrite H2.
      destruct (cell_eqb_spec (step curr d) n) as [e|e]; cbn [orb]; [|reflexivity].
      rewrite e, Ein, !andb_false_r. reflexivity.
Qed.

Lemma route_tile_ok : forall q prec curr next, on_lattice (q_far q) curr ->
  on_lattice (q_far q) prec -> on_lattice (q_far q) next ->
  sc_cell (route_tile q prec curr next) = curr
  /\ joined_to (route_mark (q_edpc q)) (route_tile q prec curr next) prec next.
Proof.
  intros q prec curr next Hc Hp Hn.
  destruct (route_tile_fold (route_mark (q_edpc q)) prec next curr (neighbours (q_layout q) curr) (mkSC bare_bounds curr)) as [H1 H2].
  - unfold neighbours. apply neighbours_in_nodup.
  - reflexivity.
  - intros n h. apply (neighbours_iff q curr n Hc) in h. tauto.
  - fold (route_tile q prec curr next) in *. split; [exact H1|]. intros d. rewrite H2, H1.
    assert (Eb : side (sc_b (mkSC bare_bounds curr)) d = mkB BNone false) by (destruct d; reflexivity). rewrite Eb.
    destruct (cell_eqb (step curr d) prec || cell_eqb (step curr d) next) eqn:E; [|rewrite andb_false_r; reflexivity].
    assert (Hon : on_lattice (q_far q) (step curr d)).
    { apply orb_prop in E as [E|E]; apply cell_eqb_eq in E; congruence. }
    assert (existsb (cell_eqb (step curr d)) (neighbours (q_layout q) curr) = true) as ->; [|reflexivity].
    apply existsb_exists. exists (step curr d). split; [|apply cell_eqb_refl].
    apply (neighbours_iff q curr _ Hc). split; [apply adjacent_step; eauto|auto].
Qed.

Lemma follow_bound : forall q m fr v l, inv q m fr -> follow q m v l -> Forall (fun u => (u < size q)%nat) l.
Proof.
  intros q m fr v l I F. induction F as [|v d u l Hv Hn Hu HR F IH]; constructor; auto.
  - assert (root q < length m)%nat by (apply nth_error_Some; rewrite (iv_root q m fr I); discriminate).
    rewrite (iv_len q m fr I) in H. auto.
  - assert (v < length m)%nat by (apply nth_error_Some; rewrite Hn; discriminate).
    rewrite (iv_len q m fr I) in H. auto.
Qed.

Lemma route_tiles_cells : forall q, q_ok q -> forall l prec, (prec < size q)%nat -> Forall (fun u => (u < size q)%nat) l ->
  map sc_cell (route_tiles q prec l) = map (cell_of q) (removelast l).
Proof.
  intros q Q. induction l as [|v [|w l] IH]; intros prec Hp H; [reflexivity|reflexivity|].
  inversion H as [|? ? h1 H']; subst. inversion H' as [|? ? h2 H'']; subst.
  change (route_tiles q prec (v :: w :: l)) with (route_tile q (cell_of q prec) (cell_of q v) (cell_of q w) :: route_tiles q v (w :: l)).
  change (removelast (v :: w :: l)) with (v :: removelast (w :: l)).
  cbn [map]. rewrite IH by auto. f_equal. apply route_tile_ok; apply cell_of_on; auto.
Qed.

Lemma route_tiles_joined : forall q, q_ok q -> forall l prec rt, (prec < size q)%nat -> Forall (fun u => (u < size q)%nat) l ->
  last l rt = rt -> rt = root q ->
  all_joined (route_mark (q_edpc q)) (cell_of q prec) (route_tiles q prec l) (cell_of q rt).
Proof.
  intros q Q. induction l as [|v [|w l] IH]; intros prec rt Hp H Hl Hrt; [exact I|exact I|].
  inversion H as [|? ? h1 H']; subst x l0. inversion H' as [|? ? h2 H'']; subst x l0.
  change (route_tiles q prec (v :: w :: l)) with (route_tile q (cell_of q prec) (cell_of q v) (cell_of q w) :: route_tiles q v (w :: l)).
  destruct (route_tile_ok q (cell_of q prec) (cell_of q v) (cell_of q w)) as [E1 E2]; [apply cell_of_on; auto..|].
  cbn [all_joined]. rewrite E1. split.
  - destruct l as [|x l].
    + cbn [route_tiles]. cbn in Hl. subst w. exact E2.
    + inversion H'' as [|? ? h3 H3]; subst x0 l0.
      cbn [route_tiles]. destruct (route_tile_ok q (cell_of q v) (cell_of q w) (cell_of q x)) as [E3 _]; [apply cell_of_on; auto..|].
      rewrite E3. exact E2.
  - apply IH; auto.
Qed.

Lemma follow_last : forall q m v l, follow q m v l -> forall x, last l x = root q.
Proof.
  intros q m v l F. induction F as [|v d u l Hv Hn Hu HR F IH]; intros x; [reflexivity|].
  destruct (follow_hd _ _ _ _ F) as [l' E]. rewrite E in *. apply (IH x).
Qed.

Lemma follow_consecutive : forall q m v l, follow q m v l -> consecutive (fun a b => R q b a) l.
Proof.
  intros q m v l F. induction F as [|v d u l Hv Hn Hu HR F IH]; [exact I|].
  destruct (follow_hd _ _ _ _ F) as [l' ->]. split; auto.
Qed.

Lemma consecutive_app : forall A (P : A -> A -> Prop) l1 x l2,
  consecutive P (l1 ++ [x]) -> consecutive P (x :: l2) -> consecutive P (l1 ++ x :: l2).
Proof.
  induction l1 as [|a l1 IH]; intros x l2 H1 H2; [exact H2|].
  destruct l1 as [|b l1]; [split; [apply H1|exact H2]|]. destruct H1 as [h1 h2]. split; [exact h1|]. apply IH; auto.
Qed.

Lemma consecutive_rev : forall A (P : A -> A -> Prop) l, consecutive (fun a b => P b a) l -> consecutive P (rev l).
Proof.
  induction l as [|a l IH]; intros H; [exact I|]. destruct l as [|b l]; [exact I|].
  destruct H as [h1 h2]. cbn [rev]. rewrite <- app_assoc. apply (consecutive_app A P).
  - apply IH. exact h2.
  - split; [exact h1|exact I].
Qed.

Lemma consecutive_map : forall A B (f : A -> B) (P : B -> B -> Prop) l,
  consecutive (fun a b => P (f a) (f b)) l -> consecutive P (map f l).
Proof.
  induction l as [|a l IH]; intros H; [exact I|]. destruct l as [|b l]; [exact I|].
  destruct H as [h1 h2]. split; [exact h1|]. apply IH. exact h2.
Qed.

Lemma consecutive_impl : forall A (P Q : A -> A -> Prop) l, (forall a b, In a l -> In b l -> P a b -> Q a b) ->
  consecutive P l -> consecutive Q l.
Proof.
  induction l as [|a l IH]; intros Hi H; [exact I|]. destruct l as [|b l]; [exact I|].
  destruct H as [h1 h2]. split.
  - apply Hi; [left|right; left|]; auto.
  - apply IH; [|auto]. intros x y hx hy. apply Hi; right; auto.
Qed.

Lemma R_step : forall q v w, q_ok q -> (v < size q)%nat -> R q v w ->
  adjacent (cell_of q v) (cell_of q w) /\ allowed q (cell_of q v) (cell_of q w) /\ (w < num_vertices q)%nat.
Proof.
  intros q v w Q Hv (nc & h1 & h2 & ->). pose proof (cell_of_on q v Q Hv) as Hon.
  pose proof (proj1 (neighbours_iff q _ nc Hon) h1) as [Hadj Hnc]. rewrite cell_of_vertex by auto.
  split; [auto|]. split; [|apply vertex_lt; auto].
  destruct (edge_spec q _ nc Q Hon Hnc Hadj) as [(r & Er & Pr)|[Er _]]; [|congruence].
  apply Pr. congruence.
Qed.

(** Everything the outcome of a search says. *)
Definition route_of (q : query) (cells : list scell) : Prop :=
  is_route (q_edpc q) (q_layout q) (q_slice q) (q_source q) (q_sop q) (q_target q) (q_top q) cells.

Lemma NoDup_map_inj : forall A B (f : A -> B) l, (forall x y, In x l -> In y l -> f x = f y -> x = y) -> NoDup l -> NoDup (map f l).
Proof.
  induction l as [|a l IH]; intros Hi H; [constructor|]. inversion H; subst. cbn. constructor.
  - intros h. apply in_map_iff in h as (y & e & hy). apply Hi in e; [subst; auto|right; auto|left; auto].
  - apply IH; auto. intros x y hx hy. apply Hi; right; auto.
Qed.

Lemma removelast_snoc : forall A (l : list A) x, l <> [] -> l = removelast l ++ [last l x].
Proof. intros A l x H. apply app_removelast_last. auto. Qed.

Lemma consecutive_In : forall A (P : A -> A -> Prop) l1 x l2 a, consecutive P (a :: l1 ++ x :: l2) -> exists y, In y (a :: l1) /\ P y x.
Proof.
  induction l1 as [|b l1 IH]; intros x l2 a H.
  - exists a. split; [left; auto|apply H].
  - destruct H as [_ H]. destruct (IH x l2 b H) as (y & h1 & h2). exists y. split; [right; exact h1|exact h2].
Qed.

Lemma follow_route : forall q m fr l, q_ok q -> inv q m fr -> follow q m (make_vertex q (q_target q)) (make_vertex q (q_target q) :: l) ->
  NoDup (make_vertex q (q_target q) :: l) ->
  route_of q (route_tiles q (make_vertex q (q_target q)) l)
  /\ length (route_tiles q (make_vertex q (q_target q)) l) = pred (length l).
Proof.
  intros q m fr l Q I F Hnd. set (t := make_vertex q (q_target q)) in *.
  assert (Hb : Forall (fun u => (u < size q)%nat) (t :: l)) by (eapply follow_bound; eauto).
  inversion Hb as [|? ? Ht Hb']; subst x l0.
  pose proof (route_tiles_cells q Q l t Ht Hb') as Ecells.
  pose proof (follow_consecutive _ _ _ _ F) as Hcons.
  assert (Hlast : l <> [] /\ last l (root q) = root q).
  { inversion F; subst; [exfalso; apply (target_not_root q Q); auto|].
    split; [destruct (follow_hd _ _ _ _ H5) as [l' ->]; discriminate|]. eapply follow_last; eauto. }
  destruct Hlast as [Hne Hlast].
  pose proof (removelast_snoc nat l (root q) Hne) as El. rewrite Hlast in El.
  set (mid := removelast l) in *. clearbody mid.
  assert (Hndm : NoDup mid /\ ~ In (root q) mid).
  { inversion Hnd as [|? ? _ Hnl]; subst x l0. rewrite El in Hnl. apply NoDup_remove in Hnl. rewrite app_nil_r in Hnl. exact Hnl. }
  destruct Hndm as [Hndm Hrm].
  assert (Htm : ~ In t mid).
  { inversion Hnd as [|? ? Hx _]; subst x l0. intros h. apply Hx. rewrite El. apply in_or_app. left. auto. }
  assert (Hcons' : consecutive (R q) (root q :: rev mid ++ [t])).
  { apply (consecutive_rev nat (R q)) in Hcons. rewrite El in Hcons. cbn [rev] in Hcons. rewrite rev_app_distr in Hcons. exact Hcons. }
  assert (Hin : forall v, In v (root q :: rev mid ++ [t]) -> (v < size q)%nat).
  { rewrite Forall_forall in Hb. intros v [<-|Hv]; [apply root_lt; auto|].
    apply Hb. apply in_app_or in Hv as [Hv|[<-|[]]]; [|left; auto]. right. rewrite El. apply in_or_app. left. apply in_rev. auto. }
  assert (Hcells : consecutive (fun a b => adjacent a b /\ allowed q a b) (map (cell_of q) (root q :: rev mid ++ [t]))).
  { apply consecutive_map. eapply consecutive_impl; [|exact Hcons'].
    intros a b ha hb HR. destruct (R_step q a b Q (Hin a ha) HR) as (h1 & h2 & _). auto. }
  assert (Emid : rev (map sc_cell (route_tiles q t l)) = map (cell_of q) (rev mid)) by (rewrite Ecells, map_rev; reflexivity).
  assert (Ewalk : map (cell_of q) (root q :: rev mid ++ [t]) = q_source q :: rev (map sc_cell (route_tiles q t l)) ++ [q_target q]).
  { cbn [map]. rewrite map_app, Emid, root_cell by auto. cbn [map]. unfold t. rewrite cell_of_vertex by apply (qk_tgt q Q). reflexivity. }
  (* interior vertices are ordinary vertices *)
  assert (Hlt : forall v, In v mid -> (v < num_vertices q)%nat).
  { intros v Hv. assert (v < size q)%nat by (apply Hin; right; apply in_or_app; left; apply in_rev in Hv; auto).
    unfold size in H. destruct (q_cycle q) eqn:Ec; [|auto].
    assert (v <> root q) by (intros ->; auto). unfold root, simulated_source in H0. rewrite Ec in H0. lia. }
  assert (Hinj : forall c v, on_lattice (q_far q) c -> In v mid -> cell_of q v = c -> v = make_vertex q c).
  { intros c v Hc Hv <-. destruct (vertex_of_cell q v Q (Hlt v Hv)) as [_ e]. auto. }
  assert (Hnt : ~ In (q_target q) (map (cell_of q) (rev mid))).
  { intros h. apply in_map_iff in h as (v & e & hv). apply in_rev in hv. apply Hinj in e; [|apply (qk_tgt q Q)|auto].
    apply Htm. unfold t. rewrite <- e. auto. }
  assert (Hns : ~ In (q_source q) (map (cell_of q) (rev mid))).
  { destruct (q_cycle q) eqn:Ec.
    - pose proof (proj1 (qk_cycle q Q) Ec) as e. rewrite e. exact Hnt.
    - intros h. apply in_map_iff in h as (v & e & hv). apply in_rev in hv. apply Hinj in e; [|apply (qk_src q Q)|auto].
      apply Hrm. unfold root. rewrite Ec, <- e. auto. }
  split.
  - unfold route_of, is_route. cbv zeta. rewrite Emid in *.
    split; [split|split; [|split; [|split; [|split]]]]; auto.
    + rewrite <- Ewalk. exact Hcells.
    + rewrite Forall_forall. intros c h. apply in_map_iff in h as (v & <- & hv). apply in_rev in hv.
      apply cell_of_on; auto. pose proof (Hlt v hv). pose proof (num_le_size q). lia.
    + rewrite map_rev. apply NoDup_rev. apply NoDup_map_inj; auto.
      intros x y hx hy e. pose proof (cell_of_on q y Q) as h. 
      rewrite (Hinj (cell_of q y) x); auto.
      * apply vertex_of_cell; auto.
      * apply h. pose proof (Hlt y hy). pose proof (num_le_size q). lia.
    + rewrite Forall_forall. intros c h. pose proof h as h0. apply in_split in h as (l1 & l2 & E).
      rewrite Ewalk, E in Hcells. rewrite <- app_assoc in Hcells. cbn [app] in Hcells.
      apply consecutive_In in Hcells as (y & hy & _ & Hal).
      assert (c <> q_target q) by (intros ->; auto). 
      unfold allowed in Hal. inversion Hal; subst; auto; congruence.
    + pose proof (route_tiles_joined q Q l t (root q) Ht Hb' Hlast eq_refl) as h.
      rewrite root_cell in h by auto. unfold t at 1 in h. rewrite cell_of_vertex in h by apply (qk_tgt q Q). exact h.
  - rewrite <- (map_length sc_cell), Ecells, map_length.
    pose proof (f_equal (@length nat) El) as h. rewrite app_length in h. cbn [length] in h. lia.
Qed.

(** Walks reach vertices. *)
Lemma walk_cost : forall q m, q_ok q -> ops_ok q -> tight q m [] -> forall l a d b,
  (a < size q)%nat -> cost m a = Some d ->
  consecutive (fun x y => adjacent x y /\ allowed q x y) (cell_of q a :: l ++ [b]) ->
  Forall (on_lattice (q_far q)) (l ++ [b]) ->
  exists d', cost m (make_vertex q b) = Some d' /\ (d' <= d + S (length l))%nat.
Proof.
  intros q m Q O T. induction l as [|c l IH]; intros a d b Ha Hd Hc Hf.
  - destruct Hc as [[h1 h2] _]. inversion Hf as [|? ? Hb _]; subst.
    pose proof (cell_of_on q a Q Ha) as Hon.
    destruct (edge_spec q _ b Q Hon Hb h1) as [(r & Er & Pr)|[_ h]]; [|contradiction].
    apply Pr in h2. subst r. destruct (T a (make_vertex q b) d Hd) as (dw & h3 & h4).
    + intros [].
    + exists b. split; [apply neighbours_iff; auto|auto].
    + exists dw. split; [auto|]. cbn [length]. lia.
  - destruct Hc as [[h1 h2] Hc]. inversion Hf as [|? ? Hb Hf']; subst.
    pose proof (cell_of_on q a Q Ha) as Hon.
    destruct (edge_spec q _ c Q Hon Hb h1) as [(r & Er & Pr)|[_ h]]; [|contradiction].
    apply Pr in h2. subst r. destruct (T a (make_vertex q c) d Hd) as (dw & h3 & h4).
    + intros [].
    + exists c. split; [apply neighbours_iff; auto|auto].
    + destruct (IH (make_vertex q c) dw b) as (d' & h5 & h6); auto.
      * pose proof (vertex_lt q c Hb). pose proof (num_le_size q). lia.
      * rewrite cell_of_vertex by auto. exact Hc.
      * exists d'. split; [auto|]. cbn [length]. lia.
Qed.

(** The same for plain reachability. *)
Lemma walk_known : forall q m, q_ok q -> ops_ok q -> closed q m [] -> forall l a b,
  (a < size q)%nat -> known m a ->
  consecutive (fun x y => adjacent x y /\ allowed q x y) (cell_of q a :: l ++ [b]) ->
  Forall (on_lattice (q_far q)) (l ++ [b]) ->
  known m (make_vertex q b).
Proof.
  intros q m Q O T. induction l as [|c l IH]; intros a b Ha Hd Hc Hf.
  - destruct Hc as [[h1 h2] _]. inversion Hf as [|? ? Hb _]; subst.
    pose proof (cell_of_on q a Q Ha) as Hon.
    destruct (edge_spec q _ b Q Hon Hb h1) as [(r & Er & Pr)|[_ h]]; [|contradiction].
    apply Pr in h2. subst r. apply (T a); auto.
    exists b. split; [apply neighbours_iff; auto|auto].
  - destruct Hc as [[h1 h2] Hc]. inversion Hf as [|? ? Hb Hf']; subst.
    pose proof (cell_of_on q a Q Ha) as Hon.
    destruct (edge_spec q _ c Q Hon Hb h1) as [(r & Er & Pr)|[_ h]]; [|contradiction].
    apply Pr in h2. subst r. apply (IH (make_vertex q c)); auto.
    + pose proof (vertex_lt q c Hb). pose proof (num_le_size q). lia.
    + apply (T a); auto. exists c. split; [apply neighbours_iff; auto|auto].
    + rewrite cell_of_vertex by auto. exact Hc.
Qed.

Lemma walk_cells : forall q mid, walk (q_edpc q) (q_layout q) (q_slice q) (q_source q) (q_sop q) (q_target q) (q_top q) mid ->
  q_ok q ->
  consecutive (fun x y => adjacent x y /\ allowed q x y) (cell_of q (root q) :: mid ++ [q_target q])
  /\ Forall (on_lattice (q_far q)) (mid ++ [q_target q]).
Proof.
  intros q mid [H1 H2] Q. rewrite root_cell by auto. split; [exact H1|].
  apply Forall_app. split; [exact H2|]. repeat constructor; apply (qk_tgt q Q).
Qed.

(** ** The whole search *)

Lemma finish_ok : forall q m fr, q_ok q -> inv q m fr ->
  let tgt := make_vertex q (q_target q) in
  exists o, (do pt <- idx m tgt ;;
   do pc <- idx m (pd_pred pt) ;;
   do (cells, last) <- trace (S (num_vertices q)) q m tgt (pd_pred pt) (pd_pred pc) ;;
   let root := if q_cycle q then simulated_source q else make_vertex q (q_source q) in
   Ok (if (last =? root)%nat then Some (mkRegion cells None) else None)) = Ok o
  /\ match o with
     | None => cost m tgt = None
     | Some r => rg_id r = None /\ route_of q (rg_cells r)
                 /\ exists d, cost m tgt = Some d /\ (length (rg_cells r) <= pred d)%nat
     end.
Proof.
  intros q m fr Q I tgt. pose proof (target_not_root q Q) as Htr. fold tgt in Htr. fold (root q). cbv zeta.
  assert (Hlt : (tgt < size q)%nat).
  { pose proof (vertex_lt q _ (qk_tgt q Q)). pose proof (num_le_size q). unfold tgt. lia. }
  destruct (cost m tgt) as [d|] eqn:Ec.
  - destruct (follow_exists q m fr I d tgt Ec) as (l & F & Hl & Hnd & _).
    destruct (follow_hd _ _ _ _ F) as [l' ->].
    pose proof (follow_route q m fr l' Q I F Hnd) as [Hroute Hlen]. fold tgt in Hroute, Hlen.
    assert (Hb : Forall (fun u => (u < size q)%nat) (tgt :: l')) by (eapply follow_bound; eauto).
    assert (Hcount : (length l' <= S (num_vertices q))%nat).
    { assert (length (tgt :: l') <= length (seq 0 (size q)))%nat.
      { apply NoDup_incl_length; [auto|]. intros x hx. rewrite Forall_forall in Hb. apply in_seq. pose proof (Hb x hx). lia. }
      rewrite seq_length in H. cbn [length] in H. unfold size in H. destruct (q_cycle q); lia. }
    inversion F as [|v dv u l0 Hv Hn Hne HR F']; subst; [exfalso; congruence|].
    unfold idx at 1. rewrite Hn. cbn [bind pd_pred].
    assert (Hu : exists p, nth_error m u = Some p).
    { inversion F'; subst; [rewrite (iv_root q m fr I); eauto|eauto]. }
    destruct Hu as [p Hp]. unfold idx. rewrite Hp. cbn [bind].
    rewrite (trace_ok q m fr I u l' F' (S (num_vertices q)) tgt (pd_pred p) p Hcount Hp eq_refl). cbn [bind].
    rewrite Nat.eqb_refl. eexists. split; [reflexivity|]. cbn. split; [reflexivity|]. split; [exact Hroute|].
    exists d. split; [reflexivity|]. rewrite Hlen. cbn [length] in Hl. lia.
  - pose proof (iv_none q m fr I tgt Hlt Ec) as Hn. unfold idx. rewrite Hn. cbn [bind pd_pred]. rewrite Hn. cbn [bind pd_pred].
    cbn [trace]. rewrite Nat.eqb_refl. cbn [bind].
    assert ((tgt =? root q)%nat = false) as -> by (apply Nat.eqb_neq; auto).
    exists None. split; [reflexivity|reflexivity].
Qed.

Lemma search_ok : forall q pick stop, q_ok q -> valid_pick pick ->
  match do_search q pick stop with
  | Ok None => ops_ok q -> forall mid,
       ~ walk (q_edpc q) (q_layout q) (q_slice q) (q_source q) (q_sop q) (q_target q) (q_top q) mid
  | Ok (Some r) => rg_id r = None /\ route_of q (rg_cells r)
  | Throw e => e = LogicError /\ ~ ops_ok q
  | _ => False
  end.
Proof.
  intros q pick stop Q Hp. unfold do_search. pose proof (seed_ok q Q) as Hs.
  destruct (seed q) as [[m fr]|e|u|]; cbn [bind]; [|exact Hs|destruct Hs|destruct Hs].
  destruct Hs as (I & Hcl & _ & _ & Hm).
  pose proof (loop_ok q pick stop (2 * num_vertices q) m fr Q Hp I Hcl) as Hl.
  destruct (search_loop (2 * num_vertices q) q pick stop m fr) as [m'|e|u|]; cbn [bind];
    [|apply Hl; lia|destruct Hl; lia|destruct Hl; lia].
  destruct Hl as (fr' & I' & Hend); [lia|].
  destruct (finish_ok q m' fr' Q I') as (o & E & Ho). cbv zeta in E |- *. rewrite E. clear E. destruct o as [r|].
  - destruct Ho as (h1 & h2 & _). auto.
  - intros O mid Hw. destruct Hend as [Hc|[x Hx]]; [|congruence].
    destruct (walk_cells q mid Hw Q) as [W1 W2].
    assert (known m' (make_vertex q (q_target q))) as [x Hx]; [|congruence].
    eapply (walk_known q m' Q O Hc mid (root q)); eauto.
    + apply root_lt. auto.
    + exists 0%nat. unfold cost. rewrite (iv_root q m' fr' I'). reflexivity.
Qed.

Lemma search_shortest : forall q pick r mid, q_ok q -> ops_ok q -> valid_pick pick -> least_pick pick ->
  do_search q pick false = Ok (Some r) ->
  walk (q_edpc q) (q_layout q) (q_slice q) (q_source q) (q_sop q) (q_target q) (q_top q) mid ->
  (length (rg_cells r) <= length mid)%nat.
Proof.
  intros q pick r mid Q O Hp Hl H Hw. unfold do_search in H. pose proof (seed_ok q Q) as Hs.
  destruct (seed q) as [[m fr]|e|u|]; cbn [bind] in H; try discriminate.
  destruct Hs as (I & _ & Ht & Hla & Hm).
  pose proof (loop_min q pick (2 * num_vertices q) m fr 0 Q Hp Hl I Ht Hla) as Hlp.
  destruct (search_loop (2 * num_vertices q) q pick false m fr) as [m'|e|u|]; cbn [bind] in H; try discriminate.
  destruct Hlp as (I' & Ht'); [lia|].
  destruct (finish_ok q m' [] Q I') as (o & E & Ho). cbv zeta in E, H. rewrite E in H. assert (o = Some r) by congruence. subst o.
  destruct Ho as (_ & _ & d & h1 & h2).
  destruct (walk_cells q mid Hw Q) as [W1 W2].
  destruct (walk_cost q m' Q O Ht' mid (root q) 0%nat (q_target q)) as (d' & h3 & h4); auto.
  - apply root_lt. auto.
  - unfold cost. rewrite (iv_root q m' [] I'). reflexivity.
  - assert (d' = d) by congruence. lia.
Qed.

(** ** The queue of the model *)

Lemma cheaper_irrefl : forall m a, cheaper m a a = false.
Proof. intros m a. unfold cheaper. destruct (cost m a); [apply Nat.ltb_irrefl|reflexivity]. Qed.

Lemma cheaper_trans : forall m a b c, cheaper m a b = true -> cheaper m b c = true -> cheaper m a c = true.
Proof.
  intros m a b c. unfold cheaper. destruct (cost m a), (cost m b), (cost m c); try congruence.
  rewrite !Nat.ltb_lt. lia.
Qed.

Lemma pick_min_fold : forall m r pre best bv i, nth_error pre best = Some bv -> i = length pre ->
  (forall x, In x pre -> cheaper m x bv = false) ->
  let '(best', bv', _) := fold_left (fun acc x => let '(best, bv, i) := acc in
                     if cheaper m x bv then (i, x, S i) else (best, bv, S i)) r (best, bv, i) in
  nth_error (pre ++ r) best' = Some bv' /\ forall x, In x (pre ++ r) -> cheaper m x bv' = false.
Proof.
  intros m. induction r as [|y r IH]; intros pre best bv i Hn Hi Hx; cbn [fold_left].
  - rewrite app_nil_r. auto.
  - assert (E : pre ++ y :: r = (pre ++ [y]) ++ r) by (rewrite <- app_assoc; reflexivity). rewrite E.
    destruct (cheaper m y bv) eqn:Ec.
    + apply IH.
      * rewrite nth_error_app2 by lia. subst i. rewrite Nat.sub_diag. reflexivity.
      * rewrite app_length. cbn. lia.
      * intros x h. apply in_app_or in h as [h|[<-|[]]]; [|apply cheaper_irrefl].
        destruct (cheaper m x y) eqn:E2; [|reflexivity]. rewrite <- (Hx x h). symmetry. eapply cheaper_trans; eauto.
    + apply IH.
      * rewrite nth_error_app1; [auto|]. apply nth_error_Some. congruence.
      * rewrite app_length. cbn. lia.
      * intros x h. apply in_app_or in h as [h|[<-|[]]]; auto.
Qed.

Lemma pick_min_spec : forall m v r,
  exists w, nth_error (v :: r) (pick_min m (v :: r)) = Some w /\ forall x, In x (v :: r) -> cheaper m x w = false.
Proof.
  intros m v r. unfold pick_min.
  pose proof (pick_min_fold m r [v] 0%nat v 1%nat eq_refl eq_refl) as H.
  destruct (fold_left _ r (0%nat, v, 1%nat)) as [[b bv] i]. cbn [fst]. exists bv. apply H.
  intros x [<-|[]]. apply cheaper_irrefl.
Qed.

Lemma pick_min_valid : valid_pick pick_min.
Proof.
  intros m [|v r] H; [congruence|]. destruct (pick_min_spec m v r) as (w & h & _).
  apply nth_error_Some. congruence.
Qed.

Lemma pick_min_least : least_pick pick_min.
Proof.
  intros m [|v r] x w dv dw Hn Hw Hx Hdw; [destruct Hw|].
  destruct (pick_min_spec m v r) as (y & h1 & h2). assert (y = x) by congruence. subst y.
  pose proof (h2 w Hw) as h. unfold cheaper in h. rewrite Hx, Hdw in h. apply Nat.ltb_ge in h. exact h.
Qed.

(** ** Requests by id *)

Lemma find_query : forall L edpc s source sop target top a b,
  sized (l_furthest L) s -> get_cell_by_id s source = Some a -> get_cell_by_id s target = Some b ->
  q_ok (mkQ L s a b sop top (N.eqb source target) edpc).
Proof.
  intros L edpc s source sop target top a b Hs Ha Hb.
  destruct (get_cell_by_id_Some _ _ _ _ Hs Ha) as ((pa & Ta & Ia) & Oa & _).
  destruct (get_cell_by_id_Some _ _ _ _ Hs Hb) as ((pb & Tb & Ib) & Ob & _).
  constructor; cbn; auto. rewrite N.eqb_eq. split.
  - intros ->. congruence.
  - intros ->. assert (pa = pb) by congruence. subst. congruence.
Qed.
