(** C03 (Pauli names), C04, C05, C06, C18, C46, C49. *)
From Verif Require Import Base TextModel TextSpec TextProofs PatchesModel InstrModel InstrSpec InstrProofs.

(** C03: Pauli operator names. *)
Theorem C03_pauli_names : forall s p, pauli_from_string s = Ok p <-> s = pauli_to_string p.
Proof. exact pauli_from_string_iff. Qed.
Print Assumptions C03_pauli_names.
Theorem C03_pauli_rejects : forall s, (forall p, s <> pauli_to_string p) -> pauli_from_string s = Throw LogicError.
Proof.
  intros s H. destruct (pauli_from_string_total s) as [[p Hp]|Hp]; [|exact Hp].
  apply pauli_from_string_iff in Hp. now apply H in Hp.
Qed.
Print Assumptions C03_pauli_rejects.
Example C03_ex_reject : forall p, lit "x" <> pauli_to_string p.
Proof. intros []; discriminate. Qed.

(** C04: the instructions that survive printing and parsing are exactly those
    with a text form. *)
Theorem C04_round_trip_partial : forall i, round_trips i <-> has_text_form i.
Proof. intros i. split; [apply round_trips_text_form|apply text_form_round_trips]. Qed.
Print Assumptions C04_round_trip_partial.

(** C04 as stated is false: instructions the compiler itself emits and prints
    do not come back, for every patch. *)
Theorem C04_refuted_pauli : forall t w cl, ~ round_trips (mkI (SingleOp t SqX false) w cl).
Proof. intros t w cl H. apply round_trips_text_form in H. inversion H. Qed.
Theorem C04_refuted_dagger : forall t w cl, ~ round_trips (mkI (SingleOp t SqS true) w cl).
Proof. intros t w cl H. apply round_trips_text_form in H. inversion H. Qed.
Theorem C04_refuted_negative : forall t p w cl, ~ round_trips (mkI (Measure t p true) w cl).
Proof. intros t p w cl H. apply round_trips_text_form in H. inversion H. Qed.
Theorem C04_refuted_reset : forall t w cl, ~ round_trips (mkI (Reset t) w cl).
Proof. intros t w cl H. apply round_trips_text_form in H. inversion H. Qed.
Theorem C04_refuted_declare : forall v l, ~ round_trips (instr_of (Declare (v :: l))).
Proof. intros v l H. apply round_trips_text_form in H. inversion H. Qed.
Theorem C04_refuted_big_id : forall t w cl, (2 ^ 31 <= t)%N -> ~ round_trips (mkI (Rotate t) w cl).
Proof. intros t w cl Ht H. apply round_trips_text_form in H. inversion H; subst. unfold small_id in *. lia. Qed.
(** and a sign is silently turned into another patch id *)
Theorem C04_refuted_negative_multi : exists line i,
  print_instr (instr_of (MultiMeasure [(3%N, PX); (4%N, PZ)] true None)) = Ok line /\
  parse_instr line = Ok i /\ op i = MultiMeasure [(4294967293%N, PX); (4%N, PZ)] false None.
Proof. do 2 eexists. repeat split; vm_compute; reflexivity. Qed.
Print Assumptions C04_refuted_pauli.
Print Assumptions C04_refuted_dagger.
Print Assumptions C04_refuted_negative.
Print Assumptions C04_refuted_reset.
Print Assumptions C04_refuted_declare.
Print Assumptions C04_refuted_big_id.
Print Assumptions C04_refuted_negative_multi.

Example C04_ex : has_text_form (instr_of (MultiMeasure [(7%N, PX); (100%N, PZ)] false None)).
Proof.
  constructor; [repeat constructor; vm_compute; reflexivity|].
  repeat constructor; cbn; intuition discriminate.
Qed.
Example C04_ex_text : print_instr (instr_of (MultiMeasure [(7%N, PX); (100%N, PZ)] false None))
  = Ok (lit "MultiBodyMeasure 7:X,100:Z").
Proof. vm_compute. reflexivity. Qed.
Example C04_ex_init : has_text_form (mkI (Init 5 StPlus (Some (mkPNT 3 PZ))) SIZE_MAX [5%N]).
Proof. constructor; vm_compute; reflexivity. Qed.

(** C05: any line is accepted or rejected, except a Bell pair whose location
    list has no comma, for which the parser indexes past a vector. *)
Theorem C05_no_undefined_behaviour_partial : forall line,
  (exists i, parse_instr line = Ok i) \/ (exists e, parse_instr line = Throw e) \/
  (parse_instr line = UB UBIndex /\
   exists kw a b c rest, split_on line " " = kw :: a :: b :: c :: rest /\
     (kw = lit "BellPairInit" \/ kw = lit "8") /\ ~ In ","%char c).
Proof.
  intros line. destruct (parse_outcome line) as [[H|H]|H]; auto.
Qed.
Print Assumptions C05_no_undefined_behaviour_partial.
Theorem C05_refuted : forall s1 s2 n p, small_id s1 -> small_id s2 -> small_id n ->
  parse_instr (lit "BellPairInit " ++ print_N s1 ++ lit " " ++ print_N s2 ++ lit " " ++
               print_N n ++ lit ":" ++ pauli_to_string p) = UB UBIndex.
Proof. exact bell_one_location_ub. Qed.
Print Assumptions C05_refuted.
Example C05_ex : parse_instr (lit "BellPairInit 1 2 3:Z") = UB UBIndex.
Proof. exact (C05_refuted 1 2 3 PZ eq_refl eq_refl eq_refl). Qed.
Example C05_ex_ok : parse_instr (lit "BellPairInit 1 2 3:Z,4:X")
  = Ok (instr_of (BellInit 1 2 (mkPNT 3 PZ) (mkPNT 4 PX) None None)).
Proof. vm_compute. reflexivity. Qed.

(** C06: a numeric opcode means the same as its name, whatever follows. *)
Theorem C06_numeric_opcodes : forall name code rest, In (name, code) opcode_table ->
  (rest = [] \/ exists r, rest = " "%char :: r) ->
  parse_instr (lit name ++ rest) = parse_instr (lit code ++ rest).
Proof. exact opcode_same. Qed.
Print Assumptions C06_numeric_opcodes.
(** The named form is not constantly rejected: each name has an accepted line. *)
Example C06_ex :
  Forall (fun x => exists i, parse_instr (lit (fst x) ++ lit (snd x)) = Ok i)
    [("Init", " 1 |0> 2:Z"); ("MeasureSinglePatch", " 1 X"); ("MultiBodyMeasure", " 1:X,2:Z");
     ("RequestMagicState", " 1 2"); ("LogicalPauli", " 1 Y"); ("HGate", " 1"); ("SGate", " 1");
     ("RotateSingleCellPatch", " 1"); ("BellPairInit", " 1 2 3:X,4:Z"); ("RequestYState", " 1 2");
     ("BellBasedCNOT", " 1 2 3 4")]%string.
Proof. repeat constructor; eexists; vm_compute; reflexivity. Qed.

(** C18: reorderable means no shared patch -- for instructions whose proximity
    patch (if any) is also among their clients. *)
Theorem C18_commuting_share_no_patch_partial : forall a b, can_commute a b = true ->
  (forall p, proximity_only (op a) p -> In p (clients a)) ->
  (forall p, proximity_only (op b) p -> In p (clients b)) ->
  forall p, ~ (uses a p /\ uses b p).
Proof. exact commute_no_shared. Qed.
Print Assumptions C18_commuting_share_no_patch_partial.
Theorem C18_symmetric : forall a b, can_commute a b = can_commute b a.
Proof. exact can_commute_sym. Qed.
Print Assumptions C18_symmetric.
Theorem C18_disjoint_commute : forall a b, (forall p, ~ (uses a p /\ uses b p)) -> can_commute a b = true.
Proof. exact commute_complete. Qed.
Print Assumptions C18_disjoint_commute.
(** C18 as stated is false for requests read from LLI text: a request near a
    patch "commutes" with measuring (destroying) that patch. *)
Theorem C18_refuted : exists l1 l2 a b,
  parse_instr l1 = Ok a /\ parse_instr l2 = Ok b /\ can_commute a b = true /\
  uses a 3%N /\ uses b 3%N.
Proof.
  exists (lit "RequestMagicState 5 3"), (lit "MeasureSinglePatch 3 X").
  do 2 eexists. split; [vm_compute; reflexivity|]. split; [vm_compute; reflexivity|].
  split; [vm_compute; reflexivity|]. split; left; cbn; auto.
Qed.
Print Assumptions C18_refuted.
Example C18_ex : can_commute (instr_of (Measure 1 PX false))
    (mkI (Init 7 StPlus (Some (mkPNT 3 PZ))) SIZE_MAX [2%N; 3%N]) = true /\
  (forall p, proximity_only (Init 7 StPlus (Some (mkPNT 3 PZ))) p -> In p [2%N; 3%N]).
Proof. split; [reflexivity|]. cbn. intuition. Qed.

(** C46: geometry. *)
Theorem C46_neighbours : forall c o f n, in_box o f c ->
  (In n (get_neigbours_in c o f) <-> adjacent c n /\ in_box o f n).
Proof. exact neighbours_in_iff. Qed.
Theorem C46_neighbours_distinct : forall c o f, NoDup (get_neigbours_in c o f).
Proof. exact neighbours_in_nodup. Qed.
Theorem C46_unbounded_neighbours : forall c n, In n (get_neigbours c) <-> adjacent c n.
Proof. exact get_neigbours_adj. Qed.
Theorem C46_neighbours_symmetric : forall c o f n, in_box o f c -> in_box o f n ->
  (In n (get_neigbours_in c o f) <-> In c (get_neigbours_in n o f)).
Proof.
  intros c o f n Hc Hn. rewrite !neighbours_in_iff by assumption. rewrite adjacent_sym. tauto.
Qed.
Theorem C46_directional : forall c o f d n, in_box o f c ->
  (get_directional_neighbor c o f d = Some n <-> n = step c d /\ in_box o f n).
Proof. exact directional_iff. Qed.
Theorem C46_directional_back : forall c o f d n, in_box o f c ->
  get_directional_neighbor c o f d = Some n -> get_directional_neighbor n o f (dir_not d) = Some c.
Proof.
  intros c o f d n Hc H. apply directional_iff in H; [|exact Hc]. destruct H as [-> Hn].
  apply directional_iff; [exact Hn|]. split; [symmetry; apply step_back|exact Hc].
Qed.
Theorem C46_facing_sides : forall s n b, get_boundary_with s n = Some b ->
  exists d, n = step (sc_cell s) d /\ sc_cell s = step n (dir_not d) /\ b = side (sc_b s) d /\
  forall s' , sc_cell s' = n -> get_boundary_with s' (sc_cell s) = Some (side (sc_b s') (dir_not d)).
Proof.
  intros s n b H. unfold get_boundary_with in *. destruct (side_towards (sc_cell s) n) as [d|] eqn:E; [|discriminate].
  inversion H; subst. exists d. pose proof (side_towards_opposite _ _ _ E) as E'.
  split; [now apply side_towards_iff|]. split; [now apply side_towards_iff|]. split; [reflexivity|].
  intros s' <-. now rewrite E'.
Qed.
Theorem C46_boundary_iff_adjacent : forall s n, get_boundary_with s n <> None <-> adjacent (sc_cell s) n.
Proof.
  intros s n. unfold get_boundary_with. destruct (side_towards (sc_cell s) n) eqn:E.
  - split; [intros _|discriminate]. apply adjacent_step. exists d. now apply side_towards_iff.
  - apply side_towards_none in E. tauto.
Qed.
Theorem C46_rotation_moves_sides : forall b d, side (instant_rotate b) (clockwise d) = side b d.
Proof. exact instant_rotate_side. Qed.
Theorem C46_four_rotations : forall b, instant_rotate (instant_rotate (instant_rotate (instant_rotate b))) = b.
Proof. intros []. reflexivity. Qed.
Theorem C46_opposites : (forall d, dir_not (dir_not d) = d /\ dir_not d <> d) /\
                        (forall b, bt_not (bt_not b) = b /\ bt_not b <> b).
Proof. split; intros []; split; try reflexivity; discriminate. Qed.
Print Assumptions C46_neighbours.
Print Assumptions C46_neighbours_distinct.
Print Assumptions C46_unbounded_neighbours.
Print Assumptions C46_neighbours_symmetric.
Print Assumptions C46_directional.
Print Assumptions C46_directional_back.
Print Assumptions C46_facing_sides.
Print Assumptions C46_boundary_iff_adjacent.
Print Assumptions C46_rotation_moves_sides.
Print Assumptions C46_four_rotations.
Print Assumptions C46_opposites.
Example C46_ex : in_box (mkCell 0 0) (mkCell 2 2) (mkCell 0 1) /\
  get_neigbours_in (mkCell 0 1) (mkCell 0 0) (mkCell 2 2) = [mkCell 1 1; mkCell 0 0; mkCell 0 2].
Proof. split; [unfold in_box; cbn; lia|reflexivity]. Qed.

(** C49: the standalone form keeps everything exactly when the patch has no
    label and no operation id; one-tile patches list exactly their tile. *)
Theorem C49_dense_sparse_partial : forall p c,
  from_sparse_patch (to_sparse_patch p c) = Ok p <-> p_label (dp p) = None /\ p_op (dp p) = None.
Proof. exact from_to_sparse_iff. Qed.
Theorem C49_type_activity_id_bounds_kept : forall p c,
  exists q, from_sparse_patch (to_sparse_patch p c) = Ok q /\
    p_type (dp q) = p_type (dp p) /\ p_act (dp q) = p_act (dp p) /\ p_id (dp q) = p_id (dp p) /\ db q = db p.
Proof. intros p c. eexists. split; [apply from_to_sparse|]. cbn. auto. Qed.
Theorem C49_sparse_dense : forall sp sc, sp_cells sp = Single sc ->
  exists q, from_sparse_patch sp = Ok q /\ dp q = sp_patch sp /\ db q = sc_b sc.
Proof. intros sp sc H. unfold from_sparse_patch. rewrite H. eexists; split; [reflexivity|]. split; reflexivity. Qed.
Theorem C49_cells_partial : forall p, get_cells p = tiles_of p <->
  match sp_cells p with Single _ => True | Multi l => l = [] end.
Proof. exact get_cells_iff. Qed.
Theorem C49_refuted_label : exists p c, from_sparse_patch (to_sparse_patch p c) <> Ok p.
Proof.
  exists (mkDP (mkPatch TQubit ANone (Some 1%N) (Some (lit "q")) None)
               (mkBounds (mkB BRough false) (mkB BRough false) (mkB BSmooth false) (mkB BSmooth false))), (mkCell 0 0).
  rewrite from_to_sparse_iff. cbn. intros [H _]. discriminate.
Qed.
Theorem C49_refuted_cells : exists p, get_cells p <> tiles_of p.
Proof.
  pose (b := mkBounds (mkB BRough false) (mkB BRough false) (mkB BSmooth false) (mkB BSmooth false)).
  exists (mkSP (mkPatch TQubit ANone None None None) (Multi [mkSC b (mkCell 3 4)])).
  vm_compute. discriminate.
Qed.
Print Assumptions C49_dense_sparse_partial.
Print Assumptions C49_type_activity_id_bounds_kept.
Print Assumptions C49_sparse_dense.
Print Assumptions C49_cells_partial.
Print Assumptions C49_refuted_label.
Print Assumptions C49_refuted_cells.
