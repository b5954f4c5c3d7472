(** Properties of layouts: C23, C24, C25. *)
From Coq Require Import Relations Sorted.
From Verif Require Import Base TextModel TextSpec PatchesModel LayoutModel LayoutSpec LayoutProofs CompactProofs.
Local Open Scope Z_scope.

(** C23: a layout text, taken as any list of lines, is accepted exactly when
    its non-empty lines form a non-empty rectangle over the alphabet and it
    does not mix factories with tiles reserved for magic states.  Anything else
    is rejected with an exception. *)
Theorem C23_accepted : forall lines o, Forall (fun l => ~ In newline l) lines ->
  let rows := filter nonempty lines in
  ((exists L, layout_from_spec (intercalate newline lines) o = Ok L) <->
   rows <> [] /\ rectangular rows /\ Forall (Forall (fun c => In c alphabet)) rows
   /\ ~ ((exists c, written rows c "M"%char) /\ (exists d c, In d digits /\ written rows c d)))
  /\ ((exists L, layout_from_spec (intercalate newline lines) o = Ok L)
      \/ layout_from_spec (intercalate newline lines) o = Throw LogicError).
Proof.
  intros lines o Hl rows.
  destruct (layout_text_spec lines o Hl) as [(Ha & L & E & _)|[Ha E]]; fold rows in Ha; rewrite E.
  - split; [|left; eauto]. split; [intros _; exact Ha | intros _; eauto].
  - split; [|right; reflexivity]. split; [intros [L H]; discriminate | intros H; exfalso; apply Ha; exact H].
Qed.
Print Assumptions C23_accepted.

(** C23: in an accepted layout every query answers exactly the cells where the
    corresponding character is written, in reading order; the lattice is the
    rectangle of the text. *)
Theorem C23_cells : forall lines o L, Forall (fun l => ~ In newline l) lines ->
  layout_from_spec (intercalate newline lines) o = Ok L ->
  let rows := filter nonempty lines in
  (exists cells, l_core L = map (fun c => basic_square_patch c None None) cells
                 /\ lists_exactly rows "Q"%char cells)
  /\ lists_exactly rows "A"%char (l_ancilla L)
  /\ lists_exactly rows "X"%char (l_dead L)
  /\ lists_exactly rows "M"%char (l_reserved L)
  /\ lists_exactly rows "Y"%char (l_ystates L)
  /\ (l_magic_reserved L = true <-> exists c, written rows c "M"%char)
  /\ (forall c, on_lattice (l_furthest L) c <-> exists t, written rows c t)
  /\ row (l_furthest L) + 1 = Z.of_nat (length rows).
Proof.
  intros lines o L Hl E rows.
  destruct (layout_text_spec lines o Hl) as [(Ha & L' & E' & Hok)|[Ha E']]; [|congruence].
  fold rows in Ha, Hok. assert (L' = L) by congruence. subst L'.
  destruct Hok as (Hf & Hcore & Hanc & Hdead & Hres & Hy & Hm & _ & _).
  split; [exists (find_all_cells_of_type rows kQubit); split; [exact Hcore|apply find_all_exact]|].
  rewrite Hm, Hanc, Hdead, Hres, Hy.
  do 4 (split; [apply find_all_exact|]). split; [|split].
  - destruct (find_all_cells_of_type rows kMagic) as [|c l] eqn:El; cbn.
    + split; [discriminate|]. intros [c Hc]. apply (find_all_In rows kMagic) in Hc. rewrite El in Hc. destruct Hc.
    + split; [|reflexivity]. intros _. exists c. apply (find_all_In rows kMagic). rewrite El. left; reflexivity.
  - intros c. symmetry. apply written_on_lattice. exact Hf.
  - apply spec_furthest_ok in Hf. destruct Hf as (n & _ & _ & _ & ->). cbn. lia.
Qed.
Print Assumptions C23_cells.

(** A text with an empty line, all main kinds of tiles and a factory. *)
Definition C23_lines : list text := [lit "QrA11"; lit ""; lit "rrX1r"; lit "QrY11"].
Example C23_ex : exists L, layout_from_spec (intercalate newline C23_lines) (mkDO true 10) = Ok L
  /\ length (l_core L) = 2%nat /\ l_dead L = [mkCell 1 2] /\ l_ystates L = [mkCell 2 2]
  /\ length (l_regions L) = 1%nat /\ Forall (fun l => ~ In newline l) C23_lines.
Proof.
  eexists. split; [vm_compute; reflexivity|]. repeat split.
  repeat constructor; cbn; intros H; repeat (destruct H as [H|H]; [discriminate H|]); exact H.
Qed.
Example C23_ex_ragged : layout_from_spec (lit "Qr
Q") (mkDO true 10) = Throw LogicError.
Proof. reflexivity. Qed.
Example C23_ex_mixed : layout_from_spec (lit "QM
00") (mkDO true 10) = Throw LogicError.
Proof. reflexivity. Qed.

(** C23 fails for two characters the file format accepts: a qubit tile with
    rotated borders ('T') and a dynamically allocated one ('D') are answered by
    no query of the layout, they are ordinary free tiles. *)
Theorem C23_rotated_tiles_refuted : forall o, exists L,
  layout_from_spec (lit "TDr") o = Ok L
  /\ l_core L = [] /\ open_tile L (mkCell 0 0) /\ open_tile L (mkCell 0 1).
Proof.
  intros o. eexists. split; [reflexivity|]. cbn. split; [reflexivity|].
  unfold open_tile, on_lattice; cbn. repeat split; try lia; intros; auto.
Qed.
Print Assumptions C23_rotated_tiles_refuted.

(** C24: the regions of a layout are exactly the classes of factory cells
    connected through edge-adjacent cells with the same digit; every factory
    cell lies in exactly one region and is listed once there. *)
Theorem C24_regions : forall lines o L, Forall (fun l => ~ In newline l) lines ->
  layout_from_spec (intercalate newline lines) o = Ok L ->
  let rows := filter nonempty lines in
  (forall k R, nth_error (l_regions L) k = Some R ->
     NoDup (map sc_cell R) /\
     exists d c0, In d digits /\ written rows c0 d
       /\ forall c, In c (map sc_cell R) <-> linked rows d c0 c)
  /\ (forall d c, In d digits -> written rows c d ->
      exists k R, nth_error (l_regions L) k = Some R /\ In c (map sc_cell R)
        /\ forall k' R', nth_error (l_regions L) k' = Some R' -> In c (map sc_cell R') -> k' = k).
Proof.
  intros lines o L Hl E rows.
  destruct (layout_text_spec lines o Hl) as [(Ha & L' & E' & Hok)|[Ha E']]; [|congruence].
  fold rows in Ha, Hok. assert (L' = L) by congruence. subst L'.
  destruct Hok as (_ & _ & _ & _ & _ & _ & _ & (times & HI & _) & Hcov).
  destruct HI as [H2 Hd _]. cbn [fst snd] in *. split.
  - intros k R HR. apply nth_error_In in HR. destruct (Forall2_In_l _ _ _ _ H2 HR) as (Q & _ & HQ).
    split; [apply HQ|]. destruct (ro_class _ _ _ HQ) as (t & c0 & Ht & Hw & _ & Hcl). exists t, c0. auto.
  - intros d c Hin Hw. destruct (Hcov c d Hin Hw) as (R & HR & Hc).
    apply In_nth_error in HR. destruct HR as [k Hk]. exists k, R. split; auto. split; auto.
    intros k' R' Hk' Hc'. eapply Hd; eauto.
Qed.
Print Assumptions C24_regions.

(** C24: regions are drawn with a wall on the outside only, finished states may
    be dropped exactly on the free tiles touching the region, and the timers
    start at the configured time, staggered by one step per region if asked. *)
Theorem C24_drawn : forall lines o L, Forall (fun l => ~ In newline l) lines ->
  layout_from_spec (intercalate newline lines) o = Ok L ->
  let rows := filter nonempty lines in
  length (l_queues L) = length (l_regions L)
  /\ (forall k R Q, nth_error (l_regions L) k = Some R -> nth_error (l_queues L) k = Some Q ->
       (forall s x, In s R -> adj (sc_cell s) x ->
          (In x (map sc_cell R) -> get_boundary_with s x = Some (mkB BNone false))
          /\ (~ In x (map sc_cell R) -> get_boundary_with s x = Some (mkB BSmooth false)))
       /\ (forall x, In x Q <-> exists c, In c (map sc_cell R) /\ adj c x /\ written rows x "r"%char))
  /\ (forall k t, nth_error (l_times L) k = Some t ->
       t = (if (k <? length (l_regions L))%nat && d_staggered o
            then (d_time o + N.of_nat k) mod 2 ^ 32 else d_time o mod 2 ^ 32)%N)
  /\ length (l_times L) = (length (l_regions L) + length (l_reserved L))%nat.
Proof.
  intros lines o L Hl E rows.
  destruct (layout_text_spec lines o Hl) as [(Ha & L' & E' & Hok)|[Ha E']]; [|congruence].
  fold rows in Ha, Hok. assert (L' = L) by congruence. subst L'.
  destruct Hok as (_ & _ & _ & _ & _ & _ & _ & (times & HI & Ht) & _).
  destruct HI as [H2 _ Htm]. cbn [fst snd] in *.
  split; [symmetry; eapply Forall2_length'; eauto|]. split; [|split].
  - intros k R Q HR HQ. assert (Hok : region_ok rows R Q).
    { clear -H2 HR HQ. revert k HR HQ. induction H2 as [|x y l l' H _ IH]; intros k HR HQ; [destruct k; discriminate|].
      destruct k as [|k]; cbn in *; [injection HR as <-; injection HQ as <-; exact H|eapply IH; eauto]. }
    split; [|apply Hok]. intros s x Hs Hadj. rewrite (ro_walls _ _ _ Hok s x Hs Hadj). split; intros Hx.
    + apply in_region_In in Hx. rewrite Hx. reflexivity.
    + destruct (in_region R x) eqn:Er; [apply in_region_In in Er; tauto|reflexivity].
  - intros k t Hk. rewrite Ht, Htm in Hk.
    destruct (Nat.ltb_spec k (length (l_regions L))) as [Hlt|Hge].
    + rewrite nth_error_app1 in Hk by (rewrite map_length, seq_length; exact Hlt).
      rewrite nth_error_map in Hk.
      rewrite (nth_error_nth' _ 0%nat) in Hk by (rewrite seq_length; exact Hlt).
      rewrite seq_nth in Hk by exact Hlt. cbn [option_map plus] in Hk. injection Hk as <-.
      unfold nth_time. cbn [andb]. destruct (d_staggered o); [|reflexivity].
      unfold u32. rewrite N.add_mod_idemp_l by (intros H; discriminate H). reflexivity.
    + cbn [andb]. rewrite nth_error_app2 in Hk by (rewrite map_length, seq_length; exact Hge).
      apply nth_error_In in Hk. apply repeat_spec in Hk. exact Hk.
  - rewrite Ht, Htm, app_length, map_length, seq_length, repeat_length. reflexivity.
Qed.
Print Assumptions C24_drawn.

(** Two factories with the same digit that do not touch, one with another digit
    touching the first. *)
Definition C24_lines : list text := [lit "112r1"; lit "1r2rr"].
Example C24_ex : exists L, layout_from_spec (intercalate newline C24_lines) (mkDO true 10) = Ok L
  /\ map (map sc_cell) (l_regions L)
     = [[mkCell 0 0; mkCell 1 0; mkCell 0 1]; [mkCell 0 4]; [mkCell 0 2; mkCell 1 2]]
  /\ l_times L = [10; 11; 12]%N.
Proof. eexists. split; [vm_compute; reflexivity|]. split; reflexivity. Qed.

(** C25: for every number of qubits the generated compact layout is a lattice
    of three rows with exactly that many qubit tiles, in the first and last
    row, directly above or below an open lane in the middle row that leads to
    the only source of magic states. *)
Theorem C25_compact : forall n o no_clogging, exists L,
  make_compact_layout n o no_clogging = Ok L
  /\ let lane := Z.of_nat ((n + 1) / 2) in
     l_furthest L = mkCell 2 (lane + (if no_clogging then 2 else 7))
     /\ length (l_core L) = n
     /\ Forall (fun p => exists c, p = basic_square_patch c None None
                  /\ (row c = 0 \/ row c = 2) /\ 0 <= col c < lane) (l_core L)
     /\ NoDup (l_core L)
     /\ (forall j, 0 <= j <= lane + (if no_clogging then 1 else 2) -> open_tile L (mkCell 1 j))
     /\ l_dead L = [] /\ l_ystates L = []
     /\ (if no_clogging
         then l_regions L = [] /\ l_reserved L = [mkCell 1 (lane + 2)]
              /\ l_times L = [(d_time o mod 2 ^ 32)%N]
         else l_reserved L = [] /\ l_times L = [(d_time o mod 2 ^ 32)%N] /\
              exists R Q, l_regions L = [R] /\ l_queues L = [Q] /\ length R = 15%nat
                /\ In (mkCell 1 (lane + 2)) Q
                /\ Forall (fun s => 0 <= row (sc_cell s) <= 2 /\ lane + 3 <= col (sc_cell s)) R).
Proof. exact compact_layout_ok. Qed.
Print Assumptions C25_compact.

Example C25_ex : exists L, make_compact_layout 5 (mkDO false 7) false = Ok L
  /\ map get_a_cell (l_core L)
     = [Ok (mkCell 0 0); Ok (mkCell 0 1); Ok (mkCell 0 2); Ok (mkCell 2 0); Ok (mkCell 2 1)].
Proof. eexists. split; [vm_compute; reflexivity|]. reflexivity. Qed.
