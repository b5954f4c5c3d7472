(** C26: the generated EDPC layout. *)
From Coq Require Import Relations.
From Verif Require Import Base TextModel PatchesModel LayoutModel LayoutSpec LayoutProofs CompactProofs EdpcModel EdpcSpec EdpcProofs EdpcShape.
Open Scope Z_scope.

Lemma side_is : forall p, 0 <= ep_n p -> 0 <= ep_lanes p -> (Z.sqrt_up (ep_n p) + 1) * (ep_lanes p + 1) < 2 ^ 31 ->
  ep_size p = side (ep_n p) (ep_lanes p) (ep_condensed p) (ep_explicit p) /\ ep_pad p = strip (ep_explicit p).
Proof.
  intros p Hn Hl Hs. split; [|reflexivity]. unfold ep_size. rewrite core_is by (auto; exact Hs). unfold side, ep_pad. cbv zeta. fold (ep_root p).
  destruct (ep_condensed p), (ep_explicit p); lia.
Qed.

(** What the layout is, with the tiles with a qubit given as a list *)
Lemma layout_shape : forall p o, 0 <= ep_n p -> 0 <= ep_lanes p -> (Z.sqrt_up (ep_n p) + 1) * (ep_lanes p + 1) < 2 ^ 31 ->
  exists L l, make_edpc_layout p o = Ok L
  /\ l_furthest L = mkCell (ep_size p - 1) (ep_size p - 1)
  /\ Z.of_nat (length l) = ep_n p /\ NoDup l /\ length (l_core L) = length l /\ NoDup (l_core L)
  /\ (forall x, In x (l_core L) <-> exists a b, In (a, b) l /\ x = basic_square_patch (mkCell a b) None None)
  /\ (forall a b, In (a, b) l -> exists k k', 0 <= k < ep_root p /\ 0 <= k' < ep_root p /\ a = coord p k /\ b = coord p k')
  /\ (forall a b, In (a, b) l -> inside p a b)
  /\ (forall a b, inside p a b -> ~ In (a, b) l -> open_tile L (mkCell a b))
  /\ (if ep_explicit p then l_reserved L = [] /\ (0 < ep_n p -> l_regions L <> []) else l_regions L = [] /\ l_dead L = [] /\ (0 < ep_n p -> l_reserved L <> []))
  /\ l_ancilla L = []
  /\ (forall R s, In R (l_regions L) -> In s R -> ~ (ep_pad p <= row (sc_cell s) <= ep_size p - ep_pad p - 1 /\ ep_pad p <= col (sc_cell s) <= ep_size p - ep_pad p - 1)).
Proof.
  intros p o Hn Hl Hs. destruct (grid_ok p Hn Hl Hs) as (g & l & E & Sq & Ln & Nd & Co & Qs & In_ & Fr & Al & De & Sr).
  pose proof (size_pos p Hl Hs) as Sp. pose proof Sq as [Sq1 Sq2].
  assert (Far : spec_furthest g = Ok (mkCell (ep_size p - 1) (ep_size p - 1))).
  { rewrite (spec_furthest_rect g (Z.to_nat (ep_size p))); [f_equal; apply f_equal2; [exact (f_equal (fun z => z - 1) Sq1)|lia]|lia|intros ->; cbn in Sq1; lia|]. eapply Forall_impl; [|exact Sq2]. intros r X. cbn in X. lia. }
  assert (Wr : forall c x, written g c x -> char_at g (row c) (col c) = Some x) by (intros [a b] x X; now apply char_at_written).
  assert (Dig : forall d, In d digits -> d <> kQubit /\ d <> kRouting /\ d <> kYState /\ d <> kDead /\ d <> kMagic).
  { intros d X. cbn in X. repeat (destruct X as [<-|X]; [repeat split; discriminate|]). destruct X. }
  assert (Nm : ~ mixed g).
  { intros ((c & X) & (d & c' & Hd & X')). apply Wr, Al in X. apply Wr, Al in X'. destruct (Dig d Hd) as (D1 & D2 & D3 & D4 & D5).
    destruct (ep_explicit p).
    - destruct X as [X|[X|[X|[X|X]]]]; discriminate.
    - destruct X' as [X'|[X'|[X'|[X'|X']]]]; contradiction. }
  destruct (layout_of_grid_spec g o) as [(L & EL & Hok & _)|[_ [X|X]]]; [|congruence|contradiction].
  exists L, l. unfold make_edpc_layout. rewrite E. cbn [bind]. split; [exact EL|]. pose proof Hok as (Hf & Hcore & Hanc & Hdead & Hres & Hy & _ & (times & HI & _) & Hcov).
  split; [congruence|]. split; [exact Ln|]. split; [exact Nd|].
  assert (Fq : forall a b, In (mkCell a b) (find_all_cells_of_type g kQubit) <-> In (a, b) l) by (intros a b; rewrite find_all_In, <- char_at_written; apply Qs).
  assert (Mem : forall x, In x (l_core L) <-> exists a b, In (a, b) l /\ x = basic_square_patch (mkCell a b) None None).
  { intros x. rewrite Hcore, in_map_iff. split.
    - intros ([a b] & <- & X). exists a, b. split; [now apply Fq|reflexivity].
    - intros (a & b & X & ->). exists (mkCell a b). split; [reflexivity|now apply Fq]. }
  assert (Len : length (find_all_cells_of_type g kQubit) = length l).
  { rewrite <- (map_length (fun ab => mkCell (fst ab) (snd ab)) l). apply Nat.le_antisymm; apply NoDup_incl_length.
    - apply find_all_NoDup.
    - intros [a b] X. apply in_map_iff. exists (a, b). split; [reflexivity|now apply Fq].
    - apply FinFun.Injective_map_NoDup; [|exact Nd]. intros [x y] [x' y'] [= ? ?]. cbn in *. congruence.
    - intros c X. apply in_map_iff in X. destruct X as ([a b] & <- & X). now apply Fq. }
  split; [rewrite Hcore, map_length; exact Len|]. split; [rewrite Hcore; apply FinFun.Injective_map_NoDup; [intros x y [= ?]; auto|apply find_all_NoDup]|].
  split; [exact Mem|]. split; [exact Co|]. split; [exact In_|]. split.
  { intros a b I N. apply (routing_open g o L _ Hok). apply char_at_written. now apply Fr. }
  assert (Rg : forall R s, In R (l_regions L) -> In s R -> exists d, In d digits /\ written g (sc_cell s) d).
  { intros R s0 HR Hs0. destruct HI as [H2 _ _]. cbn [fst snd] in H2. destruct (Forall2_In_l _ _ _ _ H2 HR) as (Q & _ & HQ).
    destruct (ro_class _ _ _ HQ) as (d & c0 & Hd & Hw0 & _ & Hcl). exists d. split; [exact Hd|].
    assert (X : In (sc_cell s0) (cells_of R)) by (apply in_map; exact Hs0). apply Hcl in X. exact (linked_written _ _ _ _ X Hw0). }
  assert (Nil : forall x, (forall c, ~ written g c x) -> find_all_cells_of_type g x = []).
  { intros x X. destruct (find_all_cells_of_type g x) as [|c r] eqn:Ef; [reflexivity|]. exfalso. apply (X c). apply find_all_In. rewrite Ef. now left. }
  split; [|split].
  - destruct (ep_explicit p) eqn:He.
    + split; [rewrite Hres; apply Nil; intros c X; apply Wr, Al in X; destruct X as [X|[X|[X|[X|X]]]]; discriminate|].
      intros Hp. destruct (Sr Hp) as (a & b & X). rewrite He in X. apply char_at_written in X. destruct (Hcov _ kRegion0 ltac:(cbn; auto) X) as (R & HR & _).
      intros Q. rewrite Q in HR. destruct HR.
    + split; [|split].
      * destruct (l_regions L) as [|R rest] eqn:ER; [reflexivity|]. exfalso. destruct R as [|s0 R].
        -- destruct HI as [H2 _ _]. cbn [fst snd] in H2. destruct (Forall2_In_l _ _ _ _ H2 (or_introl eq_refl)) as (Q & _ & HQ).
           destruct (ro_class _ _ _ HQ) as (d & c0 & Hd & Hw0 & _ & Hcl). apply (Hcl c0). apply rt_refl.
        -- destruct (Rg (s0 :: R) s0 (or_introl eq_refl) (or_introl eq_refl)) as (d & Hd & X). apply Wr, Al in X. destruct (Dig d Hd) as (D1 & D2 & D3 & D4 & D5).
           destruct X as [X|[X|[X|[X|X]]]]; contradiction.
      * rewrite Hdead. apply Nil. intros c X. apply Wr in X. destruct (De _ _ _ X (or_introl eq_refl)) as [Q _]. discriminate.
      * intros Hp. destruct (Sr Hp) as (a & b & X). rewrite He in X. apply char_at_written, find_all_In in X. rewrite <- Hres in X. intros Q. rewrite Q in X. destruct X.
  - rewrite Hanc. apply Nil. intros c X. apply Wr, Al in X. destruct X as [X|[X|[X|[X|X]]]]; try discriminate. destruct (ep_explicit p); discriminate.
  - intros R s0 HR Hs0. destruct (Rg R s0 HR Hs0) as (d & Hd & X). apply Wr in X. destruct (De _ _ _ X) as [_ Q]; [|exact Q].
    apply Al in X. destruct (Dig d Hd) as (D1 & D2 & D3 & D4 & D5). destruct X as [X|[X|[X|[X|X]]]]; try contradiction. destruct (ep_explicit p); [now right|contradiction].
Qed.

(** For every number of qubits, every number of lanes and all options the generator makes a square layout with exactly as many qubit tiles as
    qubits, all inside the border; the other tiles inside the border are open; there is a source of magic states if there is a qubit, and
    the factories, drawn only on request, are outside the border. *)
Theorem C26_layout : forall n lanes condensed explicit predistilled o,
  0 <= n -> 0 <= lanes -> (Z.sqrt_up n + 1) * (lanes + 1) < 2 ^ 31 ->
  exists L, make_edpc_layout (mkEdpc n lanes condensed explicit predistilled) o = Ok L
  /\ l_furthest L = mkCell (side n lanes condensed explicit - 1) (side n lanes condensed explicit - 1)
  /\ Z.of_nat (length (l_core L)) = n /\ NoDup (l_core L)
  /\ (forall x, In x (l_core L) -> exists c, x = basic_square_patch c None None /\ in_core n lanes condensed explicit c)
  /\ (forall c, in_core n lanes condensed explicit c -> ~ qubit_tile L c -> open_tile L c)
  /\ (if explicit then l_reserved L = [] /\ (0 < n -> l_regions L <> []) else l_regions L = [] /\ l_dead L = [] /\ (0 < n -> l_reserved L <> []))
  /\ (forall R s, In R (l_regions L) -> In s R -> ~ in_core n lanes condensed explicit (sc_cell s)).
Proof.
  intros n lanes condensed explicit predistilled o Hn Hl Hs. set (p := mkEdpc n lanes condensed explicit predistilled).
  destruct (layout_shape p o Hn Hl Hs) as (L & l & E & Far & Ln & Nd & Lc & Nc & Mem & Co & Ins & Op & Mg & _ & Rg). exists L. split; [exact E|].
  destruct (side_is p Hn Hl Hs) as [Si St]. cbn [p ep_n ep_lanes ep_condensed ep_explicit] in Si, St, Ln, Mg.
  split; [rewrite <- Si; exact Far|]. split; [congruence|]. split; [exact Nc|].
  assert (Ic : forall c, in_core n lanes condensed explicit c <-> inside p (row c) (col c)) by (intros c; unfold in_core, inside; rewrite Si, St; reflexivity).
  split; [|split; [|split; [exact Mg|]]].
  - intros x X. apply Mem in X. destruct X as (a & b & X & ->). exists (mkCell a b). split; [reflexivity|]. apply Ic. now apply Ins.
  - intros [a b] X Nq. apply Op; [now apply Ic in X|]. intros Q. apply Nq. apply Mem. eauto.
  - intros R s0 HR Hs0 X. apply Ic in X. destruct X as [X1 X2]. apply (Rg R s0 HR Hs0). lia.
Qed.
Print Assumptions C26_layout.

(** Rows and columns: between two lines of qubits there are at least the requested lanes, except inside the pairs of a condensed layout,
    and of three lines the outer two are further apart than that. *)
Lemma coord_mono : forall p k k', 0 <= ep_lanes p -> 0 <= k < k' -> coord p k < coord p k'
  /\ (coord p k' - coord p k > ep_lanes p \/ ep_condensed p = true /\ coord p k' - coord p k = 1 /\ k' = k + 1) /\ (k + 1 < k' -> coord p k' - coord p k > ep_lanes p + 1 \/ ep_condensed p = false).
Proof.
  intros p k k' Hl Hk. unfold coord. destruct (ep_condensed p).
  - pose proof (Z.div_mod k 2). pose proof (Z.div_mod k' 2). pose proof (Z.mod_pos_bound k 2). pose proof (Z.mod_pos_bound k' 2).
    assert (D : k / 2 = k' / 2 \/ k / 2 + 1 = k' / 2 \/ k / 2 + 2 <= k' / 2) by lia.
    assert (M : k / 2 + 1 <= k' / 2 -> (k / 2 + 1) * (ep_lanes p + 2) <= k' / 2 * (ep_lanes p + 2)) by (intros X; nia).
    destruct D as [D|[D|D]].
    + rewrite <- D in *. split; [lia|]. split; [right; lia|]. lia.
    + rewrite <- D in *. specialize (M ltac:(lia)). split; [lia|]. split; [lia|]. lia.
    + assert ((k / 2 + 2) * (ep_lanes p + 2) <= k' / 2 * (ep_lanes p + 2)) by nia. split; [lia|]. split; [left; lia|]. lia.
  - assert ((k + 1 + 1) * (ep_lanes p + 1) <= (k' + 1) * (ep_lanes p + 1)) by nia. split; [lia|]. split; [left; lia|]. auto.
Qed.
Lemma coord_lt : forall p k k', 0 <= ep_lanes p -> 0 <= k -> 0 <= k' -> coord p k < coord p k' -> k < k'.
Proof. intros p k k' Hl Hk Hk' H. destruct (Z.lt_trichotomy k k') as [X|[->|X]]; [exact X|lia|]. destruct (coord_mono p k' k Hl) as [Y _]; lia. Qed.

Theorem C26_lanes : forall n lanes condensed explicit predistilled o L,
  0 <= n -> 0 <= lanes -> (Z.sqrt_up n + 1) * (lanes + 1) < 2 ^ 31 ->
  make_edpc_layout (mkEdpc n lanes condensed explicit predistilled) o = Ok L ->
  forall line, line = row \/ line = col ->
  (forall q, qubit_tile L q -> strip explicit + lanes < line q < side n lanes condensed explicit - strip explicit - 1 - lanes)
  /\ (forall q q', qubit_tile L q -> qubit_tile L q' -> line q < line q' -> line q' - line q > lanes \/ condensed = true /\ line q' = line q + 1)
  /\ (forall q q' q'', qubit_tile L q -> qubit_tile L q' -> qubit_tile L q'' -> line q < line q' -> line q' < line q'' -> line q'' - line q > lanes + 1).
Proof.
  intros n lanes condensed explicit predistilled o L Hn Hl Hs E line Hline. set (p := mkEdpc n lanes condensed explicit predistilled) in *.
  destruct (layout_shape p o Hn Hl Hs) as (L' & l & E' & Far & Ln & Nd & Lc & Nc & Mem & Co & Ins & Op & Mg & _ & Rg). assert (L' = L) by congruence. subst L'.
  destruct (side_is p Hn Hl Hs) as [Si St]. cbn [p ep_n ep_lanes ep_condensed ep_explicit] in Si, St.
  assert (A : forall q, qubit_tile L q -> exists k, 0 <= k < ep_root p /\ line q = coord p k).
  { intros q Q. apply Mem in Q. destruct Q as (a & b & I & Eq). injection Eq as Eq. subst q. apply Co in I. destruct I as (k & k' & ? & ? & -> & ->).
    destruct Hline as [-> | ->]; cbn [row col]; eauto. }
  split; [|split].
  - intros q Q. destruct (A q Q) as (k & Hk & ->). rewrite <- Si, <- St. pose proof (hi_is p) as Hh. unfold coord.
    change (ep_lanes p) with lanes in *. change (ep_condensed p) with condensed in *.
    destruct condensed eqn:Ec; cbv iota.
    + pose proof (cond_hi p Hl Hs eq_refl) as [Hc _]. change (ep_lanes p) with lanes in Hc. pose proof (sr_split p) as (S1 & S2 & S3).
      pose proof (Z.div_mod k 2 ltac:(lia)) as Dk. pose proof (Z.mod_pos_bound k 2 ltac:(lia)) as Mk. assert (0 <= k / 2 * (lanes + 2)) by (apply Z.mul_nonneg_nonneg; lia). split; [lia|].
      rewrite Hc. assert (D : k / 2 + 1 <= ep_root p / 2 \/ (k / 2 = ep_root p / 2 /\ k mod 2 = 0 /\ ep_root p mod 2 = 1)) by lia.
      destruct D as [D|(D1 & D2 & D3)].
      * assert ((k / 2 + 1) * (lanes + 2) <= ep_root p / 2 * (lanes + 2)) by nia. destruct S3 as [X|X]; rewrite X in *; lia.
      * rewrite D1, D2, D3. lia.
    + pose proof (plain_hi p Hl Hs eq_refl) as Hc. change (ep_lanes p) with lanes in Hc. rewrite Hc. assert (0 <= k * (lanes + 1)) by nia.
      assert ((k + 2) * (lanes + 1) <= (ep_root p + 1) * (lanes + 1)) by nia. lia.
  - intros q q' Q Q' Lt. destruct (A q Q) as (k & Hk & Ek). destruct (A q' Q') as (k' & Hk' & Ek'). rewrite Ek, Ek' in *.
    apply coord_lt in Lt; [|exact Hl|lia|lia]. destruct (coord_mono p k k' Hl ltac:(lia)) as (_ & [X|X] & _); [left; exact X|right]. destruct X as (X1 & X2 & _). split; [exact X1|lia].
  - intros q q' q'' Q Q' Q'' Lt Lt'. destruct (A q Q) as (k & Hk & Ek). destruct (A q' Q') as (k' & Hk' & Ek'). destruct (A q'' Q'') as (k'' & Hk'' & Ek''). rewrite Ek, Ek', Ek'' in *.
    pose proof Lt as Ltc. pose proof Lt' as Ltc'. apply coord_lt in Lt; [|exact Hl|lia|lia]. apply coord_lt in Lt'; [|exact Hl|lia|lia].
    destruct (coord_mono p k k'' Hl ltac:(lia)) as (_ & _ & X). destruct (X ltac:(lia)) as [Y|Y]; [exact Y|].
    destruct (coord_mono p k k' Hl ltac:(lia)) as (_ & [Z1|(Z1 & _)] & _); [|congruence]. change (ep_lanes p) with lanes in *. lia.
Qed.
Print Assumptions C26_lanes.

(** The tiles between the qubits: whatever holds of all of them, each qubit has such a tile beside it and one above or below it, and all those tiles are reached from each other over such tiles. *)
Lemma core_reach : forall (Tile : cell -> Prop) n lanes condensed explicit predistilled o L,
  0 <= n -> 1 <= lanes -> (Z.sqrt_up n + 1) * (lanes + 1) < 2 ^ 31 ->
  make_edpc_layout (mkEdpc n lanes condensed explicit predistilled) o = Ok L ->
  (forall c, in_core n lanes condensed explicit c -> ~ qubit_tile L c -> Tile c) ->
  let goes := clos_refl_trans cell (fun a b => adj a b /\ Tile a /\ Tile b) in
  exists hub, Tile hub /\ forall q, qubit_tile L q ->
    exists h v, Tile h /\ Tile v /\ row h = row q /\ adj q h /\ col v = col q /\ adj q v /\ goes h hub /\ goes hub h /\ goes v hub /\ goes hub v.
Proof.
  intros Tile n lanes condensed explicit predistilled o L Hn Hl1 Hs E Op goes. assert (Hl : 0 <= lanes) by lia. set (p := mkEdpc n lanes condensed explicit predistilled) in *.
  destruct (C26_lanes n lanes condensed explicit predistilled o L Hn Hl Hs E row (or_introl eq_refl)) as (R1 & R2 & R3).
  destruct (C26_lanes n lanes condensed explicit predistilled o L Hn Hl Hs E col (or_intror eq_refl)) as (K1 & K2 & K3).
  destruct (C26_layout n lanes condensed explicit predistilled o Hn Hl Hs) as (L' & E' & Far & _ & _ & Qc & _). fold p in E'. assert (L' = L) by congruence. subst L'.
  set (t := strip explicit) in *. set (hi := side n lanes condensed explicit - t - 1).
  assert (Wide : t + lanes + 1 <= hi).
  { destruct (side_is p Hn Hl Hs) as [Si St]. cbn [p ep_n ep_lanes ep_condensed ep_explicit] in Si, St. pose proof (core_min p Hl Hs) as Cm. pose proof (hi_is p) as Hh. subst hi t. rewrite <- Si, <- St.
    change (ep_lanes p) with lanes in Cm. lia. }
  (* lines without a qubit are free from one end to the other *)
  assert (Row : forall a, t < a < hi -> (forall q, qubit_tile L q -> row q <> a) -> forall b, t < b < hi -> Tile (mkCell a b)).
  { intros a Ha Na b Hb. apply Op; [unfold in_core; cbn [row col]; fold t; lia|]. intros Q. apply (Na _ Q). reflexivity. }
  assert (Col : forall b, t < b < hi -> (forall q, qubit_tile L q -> col q <> b) -> forall a, t < a < hi -> Tile (mkCell a b)).
  { intros b Hb Nb a Ha. apply Op; [unfold in_core; cbn [row col]; fold t; lia|]. intros Q. apply (Nb _ Q). reflexivity. }
  assert (WRow : forall a, (forall b, t < b < hi -> Tile (mkCell a b)) -> forall (d : nat) b b', t < b -> b' < hi -> b' = b + Z.of_nat d ->
             goes (mkCell a b) (mkCell a b') /\ goes (mkCell a b') (mkCell a b)).
  { intros a Ha. induction d as [|d IH]; intros b b' Hb Hb' Eb; [replace b' with b by lia; split; apply rt_refl|].
    destruct (IH b (b' - 1)) as [I1 I2]; [lia|lia|lia|]. split.
    - eapply rt_trans; [exact I1|]. apply rt_step. split; [unfold adj; cbn [row col]; lia|]. split; apply Ha; lia.
    - eapply rt_trans; [|exact I2]. apply rt_step. split; [unfold adj; cbn [row col]; lia|]. split; apply Ha; lia. }
  assert (WCol : forall b, (forall a, t < a < hi -> Tile (mkCell a b)) -> forall (d : nat) a a', t < a -> a' < hi -> a' = a + Z.of_nat d ->
             goes (mkCell a b) (mkCell a' b) /\ goes (mkCell a' b) (mkCell a b)).
  { intros b Hb. induction d as [|d IH]; intros a a' Ha Ha' Ea; [replace a' with a by lia; split; apply rt_refl|].
    destruct (IH a (a' - 1)) as [I1 I2]; [lia|lia|lia|]. split.
    - eapply rt_trans; [exact I1|]. apply rt_step. split; [unfold adj; cbn [row col]; lia|]. split; apply Hb; lia.
    - eapply rt_trans; [|exact I2]. apply rt_step. split; [unfold adj; cbn [row col]; lia|]. split; apply Hb; lia. }
  assert (FirstR : forall b, t < b < hi -> Tile (mkCell (t + 1) b)) by (apply Row; [lia|intros q Q X; apply R1 in Q; lia]).
  assert (FirstC : forall a, t < a < hi -> Tile (mkCell a (t + 1))) by (apply Col; [lia|intros q Q X; apply K1 in Q; lia]).
  (* one of the two lines next to a qubit is free *)
  assert (FreeR : forall q, qubit_tile L q -> exists a, t < a < hi /\ Z.abs (row q - a) = 1 /\ forall q', qubit_tile L q' -> row q' <> a).
  { intros q Q. pose proof (R1 q Q) as B. fold hi in B.
    assert (Dec : (forall q', qubit_tile L q' -> row q' <> row q - 1) \/ exists q', qubit_tile L q' /\ row q' = row q - 1).
    { destruct (existsb (fun x => match get_cells x with c :: _ => row c =? row q - 1 | [] => false end) (l_core L)) eqn:Ex.
      - right. apply existsb_exists in Ex. destruct Ex as (x & Hx & Ex). destruct (Qc x Hx) as (c & -> & _). cbn in Ex. apply Z.eqb_eq in Ex. exists c. auto.
      - left. intros q' Q' X. assert (T : existsb (fun x => match get_cells x with c :: _ => row c =? row q - 1 | [] => false end) (l_core L) = true); [|congruence].
        apply existsb_exists. exists (basic_square_patch q' None None). split; [exact Q'|]. cbn. now apply Z.eqb_eq. }
    destruct Dec as [D|(q0 & Q0 & D)]; [exists (row q - 1); split; [lia|]; split; [lia|exact D]|].
    exists (row q + 1). split; [lia|]. split; [lia|]. intros q' Q' X. pose proof (R3 q0 q q' Q0 Q Q'). lia. }
  assert (FreeC : forall q, qubit_tile L q -> exists b, t < b < hi /\ Z.abs (col q - b) = 1 /\ forall q', qubit_tile L q' -> col q' <> b).
  { intros q Q. pose proof (K1 q Q) as B. fold hi in B.
    assert (Dec : (forall q', qubit_tile L q' -> col q' <> col q - 1) \/ exists q', qubit_tile L q' /\ col q' = col q - 1).
    { destruct (existsb (fun x => match get_cells x with c :: _ => col c =? col q - 1 | [] => false end) (l_core L)) eqn:Ex.
      - right. apply existsb_exists in Ex. destruct Ex as (x & Hx & Ex). destruct (Qc x Hx) as (c & -> & _). cbn in Ex. apply Z.eqb_eq in Ex. exists c. auto.
      - left. intros q' Q' X. assert (T : existsb (fun x => match get_cells x with c :: _ => col c =? col q - 1 | [] => false end) (l_core L) = true); [|congruence].
        apply existsb_exists. exists (basic_square_patch q' None None). split; [exact Q'|]. cbn. now apply Z.eqb_eq. }
    destruct Dec as [D|(q0 & Q0 & D)]; [exists (col q - 1); split; [lia|]; split; [lia|exact D]|].
    exists (col q + 1). split; [lia|]. split; [lia|]. intros q' Q' X. pose proof (K3 q0 q q' Q0 Q Q'). lia. }
  exists (mkCell (t + 1) (t + 1)). split; [apply FirstR; lia|]. intros q Q. pose proof (R1 q Q) as Bq. pose proof (K1 q Q) as Bq'. fold hi in Bq, Bq'.
  destruct (FreeR q Q) as (a & Ha & Da & Fa). destruct (FreeC q Q) as (b & Hb & Db & Fb). pose proof (Row a Ha Fa) as OpR. pose proof (Col b Hb Fb) as OpC.
  exists (mkCell (row q) b), (mkCell a (col q)). split; [apply OpC; lia|]. split; [apply OpR; lia|]. cbn [row col]. split; [reflexivity|].
  split; [unfold adj; cbn [row col]; lia|]. split; [reflexivity|]. split; [unfold adj; cbn [row col]; lia|].
  destruct (WCol b OpC (Z.to_nat (row q - (t + 1))) (t + 1) (row q)) as [U1 U2]; [lia|lia|lia|].
  destruct (WRow (t + 1) FirstR (Z.to_nat (b - (t + 1))) (t + 1) b) as [U3 U4]; [lia|lia|lia|].
  destruct (WRow a OpR (Z.to_nat (col q - (t + 1))) (t + 1) (col q)) as [U5 U6]; [lia|lia|lia|].
  destruct (WCol (t + 1) FirstC (Z.to_nat (a - (t + 1))) (t + 1) a) as [U7 U8]; [lia|lia|lia|].
  split; [exact (rt_trans _ _ _ _ _ U2 U4)|]. split; [exact (rt_trans _ _ _ _ _ U3 U1)|]. split; [exact (rt_trans _ _ _ _ _ U6 U8)|exact (rt_trans _ _ _ _ _ U7 U5)].
Qed.

(** With at least one lane each qubit has an open tile beside it and one above or below it, and all those tiles are reached from each other over open tiles. *)
Theorem C26_reach : forall n lanes condensed explicit predistilled o L,
  0 <= n -> 1 <= lanes -> (Z.sqrt_up n + 1) * (lanes + 1) < 2 ^ 31 ->
  make_edpc_layout (mkEdpc n lanes condensed explicit predistilled) o = Ok L ->
  exists hub, open_tile L hub /\ forall q, qubit_tile L q ->
    exists h v, open_tile L h /\ open_tile L v /\ row h = row q /\ adj q h /\ col v = col q /\ adj q v /\ walks L h hub /\ walks L hub h /\ walks L v hub /\ walks L hub v.
Proof.
  intros n lanes condensed explicit predistilled o L Hn Hl Hs E. apply (core_reach (open_tile L) n lanes condensed explicit predistilled o L Hn Hl Hs E).
  destruct (C26_layout n lanes condensed explicit predistilled o Hn ltac:(lia) Hs) as (L' & E' & _ & _ & _ & _ & Op & _). assert (L' = L) by congruence. now subst L'.
Qed.
Print Assumptions C26_reach.

(** Without lanes the generator also makes a layout, and a qubit in its middle is shut in by its neighbours. *)
Theorem C26_no_lanes_refuted : forall o, exists L,
  make_edpc_layout (mkEdpc 9 0 false false false) o = Ok L /\ qubit_tile L (mkCell 2 2) /\ forall c, adj (mkCell 2 2) c -> qubit_tile L c /\ ~ open_tile L c.
Proof.
  intros o. destruct (C26_layout 9 0 false false false o) as (L & E & _); [lia|lia|reflexivity|]. exists L. split; [exact E|].
  assert (Core : l_core L = map (fun ab => basic_square_patch (mkCell (fst ab) (snd ab)) None None) [(1, 1); (1, 2); (1, 3); (2, 1); (2, 2); (2, 3); (3, 1); (3, 2); (3, 3)]).
  { unfold make_edpc_layout in E. assert (G : exists g, edpc_grid (mkEdpc 9 0 false false false) = Ok g
        /\ find_all_cells_of_type g kQubit = map (fun ab => mkCell (fst ab) (snd ab)) [(1, 1); (1, 2); (1, 3); (2, 1); (2, 2); (2, 3); (3, 1); (3, 2); (3, 3)]).
    { eexists. split; [vm_compute; reflexivity|]. vm_compute. reflexivity. }
    destruct G as (g & G & F). rewrite G in E. cbn [bind] in E. destruct (layout_of_grid_spec g o) as [(L' & E' & (_ & Hc & _) & _)|[E' _]]; [|congruence].
    assert (L' = L) by congruence. subst L'. rewrite Hc, F, map_map. reflexivity. }
  assert (Q : forall a b, 1 <= a <= 3 -> 1 <= b <= 3 -> qubit_tile L (mkCell a b)).
  { intros a b Ha Hb. unfold qubit_tile. rewrite Core. assert (a = 1 \/ a = 2 \/ a = 3) as [-> | [-> | ->]] by lia; assert (b = 1 \/ b = 2 \/ b = 3) as [-> | [-> | ->]] by lia; cbn; tauto. }
  split; [apply Q; lia|]. intros [a b] A. unfold adj in A. cbn [row col] in A. assert (Qt : qubit_tile L (mkCell a b)) by (apply Q; lia). split; [exact Qt|].
  intros (_ & X & _). apply (X _ Qt). cbn. now left.
Qed.
Print Assumptions C26_no_lanes_refuted.

(** Five qubits, one lane, condensed: three rows and columns, the first two of them side by side *)
Example C26_ex : exists L, make_edpc_layout (mkEdpc 5 1 true false false) (mkDO false 7) = Ok L
  /\ map get_a_cell (l_core L) = map Ok [mkCell 2 2; mkCell 2 3; mkCell 2 5; mkCell 3 2; mkCell 3 3]
  /\ side 5 1 true false = 8 /\ length (l_reserved L) = 15%nat.
Proof. eexists. split; [vm_compute; reflexivity|]. vm_compute. repeat split. Qed.
