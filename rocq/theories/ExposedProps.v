(** C17: which operators are exposed when a run starts, and the compact pipeline from there on. *)
From Verif Require Import Base TextModel PatchesModel LayoutModel LayoutSpec InstrModel GatesModel LoweringModel LoweringSpec LoweringProofs LoweringProps SliceModel SliceSpec SliceProofs SliceProps.
From Verif Require Import LayoutProps ApplyModel SlicerModel SlicerProps.
From Coq Require Import Lia.
Open Scope Z_scope.

(** The free tiles next to [c] above or below, and to the left or right. *)
Definition open_vertically (L : layout) (s : slice) (c : cell) : Prop :=
  exists n, on_lattice (l_furthest L) n /\ tile_at s n = None /\ col n = col c /\ Z.abs (row n - row c) = 1.
Definition open_sideways (L : layout) (s : slice) (c : cell) : Prop :=
  exists n, on_lattice (l_furthest L) n /\ tile_at s n = None /\ row n = row c /\ Z.abs (col n - col c) = 1.

Lemma neighbours_In : forall L c n, on_lattice (l_furthest L) c -> In n (neighbours L c) <->
  on_lattice (l_furthest L) n /\ (col n = col c /\ Z.abs (row n - row c) = 1 \/ row n = row c /\ Z.abs (col n - col c) = 1).
Proof.
  intros L [r c] [rn cn] Ho. unfold neighbours, get_neigbours_in, on_lattice in *. cbn [row col] in *.
  set (fr := row (l_furthest L)) in *. set (fc := col (l_furthest L)) in *.
  rewrite !in_app_iff.
  assert (K : forall (b : bool) (x y : cell), In x (if b then [y] else []) <-> b = true /\ y = x) by (intros [] x y; cbn; intuition discriminate).
  rewrite !K, Z.gtb_ltb, Z.gtb_ltb, !Z.ltb_lt. split.
  - intros [[A E]|[[A E]|[[A E]|[A E]]]]; injection E as <- <-; lia.
  - intros [B [[-> E]|[-> E]]].
    + destruct (Z.lt_ge_cases rn r); [left; split; [lia|f_equal; lia]|right; left; split; [lia|f_equal; lia]].
    + destruct (Z.lt_ge_cases cn c); [right; right; left; split; [lia|f_equal; lia]|right; right; right; split; [lia|f_equal; lia]].
Qed.
Definition vertical (c n : cell) : Prop := col n = col c /\ Z.abs (row n - row c) = 1.
Definition sideways (c n : cell) : Prop := row n = row c /\ Z.abs (col n - col c) = 1.
Lemma square_side : forall c n id, vertical c n \/ sideways c n ->
  exists b, get_boundary_with (mkSC (db (square id None)) c) n = Some b
  /\ (btype b = BSmooth /\ vertical c n /\ ~ sideways c n \/ btype b = BRough /\ sideways c n /\ ~ vertical c n).
Proof.
  intros [r c] [rn cn] id H. unfold vertical, sideways in *. cbn [row col] in *.
  assert (D : (rn = r - 1 /\ cn = c) \/ (rn = r + 1 /\ cn = c) \/ (rn = r /\ cn = c - 1) \/ (rn = r /\ cn = c + 1)) by lia.
  unfold get_boundary_with, side_towards, cell_eqb. cbn [row col sc_cell].
  destruct D as [[-> ->]|[[-> ->]|[[-> ->]|[-> ->]]]];
  repeat match goal with |- context [Z.eqb ?x ?y] => destruct (Z.eqb_spec x y); [|try (exfalso; lia)]; try (exfalso; lia) end;
  cbn [andb]; eexists; (split; [reflexivity|]); cbn; (left + right); (split; [reflexivity|lia]).
Qed.
Lemma see_all : forall far s c id l e, sized far s -> (forall n, In n l -> on_lattice far n /\ (vertical c n \/ sideways c n)) ->
  exists e', foldM (see_neighbour s (mkSC (db (square id None)) c)) l e = Ok e'
  /\ (z_exposed e' = true <-> z_exposed e = true \/ exists n, In n l /\ tile_at s n = None /\ vertical c n)
  /\ (x_exposed e' = true <-> x_exposed e = true \/ exists n, In n l /\ tile_at s n = None /\ sideways c n).
Proof.
  intros far s c id l. induction l as [|n l IH]; intros e Hs Hl.
  - exists e. split; [reflexivity|]. split; (split; [auto|intros [H|(n & [] & _)]; exact H]).
  - destruct (Hl n (or_introl eq_refl)) as [Ho Hv]. cbn [foldM].
    assert (Step : exists e1, see_neighbour s (mkSC (db (square id None)) c) e n = Ok e1
      /\ (z_exposed e1 = true <-> z_exposed e = true \/ tile_at s n = None /\ vertical c n)
      /\ (x_exposed e1 = true <-> x_exposed e = true \/ tile_at s n = None /\ sideways c n)).
    { unfold see_neighbour, is_free. rewrite (patch_at_ok far) by auto. cbn [bind]. destruct (tile_at s n) as [p|]; cbn [negb].
      - exists e. split; [reflexivity|]. split; (split; [auto|intros [H|[H _]]; [exact H|discriminate]]).
      - destruct (square_side c n id Hv) as (b & E & B). rewrite E. unfold have_boundary_of_type_with. rewrite E. cbn [boundary_for_operator bind].
        destruct B as [(-> & V & S)|(-> & V & S)]; cbn; eexists; (split; [reflexivity|]); cbn; tauto. }
    destruct Step as (e1 & -> & Z1 & X1). cbn [bind]. destruct (IH e1 Hs) as (e2 & E2 & Z2 & X2); [intros; apply Hl; now right|].
    exists e2. split; [exact E2|]. rewrite Z2, X2, Z1, X1. split; split.
    + intros [[H|[H1 H2]]|(k & H & K)]; [auto|right; exists n; cbn; auto|right; exists k; cbn; tauto].
    + intros [H|(k & [<-|H] & K)]; [auto|auto|right; exists k; auto].
    + intros [[H|[H1 H2]]|(k & H & K)]; [auto|right; exists n; cbn; auto|right; exists k; cbn; tauto].
    + intros [H|(k & [<-|H] & K)]; [auto|auto|right; exists k; auto].
Qed.
Lemma emap_put_lookup : forall m k e q, alookup (emap_put m k e) q = if N.eqb q k then Some e else alookup m q.
Proof.
  induction m as [|[k' e'] m IH]; intros k e q; cbn [emap_put alookup]; [destruct (N.eqb q k); reflexivity|].
  destruct (N.eqb_spec k k') as [<-|Hk]; cbn [alookup]; [destruct (N.eqb q k); reflexivity|].
  rewrite IH. destruct (N.eqb_spec q k'); [|reflexivity]. subst. destruct (N.eqb_spec k' k); congruence.
Qed.
Lemma emap_put_keys : forall m k e (P : N -> Prop), P k -> Forall (fun kv => P (fst kv)) m -> Forall (fun kv => P (fst kv)) (emap_put m k e).
Proof.
  induction m as [|[k' e'] m IH]; intros k e P Hk H; cbn [emap_put]; [constructor; auto|].
  inversion H; subst. destruct (N.eqb_spec k k'); constructor; auto.
Qed.

(** When the compilation starts every declared qubit is recorded with exactly the operators it exposes to a free tile:
    Z across the smooth sides above and below, X across the rough sides left and right. *)
Theorem C17_start : forall L ids, layout_wf L -> NoDup ids -> (length ids <= length (core_cells L))%nat ->
  exists s m, new_slice L ids = Ok s /\ exposed_core L ids = Ok m
  /\ Forall (fun kv => In (fst kv) ids) m
  /\ (forall id, ~ In id ids -> alookup m id = None)
  /\ (forall id c, In id ids -> carries s c id -> exists e, alookup m id = Some e
       /\ (z_exposed e = true <-> open_vertically L s c) /\ (x_exposed e = true <-> open_sideways L s c)).
Proof.
  intros L ids W Nd Hl. destruct (new_slice_ok L ids W Hl) as (s & E & I). pose proof (in_sized _ _ _ I) as Sz.
  destruct (C27_once_each L ids s W E Nd) as (On & Un & _).
  assert (One : forall id, In id ids -> exists c, carries s c id /\ tile_at s c = Some (square (Some id) None) /\ on_lattice (l_furthest L) c
      /\ exists e, exposed_of L s id = Ok e /\ (z_exposed e = true <-> open_vertically L s c) /\ (x_exposed e = true <-> open_sideways L s c)).
  { intros id Hi. apply In_nth_error in Hi. destruct Hi as [k Hk]. destruct (in_core _ _ _ I k id Hk) as (c & _ & Hc).
    assert (Cc : carries s c id) by (exists (square (Some id) None); auto). exists c. split; [exact Cc|]. split; [exact Hc|].
    assert (Ho : on_lattice (l_furthest L) c) by (eapply tile_on; eauto). split; [exact Ho|].
    assert (G : get_cell_by_id s id = Some c) by (apply (get_cell_unique (l_furthest L)); auto).
    destruct (get_cell_by_id_Some _ _ _ _ Sz G) as (_ & _ & Gp). rewrite Hc in Gp.
    destruct (see_all (l_furthest L) s c (Some id) (neighbours L c) (mkEx false false) Sz) as (e & Ee & Ze & Xe).
    { intros n Hn. exact (proj1 (neighbours_In L c n Ho) Hn). }
    exists e. split.
    - unfold exposed_of, get_sparse_patch_by_id. rewrite Gp, G. cbn [value_ bind to_sparse_patch sp_cells]. exact Ee.
    - rewrite Ze, Xe. cbn [z_exposed x_exposed]. unfold open_vertically, open_sideways, vertical, sideways. split; split.
      + intros [H|(n & Hn & F & V)]; [discriminate|]. apply neighbours_In in Hn; auto. exists n. tauto.
      + intros (n & O & F & V). right. exists n. split; [apply neighbours_In; auto|]. tauto.
      + intros [H|(n & Hn & F & V)]; [discriminate|]. apply neighbours_In in Hn; auto. exists n. tauto.
      + intros (n & O & F & V). right. exists n. split; [apply neighbours_In; auto|]. tauto. }
  assert (All : forall l m0, incl l ids -> Forall (fun kv => In (fst kv) ids) m0 -> exists m,
     foldM (fun m id => do e <- exposed_of L s id ;; Ok (emap_put m id e)) l m0 = Ok m /\ Forall (fun kv => In (fst kv) ids) m
     /\ forall id, (~ In id l -> alookup m id = alookup m0 id) /\ (In id l -> forall e, exposed_of L s id = Ok e -> alookup m id = Some e)).
  { induction l as [|q l IH]; intros m0 Hi H0; [exists m0; split; [reflexivity|]; split; [exact H0|]; intros id; split; [auto|intros []]|].
    destruct (One q (Hi q (or_introl eq_refl))) as (c & _ & _ & _ & e & Ee & _). cbn [foldM]. rewrite Ee. cbn [bind].
    destruct (IH (emap_put m0 q e)) as (m & Em & Fm & Lm); [intros x Hx; apply Hi; now right|apply (emap_put_keys m0 q e (fun k => In k ids)); [apply Hi; now left|exact H0]|].
    exists m. split; [exact Em|]. split; [exact Fm|]. intros id. destruct (Lm id) as [L1 L2]. split.
    - intros Hn. rewrite L1 by (intros X; apply Hn; now right). rewrite emap_put_lookup. destruct (N.eqb_spec id q); [subst; exfalso; apply Hn; now left|reflexivity].
    - intros Hin e' Ee'. destruct (in_dec N.eq_dec id l) as [Y|Y]; [now apply L2|]. destruct Hin as [<-|Hin]; [|contradiction].
      rewrite L1 by exact Y. rewrite emap_put_lookup, N.eqb_refl. congruence. }
  destruct (All ids [] (incl_refl ids) (Forall_nil _)) as (m & Em & Fm & Lm). exists s, m. split; [exact E|]. split.
  { unfold exposed_core. rewrite E. exact Em. }
  split; [exact Fm|]. split; [intros id Hn; apply (proj1 (Lm id)) in Hn; exact Hn|].
  intros id c Hi Hc. destruct (One id Hi) as (c' & Hc' & _ & _ & e & Ee & Z1 & X1). assert (c' = c) by (eapply Un; eauto). subst c'.
  exists e. split; [now apply (proj2 (Lm id))|]. auto.
Qed.
Print Assumptions C17_start.

Lemma compact_core : forall n o nc L, make_compact_layout n o nc = Ok L -> layout_wf L /\ length (core_cells L) = n
  /\ forall c, In c (core_cells L) -> (row c = 0 \/ row c = 2) /\ 0 <= col c < Z.of_nat ((n + 1) / 2).
Proof.
  intros n o nc L E. destruct (C25_compact n o nc) as (L' & E' & _ & Len & Core & _). assert (L' = L) by congruence. subst L'.
  assert (W : layout_wf L). { unfold make_compact_layout in E. destruct (compact_grid n nc) as [g| | |]; try discriminate. cbn [bind] in E. eapply grid_layout_wf; eauto. }
  split; [exact W|]. destruct (lw_core L W) as [cells Hc]. unfold core_cells. rewrite Hc in *. rewrite core_cells_basic. rewrite map_length in Len. split; [exact Len|].
  intros c Hin. rewrite Forall_forall in Core. destruct (Core (basic_square_patch c None None)) as (c' & Eq & R); [apply in_map_iff; eauto|].
  injection Eq as ->. exact R.
Qed.

(** On a compact layout, of any size and of both kinds, every qubit exposes Z to the lane; so the assumptions made for the
    boundary rotations hold at the start. *)
Theorem C17_compact_start : forall n o no_clogging L ids, make_compact_layout n o no_clogging = Ok L -> NoDup ids -> (length ids <= n)%nat ->
  exists m, exposed_core L ids = Ok m /\ (forall id, In id ids -> exists e, alookup m id = Some e /\ z_exposed e = true)
  /\ (forall id, ~ In id ids -> alookup m id = None) /\ one_side m /\ Forall (fun kv => In (fst kv) ids) m.
Proof.
  intros n o nc L ids E Nd Hn. destruct (C25_compact n o nc) as (L' & E' & Far & _ & _ & _ & Lane & _). assert (L' = L) by congruence. subst L'.
  destruct (compact_core n o nc L E) as (W & Cl & Cc).
   destruct (C17_start L ids W Nd) as (s & m & En & Em & Fm & Nm & Hm); [lia|].
  exists m. split; [exact Em|].
  assert (Z : forall id, In id ids -> exists e, alookup m id = Some e /\ z_exposed e = true).
  { intros id Hi. destruct (new_slice_ok L ids W) as (s' & Es & I); [lia|]. assert (s' = s) by congruence. subst s'.
    pose proof Hi as Hk. apply In_nth_error in Hk. destruct Hk as [k Hk]. destruct (in_core _ _ _ I k id Hk) as (c & Hc & Ht).
    apply nth_error_In in Hc. destruct (Cc c Hc) as [R C]. destruct (Hm id c Hi) as (e & Ee & Ze & _); [exists (square (Some id) None); auto|].
    exists e. split; [exact Ee|]. apply Ze. exists (mkCell 1 (col c)). cbn [row col]. rewrite Far.
    split; [unfold on_lattice; cbn [row col]; destruct nc; lia|]. split; [|split; [reflexivity|lia]].
    assert (Op : open_tile L (mkCell 1 (col c))) by (apply Lane; destruct nc; lia).
    destruct Op as (_ & O1 & O2 & O3 & O4 & O5). apply (in_open _ _ _ I). unfold taken, core_cells, region_cells. rewrite !in_app_iff.
    intros [H|[H|[H|[H|H]]]]; [|now apply O5| |now apply O4|now apply O3].
    - apply in_flat_map in H. destruct H as (p & Hp & H). exact (O1 p Hp H).
    - apply in_map_iff in H. destruct H as (x & Ex & H). apply in_concat in H. destruct H as (Rg & HR & H). apply (O2 Rg HR). rewrite <- Ex. now apply in_map. }
  split; [exact Z|]. split; [exact Nm|]. split; [|exact Fm].
  intros q e Hq. destruct (in_dec N.eq_dec q ids) as [Y|Y]; [|rewrite (Nm q Y) in Hq; discriminate]. destruct (Z q Y) as (e' & Ee & Ze). right. congruence.
Qed.
Print Assumptions C17_compact_start.

(** Reading a circuit through the compact pipeline of the command line: whatever the layout options, a register of [n]
    qubits is recorded as the first slice shows it, and every operator measured on a qubit of the register is exposed when
    it is measured. *)
Theorem C17_compact_run : forall grid ug fuel d mc o (no_clogging : bool) pl src n local gs L s v out c',
  make_layout mc o (Auto (if no_clogging then ACompactNoClogging else ACompact)) pl
    (mkStream src (core_qubits_from_qreg n) (qasm_id_start n) NoPasses local) = Ok (On (L, s, v)) ->
  match src with LliSource _ => False | _ => True end ->
  (do raw <- gates_of fuel d src ;; rot_drain grid ug fuel [] raw) = Ok gs -> in_register n gs -> Forall distinct_ends gs ->
  instructions grid ug fuel d s = Ok (out, c') -> (c' <= 2 ^ 32)%N ->
  exists first m, new_slice L (core_qubits_from_qreg n) = Ok first
  /\ (forall q c, (q < n)%N -> carries first c q -> exists e, alookup m q = Some e
       /\ (z_exposed e = true <-> open_vertically L first c) /\ (x_exposed e = true <-> open_sideways L first c))
  /\ all_reachable (phys_of m) out.
Proof.
  intros grid ug fuel d mc o nc pl src n local gs L s v out c' Hm Hs Hg Hr Hd Hi Hc.
  assert (Lc : length (core_qubits_from_qreg n) = N.to_nat n) by (unfold core_qubits_from_qreg; now rewrite map_length, seq_length).
  assert (Nd : NoDup (core_qubits_from_qreg n)).
  { unfold core_qubits_from_qreg. apply FinFun.Injective_map_NoDup; [intros x y E; now apply Nat2N.inj|apply seq_NoDup]. }
  assert (M : exists L0 e, make_compact_layout (length (core_qubits_from_qreg n)) (distillation_options mc o) nc = Ok L0
     /\ exposed_core L0 (core_qubits_from_qreg n) = Ok e /\ L = L0 /\ s = mkStream src (core_qubits_from_qreg n) (qasm_id_start n) (CompactPasses e) local).
  { unfold make_layout in Hm. cbn [st_core] in Hm. destruct nc; cbn [st_core] in Hm;
    (destruct (has o "notwists"%string); [discriminate|]);
    (destruct (make_compact_layout _ _ _) as [L0| | |] eqn:EL; try discriminate; cbn [bind] in Hm);
    (destruct (exposed_core L0 _) as [e| | |] eqn:EE; try discriminate; cbn [bind] in Hm);
    injection Hm as <- <- _; exists L0, e; auto. }
  destruct M as (L0 & m & EL & EE & -> & ->). rewrite Lc in EL.
  destruct (C17_compact_start _ _ _ _ (core_qubits_from_qreg n) EL Nd) as (m' & Em & _ & _ & One & Keys); [lia|].
  assert (m' = m) by congruence. subst m'.
  destruct (compact_core _ _ _ _ EL) as (W & Cl & _).
  destruct (C17_start L0 (core_qubits_from_qreg n) W Nd) as (first & m' & Ef & Em' & _ & _ & Hm'); [lia|].
  assert (m' = m) by congruence. subst m'. exists first, m. split; [exact Ef|]. split.
  { intros q c Hq. apply Hm'. unfold core_qubits_from_qreg. apply in_map_iff. exists (N.to_nat q). split; [apply N2Nat.id|]. apply in_seq. lia. }
  assert (R : reads (compact_next (mkCfg local (match src with GateSource _ _ k | PandoraSource _ _ k => k | _ => CorrNever end)
      (match src with GateSource _ k _ | PandoraSource _ k _ => k | _ => [] end)) (core_qubits_from_qreg n)) (mkIS [] tt (mkIS [] m (mkLS [] gs))) n (Ok (out, c'))).
  { split; [discriminate|]. exists fuel. unfold instructions in Hi. cbn [st_start st_core st_source st_passes st_local] in Hi.
    destruct src; [contradiction|..]; cbn [bind] in Hg, Hi; (destruct (gates_of fuel d _) as [raw| | |]; try discriminate; cbn [bind] in Hg, Hi);
    rewrite Hg in Hi; exact Hi. }
  eapply C17_compact_pipeline; eauto. unfold keys_below. rewrite Forall_forall in *. intros kv Hk. apply Keys in Hk.
  unfold core_qubits_from_qreg in Hk. apply in_map_iff in Hk. destruct Hk as (k & <- & Hk). apply in_seq in Hk. lia.
Qed.
Print Assumptions C17_compact_run.

(** A register of three on the compact layout: the first qubit exposes Z only, and is rotated before X is
    measured on it. *)
Definition three_qubits : machine := ex_mach (ex_lines ["OPENQASM 2.0;"; "qreg q[3];"; "cx q[0],q[1];"; "cx q[2],q[0];"]%string).
Example C17_compact_ex : exists f L s v out c' m gs,
  open_gate_file NextToControl (mc_stdin three_qubits) = Ok f
  /\ make_layout three_qubits (fun _ => None) (Auto ACompact) PStream (mkStream (GateSource f (lit "q") CorrNever) (core_qubits_from_qreg 3) (qasm_id_start 3) NoPasses false) = Ok (On (L, s, v))
  /\ instructions (fun _ => Throw RuntimeError) false 50 NextToControl s = Ok (out, c') /\ st_passes s = CompactPasses m
  /\ (do raw <- gates_of 50 NextToControl (GateSource f (lit "q") CorrNever) ;; rot_drain (fun _ => Throw RuntimeError) false 50 [] raw) = Ok gs
  /\ in_register 3 gs /\ Forall distinct_ends gs /\ m = [(0%N, mkEx false true); (1%N, mkEx true true); (2%N, mkEx true true)]
  /\ map (fun i => match op i with Rotate q => Some q | _ => None end) out = [None; None; None; None; None; None; Some 0%N; None; None].
Proof.
  do 8 eexists. split; [vm_compute; reflexivity|]. split; [vm_compute; reflexivity|]. split; [vm_compute; reflexivity|]. split; [reflexivity|].
  split; [vm_compute; reflexivity|]. split; [repeat constructor|].
  split; [repeat constructor; discriminate|]. split; vm_compute; reflexivity.
Qed.
