(** C70: programs with joint measurements of two qubits are compiled to their end where there is room. *)
From Coq Require Import Relations.
From Verif Require Import Base InstrSpec InstrProofs PatchesModel LayoutModel LayoutSpec InstrModel SliceModel SliceSpec SliceProofs SliceProps RouterModel RouterSpec RouterProofs RouterProps
  ApplyModel ApplySpec ApplyProofs ApplyIds ApplyEffect BellProps ApplyProps StepProps RunModel RunInv RunProps OrientProofs OrientProps LiveProps LiveRotateProps.
Open Scope nat_scope.

(** The qubits in use, all ids used so far, and the ancilla in use *)
Record crew := mkCr { live_of : list N; used_of : list N; anc_of : option N }.
Definition without (q : N) (k : crew) : crew := mkCr (remove N.eq_dec q (live_of k)) (used_of k) (match anc_of k with Some a => if N.eqb a q then None else Some a | None => None end).
(** Programs of Pauli and Hadamard gates, rotations, measurements and joint measurements of X and Z operators of two different qubits, and where there are tiles for ancillas (spare) initialisations of ancillas, one at a time *)
Definition x_or_z (p : pauli) : Prop := p = PX \/ p = PZ.
Fixpoint joinable (spare : Prop) (k : crew) (prog : list instr) : Prop :=
  match prog with
  | [] => True
  | i :: r => (0 < wait i)%N /\ match op i with
              | SingleOp q g _ => In q (live_of k) /\ plain_gate g /\ joinable spare k r
              | Rotate q => In q (live_of k) /\ joinable spare k r
              | MultiMeasure [(a, pa); (b, pb)] _ _ => In a (live_of k) /\ In b (live_of k) /\ a <> b /\ x_or_z pa /\ x_or_z pb /\ joinable spare k r
              | Measure q _ _ => In q (live_of k) /\ joinable spare (without q k) r
              | Init q _ None => spare /\ anc_of k = None /\ ~ In q (used_of k) /\ joinable spare (mkCr (q :: live_of k) (q :: used_of k) (Some q)) r
              | _ => False
              end
  end.
(** The slices an instruction may take *)
Definition reach (i : instr) : nat := match op i with Rotate _ => 4 | _ => 1 end.
Definition reaches (prog : list instr) : nat := list_sum (map reach prog).

(** The tiles qubits are put on, and the tiles that nothing is ever put on of itself *)
Definition homes (L : layout) : list cell := core_cells L ++ l_ancilla L.
Definition way_tile (L : layout) (c : cell) : Prop := quiet_tile L c /\ ~ In c (l_ancilla L).
Definition strolls (L : layout) : cell -> cell -> Prop := clos_refl_trans cell (fun a b => adj a b /\ way_tile L a /\ way_tile L b).
(** Every tile for a qubit or an ancilla has such a tile beside it and another above or below it, and one walks from any of them to any other; and no factory delivers to the ancilla tiles. *)
Definition linked (L : layout) : Prop := (forall x q, In x (l_ancilla L) -> In q (l_queues L) -> ~ In x q) /\ exists hub, forall c, In c (homes L) ->
  exists h v, way_tile L h /\ way_tile L v /\ row h = row c /\ adj c h /\ col v = col c /\ adj c v /\ strolls L h hub /\ strolls L hub h /\ strolls L v hub /\ strolls L hub v.

Section Joint.
Variable e : env.
Hypothesis W : layout_wf (e_layout e).
Local Notation L := (e_layout e).
Hypothesis Li : linked L.
Variables (pick : pick_fun) (stop : bool).
Hypothesis Pk : valid_pick pick.
Hypothesis Rt : e_route e = plain_router L false pick stop.
Hypothesis Ne : e_edpc e = false.
Hypothesis Nl : e_local e = false.

(** Opposite sides alike, adjacent sides not *)
Definition fair_sides (p : dpatch) : Prop := btype (side (db p) DTop) = btype (side (db p) DBottom) /\ btype (side (db p) DLeft) = btype (side (db p) DRight)
  /\ (btype (side (db p) DTop) = BRough /\ btype (side (db p) DLeft) = BSmooth \/ btype (side (db p) DTop) = BSmooth /\ btype (side (db p) DLeft) = BRough).
Definition ordinary (p : dpatch) : Prop := p_type (dp p) = TQubit /\ (p_act (dp p) = ANone \/ p_act (dp p) = AUnitary) /\ fair_sides p.
Definition lives (s : slice) (q : N) : Prop := exists c p, tile_at s c = Some p /\ p_id (dp p) = Some q /\ ordinary p /\ In c (homes L) /\ forall c', carries s c' q -> c' = c.
(** What holds between instructions, and what holds at the start of a slice *)
Definition held (k : crew) (s : slice) (x : cell) : Prop := vacated s x \/ exists q, anc_of k = Some q /\ carries s x q.
Definition known (k : crew) (s : slice) : Prop := (forall x q, carries s x q -> In q (used_of k)) /\ forall q, anc_of k = Some q -> In q (live_of k).
Definition loose (k : crew) (s : slice) : Prop := timed L s /\ (forall q, In q (live_of k) -> lives s q) /\ (forall x, way_tile L x -> vacated s x) /\ known k s /\ forall x, In x (l_ancilla L) -> held k s x.
Definition at_rest (k : crew) (s : slice) : Prop := loose k s /\ (forall q c p, In q (live_of k) -> tile_at s c = Some p -> p_id (dp p) = Some q -> dp_is_active p = false)
  /\ (forall x, way_tile L x -> tile_at s x = None) /\ (anc_of k = None -> forall x, In x (l_ancilla L) -> tile_at s x = None).

Lemma lives_get : forall s q, timed L s -> lives s q -> exists c p, get_cell_by_id s q = Some c /\ get_patch_by_id s q = Some p /\ tile_at s c = Some p /\ p_id (dp p) = Some q
  /\ ordinary p /\ In c (homes L) /\ forall c', carries s c' q -> c' = c.
Proof.
  intros s q [Hs _] (c & p & Hp & Hi & Or & Hc & On).
  assert (G : get_cell_by_id s q = Some c) by (apply (get_single (l_furthest L)); auto; [intros c1 c2 H1 H2; rewrite (On c1 H1), (On c2 H2); reflexivity|exists p; auto]).
  destruct (sits_get _ _ _ _ Hs G) as (p1 & [P1 P2] & P3 & _). assert (p1 = p) by congruence. subst p1. exists c, p. auto 10.
Qed.
Lemma lives_advance : forall s s' q, timed L s -> advance_slice L s = Ok s' -> lives s q -> lives s' q /\ forall c p, tile_at s' c = Some p -> p_id (dp p) = Some q -> dp_is_active p = false.
Proof.
  intros s s' q T E (c & p & Hp & Hi & (Ty & Ac & F1 & F2 & F3) & Hc & On). destruct (C34_survivors L s W (proj1 T) (proj2 T)) as (s1 & E1 & _ & _ & _ & Sv). assert (s1 = s') by congruence. subst s1.
  destruct (Sv c p Hp) as (p' & P' & S2 & S3 & _ & _ & S4 & St & S5); [destruct Ac as [->| ->]; intros [X|X]; discriminate X|now left|].
  assert (A' : p_act (dp p') = ANone) by (rewrite S4; destruct Ac as [->| ->]; reflexivity).
  assert (B' : forall d, bactive (side (db p') d) = false).
  { intros d. destruct (bactive (side (db p') d)) eqn:D; [|reflexivity]. apply S5 in D as [[D|[D|D]] _]; destruct Ac; congruence. }
  assert (On' : forall c', carries s' c' q -> c' = c) by (intros c' Hc'; apply On; eapply advance_ids; eauto; apply T).
  split.
  - exists c, p'. split; [exact P'|]. split; [congruence|]. split; [|split; [exact Hc|exact On']]. split; [congruence|]. split; [now left|]. unfold fair_sides. rewrite !St. auto.
  - intros c1 p1 H1 H2. assert (c1 = c) by (apply On'; exists p1; auto). subst c1. assert (p1 = p') by congruence. subst p1.
    unfold dp_is_active. rewrite A'. cbn [act_eqb]. unfold has_active_boundary. pose proof (B' DTop) as B1. pose proof (B' DBottom) as B2. pose proof (B' DLeft) as B3. pose proof (B' DRight) as B4.
    cbn in B1, B2, B3, B4. now rewrite B1, B2, B3, B4.
Qed.
Lemma clear_vacated : forall s s' x, timed L s -> advance_slice L s = Ok s' -> ~ In x (l_reserved L) -> (forall q, In q (l_queues L) -> ~ In x q) -> vacated s x -> tile_at s' x = None.
Proof.
  intros s s' x T E Hr Hq V. destruct (C34_vacated L s s' x W (proj1 T) (proj2 T) E V) as [[H _]|[(_ & _ & [H|(q & Q1 & Q2)])|(_ & H)]]; [exact H|contradiction|exfalso; exact (Hq q Q1 Q2)|contradiction].
Qed.
Lemma way_vacated : forall s s' x, timed L s -> advance_slice L s = Ok s' -> way_tile L x -> vacated s x -> tile_at s' x = None.
Proof. intros s s' x T E [[(_ & _ & _ & _ & Hr & _) Hq] _] V. eapply clear_vacated; eauto. Qed.
Lemma ancilla_vacated : forall s s' x, timed L s -> advance_slice L s = Ok s' -> In x (l_ancilla L) -> vacated s x -> tile_at s' x = None.
Proof.
  intros s s' x T E Hx V. eapply clear_vacated; eauto; [|intros q Hq; exact (proj1 Li x q Hx Hq)]. intros H. apply (proj2 (lw_ancilla L W x Hx)). unfold taken. rewrite !in_app_iff. auto.
Qed.
Lemma held_advance : forall k s s' x, timed L s -> advance_slice L s = Ok s' -> (forall q, anc_of k = Some q -> carries s x q -> lives s q) -> In x (l_ancilla L) -> held k s x ->
  tile_at s' x = None \/ exists q, anc_of k = Some q /\ carries s' x q.
Proof.
  intros k s s' x T E Lv Hx [V|(q & A & C)]; [left; eapply ancilla_vacated; eauto|right]. exists q. split; [exact A|]. pose proof (Lv q A C) as Lq. destruct Lq as (c & p & Hp & Hi & Or & Hc & On).
  rewrite (On x C). destruct (lives_advance s s' q T E) as [(c' & p' & P1 & P2 & _) _]; [exists c, p; auto 10|].
  assert (C2 : carries s' c' q) by (exists p'; auto). assert (c' = c) by (apply On; eapply advance_ids; eauto; apply T). subst c'. exists p'. auto.
Qed.
Lemma known_advance : forall k s s', timed L s -> advance_slice L s = Ok s' -> known k s -> known k s'.
Proof. intros k s s' T E [K1 K2]. split; [|exact K2]. intros x q Hx. apply (K1 x). eapply advance_ids; eauto; apply T. Qed.
Lemma loose_advance : forall live s, loose live s -> exists s', advance_slice L s = Ok s' /\ at_rest live s'.
Proof.
  intros live s (T & R & Q & K & A). destruct (C34_survivors L s W (proj1 T) (proj2 T)) as (s' & E & S1 & L1 & _). exists s'. split; [exact E|].
  assert (Q' : forall x, way_tile L x -> tile_at s' x = None) by (intros x Hx; eapply way_vacated; eauto).
  assert (A' : forall x, In x (l_ancilla L) -> tile_at s' x = None \/ exists q, anc_of live = Some q /\ carries s' x q).
  { intros x Hx. apply (held_advance live s s' x T E); auto. intros q Aq _. apply R. now apply (proj2 K). }
  split; [split; [split; auto|split; [|split; [|split]]]|split; [|split; [exact Q'|]]].
  - intros q Hq. eapply lives_advance; eauto.
  - intros x Hx. left. now apply Q'.
  - eapply known_advance; eauto.
  - intros x Hx. destruct (A' x Hx) as [H|H]; [left; now left|now right].
  - intros q c p Hq. apply (lives_advance s s' q T E (R q Hq)).
  - intros Na x Hx. destruct (A' x Hx) as [H|(q & H & _)]; [exact H|congruence].
Qed.

Lemma not_way : forall c, In c (homes L) -> ~ way_tile L c.
Proof.
  intros c Hc [[(_ & Hx & _) _] Ha]. unfold homes in Hc. apply in_app_iff in Hc as [Hc|Hc]; [|contradiction]. unfold core_cells in Hc. apply in_flat_map in Hc as (y & Y1 & Y2). now apply (Hx y).
Qed.
Lemma busy_not_vacated : forall s c p, tile_at s c = Some p -> p_act (dp p) = ANone \/ p_act (dp p) = AUnitary -> ~ vacated s c.
Proof. intros s c p Hp Ha [V|(r & V1 & V2)]; [congruence|]. assert (r = p) by congruence. subst r. destruct Ha as [X|X]; rewrite X in V2; destruct V2; discriminate. Qed.
Lemma loose_frame : forall live live' s s', loose live s -> incl (live_of live') (live_of live) -> used_of live' = used_of live -> (forall q, anc_of live' = Some q -> In q (live_of live')) -> timed L s' ->
  (forall q c p, In q (live_of live') -> tile_at s c = Some p -> p_id (dp p) = Some q -> ordinary p -> exists p', tile_at s' c = Some p' /\ p_id (dp p') = Some q /\ ordinary p') ->
  (forall q x, carries s' x q -> carries s x q) -> (forall x, way_tile L x \/ In x (l_ancilla L) -> vacated s x -> vacated s' x) ->
  (forall x q, In x (l_ancilla L) -> anc_of live = Some q -> carries s x q -> held live' s' x) -> loose live' s'.
Proof.
  intros live live' s s' (T & R & Q & K & A) I Us An T' F B V H. split; [exact T'|]. split; [|split; [|split]].
  - intros q Hq. destruct (R q (I q Hq)) as (c & p & Hp & Hi & Or & Hc & On). destruct (F q c p Hq Hp Hi Or) as (p' & P1 & P2 & P3). exists c, p'. split; [exact P1|]. split; [exact P2|]. split; [exact P3|].
    split; [exact Hc|]. intros c' Hc'. apply On. now apply B.
  - intros x Hx. auto.
  - split; [|exact An]. intros x q Hx. rewrite Us. apply (proj1 K x). now apply B.
  - intros x Hx. destruct (A x Hx) as [Va|(q & Aq & Ca)]; [left; auto|eauto].
Qed.
Lemma loose_put : forall live live' s q c p p', loose live s -> incl (live_of live') (live_of live) -> used_of live' = used_of live -> (forall q, anc_of live' = Some q -> In q (live_of live')) ->
  (forall a, anc_of live = Some a -> anc_of live' = Some a \/ a = q /\ consumed (p_act (dp p'))) ->
  tile_at s c = Some p -> p_id (dp p) = Some q -> ordinary p -> p_id (dp p') = Some q -> In c (homes L) ->
  (In q (live_of live') -> ordinary p') -> loose live' (put s c (Some p')).
Proof.
  intros live live' s q c p p' Lo I Us An Ac Hp Hi Op Hi' Hc Or. pose proof (proj1 Lo) as T. assert (Ho : on_lattice (l_furthest L) c) by (eapply tile_on; eauto; apply T). pose proof (proj1 T) as Hs.
  apply (loose_frame live live' s); auto.
  - split; [now apply sized_put|apply T].
  - intros q1 c1 p1 Hq1 H1 H2 H3. rewrite (tile_put (l_furthest L)) by auto. destruct (cell_eqb_spec c c1) as [->|D]; [|now exists p1].
    assert (q1 = q) by congruence. subst q1. exists p'. auto.
  - intros q1 x (p1 & P1 & P2). rewrite (tile_put (l_furthest L)) in P1 by auto. destruct (cell_eqb_spec c x) as [->|D]; [exists p; split; [exact Hp|congruence]|exists p1; auto].
  - intros x _ V. assert (c <> x) by (intros ->; apply (busy_not_vacated s x p Hp); [apply Op|exact V]).
    unfold vacated. rewrite (tile_put_other (l_furthest L)) by auto. exact V.
  - intros x a Hx Aa (p1 & P1 & P2). unfold held. destruct (cell_eqb_spec c x) as [->|D].
    + assert (p1 = p) by congruence. subst p1. assert (a = q) by congruence. subst a. destruct (Ac q Aa) as [X|[_ X]].
      * right. exists q. split; [exact X|]. exists p'. rewrite (tile_put_same (l_furthest L)) by auto. auto.
      * left. right. exists p'. rewrite (tile_put_same (l_furthest L)) by auto. auto.
    + right. exists a. destruct (Ac a Aa) as [X|[-> _]].
      * split; [exact X|]. exists p1. rewrite (tile_put_other (l_furthest L)) by auto. auto.
      * exfalso. destruct (proj1 (proj2 Lo) q) as (c0 & p0 & _ & _ & _ & _ & On); [apply (proj2 (proj1 (proj2 (proj2 (proj2 Lo))))); exact Aa|].
        apply D. rewrite (On c), (On x); [reflexivity|exists p1; auto|exists p; auto].
Qed.

(** An attempt that is either successful or leaves the slice as it is, the latter only while something is still going on *)
Definition fine (live live' : crew) (w : world) (i : instr) : Prop := exists a, try_apply e w i = Ok a /\ a_op a = op i /\ a_follow a = []
  /\ (a_error a = true /\ w_slice (a_world a) = w_slice w /\ ~ at_rest live (w_slice w) \/ a_error a = false /\ loose live' (w_slice (a_world a))).

Lemma gate_fine : forall live w q g b wt cl, loose live (w_slice w) -> In q (live_of live) -> plain_gate g -> fine live live w (mkI (SingleOp q g b) wt cl).
Proof.
  intros live w q g b wt cl Lo Hq Hg. destruct (lives_get _ _ (proj1 Lo) (proj1 (proj2 Lo) q Hq)) as (c & p & G1 & G2 & Hp & Hi & Or & Hc & On).
  unfold fine. cbn [try_apply op]. unfold apply_single. rewrite G1, G2. destruct (dp_is_active p) eqn:Ac.
  - exists (mkA w (SingleOp q g b) true []). split; [destruct g; try reflexivity; contradiction|]. split; [reflexivity|]. split; [reflexivity|]. left. split; [reflexivity|]. split; [reflexivity|].
    intros (_ & R & _). rewrite (R q c p Hq Hp Hi) in Ac. discriminate.
  - assert (Pl : exists a, done_ w (SingleOp q g b) = Ok a /\ a_op a = SingleOp q g b /\ a_follow a = [] /\ (a_error a = true /\ w_slice (a_world a) = w_slice w /\ ~ at_rest live (w_slice w)
      \/ a_error a = false /\ loose live (w_slice (a_world a)))) by (eexists; split; [reflexivity|]; split; [reflexivity|]; split; [reflexivity|]; right; split; [reflexivity|exact Lo]).
    destruct g; try exact Pl; [|contradiction]. clear Pl. rewrite (set_patch_ok (l_furthest L)); [|apply (proj1 Lo)|eapply tile_on; eauto; apply (proj1 Lo)]. cbn [bind].
    eexists. split; [reflexivity|]. split; [reflexivity|]. split; [reflexivity|]. right. split; [reflexivity|]. cbn [a_world w_slice with_slice].
    apply (loose_put live live _ q c p); auto; [apply incl_refl|apply Lo|]. intros _. destruct Or as (W1 & W2 & F1 & F2 & F3). split; [exact W1|]. split; [now right|]. unfold fair_sides in *. cbn in *.
    split; [exact F2|]. split; [now symmetry|]. destruct F3 as [[X Y]|[X Y]]; [right|left]; split; congruence.
Qed.
Lemma measure_fine : forall live w q o b wt cl, loose live (w_slice w) -> In q (live_of live) -> fine live (without q live) w (mkI (Measure q o b) wt cl).
Proof.
  intros live w q o b wt cl Lo Hq. destruct (lives_get _ _ (proj1 Lo) (proj1 (proj2 Lo) q Hq)) as (c & p & G1 & G2 & Hp & Hi & Or & Hc & On).
  unfold fine. cbn [try_apply op]. unfold apply_measure. rewrite G1. rewrite (set_activity_ok (l_furthest L) _ _ _ p) by (auto; apply (proj1 Lo)). cbn [bind].
  eexists. split; [reflexivity|]. split; [reflexivity|]. split; [reflexivity|]. right. split; [reflexivity|]. cbn [a_world w_slice with_slice].
  apply (loose_put live (without q live) _ q c p); auto.
  - intros y Hy. now apply in_remove in Hy.
  - intros a. cbn. pose proof (proj2 (proj1 (proj2 (proj2 (proj2 Lo)))) a) as K. destruct (anc_of live) as [a0|]; [|discriminate]. destruct (N.eqb_spec a0 q) as [->|D]; [discriminate|]. intros X. injection X as ->. apply in_in_remove; auto.
  - intros a Aa. cbn. rewrite Aa. destruct (N.eqb_spec a q) as [->|D]; [right; split; [reflexivity|now left]|now left].
  - intros H. exfalso. now apply (remove_In N.eq_dec (live_of live) q).
Qed.

(** ** Joint measurements *)
Lemma stroll_path : forall (M : cell -> cell -> Prop) b x y, clos_refl_trans_1n cell (fun a b => adj a b /\ way_tile L a /\ way_tile L b) x y -> way_tile L x ->
  (forall u v, adj u v -> way_tile L u -> way_tile L v -> M u v) -> M y b -> exists l, consecutive M (x :: l ++ [b]) /\ Forall (way_tile L) (x :: l).
Proof.
  intros M b x y H. induction H as [x|x z y (A & Q1 & Q2) _ IH]; intros Hx Hm He.
  - exists []. cbn. auto.
  - destruct (IH Q2 Hm He) as (l & C & F). exists (z :: l). split; [|constructor; [exact Hx|exact F]]. cbn [app]. change (M x z /\ consecutive M (z :: l ++ [b])). split; [now apply Hm|exact C].
Qed.
Lemma beside : forall s c p o h v, tile_at s c = Some p -> fair_sides p -> x_or_z o -> row h = row c -> adj c h -> col v = col c -> adj c v -> shows s c h o \/ shows s c v o.
Proof.
  intros s c p o h v Hp (F1 & F2 & F3) Ho Rh Ah Cv Av. destruct h as [hr hc], v as [vr vc], c as [cr cc]. unfold adj in *. cbn [row col] in *. subst hr vc.
  assert (Hh : exists d, (d = DLeft \/ d = DRight) /\ mkCell cr hc = InstrSpec.step (mkCell cr cc) d).
  { assert (X : (hc = cc - 1 \/ hc = cc + 1)%Z) by lia. destruct X as [->| ->]; [exists DLeft|exists DRight]; split; auto; unfold InstrSpec.step; cbn; f_equal; lia. }
  assert (Hv : exists d, (d = DTop \/ d = DBottom) /\ mkCell vr cc = InstrSpec.step (mkCell cr cc) d).
  { assert (X : (vr = cr - 1 \/ vr = cr + 1)%Z) by lia. destruct X as [->| ->]; [exists DTop|exists DBottom]; split; auto; unfold InstrSpec.step; cbn; f_equal; lia. }
  destruct Hh as (d1 & D1 & E1), Hv as (d2 & D2 & E2).
  assert (K1 : btype (side (db p) d1) = btype (side (db p) DLeft)) by (destruct D1 as [->| ->]; congruence).
  assert (K2 : btype (side (db p) d2) = btype (side (db p) DTop)) by (destruct D2 as [->| ->]; congruence).
  destruct F3 as [[T1 T2]|[T1 T2]], Ho as [->| ->]; [right|left|left|right]; eexists p, _, _; (split; [exact Hp|]); (split; [eassumption|]); (split; [constructor|congruence]).
Qed.
Lemma strolls_to : forall live s a b qa qb pa pb, at_rest live s -> In qa (live_of live) -> In qb (live_of live) -> carries s a qa -> carries s b qb -> x_or_z pa -> x_or_z pb ->
  exists mid, walk false L s a pa b pb mid.
Proof.
  intros live s a b qa qb pa pb ((T & R & _) & _ & Q & _) Ha Hb Ca Cb Xa Xb. destruct Li as (_ & hub & Hub).
  destruct (R qa Ha) as (a1 & p1 & P1 & I1 & (_ & _ & Fa) & A1 & On1). rewrite <- (On1 a Ca) in *. destruct (R qb Hb) as (b1 & p2 & P2 & I2 & (_ & _ & Fb) & B1 & On2). rewrite <- (On2 b Cb) in *.
  assert (Near : forall c p o, In c (homes L) -> tile_at s c = Some p -> fair_sides p -> x_or_z o -> exists n, way_tile L n /\ adj c n /\ shows s c n o /\ strolls L n hub /\ strolls L hub n).
  { intros c p o Hc Hp Hf Ho. destruct (Hub c Hc) as (h & v & Qh & Qv & Rh & Ah & Cv & Av & S1 & S2 & S3 & S4).
    destruct (beside s c p o h v Hp Hf Ho Rh Ah Cv Av) as [Sh|Sh]; [exists h|exists v]; auto 10. }
  destruct (Near a p1 pa A1 P1 Fa Xa) as (n & Qn & An & Sn & S1 & _). destruct (Near b p2 pb B1 P2 Fb Xb) as (m & Qm & Am & Sm & _ & S2).
  assert (Us : forall x, way_tile L x -> RouterSpec.usable false s x) by (intros x Hx; unfold RouterSpec.usable; now rewrite (Q x Hx)).
  assert (Na : forall x, way_tile L x -> x <> a) by (intros x Hx ->; rewrite (Q a Hx) in P1; discriminate). assert (Nb : forall x, way_tile L x -> x <> b) by (intros x Hx ->; rewrite (Q b Hx) in P2; discriminate).
  destruct (stroll_path (fun u v => adjacent u v /\ may_step false s a pa b pb u v) b n m) as (l & C & F).
  - apply clos_rt_rt1n. eapply rt_trans; [exact S1|exact S2].
  - exact Qn.
  - intros u v A Hu Hv. split; [exact A|]. apply step_open; auto. discriminate.
  - split; [apply adjacent_sym; exact Am|]. apply step_arrive; auto.
  - exists (n :: l). split.
    + cbn [app]. change ((adjacent a n /\ may_step false s a pa b pb a n) /\ consecutive (fun u v => adjacent u v /\ may_step false s a pa b pb u v) (n :: l ++ [b])). split; [|exact C].
      split; [exact An|]. apply step_leave; auto.
    + revert F. apply Forall_impl. intros x Hx. apply Hx.
Qed.

Lemma activate_ok : forall s a d p, sized (l_furthest L) s -> tile_at s a = Some p -> activate s a (InstrSpec.step a d) = Ok (put s a (Some (joined d p))).
Proof.
  intros s a d p Hs Hp. pose proof (activate_fail_ok (l_furthest L) s a d p Hs Hp) as H. unfold activate_or_fail, boundary_ref_or_fail in H. unfold activate.
  destruct (boundary_ref s a (InstrSpec.step a d)) as [[x|]| | |]; cbn [bind deref] in *; try discriminate. exact H.
Qed.
Lemma mark_cells_ok : forall opid all todo s label k prev, sized (l_furthest L) s -> NoDup (map sc_cell todo) -> (forall sc, In sc todo -> on_lattice (l_furthest L) (sc_cell sc) /\ tile_at s (sc_cell sc) = None) ->
  exists r, mark_cells L AMultiPatch opid all s label k prev todo = Ok r.
Proof.
  intros opid all. induction todo as [|sc todo IH]; intros s label k prev Hs Nd Hf; [cbn; eauto|]. cbn [mark_cells]. destruct (Hf sc (or_introl eq_refl)) as [Ho Hn].
  rewrite (patch_at_ok (l_furthest L)), Hn by auto. cbn [bind]. change (act_eqb AMultiPatch AEDPC) with false. cbn iota. rewrite (place_routing_ok e) by auto. cbn [bind].
  cbn [map] in Nd. apply NoDup_cons_iff in Nd as [Nx Nd].
  destruct (IH (put s (sc_cell sc) (Some (mkDP (mkPatch TRouting AMultiPatch None None opid) (sc_b sc)))) label (S k) (Some (sc_cell sc))) as ((s2 & r) & E).
  - now apply sized_put.
  - exact Nd.
  - intros sc' H'. destruct (Hf sc' (or_intror H')) as [Ho' Hn']. split; [exact Ho'|]. rewrite (tile_put_other (l_furthest L)); auto. intros X. apply Nx. rewrite X. now apply in_map.
  - rewrite E. cbn [bind]. eauto.
Qed.
Lemma hd_rev : forall (A B : Type) (f : A -> B) d x l, hd d (rev (map f (x :: l))) = f (last (x :: l) x).
Proof. intros A B f d x l. destruct (@exists_last A (x :: l)) as (l' & y & E); [discriminate|]. rewrite E, last_last, map_app, rev_app_distr. reflexivity. Qed.
Lemma last_rev : forall (A B : Type) (f : A -> B) d x l, last (rev (map f (x :: l))) d = f x.
Proof. intros A B f d x l. cbn [map rev]. apply last_last. Qed.
Lemma over_routes : forall act o l rest s x, (exists sc, In sc l /\ sc_cell sc = x /\ over (map (routing act o) l ++ rest) s x = snd (routing act o sc)) \/ over (map (routing act o) l ++ rest) s x = over rest s x.
Proof.
  intros act o l rest s x. induction l as [|sc l IH]; [now right|]. assert (U : over (map (routing act o) (sc :: l) ++ rest) s x = if cell_eqb (sc_cell sc) x then snd (routing act o sc) else over (map (routing act o) l ++ rest) s x) by reflexivity.
  rewrite U. clear U. destruct (cell_eqb_spec (sc_cell sc) x) as [E|D].
  - left. exists sc. split; [now left|]. auto.
  - destruct IH as [(sc' & I & E & H)|H]; [left; exists sc'; split; [now right|auto]|now right].
Qed.
Lemma joined_ordinary : forall d p, ordinary p -> ordinary (joined d p).
Proof.
  intros d p (T & A & F1 & F2 & F3). split; [exact T|]. split; [exact A|]. assert (K : forall x, btype (side (db (joined d p)) x) = btype (side (db p) x)) by (intros x; destruct d, x; reflexivity).
  unfold fair_sides. rewrite !K. auto.
Qed.
Lemma joint_loose : forall live w a pa b pb neg l wt cl x, loose live (w_slice w) -> a <> b -> try_apply e w (mkI (MultiMeasure [(a, pa); (b, pb)] neg l) wt cl) = Ok x -> a_error x = false ->
  loose live (w_slice (a_world x)).
Proof.
  intros live w a pa b pb neg l wt cl x Lo Hab H Er. pose proof (proj1 Lo) as T. pose proof (proj1 T) as Hs.
  destruct (C33_effect e w (mkI (MultiMeasure [(a, pa); (b, pb)] neg l) wt cl) x Hs (fun z => z) H Er) as (u & m & y & E & Ch). destruct (C33_timers e w _ x Hs H) as [Hs' Ti]. cbn [op] in E.
  inversion E as [| | | |? ? ? ? ? ? reg cache ? s _ _ _ Mg| ? ? ? ? ? ? ? ? ? ? ? s Lc| | | | | | | | | |]; subst; [|congruence]. subst s. clear E.
  remember (rg_cells reg) as cells eqn:Ec. inversion Mg as [ca p cb q da db0 [Pa Ia] Ida [Pb Ib] Idb Sa Sb Nd Fr]; subst u. clear Mg.
  assert (Dc : ca <> cb) by (intros ->; congruence).
  assert (T' : forall z, (exists sc, In sc cells /\ sc_cell sc = z /\ exists r, tile_at (w_slice (a_world x)) z = Some r /\ p_id (dp r) = None /\ p_act (dp r) = AMultiPatch)
    \/ z = cb /\ tile_at (w_slice (a_world x)) z = Some (joined db0 q) \/ z = ca /\ tile_at (w_slice (a_world x)) z = Some (joined da p)
    \/ z <> ca /\ z <> cb /\ tile_at (w_slice (a_world x)) z = tile_at (w_slice w) z).
  { intros z. rewrite (proj1 Ch z). rewrite <- map_rev. match goal with |- context [over (map (routing ?k ?o) ?c ++ ?r) ?s z] => destruct (over_routes k o c r s z) as [(sc & I & Ez & Ov)|Ov] end; rewrite Ov.
    - left. exists sc. split; [now apply in_rev|]. split; [exact Ez|]. eexists. split; [reflexivity|]. split; reflexivity.
    - right. cbn [over join_side]. destruct (cell_eqb_spec cb z) as [<-|D1].
      + left. split; [reflexivity|]. destruct (cell_eqb_spec ca cb) as [X|_]; [contradiction|]. rewrite Pb. reflexivity.
      + right. destruct (cell_eqb_spec ca z) as [<-|D2]; [left; auto|right; auto]. }
  apply (loose_frame live live (w_slice w)); auto; [apply incl_refl|apply Lo|split; [exact Hs'|rewrite Ti; apply T]|..].
  - intros q1 z p1 Hq H1 H2 H3. destruct (T' z) as [(sc & I & Ez & _)|[[-> Tz]|[[-> Tz]|(_ & _ & Tz)]]].
    + exfalso. pose proof (Fr sc I) as X. rewrite Ez in X. congruence.
    + assert (p1 = q) by congruence. subst p1. exists (joined db0 q). split; [exact Tz|]. split; [exact H2|now apply joined_ordinary].
    + assert (p1 = p) by congruence. subst p1. exists (joined da p). split; [exact Tz|]. split; [exact H2|now apply joined_ordinary].
    + exists p1. rewrite Tz. auto.
  - intros q1 z (p1 & P1 & P2). destruct (T' z) as [(sc & I & Ez & r & R1 & R2 & _)|[[-> Tz]|[[-> Tz]|(_ & _ & Tz)]]].
    + congruence.
    + exists q. split; [exact Pb|]. assert (p1 = joined db0 q) by congruence. subst p1. exact P2.
    + exists p. split; [exact Pa|]. assert (p1 = joined da p) by congruence. subst p1. exact P2.
    + exists p1. rewrite <- Tz. auto.
  - intros z Hz V. destruct (T' z) as [(sc & I & Ez & r & R1 & _ & R2)|[[-> Tz]|[[-> Tz]|(_ & _ & Tz)]]].
    + right. exists r. split; [exact R1|]. rewrite R2. now right.
    + exfalso. apply (busy_not_vacated _ _ q Pb); [left; apply Idb|exact V].
    + exfalso. apply (busy_not_vacated _ _ p Pa); [left; apply Ida|exact V].
    + unfold vacated. rewrite Tz. exact V.
  - intros z a1 Hz Aa (p1 & P1 & P2). right. exists a1. split; [exact Aa|]. destruct (T' z) as [(sc & I & Ez & _)|[[-> Tz]|[[-> Tz]|(_ & _ & Tz)]]].
    + exfalso. pose proof (Fr sc I) as X. rewrite Ez in X. congruence.
    + exists (joined db0 q). assert (p1 = q) by congruence. subst p1. auto.
    + exists (joined da p). assert (p1 = p) by congruence. subst p1. auto.
    + exists p1. rewrite Tz. auto.
Qed.
Lemma joint_fine : forall live w a pa b pb neg l wt cl, loose live (w_slice w) -> In a (live_of live) -> In b (live_of live) -> a <> b -> x_or_z pa -> x_or_z pb -> fine live live w (mkI (MultiMeasure [(a, pa); (b, pb)] neg l) wt cl).
Proof.
  intros live w a pa b pb neg l wt cl Lo Ha Hb Hab Xa Xb. pose proof (proj1 (proj1 Lo)) as Hs. set (i := mkI (MultiMeasure [(a, pa); (b, pb)] neg l) wt cl).
  destruct (lives_get _ _ (proj1 Lo) (proj1 (proj2 Lo) a Ha)) as (ca & p & G1 & G2 & Hp & Hi & Or & Hc & On). destruct (lives_get _ _ (proj1 Lo) (proj1 (proj2 Lo) b Hb)) as (cb & q & K1 & K2 & Hq & Hj & Os & Hd & Om).
  assert (Dc : ca <> cb) by (intros ->; congruence).
  assert (Red : forall r, merge_patches e w a pa b pb = r -> try_apply e w i = (do (w', ok) <- r ;; if negb ok then failed w' (op i) else done_ w' (op i))).
  { intros r <-. unfold i. cbn [try_apply op]. unfold apply_multi, has_patch. rewrite G2, K2, Nl, Ne. reflexivity. }
  assert (No : forall w', w_slice w' = w_slice w -> merge_patches e w a pa b pb = Ok (w', false) -> ~ at_rest live (w_slice w) -> fine live live w i).
  { intros w' Ew M Nr. exists (mkA w' (op i) true []). rewrite (Red _ M). split; [reflexivity|]. split; [reflexivity|]. split; [reflexivity|]. left. auto. }
  destruct (dp_is_active p || dp_is_active q) eqn:Ac.
  { apply (No w); [reflexivity| |].
    - unfold merge_patches. rewrite G2. cbn [deref bind]. destruct (dp_is_active p); [reflexivity|]. cbn in Ac. rewrite K2. cbn [deref bind]. rewrite Ac. reflexivity.
    - intros (_ & R & _). rewrite (R a ca p Ha Hp Hi), (R b cb q Hb Hq Hj) in Ac. discriminate. }
  apply orb_false_iff in Ac as [Ac1 Ac2].
  assert (Me : merge_patches e w a pa b pb = (do r <- find_route L false pick stop (w_slice w) a pa b pb ;; match r with
    | None => Ok (mkW (w_slice w) (w_ops w) (w_cache w), false)
    | Some reg => let reg := if e_opids e then mkRegion (rg_cells reg) (Some (w_ops w)) else reg in
      let ops := if e_opids e then ((w_ops w + 1) mod 2 ^ 64)%N else w_ops w in
      do s1 <- stitch_boundaries (w_slice w) ca cb (rg_cells reg) ;; do (s2, _) <- mark_routing_region L s1 reg AMultiPatch ;; Ok (mkW s2 ops (w_cache w), true) end)).
  { unfold merge_patches. rewrite G2, K2. cbn [deref bind]. rewrite Ac1. cbn [bind]. rewrite Ac2. cbn [bind]. rewrite Rt. unfold plain_router. destruct (find_route L false pick stop (w_slice w) a pa b pb) as [[reg|]| | |]; cbn [bind]; try reflexivity.
    rewrite G1, K1. reflexivity. }
  pose proof (C29_outcome L false pick stop (w_slice w) a pa b pb Hs Pk) as Oc. destruct (find_route L false pick stop (w_slice w) a pa b pb) as [[reg|]|y| |] eqn:Fi; try contradiction.
  - destruct (C29_free_and_ends L pick stop (w_slice w) a pa b pb reg Hs Pk Fi) as (a1 & b1 & Ca & Cb & Fr & Ends). rewrite (On a1 Ca), (Om b1 Cb) in Ends. clear a1 b1 Ca Cb.
    destruct (C29_route L false pick stop (w_slice w) a pa b pb reg Hs Pk Fi) as (a1 & b1 & _ & _ & _ & _ & _ & (_ & Nd & _)). clear a1 b1.
    assert (Nd' : NoDup (map sc_cell (rg_cells reg))) by (rewrite <- (rev_involutive (map sc_cell (rg_cells reg))); now apply NoDup_rev).
    destruct Ends as (E1 & _ & E2 & _). apply adjacent_step in E1 as [d1 E1]. apply adjacent_sym, adjacent_step in E2 as [d2 E2].
    assert (St : stitch_boundaries (w_slice w) ca cb (rg_cells reg) = Ok (put (put (w_slice w) ca (Some (joined d1 p))) cb (Some (joined d2 q)))).
    { assert (T2 : tile_at (put (w_slice w) ca (Some (joined d1 p))) cb = Some q) by (rewrite (tile_put_other (l_furthest L)); auto; eapply tile_on; eauto).
      assert (S2 : sized (l_furthest L) (put (w_slice w) ca (Some (joined d1 p)))) by now apply sized_put.
      unfold stitch_boundaries. destruct (rg_cells reg) as [|first rest].
      - cbn in E1, E2. pose proof (activate_ok _ ca d1 p Hs Hp) as X1. rewrite <- E1 in X1. rewrite X1. cbn [bind]. pose proof (activate_ok _ cb d2 q S2 T2) as X2. rewrite <- E2 in X2. exact X2.
      - rewrite hd_rev in E1. rewrite last_rev in E2. pose proof (activate_ok _ ca d1 p Hs Hp) as X1. rewrite <- E1 in X1. rewrite X1. cbn [bind]. pose proof (activate_ok _ cb d2 q S2 T2) as X2. rewrite <- E2 in X2. exact X2. }
    set (s1 := put (put (w_slice w) ca (Some (joined d1 p))) cb (Some (joined d2 q))) in *.
    assert (S1 : sized (l_furthest L) s1) by (unfold s1; auto using sized_put).
    assert (Oa : on_lattice (l_furthest L) ca) by (eapply tile_on; [exact Hs|exact Hp]). assert (Ob : on_lattice (l_furthest L) cb) by (eapply tile_on; [exact Hs|exact Hq]).
    assert (F1 : forall sc, In sc (rg_cells reg) -> on_lattice (l_furthest L) (sc_cell sc) /\ tile_at s1 (sc_cell sc) = None).
    { intros sc Hsc. destruct (Fr sc Hsc) as [Ho Hn]. split; [exact Ho|]. unfold s1. rewrite !(tile_put_other (l_furthest L)); auto using sized_put; intros X; rewrite <- X in Hn; congruence. }
    set (reg' := if e_opids e then mkRegion (rg_cells reg) (Some (w_ops w)) else reg) in *. assert (Rc : rg_cells reg' = rg_cells reg) by (unfold reg'; destruct (e_opids e); reflexivity).
    assert (M : exists w', merge_patches e w a pa b pb = Ok (w', true)).
    { rewrite Me. cbn [bind]. cbv zeta. fold reg'. clearbody reg'. rewrite Rc, St. cbn [bind]. unfold mark_routing_region. rewrite Rc.
      destruct (mark_cells_ok (rg_id reg') (rg_cells reg) (rg_cells reg) s1 BLabel1 0 None S1 Nd' F1) as ((s2 & cs) & Mk). rewrite Mk. cbn [bind]. eauto. }
    destruct M as (w' & M). exists (mkA w' (op i) false []). assert (Ti : try_apply e w i = Ok (mkA w' (op i) false [])) by (rewrite (Red _ M); reflexivity).
    split; [exact Ti|]. split; [reflexivity|]. split; [reflexivity|]. right. split; [reflexivity|]. exact (joint_loose live w a pa b pb neg l wt cl _ Lo Hab Ti eq_refl).
  - apply (No (mkW (w_slice w) (w_ops w) (w_cache w))); [reflexivity|rewrite Me; reflexivity|]. intros R.
    destruct (strolls_to live (w_slice w) ca cb a b pa pb R Ha Hb) as (mid & Wk); [exists p; auto|exists q; auto|exact Xa|exact Xb|].
    destruct (C30_complete L false pick stop (w_slice w) a pa b pb ca cb mid Hs Pk G1 K1 Xa Xb Wk) as (reg & X). congruence.
  - exfalso. destruct y; try contradiction; [|destruct Oc as [Oc|Oc]; eapply Oc; [exists p|exists q]; eauto]. apply Oc. split; assumption.
Qed.
(** ** Rotations *)
Lemma rotate_attempt : forall live w q wt cl, loose live (w_slice w) -> In q (live_of live) -> exists a, try_apply e w (mkI (Rotate q) wt cl) = Ok a /\ a_op a = Rotate q
  /\ (a_error a = true /\ a_follow a = [] /\ w_slice (a_world a) = w_slice w /\ ~ at_rest live (w_slice w) \/ a_error a = false /\ exists r k l, a_follow a = [instr_of (Busy r k l)]).
Proof.
  intros live w q wt cl Lo Hq. pose proof (proj1 (proj1 Lo)) as Hs. destruct (lives_get _ _ (proj1 Lo) (proj1 (proj2 Lo) q Hq)) as (c & p & G1 & _ & Hp & Hi & _ & Hc & _).
  assert (Oc : on_lattice (l_furthest L) c) by (eapply tile_on; eauto). assert (Ib : in_box (mkCell 0 0) (l_furthest L) c) by (unfold on_lattice in Oc; unfold in_box; cbn; lia).
  assert (On : forall x, In x (neighbours L c) -> on_lattice (l_furthest L) x) by (intros x Hx; apply neighbours_in_iff in Hx as [_ Hx]; [unfold in_box in Hx; cbn in Hx; unfold on_lattice; lia|exact Ib]).
  destruct Li as (_ & hub & Hub). destruct (Hub c Hc) as (n0 & _ & Q0 & _ & _ & A0 & _).
  cbn [try_apply op]. unfold apply_rotate. rewrite G1. unfold last_free.
  destruct (last_free_ok e (w_slice w) (neighbours L c) None Hs On) as (r & Er & Nr). rewrite Er. cbn [bind].
  destruct r as [n|].
  2: { exists (mkA w (Rotate q) true []). split; [reflexivity|]. split; [reflexivity|]. left. split; [reflexivity|]. split; [reflexivity|]. split; [reflexivity|]. intros (_ & _ & Qt & _).
    apply Nr; [|reflexivity]. right. exists n0. split; [|now apply Qt].
    apply neighbours_in_iff; [exact Ib|]. split; [unfold adjacent; unfold adj in A0; exact A0|]. destruct Q0 as [[[Q0 _] _] _]. unfold on_lattice in Q0. unfold in_box. cbn. lia. }
  apply (last_free_inv (l_furthest L)) in Er as [Er|[Hn Fn]]; [discriminate| |exact Hs]. pose proof (On n Hn) as Onn. destruct (neighbours_step L c n Oc Hn) as [d ->].
  rewrite (patch_at_ok (l_furthest L)) by auto. rewrite Hp. cbn [bind deref]. unfold litinski_rotation. cbn [to_sparse_patch sp_cells sc_cell]. rewrite join_tiles_ok. cbn [bind].
  rewrite (set_patch_ok (l_furthest L)) by auto. cbn [bind]. unfold mark_routing_region. cbn [rg_cells rg_id]. set (n := InstrSpec.step c d) in *.
  assert (Nn : c <> n) by (intros X; rewrite <- X in Fn; congruence).
  set (s1 := put (w_slice w) c None). assert (S1 : sized (l_furthest L) s1) by (unfold s1; now apply sized_put).
  assert (T1 : tile_at s1 c = None) by (unfold s1; now apply (tile_put_same (l_furthest L))).
  assert (T2 : tile_at s1 n = None) by (unfold s1; now rewrite (tile_put_other (l_furthest L))).
  cbn [mark_cells]. cbn [rotating sc_cell]. rewrite (patch_at_ok (l_furthest L)), T1 by auto. cbn [bind]. change (act_eqb ARotation AEDPC) with false. cbn iota.
  rewrite (place_routing_ok e) by (cbn [rotating sc_cell]; auto). cbn [bind rotating sc_cell].
  match goal with |- context [put s1 c ?t] => set (s2 := put s1 c t) end. assert (S2 : sized (l_furthest L) s2) by (unfold s2; now apply sized_put).
  assert (T3 : tile_at s2 n = None) by (unfold s2; now rewrite (tile_put_other (l_furthest L))).
  rewrite (patch_at_ok (l_furthest L)), T3 by auto. cbn [bind]. rewrite (place_routing_ok e) by (cbn [rotating sc_cell]; auto). cbn [bind rotating sc_cell].
  eexists. split; [reflexivity|]. split; [reflexivity|]. right. split; [reflexivity|]. do 3 eexists. reflexivity.
Qed.
Definition turning (k : crew) (q : N) (c n : cell) (s : slice) : Prop := timed L s /\ (forall q', In q' (remove N.eq_dec q (live_of k)) -> lives s q') /\ (forall x, way_tile L x -> x <> n -> vacated s x)
  /\ (forall x, ~ carries s x q) /\ (forall q', ~ carries s c q' /\ ~ carries s n q') /\ known k s /\ forall x, In x (l_ancilla L) -> x <> c -> x <> n -> held k s x.
Lemma turning_advance : forall live q c n s, turning live q c n s -> exists s', advance_slice L s = Ok s' /\ turning live q c n s'.
Proof.
  intros live q c n s (T & R & Q & A & B & K & H). destruct (C34_survivors L s W (proj1 T) (proj2 T)) as (s' & E & S1 & L1 & _). exists s'. split; [exact E|].
  assert (Id : forall x q', carries s' x q' -> carries s x q') by (intros x q' Hx; eapply advance_ids; eauto; apply T).
  split; [split; auto|]. split; [intros q' H'; eapply lives_advance; eauto|]. split; [intros x Hx Hn; left; eapply way_vacated; eauto|].
  split; [intros x Hx; apply (A x); auto|]. split; [intros q'; destruct (B q') as [B1 B2]; split; intros Hx; [apply B1|apply B2]; auto|].
  split; [eapply known_advance; eauto|]. intros x Hx D1 D2. destruct (held_advance live s s' x T E) as [X|X]; auto; [|left; now left|now right].
  intros q' Aq Ca. apply R. apply in_in_remove; [intros ->; now apply (A x)|now apply (proj2 K)].
Qed.
Lemma turning_start : forall live q c n p s s', loose live s -> In q (live_of live) -> sits s q c p -> tile_at s n = None -> rotating_on s' c -> rotating_on s' n ->
  (forall x, x <> c -> x <> n -> tile_at s' x = tile_at s x) -> timed L s' -> turning live q c n s'.
Proof.
  intros live q c n p s s' (T0 & R & Q & K & H) Hq [Hp Hi] Hn (pc & C1 & _ & _ & C2) (pn & N1 & _ & _ & N2) Fr T.
  destruct (R q Hq) as (c0 & p0 & _ & _ & _ & Hc & On). assert (c = c0) by (apply On; exists p; auto). subst c0.
  assert (Nc : forall q', ~ carries s' c q') by (intros q' (p1 & P1 & P2); congruence). assert (Nn : forall q', ~ carries s' n q') by (intros q' (p1 & P1 & P2); congruence).
  assert (Ca : forall x q', carries s' x q' -> x <> c /\ x <> n /\ carries s x q').
  { intros x q' Hx. assert (x <> c) by (intros ->; now apply (Nc q')). assert (x <> n) by (intros ->; now apply (Nn q')). split; [auto|]. split; [auto|]. destruct Hx as (p1 & P1 & P2). exists p1. rewrite <- Fr by auto. auto. }
  split; [exact T|]. split; [|split; [|split; [|split; [now auto|split; [split; [|apply K]|]]]]].
  - intros q' H'. apply in_remove in H' as [H' D]. destruct (R q' H') as (c1 & p1 & P1 & P2 & P3 & P4 & P5). exists c1, p1.
    assert (c1 <> c) by (intros ->; congruence). assert (c1 <> n) by (intros ->; congruence). split; [rewrite Fr; auto|]. split; [exact P2|]. split; [exact P3|]. split; [exact P4|].
    intros c' Hc'. apply P5. apply Ca. exact Hc'.
  - intros x Hx Hxn. assert (x <> c) by (intros ->; now apply (not_way c)). unfold vacated. rewrite Fr by auto. now apply Q.
  - intros x Hx. destruct (Ca x q Hx) as (D & _ & Kx). apply D. now apply On.
  - intros x q' Hx. apply (proj1 K x). now apply Ca.
  - intros x Hx D1 D2. unfold held, vacated, carries. rewrite Fr by auto. now apply H.
Qed.
Lemma turning_end : forall live q c n p s s', turning live q c n s -> In q (live_of live) -> In c (homes L) -> tile_at s' c = Some p -> tile_at s' n = None -> (forall x, x <> c -> x <> n -> tile_at s' x = tile_at s x) -> timed L s' ->
  p_id (dp p) = Some q -> ordinary p -> (In c (l_ancilla L) -> anc_of live = Some q) -> In q (used_of live) -> loose live s'.
Proof.
  intros live q c n p s s' (_ & R & Q & A & B & K & H) Hq Hc Hp Hn Fr T Hi Or Ac Uq.
  assert (Ca : forall x q', carries s' x q' -> x = c /\ q' = q \/ x <> c /\ q' <> q /\ carries s x q').
  { intros x q' (p1 & P1 & P2). destruct (cell_eqb_spec x c) as [->|D]; [left; split; congruence|]. assert (x <> n) by (intros ->; congruence). right. split; [auto|].
    assert (Kx : carries s x q') by (exists p1; rewrite <- Fr by auto; auto). split; [|exact Kx]. intros ->. now apply (A x). }
  split; [exact T|]. split; [|split; [|split; [split; [|apply K]|]]].
  - intros q' H'. destruct (N.eq_dec q' q) as [->|D].
    + exists c, p. split; [exact Hp|]. split; [exact Hi|]. split; [exact Or|]. split; [exact Hc|]. intros x Hx. destruct (Ca x q Hx) as [[E _]|(_ & X & _)]; [exact E|contradiction].
    + destruct (R q') as (c1 & p1 & P1 & P2 & P3 & P4 & P5); [now apply in_in_remove|]. exists c1, p1.
      assert (Kx : carries s c1 q') by (exists p1; auto). assert (c1 <> c) by (intros ->; exact (proj1 (B q') Kx)). assert (c1 <> n) by (intros ->; exact (proj2 (B q') Kx)).
      split; [rewrite Fr; auto|]. split; [exact P2|]. split; [exact P3|]. split; [exact P4|]. intros x Hx. destruct (Ca x q' Hx) as [[_ X]|(_ & _ & X)]; [contradiction|now apply P5].
  - intros x Hx. assert (x <> c) by (intros ->; now apply (not_way c)). destruct (cell_eqb_spec x n) as [->|D']; [now left|]. unfold vacated. rewrite Fr by auto. now apply Q.
  - intros x q' Hx. destruct (Ca x q' Hx) as [[_ ->]|(_ & _ & X)]; [exact Uq|now apply (proj1 K x)].
  - intros x Hx. destruct (cell_eqb_spec x n) as [->|D']; [left; now left|]. destruct (cell_eqb_spec x c) as [->|D]; [right; exists q; split; [now apply Ac|exists p; auto]|].
    unfold held, vacated, carries. rewrite Fr by auto. now apply H.
Qed.

(** ** Ancillas *)
Lemma first_free_ok : forall s l, sized (l_furthest L) s -> (forall x, In x l -> on_lattice (l_furthest L) x) -> exists r, first_free s l = Ok r /\ (r = None -> forall x, In x l -> tile_at s x <> None).
Proof.
  intros s l Hs. induction l as [|x l IH]; intros Hl; [exists None; split; [reflexivity|intros _ x []]|]. cbn [first_free].
  unfold is_free. rewrite (patch_at_ok (l_furthest L)) by (auto; apply Hl; now left). cbn [bind]. destruct (IH (fun y Hy => Hl y (or_intror Hy))) as (r & E & N). destruct (tile_at s x) as [p|] eqn:Ex.
  - exists r. split; [exact E|]. intros Er y [<-|Hy]; [congruence|now apply N].
  - exists (Some x). split; [reflexivity|discriminate].
Qed.
Lemma init_fine : forall live w q st wt cl, l_ancilla L <> [] -> loose live (w_slice w) -> anc_of live = None -> ~ In q (used_of live) ->
  fine live (mkCr (q :: live_of live) (q :: used_of live) (Some q)) w (mkI (Init q st None) wt cl).
Proof.
  intros live w q st wt cl Ne0 Lo An Nq. pose proof (proj1 (proj1 Lo)) as Hs. unfold fine. cbn [try_apply op]. unfold apply_init, find_free_ancilla_location.
  destruct (first_free_ok (w_slice w) (l_ancilla L) Hs) as (r & E & Nr); [intros x Hx; apply (lw_ancilla L W x Hx)|]. rewrite E. cbn [bind]. destruct r as [c|].
  - destruct (first_free_inv (l_furthest L) _ _ _ Hs E) as (before & later & El & _ & Hn). assert (Hc : In c (l_ancilla L)) by (rewrite El; apply in_elt). assert (Oc : on_lattice (l_furthest L) c) by apply (lw_ancilla L W c Hc).
    unfold place_square, place_single. cbn [basic_square_patch sp_cells sc_cell]. rewrite (is_free_ok (l_furthest L)) by auto. cbn [bind negb andb from_sparse_patch basic_square_patch sp_cells sp_patch sc_cell sc_b].
    rewrite (set_patch_ok (l_furthest L)) by auto. cbn [bind]. unfold set_tile_id. rewrite (patch_at_ok (l_furthest L)) by auto using sized_put. rewrite (tile_put_same (l_furthest L)) by auto. cbn [bind deref].
    rewrite (set_patch_ok (l_furthest L)) by auto using sized_put. cbn [bind]. rewrite put_put. eexists. split; [reflexivity|]. split; [reflexivity|]. split; [reflexivity|]. right. split; [reflexivity|].
    cbn [a_world w_slice with_slice done_]. match goal with |- loose _ (put _ c (Some ?t)) => set (p := t) end. set (s' := put (w_slice w) c (Some p)).
    assert (T1 : tile_at s' c = Some p) by (unfold s'; now apply (tile_put_same (l_furthest L))). assert (T2 : forall x, x <> c -> tile_at s' x = tile_at (w_slice w) x) by (intros x Hx; unfold s'; apply (tile_put_other (l_furthest L)); auto).
    destruct Lo as (T & R & Q & K & A).
    assert (Ca : forall x a, carries s' x a -> x = c /\ a = q \/ x <> c /\ carries (w_slice w) x a).
    { intros x a (p1 & P1 & P2). destruct (cell_eqb_spec x c) as [->|D]; [left; split; [reflexivity|]; assert (p1 = p) by congruence; subst p1; cbn in P2; congruence|right]. split; [exact D|]. exists p1. rewrite <- T2 by auto. auto. }
    split; [split; [now apply sized_put|apply T]|]. split; [|split; [|split; [split|]]].
    + intros a [<-|Ha].
      * exists c, p. split; [exact T1|]. split; [reflexivity|]. split; [split; [reflexivity|]; split; [now left|]; unfold fair_sides; cbn; auto|]. split; [unfold homes; apply in_app_iff; now right|].
        intros x Hx. destruct (Ca x q Hx) as [[-> _]|[_ X]]; [reflexivity|]. exfalso. apply Nq. now apply (proj1 K x).
      * destruct (R a Ha) as (c1 & p1 & P1 & P2 & P3 & P4 & P5). assert (c1 <> c) by (intros ->; congruence). exists c1, p1. rewrite T2 by auto. split; [exact P1|]. split; [exact P2|]. split; [exact P3|]. split; [exact P4|].
        intros x Hx. destruct (Ca x a Hx) as [[-> ->]|[_ X]]; [|now apply P5]. exfalso. apply Nq. apply (proj1 K c1). exists p1. auto.
    + intros x Hx. assert (x <> c) by (intros ->; now apply (proj2 Hx)). unfold vacated. rewrite T2 by auto. now apply Q.
    + intros x a Hx. destruct (Ca x a Hx) as [[_ ->]|[_ X]]; [now left|right; now apply (proj1 K x)].
    + intros a X. injection X as <-. now left.
    + intros x Hx. destruct (cell_eqb_spec x c) as [->|D]; [right; exists q; split; [reflexivity|exists p; auto]|]. left. unfold vacated. rewrite T2 by auto. destruct (A x Hx) as [V|(a & X & _)]; [exact V|congruence].
  - exists (mkA w (Init q st None) true []). split; [reflexivity|]. split; [reflexivity|]. split; [reflexivity|]. left. split; [reflexivity|]. split; [reflexivity|]. intros (_ & _ & _ & X).
    destruct (l_ancilla L) as [|x l] eqn:El; [contradiction|]. apply (Nr eq_refl x (or_introl eq_refl)). apply X; [exact An|]. now left.
Qed.

(** ** The run *)
Lemma step_fine : forall live live' o wt cl r w t, (forall w wt, loose live (w_slice w) -> fine live live' w (mkI o wt cl)) -> (0 < wt)%N -> asked o = true -> loose live (w_slice w) ->
  exists n w' t', turns (stream_step e never) n (mkSS w [] (mkI o wt cl :: r) t) = Go (mkSS w' [] r t') /\ loose live' (w_slice w')
  /\ asked_for t' = asked_for t ++ [o] /\ length (emitted (t_events t')) <= 1 + length (emitted (t_events t)).
Proof.
  intros live live' o wt cl r w t Fi Hw As Lo. destruct (Fi w wt Lo) as (a & T & O & F & [(Er & Ew & Nr)|(Er & Lo')]); cbn [op] in O.
  - destruct (loose_advance live _ Lo) as (s1 & Ad & Re). destruct (Fi (with_slice (a_world a) s1) (wt - 1)%N (proj1 Re)) as (a1 & T1 & O1 & F1 & [(_ & _ & X)|(Er1 & Lo1)]); [contradiction|]. cbn [op] in O1.
    exists 2. eexists _, _. split.
    { cbn [turns]. unfold stream_step at 1. cbn [take_next ss_future ss_rest ss_world ss_tally]. rewrite T. cbn [lift pbind]. rewrite F, Er. cbn [negb]. unfold visit, never at 1. cbn [pbind wait].
      rewrite (proj2 (N.eqb_neq wt 0)) by lia. unfold advance. rewrite Ew, Ad. cbn [lift pbind]. rewrite O. cbn [clients].
      unfold stream_step. cbn [take_next ss_future ss_rest ss_world ss_tally]. rewrite T1. cbn [lift pbind]. rewrite F1, Er1. cbn [negb pbind]. reflexivity. }
    split; [exact Lo1|]. rewrite asked_saw, slices_saw, asked_shown, slices_shown. unfold tried. cbn [InstrModel.op wait clients]. rewrite O1, As. split; [reflexivity|exact (le_n _)].
  - exists 1. eexists _, _. split.
    { cbn [turns]. unfold stream_step. cbn [take_next ss_future ss_rest ss_world ss_tally]. rewrite T. cbn [lift pbind]. rewrite F, Er. cbn [negb pbind]. reflexivity. }
    split; [exact Lo'|]. rewrite asked_saw, slices_saw. unfold tried. cbn [InstrModel.op wait clients]. rewrite O, As. split; [reflexivity|exact (le_S _ _ (le_n _))].
Qed.
Lemma rotate_go : forall live w q wt cl a rg k l r t fu re, fu = [] /\ re = mkI (Rotate q) wt cl :: r \/ fu = [mkI (Rotate q) wt cl] /\ re = r -> loose live (w_slice w) -> In q (live_of live) -> try_apply e w (mkI (Rotate q) wt cl) = Ok a -> a_op a = Rotate q -> a_error a = false -> a_follow a = [instr_of (Busy rg k l)] ->
  exists w' t', turns (stream_step e never) 4 (mkSS w fu re t) = Go (mkSS w' [] r t') /\ loose live (w_slice w')
  /\ asked_for t' = asked_for t ++ [Rotate q] /\ length (emitted (t_events t')) <= 3 + length (emitted (t_events t)).
Proof.
  intros live w q wt cl a rg k l r t fu re Sh Lo Hq T O Er F. pose proof (proj1 (proj1 Lo)) as Hs.
  destruct (C37_rotation e w q wt cl a W Hs T Er) as (c & p & d & i1 & i2 & i3 & St & Fn & Rc & Rn & Fr & F' & S1 & S2 & S3 & _). cbn zeta in *. set (n := InstrSpec.step c d) in *.
  assert (Ei : i1 = instr_of (Busy rg k l)) by congruence. subst i1.
  destruct (C33_timers e w _ a Hs T) as [Hsa Ta]. assert (Tm : timed L (w_slice (a_world a))) by (split; [exact Hsa|rewrite Ta; apply (proj1 Lo)]).
  destruct (lives_get _ _ (proj1 Lo) (proj1 (proj2 Lo) q Hq)) as (c0 & p0 & _ & _ & Hp0 & _ & Or & Hc & On). assert (c = c0) by (apply On; exists p; exact St). subst c0.
  assert (p0 = p) by (destruct St; congruence). subst p0.
  pose proof (turning_start live q c n p _ _ Lo Hq St Fn Rc Rn Fr Tm) as A0.
  destruct (turning_advance _ _ _ _ _ A0) as (s1 & E1 & A1). set (w1 := with_slice (a_world a) s1).
  destruct (S1 w1 (proj1 (proj1 A1))) as (a1 & B1 & B2 & B3 & B4). destruct (busy_op e _ _ _ _ _ _ _ B1) as [O1 I2]. destruct (I2 i2) as (r2 & k2 & l2 & ->); [rewrite B3; now left|].
  destruct (turning_advance _ _ _ _ _ A1) as (s2 & E2 & A2). set (w2 := with_slice w1 s2).
  destruct (S2 w2 (proj1 (proj1 A2))) as (a2 & C1 & C2 & C3 & C4). destruct (busy_op e _ _ _ _ _ _ _ C1) as [O2 I3]. destruct (I3 i3) as (r3 & k3 & l3 & ->); [rewrite C3; now left|].
  destruct (turning_advance _ _ _ _ _ A2) as (s3 & E3 & A3). set (w3 := with_slice w2 s3).
  destruct (S3 w3 (proj1 (proj1 A3))) as (a3 & p' & D1 & D2 & D3 & D4 & D5 & D6 & _ & D8 & D9 & D10 & D11 & D12 & D13 & D14). destruct (busy_op e _ _ _ _ _ _ _ D1) as [O3 _].
  destruct (C33_timers e w3 _ a3 (proj1 (proj1 A3)) D1) as [Hs3 Ta3].
  assert (G1 : exists t1, stream_step e never (mkSS w fu re t) = Go (mkSS w1 [instr_of (Busy rg k l)] r t1) /\ asked_for t1 = asked_for t ++ [Rotate q] /\ length (emitted (t_events t1)) = S (length (emitted (t_events t)))).
  { destruct Sh as [[-> ->]|[-> ->]]; (eexists; split; [unfold stream_step; cbn [take_next ss_future ss_rest ss_world ss_tally]; rewrite T; cbn [lift pbind]; rewrite F, Er; unfold visit, never at 1; cbn [pbind]; unfold advance;
      rewrite E1; cbn [lift pbind app]; reflexivity|]); cbn [more_slices t_events]; rewrite asked_slices, asked_shown, asked_saw, slices_shown, slices_saw; unfold tried; cbn [op]; rewrite O; split; reflexivity. }
  destruct G1 as (t1 & G1 & As1 & K1).
  destruct (busy_turn e w1 rg k l [] r t1 a1 _ B1 B2 B3 B4 s2 E2) as (t2 & G2 & As2 & K2).
  destruct (busy_turn e w2 r2 k2 l2 [] r t2 a2 _ C1 C2 C3 C4 s3 E3) as (t3 & G3 & As3 & K3).
  exists (a_world a3). eexists. split.
  { cbn [turns]. rewrite G1. cbn [pbind]. rewrite G2. cbn [pbind app]. fold w2. rewrite G3. cbn [pbind app]. fold w3.
    unfold stream_step. cbn [take_next ss_future ss_rest ss_world ss_tally]. rewrite D1. cbn [lift pbind]. rewrite D3, D2. cbn [negb pbind]. reflexivity. }
  split.
  { apply (turning_end live q c n p' s3); auto; [split; [exact Hs3|rewrite Ta3; apply (proj1 A3)]| |
      intros Hx; destruct (proj2 (proj2 (proj2 (proj2 Lo))) c Hx) as [V|(a0 & Aa & p0 & P0 & I0)]; [exfalso; apply (busy_not_vacated _ c p Hp0); [apply Or|exact V]|destruct St as [_ Si]; congruence]|
      apply (proj1 (proj1 (proj2 (proj2 (proj2 Lo)))) c); exists p; exact St].
    destruct Or as (W1 & W2 & F1 & F2 & F3). split; [congruence|]. split; [rewrite D10; destruct W2 as [->| ->]; now left|].
    unfold fair_sides. rewrite D11, D12, D13, D14. split; [exact F2|]. split; [now symmetry|]. destruct F3 as [[X Y]|[X Y]]; [right|left]; split; congruence. }
  rewrite asked_saw, slices_saw. unfold tried. cbn [op]. rewrite O3. cbn [asked instr_of op]. rewrite app_nil_r. cbn [more_slices t_events more_instrs]. rewrite As3, As2, As1, K3, K2, K1. split; [reflexivity|]. lia.
Qed.
Lemma rotate_more : forall live q wt cl r w t, (0 < wt)%N -> In q (live_of live) -> loose live (w_slice w) ->
  exists n w' t', turns (stream_step e never) n (mkSS w [] (mkI (Rotate q) wt cl :: r) t) = Go (mkSS w' [] r t') /\ loose live (w_slice w')
  /\ asked_for t' = asked_for t ++ [Rotate q] /\ length (emitted (t_events t')) <= 4 + length (emitted (t_events t)).
Proof.
  intros live q wt cl r w t Hw Hq Lo. destruct (rotate_attempt live w q wt cl Lo Hq) as (a & T & O & [(Er & F & Ew & Nr)|(Er & rg & k & l & F)]).
  - destruct (loose_advance live _ Lo) as (s1 & Ad & Re). set (w1 := with_slice w s1).
    assert (G : exists w2 t1, stream_step e never (mkSS w [] (mkI (Rotate q) wt cl :: r) t) = Go (mkSS w2 [mkI (Rotate q) (wt - 1) cl] r t1) /\ w_slice w2 = s1
      /\ asked_for t1 = asked_for t /\ length (emitted (t_events t1)) = S (length (emitted (t_events t)))).
    { eexists _, _. split.
      - unfold stream_step. cbn [take_next ss_future ss_rest ss_world ss_tally]. rewrite T. cbn [lift pbind]. rewrite F, Er. cbn [negb]. unfold visit, never at 1. cbn [pbind wait].
        rewrite (proj2 (N.eqb_neq wt 0)) by lia. unfold advance. rewrite Ew, Ad. cbn [lift pbind]. rewrite O. cbn [clients]. reflexivity.
      - split; [reflexivity|]. cbn [more_slices t_events]. rewrite ?asked_slices, asked_shown, slices_shown. split; reflexivity. }
    destruct G as (w2 & t1 & G & E2 & A1 & K1). assert (Lo2 : loose live (w_slice w2)) by (rewrite E2; apply Re).
    destruct (rotate_attempt live w2 q (wt - 1)%N cl Lo2 Hq) as (a1 & T1 & O1 & [(_ & _ & _ & X)|(Er1 & rg & k & l & F1)]); [exfalso; apply X; rewrite E2; exact Re|].
    destruct (rotate_go live w2 q _ cl a1 rg k l r t1 _ _ (or_intror (conj eq_refl eq_refl)) Lo2 Hq T1 O1 Er1 F1) as (w' & t' & G' & Lo' & A' & K'). exists 5, w', t'.
    split; [change 5 with (1 + 4); rewrite (turns_more _ (stream_step e never) 1 4 _ (mkSS w2 [mkI (Rotate q) (wt - 1) cl] r t1)); [exact G'|cbn [turns]; now rewrite G]|].
    split; [exact Lo'|]. rewrite A', A1. split; [reflexivity|]. lia.
  - destruct (rotate_go live w q wt cl a rg k l r t _ _ (or_introl (conj eq_refl eq_refl)) Lo Hq T O Er F) as (w' & t' & G' & Lo' & A' & K'). exists 4, w', t'. split; [exact G'|]. split; [exact Lo'|]. split; [exact A'|]. lia.
Qed.
Lemma all_joined : forall prog live w t, joinable (l_ancilla L <> []) live prog -> loose live (w_slice w) ->
  exists n t', turns (stream_step e never) n (mkSS w [] prog t) = Halt t' Finished
  /\ asked_for t' = asked_for t ++ map op prog /\ length (emitted (t_events t')) <= length (emitted (t_events t)) + reaches prog + 1.
Proof.
  induction prog as [|i r IH]; intros live w t U Lo.
  - exists 1. eexists. split; [reflexivity|]. rewrite asked_shown, slices_shown, app_nil_r. split; [reflexivity|cbn; lia].
  - assert (K : exists n live' w' t', turns (stream_step e never) n (mkSS w [] (i :: r) t) = Go (mkSS w' [] r t') /\ joinable (l_ancilla L <> []) live' r /\ loose live' (w_slice w')
      /\ asked_for t' = asked_for t ++ [op i] /\ length (emitted (t_events t')) <= reach i + length (emitted (t_events t))).
    { destruct U as [Hw U]. destruct i as [o wt cl]. cbn [op wait] in *. destruct o; try contradiction.
      - destruct U as [Hq U]. destruct (step_fine live (without target live) (Measure target observable is_negative) wt cl r w t) as (n & w' & t' & G); auto.
        { intros. now apply measure_fine. } exists n, (without target live), w', t'. tauto.
      - destruct observable as [|[a pa] [|[b pb] [|]]]; try contradiction. destruct U as (Ha & Hb & Hab & Xa & Xb & U).
        match goal with |- context [mkSS w [] (mkI ?o wt cl :: r) t] => destruct (step_fine live live o wt cl r w t) as (n & w' & t' & G); auto end.
        { intros. now apply joint_fine. } exists n, live, w', t'. tauto.
      - destruct place; [contradiction|]. destruct U as (Sp & An & Nq & U). match goal with |- context [mkSS w [] (mkI ?o wt cl :: r) t] => destruct (step_fine live (mkCr (target :: live_of live) (target :: used_of live) (Some target)) o wt cl r w t) as (n & w' & t' & G); auto end.
        { intros. now apply init_fine. } eexists n, _, w', t'. destruct G as (G1 & G2 & G3). split; [exact G1|]. split; [exact U|]. split; [exact G2|exact G3].
      - destruct U as (Hq & Hg & U). destruct (step_fine live live (SingleOp target op is_dagger) wt cl r w t) as (n & w' & t' & G); auto.
        { intros. now apply gate_fine. } exists n, live, w', t'. tauto.
      - destruct U as [Hq U]. destruct (rotate_more live target wt cl r w t Hw Hq Lo) as (n & w' & t' & G). exists n, live, w', t'. tauto. }
    destruct K as (n & live' & w' & t' & T & U' & Lo' & O & K). destruct (IH live' w' t' U' Lo') as (m & t2 & T2 & O2 & K2).
    exists (n + m), t2. rewrite (turns_more _ _ _ _ _ _ T). split; [exact T2|]. rewrite O2, O, <- app_assoc. split; [reflexivity|]. unfold reaches in *. cbn [map list_sum fold_right]. unfold list_sum in *. cbn [fold_right]. lia.
Qed.
End Joint.

(** On a layout whose qubit tiles all have, beside them and above or below them, open tiles that no factory delivers to and that one walks between over such tiles: a program of Pauli and Hadamard gates, rotations,
    measurements and joint measurements of the X or Z operators of two qubits, none of which is used after its measurement, is compiled by the stream pipeline to its end, in whatever order the search takes tiles up.
    All instructions are applied, in order; a rotation takes at most four slices and the others at most one. *)
Theorem C70_joint : forall e ids pick stop prog w, layout_wf (e_layout e) -> linked (e_layout e) -> valid_pick pick -> e_route e = plain_router (e_layout e) false pick stop -> e_edpc e = false -> e_local e = false ->
  length ids <= length (core_cells (e_layout e)) -> NoDup ids -> new_slice (e_layout e) ids = Ok (w_slice w) -> joinable (l_ancilla (e_layout e) <> []) (mkCr ids ids None) prog ->
  exists t, halts Stream e never never prog w t Finished /\ filter asked (ops_applied t) = map op prog /\ length (emitted (t_events t)) <= S (reaches prog).
Proof.
  intros e ids pick stop prog w W Li Pk Rt Ne Nl Hl Nd E U. destruct (new_slice_ok _ _ W Hl) as (s' & E' & I). assert (s' = w_slice w) by congruence. subst s'.
  assert (Lo : loose e (mkCr ids ids None) (w_slice w)).
  { split; [split; [apply (in_sized _ _ _ I)|now rewrite (in_timers _ _ _ I)]|]. split; [|split; [|split; [split|]]].
    - cbn [live_of]. intros q Hq. apply In_nth_error in Hq as [k Hq]. destruct (in_core _ _ _ I k q Hq) as (c & C1 & C2). exists c, (square (Some q) None). split; [exact C2|]. split; [reflexivity|]. split.
      { split; [reflexivity|]. split; [now left|]. unfold fair_sides. cbn. auto. }
      split; [unfold homes; apply in_app_iff; left; eapply nth_error_In; eauto|]. exact (ah_only _ _ _ _ _ (start_home e ids (w_slice w) k q c W Hl Nd E Hq C1)).
    - intros x [[(_ & H1 & H2 & H3 & H4 & H5) _] _]. left. apply (in_open _ _ _ I). unfold taken. rewrite !in_app_iff. intros [H|[H|[H|[H|H]]]]; try contradiction.
      + unfold core_cells in H. apply in_flat_map in H as (y & Y1 & Y2). now apply (H1 y).
      + unfold region_cells in H. apply in_map_iff in H as (sc & Es & H). apply in_concat in H as (R & R1 & R2). apply (H2 R R1). apply in_map_iff. eauto.
    - intros x q Hx. destruct (initial_ids _ _ _ _ _ W I Hx) as (k & Hk & _). eapply nth_error_In; eauto.
    - discriminate.
    - intros x Hx. left. left. apply (in_open _ _ _ I). now apply (lw_ancilla _ W). }
  destruct (all_joined e W Li pick stop Pk Rt Ne Nl prog (mkCr ids ids None) w tally0 U Lo) as (n & t & T & O & K). exists t. split; [exists n; exact T|]. split; [exact O|]. cbn in K. lia.
Qed.
Print Assumptions C70_joint.

From Verif Require Import LayoutProofs EdpcModel EdpcSpec EdpcShape EdpcProps LiveEdpcProps.
(** On the EDPC layouts with lanes the tiles between the qubits are such tiles, with and without factories around them. *)
Lemma core_quiet : forall n lanes condensed explicit predistilled o L c, (0 <= n)%Z -> (0 <= lanes)%Z -> ((Z.sqrt_up n + 1) * (lanes + 1) < 2 ^ 31)%Z ->
  make_edpc_layout (mkEdpc n lanes condensed explicit predistilled) o = Ok L -> in_core n lanes condensed explicit c -> ~ qubit_tile L c -> quiet_tile L c.
Proof.
  intros n lanes condensed explicit predistilled o L c Hn Hl Hs E Ic Nq. set (p := mkEdpc n lanes condensed explicit predistilled) in *.
  destruct (C26_layout n lanes condensed explicit predistilled o Hn Hl Hs) as (L' & E' & _ & _ & _ & _ & Op & _). fold p in E'. assert (L' = L) by congruence. subst L'.
  split; [now apply Op|]. clear Op. destruct (layout_shape p o Hn Hl Hs) as (L' & l & E1 & _ & _ & _ & _ & _ & _ & _ & _ & _ & _ & _ & Rg). assert (L' = L) by congruence. subst L'.
  destruct (side_is p Hn Hl Hs) as [Si St]. cbn [p ep_n ep_lanes ep_condensed ep_explicit] in Si, St. fold p in Si, St.
  unfold make_edpc_layout in E. destruct (edpc_grid p) as [g| | |]; try discriminate. cbn [bind] in E. intros qu Hqu Hh.
  destruct (layout_of_grid_spec g o) as [(L1 & E2 & Ok1 & _)|[E2 _]]; [|congruence]. assert (L1 = L) by congruence. subst L1.
  destruct Ok1 as (_ & _ & _ & _ & _ & _ & _ & (times & [H2 _ _] & _) & _). cbn [fst snd] in H2.
  assert (F : exists R, In R (l_regions L) /\ region_ok g R qu) by (clear -H2 Hqu; induction H2 as [|x y a b H _ IH]; [destruct Hqu|destruct Hqu as [<-|Hq]; [exists x; split; [now left|exact H]|destruct (IH Hq) as (R & R1 & R2); exists R; split; [now right|exact R2]]]).
  destruct F as (R & HR & RO). apply (ro_queue _ _ _ RO) in Hh as (c1 & H1 & A1 & _). apply in_map_iff in H1 as (sc & Es & H1). apply (Rg R sc HR H1). rewrite Es.
  unfold in_core in Ic. unfold adj in A1. rewrite St, Si. lia.
Qed.
Lemma edpc_linked : forall n lanes condensed explicit predistilled o L, (0 <= n)%Z -> (1 <= lanes)%Z -> ((Z.sqrt_up n + 1) * (lanes + 1) < 2 ^ 31)%Z ->
  make_edpc_layout (mkEdpc n lanes condensed explicit predistilled) o = Ok L -> layout_wf L /\ Z.of_nat (length (core_cells L)) = n /\ linked L.
Proof.
  intros n lanes condensed explicit predistilled o L Hn Hl Hs E. destruct (edpc_airy n lanes condensed explicit predistilled o L Hn Hl Hs E) as (W & Cl & _). split; [exact W|]. split; [exact Cl|].
  destruct (layout_shape (mkEdpc n lanes condensed explicit predistilled) o Hn ltac:(cbn; lia) Hs) as (L' & l & E1 & _ & _ & _ & _ & _ & _ & _ & _ & _ & _ & An & _). assert (L' = L) by congruence. subst L'.
  destruct (core_reach (way_tile L) n lanes condensed explicit predistilled o L Hn Hl Hs E) as (hub & _ & Re).
  { intros c Ic Nq. split; [apply (core_quiet n lanes condensed explicit predistilled o); auto; lia|]. rewrite An. intros []. }
  split; [rewrite An; intros x q []|]. exists hub. intros c Hc. unfold homes in Hc. rewrite An, app_nil_r in Hc. destruct (lw_core L W) as [cells Hcs]. apply Re.
  unfold qubit_tile. rewrite Hcs. apply in_map_iff. exists c. split; [reflexivity|]. unfold core_cells in Hc. now rewrite Hcs, core_cells_basic in Hc.
Qed.
Theorem C70_edpc : forall e n lanes condensed explicit predistilled o ids pick stop prog w, (1 <= lanes)%Z -> ((Z.sqrt_up n + 1) * (lanes + 1) < 2 ^ 31)%Z ->
  make_edpc_layout (mkEdpc n lanes condensed explicit predistilled) o = Ok (e_layout e) -> valid_pick pick -> e_route e = plain_router (e_layout e) false pick stop -> e_edpc e = false -> e_local e = false ->
  Z.of_nat (length ids) = n -> NoDup ids -> new_slice (e_layout e) ids = Ok (w_slice w) -> joinable (l_ancilla (e_layout e) <> []) (mkCr ids ids None) prog ->
  exists t, halts Stream e never never prog w t Finished /\ filter asked (ops_applied t) = map op prog /\ length (emitted (t_events t)) <= S (reaches prog).
Proof.
  intros e n lanes condensed explicit predistilled o ids pick stop prog w Hl Hs E Pk Rt Ne Nl Li Nd Es U. destruct (edpc_linked n lanes condensed explicit predistilled o (e_layout e) ltac:(lia) Hl Hs E) as (W & Cl & Lk).
  apply (C70_joint e ids pick stop); auto. lia.
Qed.
Print Assumptions C70_edpc.

(** Four qubits on the condensed EDPC layout: joint measurements of the same operators and of different ones, across the layout, one after another on the same qubit, and after a rotation *)
Definition joint_prog : list instr := map instr_of [MultiMeasure [(5%N, PZ); (6%N, PZ)] false None; MultiMeasure [(8%N, PX); (5%N, PZ)] true None; SingleOp 8 SqH false; Rotate 5; MultiMeasure [(5%N, PX); (7%N, PZ)] false None;
  MultiMeasure [(6%N, PX); (8%N, PX)] false None; Measure 8 PZ false; Rotate 7; Measure 5 PX false; MultiMeasure [(7%N, PX); (6%N, PZ)] false None; Measure 6 PX false; Measure 7 PX false].
Example C70_ex : forall explicit, exists L s, make_edpc_layout (mkEdpc 4 1 true explicit false) (mkDO true 1) = Ok L /\ layout_wf L /\ linked L /\ new_slice L [5; 6; 7; 8]%N = Ok s /\ joinable (l_ancilla L <> []) (mkCr [5; 6; 7; 8]%N [5; 6; 7; 8]%N None) joint_prog
  /\ let e := mkEnv false true false false L (plain_router L false pick_min false) in e_edpc e = false /\ e_local e = false
  /\ exists t, halts Stream e never never joint_prog (mkW s 0 []) t Finished /\ length (emitted (t_events t)) = 10 /\ reaches joint_prog = 18.
Proof.
  intros explicit. destruct (make_edpc_layout (mkEdpc 4 1 true explicit false) (mkDO true 1)) as [L| | |] eqn:E; try (destruct explicit; vm_compute in E; discriminate E).
  destruct (edpc_linked 4 1 true explicit false (mkDO true 1) L ltac:(lia) ltac:(lia) ltac:(reflexivity) E) as (W & _ & A).
  destruct explicit; vm_compute in E; injection E as E; exists L; subst L; eexists; (split; [reflexivity|]); (split; [exact W|]); (split; [exact A|]); (split; [vm_compute; reflexivity|]); (split;
  [cbn; unfold x_or_z; repeat split; auto 10; try discriminate; vm_compute; reflexivity|]);
  (split; [reflexivity|]); (split; [reflexivity|]); (eexists; split; [exists 80; vm_compute; reflexivity|]); split; vm_compute; reflexivity.
Qed.

(** With the caching router this is false: a route from the cache is laid over the tiles it had when it was found, and where another measurement of the slice has taken one of them the run ends with an error.
    Four qubits in a square: the first measurement crosses the middle tile, the third, a slice later, crosses it the other way, and the fourth repeats the first.  With the plain router the run ends. *)
Definition repeated_prog : list instr := map instr_of [MultiMeasure [(5%N, PX); (8%N, PX)] false None; SingleOp 5 SqX false; MultiMeasure [(6%N, PZ); (7%N, PZ)] false None; MultiMeasure [(5%N, PX); (8%N, PX)] false None].
Theorem C70_cached_refuted : exists L s, make_edpc_layout (mkEdpc 4 1 false false false) (mkDO true 1) = Ok L /\ layout_wf L /\ linked L /\ new_slice L [5; 6; 7; 8]%N = Ok s /\ joinable (l_ancilla L <> []) (mkCr [5; 6; 7; 8]%N [5; 6; 7; 8]%N None) repeated_prog
  /\ (exists t, halts Stream (mkEnv false true false false L (caching_router L pick_min false)) never never repeated_prog (mkW s 0 []) t (Failed RuntimeError) /\ ops_applied t = firstn 3 (map op repeated_prog))
  /\ exists t, halts Stream (mkEnv false true false false L (plain_router L false pick_min false)) never never repeated_prog (mkW s 0 []) t Finished /\ filter asked (ops_applied t) = map op repeated_prog.
Proof.
  destruct (make_edpc_layout (mkEdpc 4 1 false false false) (mkDO true 1)) as [L| | |] eqn:E; try (vm_compute in E; discriminate E).
  destruct (edpc_linked 4 1 false false false (mkDO true 1) L ltac:(lia) ltac:(lia) ltac:(reflexivity) E) as (W & _ & A).
  vm_compute in E. injection E as E. exists L. subst L. eexists. split; [reflexivity|]. split; [exact W|]. split; [exact A|]. split; [vm_compute; reflexivity|].
  split; [cbn; unfold x_or_z; repeat split; auto 10; try discriminate; vm_compute; reflexivity|].
  split; (eexists; split; [exists 20; vm_compute; reflexivity|vm_compute; reflexivity]).
Qed.
Print Assumptions C70_cached_refuted.
