(** Whole runs: the tiles that operations under way rely on are left alone by all others, and every tile listed as
    holding a magic state holds one. *)
From Verif Require Import Base TextModel PatchesModel LayoutModel LayoutSpec LayoutProofs InstrModel InstrSpec InstrProofs.
From Verif Require Import SliceModel SliceSpec SliceProofs SliceProps RouterModel RouterSpec RouterProofs RouterProps.
From Verif Require Import ApplyModel ApplySpec ApplyProofs ApplyEffect ApplyBell ApplyIds BellSpec BellProofs BellRun BellCnot BellIds BellProps ApplyProps StepProps.
From Verif Require Import RunModel RunSpec RunProofs RunProps StreamProps SchedSpec SchedProofs DagLoop DagLoopProps WaveModel WaveSpec WaveProofs WaveProps RunInv IdsProps Claims.
Open Scope nat_scope.

(** ** Operations under way *)

(** The ids of the patches an operation works on. *)
Definition acts_on (o : operation) : list N :=
  match o with
  | Measure t _ _ | SingleOp t _ _ | Rotate t | YRequest t _ _ => [t]
  | MultiMeasure obs _ _ => map fst obs
  | BellCNOT c t _ _ _ _ _ _ => [c; t]
  | _ => []
  end.
(** The tiles an operation relies on finding what it left there. *)
Definition needs_of (o : operation) : list cell :=
  match o with
  | Busy reg _ _ => map sc_cell (rg_cells reg)
  | BellInit _ _ _ _ _ (Some _) | BellCNOT _ _ _ _ _ (Some _) _ _ => needs (ApplySpec.pending false o)
  | _ => []
  end.

(** A patch that can have an id. *)
Definition typed (p : patch) : Prop := p_type p = TQubit \/ p_type p = TPreparedState.
Definition well_typed (L : layout) (s : slice) : Prop := forall c p, tile_at s c = Some p -> p_id (dp p) <> None \/ In c (l_ystates L) ->
  typed (dp p) \/ (p_act (dp p) = AMultiPatch \/ p_act (dp p) = ARotation) /\ p_id (dp p) = None.

Definition spinning (L : layout) (s : slice) (c : cell) : Prop :=
  exists p, tile_at s c = Some p /\ p_type (dp p) = TRouting /\ p_act (dp p) = ARotation /\ p_id (dp p) = None /\ ~ In c (l_reserved L).

(** What is left of an instruction with the given ids fits the slice. *)
Definition fits (e : env) (ids : list N) (s : slice) (o : operation) : Prop :=
  incl (acts_on o) ids /\
  match o with
  | Rotate _ => l_reserved (e_layout e) = []
  | YRequest _ _ _ => e_local e = false \/ e_twists e = true \/ l_ystates (e_layout e) = []
  | Busy reg _ after =>
      (exists p sc, after = [mkSP p (Single sc)] /\ In (sc_cell sc) (map sc_cell (rg_cells reg)) /\ typed p /\ forall id, p_id p = Some id -> In id ids)
      /\ forall c, In c (map sc_cell (rg_cells reg)) -> spinning (e_layout e) s c
  | BellInit s1 s2 _ _ _ k | BellCNOT _ _ s1 s2 _ k _ _ =>
      incl [s1; s2] ids /\ (needs_of o <> [] -> e_local e = true) /\ match o with BellInit _ _ _ _ _ None | BellCNOT _ _ _ _ _ None _ _ => True | _ =>
        clean (ApplySpec.pending false o) /\ incl (flat_map local_ids (ApplySpec.pending false o)) ids /\ forall c, In c (needs_of o) -> held (e_layout e) ids s c end
  | _ => True
  end.

(** The search for routes returns routes that do not meet themselves or the patches they join. *)
Definition simple_routes (e : env) : Prop := forall cache s a pa b pb reg cache', sized (l_furthest (e_layout e)) s ->
  e_route e cache s a pa b pb = Ok (Some reg, cache') -> NoDup (map sc_cell (rg_cells reg))
  /\ forall c id, carries s c id -> id = a \/ id = b -> ~ In c (map sc_cell (rg_cells reg)).

(** ** Kinds of patches *)

Definition fit_tile (L : layout) (c : cell) (p : dpatch) : Prop := p_id (dp p) <> None \/ In c (l_ystates L) ->
  typed (dp p) \/ (p_act (dp p) = AMultiPatch \/ p_act (dp p) = ARotation) /\ p_id (dp p) = None.
Lemma over_typed : forall L s s' u, well_typed L s -> (forall c, tile_at s' c = over u s c) -> (forall c p, In (c, Some p) u -> fit_tile L c p) -> well_typed L s'.
Proof.
  intros L s s' u Ty B U c p T. rewrite B in T. destruct (over_cases u s c) as [(t & Ht & E)|(_ & E)]; rewrite E in T.
  - subst t. exact (U c p Ht).
  - exact (Ty c p T).
Qed.
Ltac fit_new := intros _; left; left; reflexivity.
(** What is done to a patch with nothing going on *)
Lemma fit_idle : forall L s c p q, well_typed L s -> idle s c p -> p_type (dp q) = p_type (dp p) -> p_id (dp q) = p_id (dp p) \/ p_id (dp q) = None \/ In c (l_ystates L) -> fit_tile L c q.
Proof.
  intros L s c p q Ty (T & A & _) E I X. left. assert (typed (dp p)); [|unfold typed in *; now rewrite E].
  destruct (Ty c p T) as [Y|[[Y|Y] _]]; auto; try congruence. destruct I as [I|[I|I]]; auto; [rewrite <- I; exact X|]. destruct X; [congruence|auto].
Qed.
Lemma fit_sits : forall L s id c p q, well_typed L s -> sits s id c p -> p_type (dp q) = p_type (dp p) -> fit_tile L c q.
Proof.
  intros L s id c p q Ty (T & I) E _. left. assert (typed (dp p)); [|unfold typed in *; now rewrite E].
  destruct (Ty c p T) as [Y|[_ Y]]; auto; [left|]; congruence.
Qed.
Lemma fit_routing : forall L c act opid b, act = AMultiPatch \/ act = ARotation -> fit_tile L c (mkDP (mkPatch TRouting act None None opid) b).
Proof. intros L c act opid b H _. right. split; [exact H|reflexivity]. Qed.

Lemma local_typed : forall L s l u s', well_typed L s -> local_effect false s l u -> becomes s s' u -> well_typed L s'.
Proof.
  intros L s l u s' Ty E [B _]. apply (over_typed L s s' u Ty B). intros c p Hin.
  destruct E; repeat (destruct Hin as [Hin|Hin]; [injection Hin as <- <-|]); try destruct Hin; try fit_new;
    (eapply fit_idle; [exact Ty|eassumption|reflexivity|cbn; auto]).
Qed.
Lemma ran_typed : forall L s ls s', ran false s ls s' -> well_typed L s -> well_typed L s'.
Proof. intros L s ls s' R. induction R; intro Ty; auto. apply IHR. eapply local_typed; eauto. Qed.
Lemma ran_rest : forall s ls s', ran false s ls s' -> s_magic s' = s_magic s.
Proof. intros s ls s' R. induction R; auto. rewrite IHR. apply H0. Qed.
Lemma merging_typed : forall L s opid a b cells u, well_typed L s -> merging opid s a b cells u -> forall c p, In (c, Some p) u -> fit_tile L c p.
Proof.
  intros L s opid a b cells u Ty [ca pa cb pb da db_ Sa Ia Sb Ib _ _ _ _] c p Hin. apply in_app_iff in Hin as [Hin|[Hin|[Hin|[]]]].
  - apply in_rev in Hin. apply in_map_iff in Hin as (sc & Y & _). injection Y as <- <-. apply fit_routing. auto.
  - unfold join_side in Hin. cbn [over] in Hin. destruct (cell_eqb_spec ca cb) as [->|N].
    + injection Hin as <- <-. eapply fit_sits; [exact Ty|exact Sa|reflexivity].
    + rewrite (proj1 Sb) in Hin. injection Hin as <- <-. eapply fit_sits; eauto; reflexivity.
  - injection Hin as <- <-. eapply fit_sits; eauto; reflexivity.
Qed.

Section Try.
Variable e : env.
Hypothesis Ed : e_edpc e = false.
Hypothesis Sr : simple_routes e.
Local Notation L := (e_layout e).
Variables (w : world) (x : instr) (a : applied) (ids : list N).
Hypothesis Hs : sized (l_furthest L) (w_slice w).
Hypothesis H : try_apply e w x = Ok a.
Hypothesis F : fits e ids (w_slice w) (op x).
Hypothesis Ty : well_typed L (w_slice w).
Local Notation s := (w_slice w).
Local Notation s' := (w_slice (a_world a)).

Lemma bell_tried : bell_op (op x) -> bell_good (l_furthest L) e w (op x) (wait x) (clients x) a.
Proof.
  clear F. intro B. destruct x as [o wt cl]. cbn [op wait clients] in *. destruct o; try destruct B; cbn [try_apply op wait clients] in H.
  - eapply bell_init_good; eauto.
  - eapply cnot_good; eauto.
Qed.

(** An operation under way never has to start again. *)
Lemma busy_goes_on : forall reg after, op x = Busy reg 0%N after -> a_error a = false.
Proof.
  intros reg after E. pose proof H as HH. pose proof F as FF. destruct x as [o wt cl]. cbn [op] in HH, FF, E. subst o. cbn [try_apply op] in HH. destruct FF as (_ & (p & sc & -> & Hin & _) & Sp).
  unfold apply_busy in HH. change (N.eqb 0 0) with true in HH. cbv iota in HH. bstep HH. unfold clear_routing_region in H0.
  apply (clear_inv (l_furthest L)) in H0 as [S1 [B1 _]]; auto.
  assert (T1 : tile_at x0 (sc_cell sc) = None).
  { rewrite B1. destruct (over_cases (map (fun sc => (sc_cell sc, None)) (rg_cells reg)) (w_slice w) (sc_cell sc)) as [(t & T & ->)|(N & _)].
    - apply in_map_iff in T as (y & Y & _). now injection Y.
    - exfalso. apply N. rewrite map_map. exact Hin. }
  destruct (Sp _ Hin) as (q & Q & _). pose proof (tile_on (l_furthest L) _ _ _ Hs Q) as On.
  cbn [place_all sp_cells] in HH. cbn [foldM] in HH. rewrite (is_free_ok (l_furthest L)) in HH by auto. cbn [bind negb orb] in HH.
  bstep HH. cbn in H0. destruct x1 as [s2 all]. bstep H0. injection H0 as <- <-. cbv iota in HH. apply done_inv in HH. tauto.
Qed.

Lemma planned_fits : forall todo, planned e w (op x) todo -> unstarted (op x) ->
  clean todo /\ incl (flat_map local_ids todo) ids
  /\ forall c, In c (needs todo) -> exists id p, In id (acts_on (op x)) /\ sits s id c p /\ idle s c p.
Proof.
  intros todo P U. destruct x as [o wt cl]. cbn [op] in *. destruct o; try destruct U.
  - destruct counter; [destruct U|]. destruct P as (reg & cache & la & lb & R & C & ->). destruct (Sr _ _ _ _ _ _ _ _ Hs R) as [Nd _].
    assert (Hl : 2 <= length (map sc_cell (rg_cells reg))).
    { rewrite map_length. destruct (Nat.le_gt_cases 2 (length (rg_cells reg))); auto.
      unfold compile_bell in C. destruct (Nat.leb_spec (length (rg_cells reg) - 1) 0); [discriminate|lia]. }
    rewrite <- (map_length sc_cell (rg_cells reg)) in C. destruct (pair_claims _ _ _ _ _ Hl Nd C) as [Cl Ne]. split; [exact Cl|]. split.
    + intros id Hi. destruct (pair_todo _ _ _ _ _ Hl C) as (_ & I & _). destruct F as (_ & I2 & _). apply I2. destruct (I id Hi) as [->| ->]; cbn; auto.
    + rewrite Ne. intros c [].
  - destruct counters; [destruct U|]. destruct P as (reg & cache & cc & ct & la & lb & R & Hl & Rc & Rt & C & ->).
    assert (Cc : carries s cc control) by (destruct Rc as (pc & Sc & _); eapply sits_carries; eauto).
    assert (Ct : carries s ct target) by (destruct Rt as (pt & St & _); eapply sits_carries; eauto). destruct (Sr _ _ _ _ _ _ _ _ Hs R) as [Nd Av].
    set (path := ct :: map sc_cell (rg_cells reg) ++ [cc]) in *. set (mid := map sc_cell (rg_cells reg)) in *.
    assert (Lm : length mid = length (rg_cells reg)) by apply map_length.
    assert (Len : length path = length mid + 2) by (unfold path; cbn [length]; rewrite app_length; cbn; lia).
    assert (Lr : 4 <= length path) by lia.
    assert (Sm : forall i, i < length mid -> seg path 0 (S i) = nth i mid (mkCell 0 0)).
    { intros i Hi. unfold seg, path. cbn [plus nth]. now rewrite app_nth1. }
    assert (S0 : seg path 0 0 = ct) by reflexivity.
    assert (S1 : seg path 0 (length path - 1) = cc).
    { rewrite Len. replace (length mid + 2 - 1) with (S (length mid)) by lia. unfold seg, path. cbn [plus nth]. rewrite app_nth2, Nat.sub_diag by lia. reflexivity. }
    assert (Inj : forall i j, 0 < i -> i + 1 < length path -> j < length path -> seg path 0 i = seg path 0 j -> i = j).
    { intros i j Hi Hi2 Hj E. destruct i as [|i]; [lia|]. rewrite Sm in E by lia.
      assert (Im : In (nth i mid (mkCell 0 0)) mid) by (apply nth_In; lia).
      destruct j as [|j]; [rewrite S0 in E; rewrite E in Im; exfalso; exact (Av ct target Ct (or_intror eq_refl) Im)|].
      destruct (Nat.eq_dec (S j) (length path - 1)) as [X|X].
      - rewrite X, S1 in E. rewrite E in Im. exfalso. exact (Av cc control Cc (or_introl eq_refl) Im).
      - rewrite Sm in E by lia. f_equal. apply (proj1 (NoDup_nth mid (mkCell 0 0)) Nd); auto; lia. }
    destruct (cnot_claims _ _ _ _ _ Lr Inj C) as [Cl Ne]. split; [exact Cl|]. split.
    + intros id Hi. destruct (cnot_todo _ _ _ _ _ Lr C) as (_ & I & _). destruct F as (_ & I2 & _). apply I2. destruct (I id Hi) as [->| ->]; cbn; auto.
    + intros c Hc. destruct (Ne c Hc) as [->| ->]; [rewrite S0; exists target; destruct Rt as (pt & St & It); exists pt|rewrite S1; exists control; destruct Rc as (pc & Sc & Ic); exists pc]; cbn [acts_on In]; auto.
Qed.

Lemma needs_todo : forall todo, (unstarted (op x) /\ planned e w (op x) todo \/ ~ unstarted (op x) /\ todo = ApplySpec.pending false (op x)) -> bell_op (op x) ->
  clean todo /\ incl (flat_map local_ids todo) ids
  /\ forall c, In c (needs todo) -> In c (needs_of (op x)) \/ exists id p, In id (acts_on (op x)) /\ sits s id c p /\ idle s c p.
Proof.
  intros todo [[U P]|[U ->]] B.
  - destruct (planned_fits todo P U) as (C & I & N). split; [exact C|]. split; [exact I|]. intros c Hc. right. auto.
  - destruct x as [o wt cl]. cbn [op] in *. destruct F as [_ G]. destruct o; try destruct B.
    + destruct counter; [|destruct U; exact I]. destruct G as (_ & _ & C & I & _). split; [exact C|]. split; [exact I|]. intros c Hc. left. exact Hc.
    + destruct counters; [|destruct U; exact I]. destruct G as (_ & _ & C & I & _). split; [exact C|]. split; [exact I|]. intros c Hc. left. exact Hc.
Qed.

(** What can happen to a patch that is there when an instruction is attempted. *)
Lemma touched : forall c p, tile_at s c = Some p ->
  tile_at s' c = Some p \/ In c (needs_of (op x)) \/ (exists id, p_id (dp p) = Some id /\ In id (acts_on (op x)))
  \/ In c (s_magic s) /\ ~ In c (s_magic s')
  \/ (exists t n l, op x = YRequest t n l) /\ In c (l_ystates L) /\ idle s c p /\ p_id (dp p) = None /\ ~ (e_local e = true /\ e_twists e = true).
Proof.
  intros c p T. pose proof F as FF. destruct (a_error a) eqn:Er.
  { left. assert (X : s' = s); [|rewrite X; exact T]. apply (C32_unchanged_partial e w x a Hs H Er). intro M. 
    remember (op x) as o eqn:Eo in M. symmetry in Eo. destruct o as [| | | | | | | | |reg st after|? ? ? ? [?|]|]; cbn in M; try contradiction; [|congruence].
    subst st. pose proof (busy_goes_on reg after Eo). congruence. }
  assert (Eo : exists o, op x = o) by eauto. destruct Eo as [o Eo].
  destruct o as [| | | |s1 s2 l1 l2 locals counter| | |tg sop dg| | |co ta s1 s2 route counters sets phase|].
  5,11: assert (B : bell_op (op x)) by (rewrite Eo; exact I);
    destruct (bell_tried B) as (_ & _ & G); destruct (G Er) as (todo & rest & Td & Ad & _); rewrite Ed in Td, Ad;
    destruct (needs_todo todo Td B) as (_ & _ & N); destruct Ad as (done & -> & R & _);
    destruct (in_dec cell_eq_dec c (needs (done ++ rest))) as [Hc|Hc];
    [destruct (N c Hc) as [X|(id & q & I1 & (Q1 & Q2) & _)]; rewrite Eo in *; [right; left; exact X|];
     right; right; left; rewrite T in Q1; injection Q1 as <-; eauto
    |left; eapply ran_kept; eauto].
  all: assert (B : ~ bell_op (op x)) by (rewrite Eo; intros []); destruct (C33_effect e w x a Hs B H Er) as (u & m & y & E & (Ch & Hm & _)); rewrite Eo in E;
    rewrite Ch; destruct (over_cases u s c) as [(t & Ht & _)|(Nt & ->)]; [|left; exact T]; right; clear Ch; rewrite ?Eo.
  (* effects *)
  - inversion E.
  - inversion E; repeat match goal with y := w_slice _ |- _ => subst y end; subst. destruct Ht as [Ht|[]]. injection Ht as <- <-. right. left. match goal with X : sits _ _ _ _ |- _ => destruct X as [T1 I1] end. rewrite T in T1. injection T1 as <-. exists target. cbn. auto.
  - assert (Mg : forall opid A B cells u0, merging opid s A B cells u0 -> In (c, t) u0 -> exists id, p_id (dp p) = Some id /\ (id = A \/ id = B)).
    { intros opid A B0 cells u0 [ca pa cb pb da db0 [Sa1 Sa2] _ [Sb1 Sb2] _ _ _ _ Fr] Hin. apply in_app_iff in Hin as [Hin|[Hin|[Hin|[]]]].
      - apply in_rev in Hin. rewrite rev_involutive in Hin || idtac. apply in_map_iff in Hin as (sc & Y & Z). injection Y as Y _. apply Fr in Z. congruence.
      - injection Hin as <- _. rewrite T in Sb1. injection Sb1 as <-. eauto.
      - injection Hin as <- _. rewrite T in Sa1. injection Sa1 as <-. eauto. }
    right. left. inversion E; repeat match goal with y := w_slice _ |- _ => subst y end; subst.
    + match goal with X : merging _ _ _ _ _ _ |- _ => destruct (Mg _ _ _ _ _ X Ht) as (id & I1 & I2) end. exists id. split; [exact I1|]. cbn. destruct I2; subst; auto.
    + match goal with X : sits _ a0 _ _, Y : sits _ b _ _ |- _ => destruct X as [Ta Ia], Y as [Tb Ib] end.
      match goal with X : local_effect _ _ (LTwoPatchMeasure _ _) _ |- _ => inversion X; subst end.
      destruct Ht as [Ht|[Ht|[]]]; injection Ht as <- _; [rewrite T in Ta; injection Ta as <-; exists a0|rewrite T in Tb; injection Tb as <-; exists b]; cbn; auto.
  - exfalso. inversion E; repeat match goal with y := w_slice _ |- _ => subst y end; subst; (destruct Ht as [Ht|[]]; injection Ht as <- _; congruence).
  - inversion E; repeat match goal with y := w_slice _ |- _ => subst y end; subst. destruct Ht as [Ht|[]]. injection Ht as <- <-. right. right. left. split.
    + match goal with X : nearest _ _ _ |- _ => apply X end.
    + match goal with X : cset_erase _ _ = s_magic _ |- _ => rewrite <- X end. rewrite cset_erase_In. tauto.
  - inversion E; repeat match goal with y := w_slice _ |- _ => subst y end; subst.
    + destruct Ht as [Ht|[]]. injection Ht as <- _. right. left. match goal with X : sits _ _ _ _ |- _ => destruct X as [T1 I1] end. rewrite T in T1. injection T1 as <-. exists target. cbn. auto.
    + destruct Ht as [Ht|[]]. injection Ht as <- _. right. right. right. split; [eauto|].
      match goal with X : nearest _ _ _ |- _ => destruct X as [(Y1 & q & Y2 & Y3) _] end. split; [exact Y1|].
      pose proof (proj1 Y2) as T1. rewrite T in T1. injection T1 as <-. auto.
    + destruct Ht as [Ht|[]]. injection Ht as <- _. exfalso. congruence.
  - inversion E; repeat match goal with y := w_slice _ |- _ => subst y end; subst.
    + destruct Ht.
    + destruct Ht as [Ht|[]]. injection Ht as <- _. right. left. match goal with X : sits _ _ _ _ |- _ => destruct X as [T1 I1] end. rewrite T in T1. injection T1 as <-. exists tg. cbn. auto.
    + match goal with X : merging _ _ _ _ _ _ |- _ => destruct X as [ca pa cb pb da db0 [Sa1 Sa2] _ [Sb1 Sb2] _ _ _ _ Fr] end.
      right. left. exists tg. split; [|cbn; auto]. apply in_app_iff in Ht as [Hin|[Hin|[Hin|[]]]].
      * apply in_rev in Hin. apply in_map_iff in Hin as (sc & Y & Z). injection Y as Y _. apply Fr in Z. congruence.
      * injection Hin as <- _. rewrite T in Sb1. injection Sb1 as <-. exact Sb2.
      * injection Hin as <- _. rewrite T in Sa1. injection Sa1 as <-. exact Sa2.
  - inversion E; repeat match goal with y := w_slice _ |- _ => subst y end; subst. destruct Ht as [Ht|[Ht|[]]].
    + injection Ht as <- _. right. left. match goal with X : sits _ _ _ _ |- _ => destruct X as [T1 I1] end. cbn in T. rewrite T in T1. injection T1 as <-. exists target. cbn. auto.
    + injection Ht as <- _. exfalso. cbn in T. congruence.
  - inversion E; repeat match goal with y := w_slice _ |- _ => subst y end; subst; [destruct Ht|]. left. cbn [needs_of]. apply in_app_iff in Ht as [Ht|Ht].
    + apply in_rev in Ht. destruct FF as (_ & G). rewrite Eo in G. destruct G as [(q & sc & -> & Hin & _) _]. cbn in Ht. destruct Ht as [Ht|[]]. injection Ht as <- _. exact Hin.
    + apply in_map_iff in Ht as (sc & Y & Z). injection Y as <- _. now apply in_map.
  - inversion E; repeat match goal with y := w_slice _ |- _ => subst y end; subst. destruct Ht.
Qed.
Lemma refused_op : a_error a = true -> bare (a_op a) = bare (op x) /\ (bell_op (op x) \/ (exists r n l, op x = Busy r n l) -> a_op a = op x).
Proof.
  clear F. intro Er. split; [eapply tried_bare; eauto|]. intro C. pose proof H as HH. destruct x as [o wt cl]. cbn [op] in *. 
  assert (Fl : forall w' o', failed w' o' = Ok a -> a_op a = o') by (intros w' o' X; apply failed_inv in X; tauto).
  destruct o; try (exfalso; destruct C as [[]|(r & n & l & C)]; discriminate); cbn [try_apply op wait clients] in HH.
  - unfold apply_bell_init in HH.
    repeat (match type of HH with (if ?b then _ else _) = _ => destruct b end; try discriminate; try (apply Fl in HH; exact HH)).
    destruct counter as [[f k]|].
    + crawl HH. injection HH as <-. discriminate.
    + bstep HH. destruct x0 as [r cache]. destruct r; [|apply Fl in HH; exact HH]. destruct (Nat.ltb (length (rg_cells r)) 2); [apply Fl in HH; exact HH|].
      crawl HH. injection HH as <-. discriminate.
  - unfold apply_busy in HH. destruct (N.eqb steps_to_clear 0).
    + bstep HH. bstep HH. destruct x1 as [s2 all]. destruct all; [apply done_inv in HH; destruct HH as (_ & _ & X & _); congruence|]. apply Fl in HH. exact HH.
    + repeat bstep HH. injection HH as <-. discriminate.
  - unfold apply_cnot in HH. rewrite Ed in HH.
    destruct (e_local e); cbn [negb] in HH; try discriminate.
    destruct (get_patch_by_id (w_slice w) control); [|apply Fl in HH; exact HH]. destruct (get_patch_by_id (w_slice w) target); [|apply Fl in HH; exact HH].
    destruct (dp_is_active d); [apply Fl in HH; exact HH|]. destruct (dp_is_active d0); [apply Fl in HH; exact HH|].
    assert (G : forall w' cs se, cnot_locals e control target side1 side2 wt cl w' route cs se phase = Ok a -> a_error a = false).
    { intros w' cs se X. unfold cnot_locals in X. crawl X. injection X as <-. reflexivity. }
    unfold cnot_plain in HH. destruct counters; [apply G in HH; congruence|].
    bstep HH. destruct x0 as [r cache]. destruct r; [|apply Fl in HH; exact HH].
    destruct (Nat.ltb (length (rg_cells r)) 2); try discriminate.
    bstep HH. bstep HH. bstep HH. destruct x2. apply G in HH. congruence.
Qed.

Lemma refused_slice : a_error a = true -> s' = s.
Proof.
  intro Er. apply (C32_unchanged_partial e w x a Hs H Er). intro M.
  remember (op x) as o eqn:Eo in M. symmetry in Eo. destruct o as [| | | | | | | | |reg st after|? ? ? ? [?|]|]; cbn in M; try contradiction; [|congruence].
  subst st. pose proof (busy_goes_on reg after Eo). congruence.
Qed.

Lemma magic_less : forall c, In c (s_magic s') -> In c (s_magic s).
Proof.
  intros c Hc. destruct (a_error a) eqn:Er; [rewrite refused_slice in Hc; auto|].
  assert (D : bell_op (op x) \/ ~ bell_op (op x)) by (destruct (op x); cbn; auto). destruct D as [B|B].
  - destruct (bell_tried B) as (_ & _ & G). destruct (G Er) as (todo & rest & _ & (done & _ & R & _) & _). rewrite Ed in R. apply ran_rest in R. now rewrite R in Hc.
  - destruct (C33_effect e w x a Hs B H Er) as (u & m & y & E & (_ & Hm & _)). rewrite Hm in Hc. clear Hm. inversion E; subst; auto.
    apply cset_erase_In in Hc. tauto.
Qed.

Lemma typed_kept : well_typed L s'.
Proof.
  destruct (a_error a) eqn:Er; [rewrite refused_slice; auto|].
  assert (D : bell_op (op x) \/ ~ bell_op (op x)) by (destruct (op x); cbn; auto). destruct D as [B|B].
  - destruct (bell_tried B) as (_ & _ & G). destruct (G Er) as (todo & rest & _ & (done & _ & R & _) & _). rewrite Ed in R. eapply ran_typed; eauto.
  - destruct (C33_effect e w x a Hs B H Er) as (u & m & y & E & (Ch & _)). apply (over_typed L s s' u Ty Ch). clear Ch. intros c p Hin. pose proof F as FF.
    inversion E; repeat match goal with z := w_slice _ |- _ => subst z end; subst; try (destruct Hin; fail);
      try (destruct Hin as [Hin|[]]; injection Hin as <- <-; first [fit_new|eapply fit_sits; eauto; reflexivity]; fail);
      try (eapply merging_typed; eauto; fail).
    + match goal with X : local_effect _ _ _ _ |- _ => inversion X; subst end.
      destruct Hin as [Hin|[Hin|[]]]; injection Hin as <- <-; (eapply fit_idle; [exact Ty|eassumption|reflexivity|cbn; auto]).
    + destruct Hin as [Hin|[Hin|[]]]; injection Hin as <- <-; apply fit_routing; auto.
    + destruct Hin as [Hin|[]]. injection Hin as <- <-.
      match goal with X : nearest _ _ _ |- _ => destruct X as [(Y1 & q & Y2 & Y3) _] end.
      match goal with X : tile_at s _ = Some p0 |- _ => rewrite (proj1 Y2) in X; injection X as -> end.
      eapply fit_idle; [exact Ty|exact Y2|reflexivity|auto].
    + apply in_app_iff in Hin as [Hin|Hin].
      * match goal with X : Busy _ _ _ = op x |- _ => rewrite <- X in FF end. destruct FF as (_ & (q & sc & -> & _ & Tq & _) & _).
        destruct Hin as [Hin|[]]. injection Hin as <- <-. intros _. left. exact Tq.
      * apply in_map_iff in Hin as (sc & Y & _). discriminate.
Qed.

Lemma bell_local : bell_op (op x) -> e_local e = true.
Proof.
  intro B. pose proof H as HH. destruct x as [o wt cl]. cbn [op] in *. destruct o; try destruct B; cbn [try_apply op] in HH.
  - unfold apply_bell_init in HH. destruct (e_local e); [reflexivity|discriminate].
  - unfold apply_cnot in HH. destruct (e_local e); [reflexivity|discriminate].
Qed.

Lemma ran_free : forall done t t' rest c, ran false t done t' -> In c (needs rest) -> ~ In c (needs (done ++ rest)) -> tile_at t c = None.
Proof.
  induction done as [|l done IH]; intros t t' rest c R Hc N; [contradiction|]. inversion R as [|? ? u t1 ? ? E B R']; subst.
  cbn [app] in N. rewrite needs_cons in N. destruct (tile_at t c) as [p|] eqn:T; [|reflexivity]. exfalso.
  assert (U : ~ In c (uses l)) by tauto. pose proof (local_kept _ _ _ _ _ _ E B T U) as T1.
  destruct (in_dec cell_eq_dec c (needs (done ++ rest))) as [X|X].
  - destruct (in_dec cell_eq_dec c (makes l)) as [M|M]; [|tauto].
    assert (Cl : forall z, claimable false t z -> tile_at t z = None) by (intros z [Z|[Z _]]; [exact Z|discriminate]).
    destruct E; cbn [makes] in M; repeat match goal with Z : claimable false _ _ |- _ => apply Cl in Z end; repeat (destruct M as [<-|M]; [congruence|]); destruct M.
  - pose proof (IH _ _ _ _ R' Hc X). congruence.
Qed.

Lemma bare_fits : forall o o' t, bare o = bare o' -> ~ bell_op o' -> (forall r n l, o' <> Busy r n l) -> fits e ids t o' -> fits e ids t o /\ needs_of o = [].
Proof.
  intros o o' t E B N G. destruct o'; try (exfalso; apply B; exact I); destruct o; cbn in E; try discriminate; try (split; [|reflexivity]); try exact G;
    try (injection E; intros; subst; try exact G); try (exfalso; eapply N; reflexivity).
Qed.

Lemma self_fits : forall y, (if a_error a then op y = a_op a else hd_error (a_follow a) = Some y) ->
  fits e ids s' (op y) /\ forall c, In c (needs_of (op y)) -> In c (needs_of (op x)) \/ tile_at s c = None \/ exists id, In id (acts_on (op x)) /\ carries s c id.
Proof.
  intros y Hy. assert (D : bell_op (op x) \/ ~ bell_op (op x)) by (destruct (op x); cbn; auto). destruct (a_error a) eqn:Er.
  { rewrite refused_slice by auto. destruct (refused_op Er) as [Eb Ee]. rewrite Hy.
    assert (D2 : (exists r n l, op x = Busy r n l) \/ forall r n l, op x <> Busy r n l) by (destruct (op x); eauto; right; discriminate).
    destruct D as [D|D]; [rewrite Ee by auto; split; auto|]. destruct D2 as [D2|D2]; [rewrite Ee by auto; split; auto|].
    destruct (bare_fits (a_op a) (op x) s Eb D D2 F) as [X ->]. split; [exact X|intros c []]. }
  destruct D as [B|B].
  - destruct (bell_tried B) as (_ & _ & G). destruct (G Er) as (todo & rest & Td & Ad & Rs & Rn). rewrite Ed in Td, Ad, Rs.
    destruct (needs_todo todo Td B) as (C & I & N). destruct Ad as (done & -> & R & _).
    destruct rest as [|l0 r0]; [rewrite Rn in Hy by auto; discriminate|]. set (rest := l0 :: r0) in *.
    destruct Rs as (P & U & Fo); [discriminate|]. rewrite Fo in Hy. injection Hy as <-. cbn [op].
    assert (Hd : forall c, In c (needs (done ++ rest)) -> held L ids s c).
    { intros c Hc. destruct (N c Hc) as [X|(id & p & I1 & S1 & Id)].
      - destruct F as (_ & G2). destruct (op x) as [| | | |s1 s2 l1 l2 locals [k|]| | | | | |co ta s1 s2 route [k|] sets phase|]; try destruct B; try destruct X; apply G2; exact X.
      - exists p. destruct S1 as [T1 J1]. split; [exact T1|]. split; [intros [X|X]; destruct Id as (_ & Y & _); congruence|]. split.
        + destruct (Ty c p T1) as [[X|X]|[_ X]]; [left; congruence|now left|right; left; split; congruence|congruence].
        + intros id' J2. assert (id' = id) by congruence. subst id'. apply F. exact I1. }
    rewrite flat_map_app in I. apply incl_app_inv in I as [I1 I2].
    pose proof (ran_held L ids done s s' rest R C I1 Hd) as RH. pose proof (clean_app _ _ C) as Cr. pose proof (bell_local B) as Lo.
    pose proof (tried_bare e w x a H) as Eb.
    assert (Ne : needs_of (a_op a) = needs rest) by (rewrite <- P; revert Eb B U; clear; destruct (op x), (a_op a) as [| | | |? ? ? ? ? [?|]| | | | | |? ? ? ? ? [?|] ? ?|]; intros Eb B U; try destruct B; try discriminate Eb; try reflexivity; destruct U; exact Logic.I).
    split.
    + unfold fits. rewrite Ne, P. destruct F as (Fa & G2).
      destruct (op x) as [| | | |s1 s2 l1 l2 locals k| | | | | |co ta s1 s2 route k sets phase|]; try destruct B;
      destruct (a_op a) as [| | | |s1' s2' l1' l2' locals' [k'|]| | | | | |co' ta' s1' s2' route' [k'|] sets' phase'|]; try discriminate Eb; try (exfalso; apply U; exact Logic.I);
      injection Eb; intros; subst; (split; [exact Fa|]); (split; [apply G2|]); auto.
    + intros c Hc. rewrite Ne in Hc. destruct (in_dec cell_eq_dec c (needs (done ++ rest))) as [X|X].
      * destruct (N c X) as [Y|(id & p & J1 & J2 & _)]; [now left|]. right. right. exists id. split; [exact J1|]. eapply sits_carries; eauto.
      * right. left. eapply ran_free; eauto.
  - destruct (C33_effect e w x a Hs B H Er) as (u & m & yv & E & (Ch & _)). pose proof F as FF.
    inversion E; repeat match goal with z := w_slice _ |- _ => subst z end; subst;
      match goal with X : _ = a_follow a |- _ => rewrite <- X in Hy end; try discriminate; injection Hy as <-; cbn [op instr_of];
      match goal with X : _ = op x |- _ => rewrite <- X in FF end.
    + split; [|intros c []]. destruct FF as [Fa _]. split; [exact Fa|exact I].
    + destruct FF as [Fa Rs]. cbn [over] in Ch.
      match goal with X : sits s _ c p, Y : tile_at s (step c d) = None |- _ => destruct X as [T1 J1]; rename Y into T2 end.
      assert (R0 : forall z, ~ In z (l_reserved L)) by (intro z; rewrite Rs; intros []). split.
      * split; [intros z []|]. split.
        -- do 2 eexists. split; [reflexivity|]. cbn [map rg_cells rotating sc_cell]. split; [now left|]. split.
           ++ destruct (Ty c p T1) as [X|[_ X]]; [left; congruence|exact X|congruence].
           ++ cbn [p_id sp_patch]. intros id X. injection X as <-. apply Fa. now left.
        -- cbn [map rg_cells rotating sc_cell]. intros z Hz. unfold spinning. rewrite Ch. unfold routing, over. cbn [sc_cell rotating].
           destruct (cell_eqb_spec c z) as [->|N]; [eexists; split; [reflexivity|]; auto|].
           destruct (cell_eqb_spec (step c d) z) as [->|N2]; [eexists; split; [reflexivity|]; auto|]. destruct Hz as [Hz|[Hz|[]]]; contradiction.
      * intros z [<-|[<-|[]]]; [right; right; exists t; split; [now left|]; exists p; auto|right; left; exact T2].
    + cbn [over] in Ch. destruct FF as [Fa [Fb Fc]]. split; [|intros z Hz; left; exact Hz]. split; [exact Fa|]. split; [exact Fb|].
      intros z Hz. unfold spinning. rewrite Ch. exact (Fc z Hz).
Qed.
End Try.

(** ** Slices *)

(** What holds of every slice of a run *)
Record sound (e : env) (s : slice) : Prop := {
  so_timed : timed (e_layout e) s;
  so_magic : magic_listed s;
  so_apart : forall c, In c (s_magic s) -> ~ In c (l_ystates (e_layout e));
  so_typed : well_typed (e_layout e) s }.

Lemma there : forall e ids s o c, fits e ids s o -> In c (needs_of o) -> exists p, tile_at s c = Some p /\ ~ (p_type (dp p) = TPreparedState /\ p_id (dp p) = None)
  /\ (p_act (dp p) = ANone -> e_local e = true) /\ forall id, p_id (dp p) = Some id -> In id ids.
Proof.
  intros e ids s o c [_ F] Hc.
  assert (B : e_local e = true -> held (e_layout e) ids s c -> exists p, tile_at s c = Some p /\ ~ (p_type (dp p) = TPreparedState /\ p_id (dp p) = None)
    /\ (p_act (dp p) = ANone -> e_local e = true) /\ forall id, p_id (dp p) = Some id -> In id ids).
  { intros Lo (p & T & _ & So & I). exists p. split; [exact T|]. split; [|split; auto]. intros [X Y]. destruct So as [Z|[[_ Z]|[Z _]]]; congruence. }
  destruct o as [| | | |s1 s2 l1 l2 locals [k|]| | | | |reg n after|co ta s1 s2 route [k|] sets phase|]; try (destruct Hc; fail).
  - destruct F as (_ & Lo & _ & _ & Hd). apply B; auto. apply Lo. intro X. rewrite X in Hc. destruct Hc.
  - destruct F as (_ & Sp). destruct (Sp c Hc) as (p & T & T1 & T2 & T3 & _). exists p. repeat split; auto; [intros [X _]; congruence|congruence|congruence].
  - destruct F as (_ & Lo & _ & _ & Hd). apply B; auto. apply Lo. intro X. rewrite X in Hc. destruct Hc.
Qed.
Lemma fits_same : forall e ids s s' o, fits e ids s o -> (forall c, In c (needs_of o) -> tile_at s' c = tile_at s c) -> fits e ids s' o.
Proof.
  intros e ids s s' o [A F] K. split; [exact A|].
  destruct o as [| | | |s1 s2 l1 l2 locals [k|]| | | | |reg n after|co ta s1 s2 route [k|] sets phase|]; auto.
  - destruct F as (F1 & F2 & F3 & F4 & F5). repeat (split; [assumption|]). intros c Hc. eapply held_same; auto.
  - destruct F as (F1 & F2). split; [exact F1|]. intros c Hc. destruct (F2 c Hc) as (p & P1 & P2). exists p. split; [|exact P2]. rewrite (K c Hc). exact P1.
  - destruct F as (F1 & F2 & F3 & F4 & F5). repeat (split; [assumption|]). intros c Hc. eapply held_same; auto.
Qed.

Lemma sound_try : forall e w x a ids, e_edpc e = false -> simple_routes e -> sound e (w_slice w) -> fits e ids (w_slice w) (op x) -> try_apply e w x = Ok a ->
  (forall c, In c (needs_of (op x)) -> ~ In c (s_magic (w_slice w))) /\ sound e (w_slice (a_world a)).
Proof.
  intros e w x a ids Ed Sr [T M Ap Ty] F H. pose proof (proj1 T) as Hs.
  assert (Nm : forall c, In c (needs_of (op x)) -> ~ In c (s_magic (w_slice w))).
  { intros c Hc Hm. destruct (there _ _ _ _ _ F Hc) as (p & P1 & P2 & _). destruct (M c Hm) as (q & Q1 & Q2 & Q3 & _). apply P2. rewrite P1 in Q1. injection Q1 as <-. auto. }
  split; [exact Nm|]. destruct (C33_timers e w x a Hs H) as [S2 Tm]. 
  assert (Less : forall c, In c (s_magic (w_slice (a_world a))) -> In c (s_magic (w_slice w))) by exact (magic_less e Ed w x a ids Hs H F).
  split; [split; [exact S2|rewrite Tm; apply T]|..].
  - intros c Hc. destruct (M c (Less c Hc)) as (q & Q1 & Q2 & Q3 & Q4). exists q. split; [|auto].
    destruct (touched e Ed Sr w x a ids Hs H F c q Q1) as [X|[X|[(id & X & _)|[[_ X]|(_ & X & _)]]]]; auto.
    + exfalso. exact (Nm c X (Less c Hc)).
    + congruence.
    + contradiction.
    + exfalso. exact (Ap c (Less c Hc) X).
  - intros c Hc. apply Ap, Less, Hc.
  - exact (typed_kept e Ed w x a ids Hs H F Ty).
Qed.

(** Another instruction keeps off the tiles an operation relies on. *)
Lemma others_kept : forall e w x a ids z ids', e_edpc e = false -> simple_routes e -> sound e (w_slice w) -> fits e ids (w_slice w) (op x) -> try_apply e w x = Ok a ->
  fits e ids' (w_slice w) z -> (forall c, In c (needs_of (op x)) -> ~ In c (needs_of z)) -> (needs_of z <> [] -> forall id, In id ids -> ~ In id ids') ->
  forall c, In c (needs_of z) -> tile_at (w_slice (a_world a)) c = tile_at (w_slice w) c
    /\ (forall id, In id (acts_on (op x)) -> ~ carries (w_slice w) c id).
Proof.
  intros e w x a ids z ids' Ed Sr [T M Ap Ty] F H Fz Dj Di c Hc. assert (Nz : needs_of z <> []) by (intro X; rewrite X in Hc; destruct Hc). specialize (Di Nz).
  destruct (there _ _ _ _ _ Fz Hc) as (p & P1 & P2 & P3 & P4). split.
  - rewrite P1. destruct (touched e Ed Sr w x a ids (proj1 T) H F c p P1) as [X|[X|[(id & X & Y)|[[X _]|((t & n & l & Y1) & Y2 & Y3 & Y4 & Y5)]]]]; auto; exfalso.
    + exact (Dj c X Hc).
    + apply (Di id); [apply F; exact Y|apply P4; exact X].
    + destruct (M c X) as (q & Q1 & Q2 & Q3 & _). apply P2. rewrite P1 in Q1. injection Q1 as <-. auto.
    + destruct Y3 as (_ & Y3 & _). pose proof (P3 Y3) as Lo. rewrite Y1 in F. destruct F as (_ & [X|[X|X]]); [congruence|apply Y5; auto|rewrite X in Y2; destruct Y2].
  - intros id Hi (q & Q1 & Q2). rewrite P1 in Q1. injection Q1 as <-. apply (Di id); [apply F; exact Hi|apply P4; exact Q2].
Qed.

Lemma sound_advance : forall e s s', layout_wf (e_layout e) -> sound e s -> advance_slice (e_layout e) s = Ok s' ->
  sound e s' /\ forall ids o, fits e ids s o -> fits e ids s' o.
Proof.
  intros e s s' W [T M Ap Ty] E. set (L := e_layout e) in *. destruct (advance_timed L s W T) as (s1 & E1 & T1). assert (s1 = s') by congruence. subst s1.
  destruct (C35_advance L s s' W (proj1 T) (proj2 T) E M) as (M' & _ & _).
  destruct (advance_ok L s W (proj1 T) (proj2 T)) as (s1 & E2 & _ & _ & _ & _ & _ & _ & St). assert (s1 = s') by congruence. subst s1.
  destruct (advance_tiles L s s' W (proj1 T) (proj2 T) St) as (A1 & A2 & A3 & _ & _).
  assert (Yr : forall c, In c (l_ystates L) -> ~ In c (l_reserved L) /\ forall q, In q (l_queues L) -> ~ In c q).
  { intros c Hc. pose proof (lw_disjoint L W) as D. unfold taken in D. split.
    - apply prefix_nodup in D as (_ & D & _). apply prefix_nodup in D as (_ & _ & D). intro X. apply (D c Hc). apply in_app_iff. right. apply in_app_iff. now left.
    - intros q Hq Hi. apply (proj2 (lw_queue L W q c Hq Hi)). unfold taken. apply in_app_iff. right. apply in_app_iff. now left. }
  split.
  - split; auto.
    + intros c Hc Hy. destruct (Yr c Hy) as [Y1 Y2]. destruct (l_magic_reserved L).
      * destruct St as (_ & X & _). apply (Ap c); auto. now apply X.
      * destruct St as (new & De & _). apply (de_list _ _ _ _ _ De) in Hc as [Hc|Hc]; [apply (Ap c Hc Hy)|].
        apply in_map_iff in Hc as ((i & c') & Ec & Hi). cbn in Ec. subst c'. destruct (de_new _ _ _ _ _ De i c Hi) as (_ & (q & Q1 & Q2) & _). apply (Y2 q); auto. eapply nth_error_In; eauto.
    + intros c p' Tp Hp. assert (Same : forall p, tile_at s c = Some p -> ~ consumed (p_act (dp p)) -> same_patch_later p p' ->
        typed (dp p') \/ (p_act (dp p') = AMultiPatch \/ p_act (dp p') = ARotation) /\ p_id (dp p') = None).
      { intros p Tc Nc (S1 & S2 & _ & _ & S3 & _). rewrite S2 in Hp |- *. rewrite S3. unfold typed. rewrite S1. destruct (Ty c p Tc Hp) as [X|[[X|X] Y]]; [now left| |].
        - exfalso. apply Nc. now right.
        - right. split; [|exact Y]. right. now rewrite X. }
      assert (Ne : p' = magic_tile \/ p' = mkDP distillation_patch connected4 -> In c (l_reserved L) \/ (exists q, In q (l_queues L) /\ In c q) -> False).
      { intros X Y. assert (I0 : p_id (dp p') = None) by (destruct X; subst; reflexivity). destruct Hp as [Hp|Hp]; [congruence|]. destruct (Yr c Hp) as [Y1 Y2]. destruct Y as [Y|(q & Y & Y')]; [contradiction|exact (Y2 q Y Y')]. }
      assert (D : vacated s c \/ exists p, tile_at s c = Some p /\ ~ consumed (p_act (dp p))).
      { assert (Dc : forall z, consumed z \/ ~ consumed z) by (intros []; unfold consumed; try tauto; right; intros [X|X]; discriminate).
        unfold vacated. destruct (tile_at s c) as [p|]; [|auto]. destruct (Dc (p_act (dp p))); eauto. }
      destruct D as [V|(p & Tc & Nc)].
      * destruct (A3 c V) as [[X _]|[(X & _ & Y)|[X Y]]]; [congruence| |]; rewrite Tp in X; injection X as X; exfalso; apply Ne; auto.
      * destruct (in_dec cell_eq_dec c (l_reserved L)) as [R|R].
        -- destruct (A2 c p Tc Nc) as [(p2 & X & Y)|[X _]]; rewrite Tp in X; injection X as X; [subst p2; eauto|exfalso; apply Ne; auto].
        -- destruct (A1 c p Tc Nc (or_intror (or_intror R))) as (p2 & X & Y). rewrite Tp in X. injection X as <-. eauto.
  - assert (Hh : forall ids c, held L ids s c -> held L ids s' c).
    { intros ids c (p & P1 & P2 & P3 & P4). destruct (A1 c p P1 P2) as (p' & X & (S1 & S2 & _ & _ & S3 & _)); [destruct P3 as [P3|[[P3 _]|[_ P3]]]; auto|].
      exists p'. split; [exact X|]. unfold solid in *. rewrite S1, S2, S3. split; [|split; [exact P3|exact P4]].
      unfold consumed in *. destruct (p_act (dp p)); cbn; intros [Z|Z]; try discriminate; apply P2; auto. }
    intros ids o [A F]. split; [exact A|].
    destruct o as [| | | |s1 s2 l1 l2 locals [k|]| | | | |reg n after|co ta s1 s2 route [k|] sets phase|]; auto.
    + destruct F as (F1 & F2 & F3 & F4 & F5). repeat (split; [assumption|]). intros c Hc. apply Hh; auto.
    + destruct F as (F1 & F2). split; [exact F1|]. intros c Hc. destruct (F2 c Hc) as (p & P1 & P2 & P3 & P4 & P5).
      destruct (A1 c p P1) as (p' & X & (S1 & S2 & _ & _ & S3 & _)); [rewrite P3; intros [Z|Z]; discriminate|auto|].
      exists p'. rewrite S1, S2, S3, P3. auto.
    + destruct F as (F1 & F2 & F3 & F4 & F5). repeat (split; [assumption|]). intros c Hc. apply Hh; auto.
Qed.
