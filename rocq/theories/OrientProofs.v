From Verif Require Import Base TextModel PatchesModel LayoutModel LayoutSpec LayoutProofs InstrModel InstrSpec InstrProofs.
From Verif Require Import SliceModel SliceSpec SliceProofs SliceProps RouterModel RouterSpec RouterProofs RouterProps.
From Verif Require Import ApplyModel ApplySpec ApplyProofs ApplyEffect ApplyBell ApplyIds BellSpec BellProofs BellRun BellCnot BellIds BellProps ApplyProps StepProps.
From Verif Require Import RunModel RunSpec RunProofs RunProps StreamProps SchedSpec SchedProofs WaveModel WaveSpec WaveProps RunInv IdsProps Claims ClaimsRun YProps TraceProofs OrientSpec.
Open Scope nat_scope.

(** ** Quarter turns *)
Lemma upright_turned : forall b, upright b -> lying (turned b).
Proof. intros b (A & B & C & D). repeat split; cbn; auto. Qed.
Lemma lying_turned : forall b, lying b -> upright (turned b).
Proof. intros b (A & B & C & D). repeat split; cbn; auto. Qed.
Lemma faces_turned : forall n b, faces n b -> faces (S n) (turned b).
Proof.
  intros n b H. unfold faces in *. rewrite Nat.even_succ, <- Nat.negb_even. destruct (Nat.even n); cbn; [now apply upright_turned|now apply lying_turned].
Qed.
Lemma faces_types : forall n b b', (forall d, btype (side b' d) = btype (side b d)) -> faces n b -> faces n b'.
Proof. intros n b b' E H. unfold faces, upright, lying in *. rewrite !E. exact H. Qed.
Lemma faces_square : forall id l, faces 0 (db (square id l)). Proof. intros. repeat split. Qed.
Lemma joined_types : forall d p d', btype (side (db (joined d p)) d') = btype (side (db p) d').
Proof. intros d p d'. unfold joined. cbn [db]. destruct d, d'; reflexivity. Qed.
Lemma ok_faces : forall b, (upright b \/ lying b) <-> exists n, faces n b.
Proof.
  intros b. split.
  - intros [H|H]; [exists 0|exists 1]; exact H.
  - intros (n & H). unfold faces in H. destruct (Nat.even n); auto.
Qed.

(** ** Edges of all patches *)
Definition fair (p : dpatch) : Prop := encodes p -> exists n, faces n (db p).
Definition fair_op (o : operation) : Prop :=
  match o with
  | Busy reg _ after => exists p sc, after = [mkSP p (Single sc)] /\ In (sc_cell sc) (map sc_cell (rg_cells reg)) /\ fair (mkDP p (sc_b sc))
  | _ => True
  end.
Lemma fair_all : forall s, edges_sound s <-> forall c p, tile_at s c = Some p -> fair p.
Proof. intros s. split; intros H c p T E; apply ok_faces; now apply (H c p T). Qed.
Lemma fair_square : forall id l, fair (square id l). Proof. intros id l _. exists 0. apply faces_square. Qed.
Lemma fair_named : forall id p, fair p -> fair (named id p). Proof. intros id p H. exact H. Qed.
Lemma fair_doing : forall a p, fair p -> fair (doing a p). Proof. intros a p H. exact H. Qed.
Lemma fair_joined : forall d p, fair p -> fair (joined d p).
Proof. intros d p H E. destruct (H E) as (n & F). exists n. eapply faces_types; [apply joined_types|exact F]. Qed.

Lemma fair_over : forall s u, edges_sound s -> (forall c p, In (c, Some p) u -> fair p) -> forall c p, over u s c = Some p -> fair p.
Proof.
  intros s u Hs Hu c p E. rewrite fair_all in Hs. destruct (over_cases u s c) as [(t & Ht & X)|(_ & X)]; rewrite X in E; [subst t|]; eauto.
Qed.
Lemma fair_local : forall edpc s l u, edges_sound s -> local_effect edpc s l u -> forall c p, In (c, Some p) u -> fair p.
Proof.
  intros edpc s l u Hs H c p Hi. rewrite fair_all in Hs.
  assert (Id : forall z q, idle s z q -> fair q) by (intros z q (X & _); eauto).
  destruct H; cbn [In] in Hi; destruct Hi as [Hi|Hi]; try (destruct Hi as [Hi|Hi]); try contradiction; injection Hi as <- <-;
    eauto 7 using fair_square, fair_named, fair_doing, fair_joined.
Qed.
Lemma fair_ran : forall edpc s ls s', ran edpc s ls s' -> edges_sound s -> edges_sound s'.
Proof.
  intros edpc s ls s' R. induction R as [|s l u s1 ls s' Hl [B _] R IH]; auto. intros Hs. apply IH. apply fair_all. intros c p T. rewrite B in T.
  eapply fair_over; eauto. eapply fair_local; eauto.
Qed.
Lemma fair_merging : forall opid s a b cells u, edges_sound s -> merging opid s a b cells u -> forall c p, In (c, Some p) u -> fair p.
Proof.
  intros opid s a b cells u Hs G c p Hi. rewrite fair_all in Hs. destruct G as [ca pa cb q da db_ Ha _ Hb _ _ _ _ F]. apply in_app_or in Hi as [Hi|Hi].
  - rewrite <- in_rev in Hi. apply in_map_iff in Hi as (sc & Ht & Hsc). injection Ht as <- <-. intros [X|X]; discriminate X.
  - unfold join_side in Hi. cbn [In over] in Hi. destruct Hi as [Hi|[Hi|[]]].
    + destruct (cell_eqb_spec ca cb) as [E|Nq]; [|destruct (tile_at s cb) as [q'|] eqn:Q; [|discriminate Hi]]; injection Hi as <- <-.
      * apply fair_joined, fair_joined. destruct Ha. eauto.
      * apply fair_joined. eauto.
    + injection Hi as <- <-. apply fair_joined. destruct Ha. eauto.
Qed.

(** ** One qubit *)
Lemma turns_app : forall q a b, quarter_turns q (a ++ b) = quarter_turns q a + quarter_turns q b.
Proof. intros q a b. unfold quarter_turns. now rewrite filter_app, app_length. Qed.
Lemma turns_one : forall q a ev, quarter_turns q (a ++ [ev]) = if turns_it q ev then S (quarter_turns q a) else quarter_turns q a.
Proof. intros q a ev. rewrite turns_app. unfold quarter_turns at 2. cbn [filter]. destruct (turns_it q ev); cbn; lia. Qed.

Section One.
Variables (e : env) (q : N) (c0 : cell) (k0 : nat).
Hypothesis W : layout_wf (e_layout e).
Hypothesis Ed : e_edpc e = false.
Hypothesis Fr : free_routes e.
(** The tile is not one where magic states appear. *)
Hypothesis Nr : ~ In c0 (l_reserved (e_layout e)).
Hypothesis Nq : forall l, In l (l_queues (e_layout e)) -> ~ In c0 l.
Local Notation L := (e_layout e).

Definition rests_at (n : nat) (p : dpatch) : Prop := p_id (dp p) = Some q /\ encodes p /\ ~ consumed (p_act (dp p)) /\ faces n (db p).
Definition there (n : nat) (s : slice) : Prop := exists p, tile_at s c0 = Some p /\ (rests_at n p \/ spins p).
Definition only (s : slice) : Prop := forall c, carries s c q -> c = c0.
Record at_home (n : nat) (s : slice) : Prop := {
  ah_timed : timed L s; ah_there : there n s; ah_magic : ~ In c0 (s_magic s); ah_only : only s }.

(** What the instructions attempted are like *)
Definition minds (n : nat) (s : slice) (o : operation) : Prop :=
  match o with
  | Measure t _ _ | Init t _ _ | MagicRequest t _ | YRequest t _ _ => t <> q
  | SingleOp _ _ _ | MultiMeasure _ _ _ | Reset _ | Declare _ | Rotate _ => True
  | BellInit s1 s2 _ _ _ k => s1 <> q /\ s2 <> q /\ (k <> None -> ~ In c0 (flat_map spoils (ApplySpec.pending false o)) /\ ~ In q (flat_map local_ids (ApplySpec.pending false o)))
  | BellCNOT _ _ s1 s2 _ k _ _ => s1 <> q /\ s2 <> q /\ (k <> None -> ~ In c0 (flat_map spoils (ApplySpec.pending false o)) /\ ~ In q (flat_map local_ids (ApplySpec.pending false o)))
  | Busy reg _ after => exists p sc, after = [mkSP p (Single sc)] /\ In (sc_cell sc) (map sc_cell (rg_cells reg))
      /\ (In c0 (map sc_cell (rg_cells reg)) -> sc_cell sc = c0)
      /\ (sc_cell sc = c0 -> spinning_at s c0 /\ rests_at (S n) (mkDP p (sc_b sc)))
      /\ (sc_cell sc <> c0 -> p_id p <> Some q)
  end.
Definition not_both (o o' : operation) : Prop := back_at o = Some c0 -> back_at o' <> Some c0.

(** A tile that stays as it is as far as the qubit is concerned *)
Definition same_home (p p' : dpatch) : Prop := p_id (dp p') = p_id (dp p) /\ p_type (dp p') = p_type (dp p)
  /\ (~ consumed (p_act (dp p)) -> ~ consumed (p_act (dp p'))) /\ (spins p -> p_act (dp p') = ARotation)
  /\ forall d, btype (side (db p') d) = btype (side (db p) d).
Lemma sh_refl : forall p, same_home p p. Proof. intros p. split; [|split; [|split; [|split]]]; auto. intros (_ & X & _). exact X. Qed.
Lemma sh_spins : forall p p', same_home p p' -> spins p -> spins p'.
Proof. intros p p' (I & T & _ & A & _) S. pose proof (A S). destruct S as (S1 & S2 & S3). split; [|split]; congruence. Qed.
Lemma sh_rests : forall n p p', same_home p p' -> rests_at n p \/ spins p -> rests_at n p' \/ spins p'.
Proof.
  intros n p p' K [(R1 & R2 & R3 & R4)|S]; [left|right; eapply sh_spins; eauto]. destruct K as (I & T & A & _ & B). split; [congruence|].
  split; [unfold encodes in *; now rewrite T|]. split; [auto|]. eapply faces_types; eauto.
Qed.
Lemma sh_trans : forall p p' p'', same_home p p' -> same_home p' p'' -> same_home p p''.
Proof.
  intros p p' p'' A B. pose proof (sh_spins _ _ A) as Sp. destruct A as (A1 & A2 & A3 & A4 & A5), B as (B1 & B2 & B3 & B4 & B5).
  split; [congruence|]. split; [congruence|]. split; [auto|]. split; [auto|]. intro d. now rewrite B5.
Qed.
Definition home_kept (s s' : slice) : Prop := forall p, tile_at s c0 = Some p -> exists p', tile_at s' c0 = Some p' /\ same_home p p'.
Lemma kept_there : forall n s s', home_kept s s' -> there n s -> there n s'.
Proof. intros n s s' K (p & P & F). destruct (K p P) as (p' & P' & S). exists p'. split; [exact P'|eapply sh_rests; eauto]. Qed.
Lemma kept_spin : forall s s', home_kept s s' -> spinning_at s c0 -> spinning_at s' c0.
Proof. intros s s' K (p & P & S). destruct (K p P) as (p' & P' & Lk). exists p'. split; [exact P'|eapply sh_spins; eauto]. Qed.
Lemma sh_joined : forall s d p, idle s c0 p -> same_home p (joined d p).
Proof.
  intros s d p (_ & A & _). split; [reflexivity|]. split; [reflexivity|]. split; [auto|]. split; [intros (_ & X & _); cbn; congruence|]. apply joined_types.
Qed.

Lemma local_home : forall n s l u s', local_effect false s l u -> becomes s s' u -> there n s -> only s -> ~ In c0 (spoils l) -> ~ In q (local_ids l) ->
  home_kept s s' /\ only s'.
Proof.
  intros n s l u s' H [B _] Th On Sp Li.
  assert (Free : forall c, claimable false s c -> c <> c0).
  { intros c [X|[X _]] ->; [|discriminate]. destruct Th as (p & P & _). congruence. }
  assert (Keep : home_kept s s').
  { intros p Hp. rewrite B.
    destruct (over_cases u s c0) as [(t & Ht & ->)|(_ & ->)]; [|exists p; split; [exact Hp|apply sh_refl]].
    assert (Jn : forall r d, idle s c0 r -> exists p', Some (joined d r) = Some p' /\ same_home p p').
    { intros r d Ir. assert (r = p) by (destruct Ir as (X & _); congruence). subst r. eexists. split; [reflexivity|]. eapply sh_joined; eauto. }
    destruct H as [id c F|id1 id2 c d F1 F2|c d p1 p2 F1 F2|c d p1 p2 F1 F2|id c d p1 F1 F2|c d p1 p2 F1 F2|c d p1 nid F1 F2]; cbn [In spoils] in *;
      destruct Ht as [Ht|Ht]; try (destruct Ht as [Ht|Ht]); try contradiction; injection Ht as E <-; try (rewrite E in *);
      try (exfalso; eapply Free; [eassumption|exact E]); try (exfalso; tauto); eauto;
      try (exfalso; match goal with X : claimable false s c0 |- _ => exact (Free c0 X eq_refl) end).
    exfalso. apply (Free c0); [|reflexivity]. left. exact F. }
  split; [exact Keep|]. intros c (p & T & I). rewrite B in T.
  destruct (over_cases u s c) as [(t & Ht & E)|(_ & E)]; rewrite E in T; [|apply On; exists p; auto]. subst t.
  assert (Old : forall c p, idle s c p -> p_id (dp p) = Some q -> c = c0) by (intros c1 p1 (X & _) Z; apply On; exists p1; auto).
  destruct H as [id c1 F|id1 id2 c1 d F1 F2|c1 d p1 p2 F1 F2|c1 d p1 p2 F1 F2|id c1 d p1 F1 F2|c1 d p1 p2 F1 F2|c1 d p1 nid F1 F2]; cbn [In spoils local_ids opt_id app] in *;
    destruct Ht as [Ht|Ht]; try (destruct Ht as [Ht|Ht]); try contradiction; injection Ht as <- <-; cbn in I; eauto; exfalso; try discriminate I.
  - apply Li. rewrite I. now left.
  - apply Li. rewrite I. apply in_or_app. left. now left.
  - apply Li. rewrite I. apply in_or_app. right. now left.
  - apply Li. rewrite I. now left.
  - destruct nid as [m|]; [injection I as ->; apply Li; now left|]. apply Sp. left. eauto.
Qed.
Lemma ran_home : forall n ls s s', ran false s ls s' -> there n s -> only s -> ~ In c0 (flat_map spoils ls) -> ~ In q (flat_map local_ids ls) -> home_kept s s' /\ only s'.
Proof.
  intros n ls s s' R. induction R as [s|s l u s1 ls s' Hu B R IH]; intros Th On Sp Li.
  - split; [|exact On]. intros p Hp. exists p. split; [exact Hp|apply sh_refl].
  - cbn [flat_map] in Sp, Li. rewrite in_app_iff in Sp, Li. destruct (local_home n s l u s1 Hu B Th On) as [K1 On1]; [tauto|tauto|].
    destruct IH as [K2 On2]; [eapply kept_there; eauto|exact On1|tauto|tauto|]. split; [|exact On2].
    intros p Hp. destruct (K1 p Hp) as (p' & P' & Lk). destruct (K2 p' P') as (p2 & Q & Lq). exists p2. split; [exact Q|]. eapply sh_trans; eauto.
Qed.
(** How often the instruction, once applied, has turned the qubit *)
Definition more (o : operation) (n : nat) : nat := if turns_it q (Applied (instr_of o)) then S n else n.

Lemma effect_home : forall n w o u m y fo s', effect e w o u m y fo -> changed (w_slice w) s' u m y -> timed L s' -> at_home n (w_slice w) -> minds n (w_slice w) o ->
  at_home (more o n) s' /\ (back_at o <> Some c0 -> spinning_at (w_slice w) c0 -> spinning_at s' c0 /\ more o n = n).
Proof.
  intros n w o u m y fo s' Ef (B & Em & Ey & Rest) T' K M. pose proof K as [T Th Ap On].
  (* nothing happens to the qubit *)
  assert (Same : more o n = n -> (forall c, In c m -> In c (s_magic (w_slice w))) ->
    (forall t, In (c0, t) u -> forall p, tile_at (w_slice w) c0 = Some p -> exists p', t = Some p' /\ same_home p p') ->
    (forall c p, In (c, Some p) u -> p_id (dp p) = Some q -> c = c0) ->
    at_home (more o n) s' /\ (back_at o <> Some c0 -> spinning_at (w_slice w) c0 -> spinning_at s' c0 /\ more o n = n)).
  { intros E1 E2 E3 E4. rewrite E1. assert (A : home_kept (w_slice w) s').
    { intros p Hp. rewrite B. destruct (over_cases u (w_slice w) c0) as [(t & Ht & ->)|(_ & ->)]; [eauto|]. exists p. split; [exact Hp|apply sh_refl]. }
    split; [|intros _ X; split; [now apply (kept_spin (w_slice w))|reflexivity]]. split; [exact T'|eapply kept_there; eauto|rewrite Em; auto|].
    intros c (p & P & I). rewrite B in P. destruct (over_cases u (w_slice w) c) as [(t & Ht & X)|(_ & X)]; rewrite X in P.
    - subst t. eauto.
    - apply On. exists p. auto. }
  assert (Sits : forall t p, sits (w_slice w) t c0 p -> t = q /\ rests_at n p).
  { intros t p [P I]. destruct Th as (p0 & P0 & F). assert (p0 = p) by congruence. subst p0. destruct F as [F|(_ & _ & F)]; [|congruence].
    split; [|exact F]. destruct F as (F & _). congruence. }
  assert (No : forall t c p, sits (w_slice w) t c p -> t <> q -> c <> c0) by (intros t c p S Nt ->; destruct (Sits t p S); contradiction).
  assert (Fr0 : forall c, tile_at (w_slice w) c = None -> c <> c0) by (intros c X ->; destruct Th as (p0 & P0 & _); congruence).
  assert (Mg : forall opid a b cells, more o n = n -> merging opid (w_slice w) a b cells u -> m = s_magic (w_slice w) ->
    at_home (more o n) s' /\ (back_at o <> Some c0 -> spinning_at (w_slice w) c0 -> spinning_at s' c0 /\ more o n = n)).
  { intros opid a b cells E1 G E2. destruct G as [ca pa cb pb da db_ Ha Ia Hb Ib _ _ _ F]. apply Same; [exact E1|intros c X; now rewrite E2 in X|..].
    - intros t Ht p Hp. apply in_app_or in Ht as [Ht|Ht].
      + rewrite <- in_rev in Ht. apply in_map_iff in Ht as (sc & Ht & Hsc). injection Ht as E _. destruct (Fr0 _ (F sc Hsc) E).
      + unfold join_side in Ht. cbn [In over] in Ht. destruct Ht as [Ht|[Ht|[]]].
        * injection Ht as Ec <-. rewrite Ec in *. destruct (cell_eqb_spec ca c0) as [->|Nc].
          -- destruct Ha as [X _]. assert (pa = p) by congruence. subst pa. eexists. split; [reflexivity|]. eapply sh_trans; [eapply sh_joined; exact Ia|].
             destruct Ia as (_ & Ac & _). split; [reflexivity|]. split; [reflexivity|]. split; [auto|]. split; [intros (_ & Z & _); exact Z|]. intro d. apply joined_types.
          -- rewrite Hp. assert (pb = p) by (destruct Hb; congruence). subst pb. eexists. split; [reflexivity|]. eapply sh_joined; exact Ib.
        * injection Ht as Ec <-. rewrite Ec in *. assert (pa = p) by (destruct Ha; congruence). subst pa. eexists. split; [reflexivity|]. eapply sh_joined; exact Ia.
    - intros c p Ht I. apply in_app_or in Ht as [Ht|Ht].
      + rewrite <- in_rev in Ht. apply in_map_iff in Ht as (sc & Ht & Hsc). injection Ht as <- <-. discriminate I.
      + unfold join_side in Ht. cbn [In over] in Ht. destruct Ht as [Ht|[Ht|[]]].
        * destruct (cell_eqb_spec ca cb) as [E|Nc]; [|destruct (tile_at (w_slice w) cb) as [p1|] eqn:Q; [|discriminate Ht]]; injection Ht as <- <-.
          -- apply On. exists pa. split; [rewrite <- E; apply Ha|exact I].
          -- apply On. exists p1. split; [exact Q|exact I].
        * injection Ht as <- <-. apply On. exists pa. split; [apply Ha|exact I]. }
  assert (One : forall c p1, more o n = n -> u = [(c, Some p1)] -> (forall c, In c m -> In c (s_magic (w_slice w))) ->
    c <> c0 -> p_id (dp p1) <> Some q -> at_home (more o n) s' /\ (back_at o <> Some c0 -> spinning_at (w_slice w) c0 -> spinning_at s' c0 /\ more o n = n)).
  { intros c p1 E1 -> E2 Nc Ni. apply Same; auto.
    - intros t [X|[]]. injection X as E _. contradiction.
    - intros c' p' [X|[]] I. injection X as <- <-. contradiction. }
  destruct Ef; cbn [minds] in M; subst s.
  - eapply One; [reflexivity|reflexivity|auto|exact (No _ _ _ H M)|]. destruct H as [_ H]. cbn. congruence.
  - apply Same; auto; [|intros ? []|intros ? ? []]. unfold more. cbn. destruct o; try reflexivity; contradiction.
  - (* a Hadamard gate *)
    destruct (N.eq_dec t q) as [->|Nt].
    + assert (E1 : more (SingleOp q SqH dg) n = S n) by (unfold more; cbn; now rewrite N.eqb_refl). rewrite E1.
      assert (c = c0) by (apply On; exists p; exact H). subst c. destruct (Sits _ _ H) as [_ (R1 & R2 & R3 & R4)].
      assert (Tc : tile_at s' c0 = Some (mkDP (dp (doing AUnitary p)) (turned (db p)))) by (rewrite B; cbn [over]; now rewrite (proj2 (cell_eqb_eq c0 c0) eq_refl)).
      split.
      * split; [exact T'| |now rewrite Em|].
        -- eexists. split; [exact Tc|]. left. split; [exact R1|]. split; [exact R2|]. split; [intros [X|X]; discriminate X|]. now apply faces_turned.
        -- intros c (p1 & P1 & I1). rewrite B in P1. cbn [over] in P1. destruct (cell_eqb_spec c0 c) as [<-|Nc]; [reflexivity|]. apply On. exists p1. auto.
      * intros _ (p1 & P1 & _ & _ & S). destruct H as [H H']. exfalso. congruence.
    + eapply One; [unfold more; cbn [turns_it op instr_of]; destruct (N.eqb_spec t q); [contradiction|reflexivity]|reflexivity|auto|exact (No _ _ _ H Nt)|]. destruct H as [_ H]. cbn. congruence.
  - eapply Mg; [|eassumption|reflexivity]. reflexivity.
  - eapply Mg; [|eassumption|reflexivity]. reflexivity.
  - rewrite Ed in H2. assert (Bc : becomes (w_slice w) s' u) by (split; [exact B|]; repeat split; tauto).
    destruct (local_home n _ _ _ _ H2 Bc Th On) as [X1 X2]; [intros []|intros []|].
    split; [split; [exact T'|exact (kept_there n _ _ X1 Th)|now rewrite Em|exact X2]|intros _ X; split; [now apply (kept_spin (w_slice w))|reflexivity]].
  - eapply One; [reflexivity|reflexivity|auto|now apply Fr0|]. cbn. congruence.
  - eapply One; [reflexivity|reflexivity|auto|now apply Fr0|]. cbn. congruence.
  - (* a rotation starts *)
    assert (E1 : more (Rotate t) n = n) by reflexivity. rewrite E1.
    assert (Oc : forall z p1, tile_at s' z = Some p1 -> p_id (dp p1) = Some q -> z = c0).
    { intros z p1 Q I. rewrite B in Q. match type of Q with over ?u ?s0 ?z0 = _ => destruct (over_cases u s0 z0) as [(t0 & Ht & X)|(_ & X)]; rewrite X in Q end.
      - subst t0. destruct Ht as [Ht|[Ht|[]]]; injection Ht as <- <-; discriminate I.
      - apply On. exists p1. auto. }
    destruct (cell_eq_dec c c0) as [->|Nc].
    + assert (Tc : spinning_at s' c0).
      { eexists. split; [rewrite B; cbn [over routing]; change (sc_cell (rotating c0 d)) with c0; now rewrite (proj2 (cell_eqb_eq c0 c0) eq_refl)|]. now split. }
      split; [|auto]. split; [exact T'| |now rewrite Em|intros z (p1 & P1 & I1); eauto]. destruct Tc as (r & R1 & R2). exists r. auto.
    + assert (Dc : tile_at s' c0 = tile_at (w_slice w) c0).
      { rewrite B. cbn [over routing]. change (sc_cell (rotating c d)) with c. change (sc_cell (rotating (InstrSpec.step c d) (dir_not d))) with (InstrSpec.step c d).
        destruct (cell_eqb_spec c c0); [congruence|]. destruct (cell_eqb_spec (InstrSpec.step c d) c0) as [E|_]; [|reflexivity]. destruct (Fr0 _ H0 E). }
      split; [split; [exact T'| |now rewrite Em|intros z (p1 & P1 & I1); eauto]|].
      * destruct Th as (p1 & P1 & F). exists p1. rewrite Dc. auto.
      * intros _ (p1 & P1 & F). split; [|reflexivity]. exists p1. rewrite Dc. auto.
  - eapply One; [reflexivity|reflexivity| | |].
    + intros c' X. now apply cset_erase_In in X.
    + intros ->. apply Ap. apply H0.
    + cbn. congruence.
  - eapply One; [reflexivity|reflexivity|auto|exact (No _ _ _ H M)|]. cbn. discriminate.
  - destruct H3 as [[Hc (p1 & Q1 & Q2)] _]. eapply One; [reflexivity|reflexivity|auto| |cbn; congruence]. intros ->. destruct Th as (p2 & P2 & F).
    assert (p2 = p1) by (destruct Q1; congruence). subst p2. destruct F as [(F & _)|(_ & F & _)]; [congruence|]. destruct Q1 as (_ & Q1 & _). congruence.
  - eapply One; [reflexivity|reflexivity|auto|now apply Fr0|]. cbn. congruence.
  - apply Same; auto; [|intros ? []|intros ? ? []]. unfold more. cbn. destruct (N.eqb_spec steps 0); [lia|reflexivity].
  - (* a rotation ends *)
    destruct M as (p & sc & -> & M1 & M2 & M3 & M4). cbn [flat_map placed sp_cells app rev] in *. cbn [sp_patch] in B.
    destruct (cell_eq_dec (sc_cell sc) c0) as [Ec|Nc].
    + destruct (M3 Ec) as (Sp & Rs). assert (Ei : p_id p = Some q) by apply Rs.
      assert (E1 : more (Busy reg 0 [mkSP p (Single sc)]) n = S n) by (unfold more; cbn; rewrite Ei, N.eqb_refl; reflexivity). rewrite E1.
      assert (Tc : tile_at s' c0 = Some (mkDP p (sc_b sc))) by (rewrite B; cbn [over]; rewrite Ec; now rewrite (proj2 (cell_eqb_eq c0 c0) eq_refl)).
      split; [split; [exact T'| |now rewrite Em|]|].
      * eexists. split; [exact Tc|]. now left.
      * intros z (p1 & Q & I). rewrite B in Q. match type of Q with over ?u ?s0 ?z0 = _ => destruct (over_cases u s0 z0) as [(t0 & Ht & X)|(_ & X)]; rewrite X in Q end.
        -- subst t0. destruct Ht as [Ht|Ht]; [injection Ht as <- _; exact Ec|]. unfold cleared in Ht. apply in_map_iff in Ht as (sc' & Ht & _). discriminate Ht.
        -- apply On. exists p1. auto.
      * intros Nb. exfalso. apply Nb. cbn. now rewrite Ec.
    + assert (Ei : p_id p <> Some q) by auto.
      assert (E1 : more (Busy reg 0 [mkSP p (Single sc)]) n = n).
      { unfold more. cbn. destruct (p_id p) as [x|] eqn:Ex; [|reflexivity]. destruct (N.eqb_spec x q); [congruence|reflexivity]. }
      apply Same; auto; cbn [app rev] in *.
      * intros t0 [Ht|Ht]; [injection Ht as E _; contradiction|]. unfold cleared in Ht. apply in_map_iff in Ht as (sc' & Ht & Hs'). injection Ht as E _.
        exfalso. apply Nc, M2. rewrite <- E. now apply in_map.
      * intros c p1 [Ht|Ht] I; [injection Ht as <- <-; contradiction|]. unfold cleared in Ht. apply in_map_iff in Ht as (sc' & Ht & _). discriminate Ht.
  - apply Same; auto; [intros ? []|intros ? ? []].
Qed.
(** The local operations of a Bell pair or of a long-range CNOT leave the qubit where it is *)
Lemma todo_home : forall n w o todo, at_home n (w_slice w) -> minds n (w_slice w) o -> bell_op o ->
  unstarted o /\ planned e w o todo \/ ~ unstarted o /\ todo = ApplySpec.pending false o ->
  ~ In c0 (flat_map spoils todo) /\ ~ In q (flat_map local_ids todo).
Proof.
  intros n w o todo K M Bo. destruct K as [T Th _ _].
  assert (Fr0 : forall c, tile_at (w_slice w) c = None -> c <> c0) by (intros c X ->; destruct Th as (p & Q & _); congruence).
  intros [[U P]|[U ->]].
  - destruct o; try destruct U.
    + destruct counter; [destruct U|]. destruct P as (reg & cache & la & lb & R & C & ->). pose proof (Fr _ _ _ _ _ _ _ _ (proj1 T) R) as F.
      assert (Hl : 2 <= length (map sc_cell (rg_cells reg))).
      { rewrite map_length. destruct (Nat.le_gt_cases 2 (length (rg_cells reg))); auto.
        unfold compile_bell in C. destruct (Nat.leb_spec (length (rg_cells reg) - 1) 0); [discriminate|lia]. }
      rewrite <- (map_length sc_cell (rg_cells reg)) in C. destruct (pair_todo _ _ _ _ _ Hl C) as (Cl & Ci & _). destruct M as (M1 & M2 & _). split.
      * intros Hc. apply in_flat_map in Hc as (l & L1 & L2). assert (Hc : In c0 (map sc_cell (rg_cells reg))).
        { apply (Cl l c0 L1). destruct l; cbn in L2 |- *; tauto. }
        apply in_map_iff in Hc as (sc & E & Hsc). exact (Fr0 _ (F sc Hsc) E).
      * intros Hi. destruct (Ci q Hi) as [E|E]; congruence.
    + destruct counters; [destruct U|]. destruct P as (reg & cache & cc & ct & la & lb & R & Hl & _ & _ & C & ->). pose proof (Fr _ _ _ _ _ _ _ _ (proj1 T) R) as F.
      assert (Lr : 4 <= length (ct :: map sc_cell (rg_cells reg) ++ [cc])) by (cbn [length]; rewrite app_length, map_length; cbn; lia).
      destruct (cnot_todo _ _ _ _ _ Lr C) as (_ & Ci & _). destruct M as (M1 & M2 & _). split.
      * intros Hc. destruct (cnot_spoils _ _ _ _ _ _ Lr C Hc) as (k & K1 & K2 & Ek). destruct k as [|k]; [lia|].
        cbn [length] in K2. rewrite app_length in K2. cbn [length] in K2. unfold seg in Ek. cbn [plus nth] in Ek. rewrite app_nth1 in Ek by lia.
        assert (Hi : In (nth k (map sc_cell (rg_cells reg)) (mkCell 0 0)) (map sc_cell (rg_cells reg))) by (apply nth_In; lia).
        rewrite <- Ek in Hi. apply in_map_iff in Hi as (sc & E & Hsc). exact (Fr0 _ (F sc Hsc) E).
      * intros Hi. destruct (Ci q Hi) as [E|E]; congruence.
  - destruct o; try destruct Bo; cbn [unstarted] in U.
    + destruct counter; [|destruct U; exact Logic.I]. destruct M as (_ & _ & M1). apply M1. discriminate.
    + destruct counters; [|destruct U; exact Logic.I]. destruct M as (_ & _ & M1). apply M1. discriminate.
Qed.

(** A rotation under way never has to start again. *)
Lemma busy_home : forall n w reg st after a, at_home n (w_slice w) -> minds n (w_slice w) (Busy reg st after) ->
  apply_busy w reg st after = Ok a -> a_error a = false.
Proof.
  intros n w reg st after a K (p & sc & E & Hin & _) H. apply (tidy_busy (l_furthest L) w reg st after a (proj1 (ah_timed _ _ K))); [|exact H]. exists p, sc. auto.
Qed.

Lemma home_step : forall n w i a, at_home n (w_slice w) -> minds n (w_slice w) (op i) -> try_apply e w i = Ok a ->
  let n' := if a_error a then n else if turns_it q (Applied (tried i a)) then S n else n in
  at_home n' (w_slice (a_world a)) /\ (forall o', left_of a o' -> minds n' (w_slice (a_world a)) o')
  /\ forall o, minds n (w_slice w) o -> not_both (op i) o -> minds n' (w_slice (a_world a)) o /\ forall o', left_of a o' -> not_both o' o.
Proof.
  intros n w i a K M H. pose proof (ah_timed _ _ K) as T. pose proof (proj1 T) as Hs.
  assert (T' : timed L (w_slice (a_world a))).
  { destruct (C33_timers e w i a Hs H) as [X1 X2]. split; [exact X1|]. rewrite X2. apply T. }
  pose proof (tried_bare e w i a H) as Ba.
  (* what others need stays *)
  assert (Oth : forall n', (back_at (op i) <> Some c0 -> spinning_at (w_slice w) c0 -> spinning_at (w_slice (a_world a)) c0 /\ n' = n) ->
    forall o, minds n (w_slice w) o -> not_both (op i) o -> minds n' (w_slice (a_world a)) o).
  { intros n' St o Mo Dj. destruct o; try exact Mo. destruct Mo as (p & sc & E & M1 & M2 & M3 & M4). exists p, sc. split; [exact E|]. split; [exact M1|]. split; [exact M2|]. split; [|exact M4].
    intros Hc. destruct (M3 Hc) as [S X]. destruct St as [S' ->]; [|exact S|split; [exact S'|exact X]]. intro Bk. apply (Dj Bk). rewrite E. cbn. now rewrite Hc. }
  assert (Bx : forall o, bare o = bare (op i) -> ~ bell_op (op i) -> turns_it q (Applied (mkI o (wait i) (clients i))) = turns_it q (Applied (instr_of (op i)))).
  { intros o E Nb. destruct (op i); cbn in Nb; try tauto; destruct o; cbn in E; try discriminate E; try (injection E; intros; subst); reflexivity. }
  destruct (a_error a) eqn:Er.
  { assert (X : w_slice (a_world a) = w_slice w /\ a_follow a = []).
    { apply (C32_unchanged_partial e w i a Hs H Er). intro Tr. destruct i as [o wt cl]. cbn [op] in *.
      destruct o as [| | | | | | | | |reg st after|? ? ? ? [?|]|]; cbn in Tr; try contradiction; [|congruence].
      subst st. pose proof (busy_home n w reg 0 after a K M H). congruence. }
    destruct X as [E1 E2]. assert (Ao : minds n (w_slice w) (a_op a) /\ back_at (a_op a) = back_at (op i)).
    { destruct (refused_op e Ed w i a H Er) as [_ Ro]. destruct i as [o wt cl]. cbn [op] in *.
      destruct o; try (rewrite Ro by (cbn; eauto); split; [exact M|reflexivity]); destruct (a_op a); cbn in Ba; try discriminate Ba; injection Ba; intros; subst; (split; [exact M|reflexivity]). }
    assert (Lf : forall o', left_of a o' -> o' = a_op a).
    { intros o' [[_ X]|(y & X & _)]; [exact X|]. rewrite E2 in X. discriminate X. }
    cbv zeta. split; [now rewrite E1|]. split.
    - intros o' X. rewrite (Lf o' X), E1. apply Ao.
    - intros o Mo Dj. split; [now rewrite E1|]. intros o' X. rewrite (Lf o' X). unfold not_both. rewrite (proj2 Ao). exact Dj. }
  assert (Lf : forall o', left_of a o' -> exists y, hd_error (a_follow a) = Some y /\ o' = op y).
  { intros o' [[X _]|X]; [congruence|exact X]. }
  assert (Bell : bell_op (op i) \/ ~ bell_op (op i)) by (destruct (op i); cbn; tauto). destruct Bell as [Bell|Bell].
  - assert (Tn : turns_it q (Applied (tried i a)) = false).
    { cbn [turns_it tried op]. destruct (op i); try destruct Bell; destruct (a_op a); cbn in Ba; try discriminate Ba; reflexivity. }
    rewrite Tn. cbv zeta.
    destruct (bell_tried e w i a Hs H Bell) as (_ & _ & G). destruct (G Er) as (todo & rest & Td & Ad & Rs & Rd). rewrite Ed in Td, Ad, Rs.
    destruct (todo_home n w (op i) todo K M Bell Td) as [Sp Li]. destruct Ad as (done & -> & R & _). rewrite !flat_map_app, in_app_iff in Sp, Li.
    destruct (ran_home n _ _ _ R (ah_there _ _ K) (ah_only _ _ K)) as [Kp On']; [tauto|tauto|]. pose proof (ran_frame _ _ _ _ R) as [(F1 & _) _].
    assert (Af : forall y, hd_error (a_follow a) = Some y -> minds n (w_slice (a_world a)) (op y) /\ back_at (op y) = None).
    { intros y Hy. destruct rest as [|l rest].
      { rewrite Rd in Hy; auto. discriminate Hy. }
      destruct (Rs ltac:(discriminate)) as (Rp & Ru & Rf). rewrite Rf in Hy. cbn in Hy. injection Hy as <-. cbn [op].
      destruct i as [o wt cl]. cbn [op] in *. destruct o; try destruct Bell; destruct (a_op a); cbn in Ba; try discriminate Ba; injection Ba; intros; subst;
        (split; [|reflexivity]); destruct M as (M1 & M2 & _); cbn [minds]; (split; [exact M1|]); (split; [exact M2|]); rewrite Rp; tauto. }
    split; [split; [exact T'|exact (kept_there n _ _ Kp (ah_there _ _ K))|rewrite F1; apply (ah_magic _ _ K)|exact On']|]. split.
    + intros o' X. destruct (Lf o' X) as (y & Hy & ->). now apply Af.
    + intros o Mo Dj. split; [apply (Oth n); auto; intros _ Sn; split; [now apply (kept_spin (w_slice w))|reflexivity]|].
      intros o' X. destruct (Lf o' X) as (y & Hy & ->). intros Bk. rewrite (proj2 (Af y Hy)) in Bk. discriminate Bk.
  - destruct (C33_effect e w i a Hs Bell H Er) as (u & m & y & Ef & Ch).
    assert (En : (if turns_it q (Applied (tried i a)) then S n else n) = more (op i) n).
    { unfold more, tried. now rewrite (Bx (a_op a) Ba Bell). }
    rewrite En. cbv zeta.
    destruct (effect_home n w (op i) u m y _ _ Ef Ch T' K M) as [K' St]. split; [exact K'|].
    assert (Fo : (forall z, hd_error (a_follow a) = Some z -> minds (more (op i) n) (w_slice (a_world a)) (op z)) /\
      forall o z, minds n (w_slice w) o -> not_both (op i) o -> hd_error (a_follow a) = Some z -> not_both (op z) o).
    { destruct Ef; (split; [intros z Hz|intros o0 z Mo Dj Hz]); cbn [hd_error] in Hz; try discriminate Hz; injection Hz as <-; cbn [op instr_of]; cbn [minds].
      - exact Logic.I.
      - intros Bk. discriminate Bk.
      - subst s. assert (E1 : more (Rotate t) n = n) by reflexivity. rewrite E1. eexists _, _. split; [reflexivity|]. cbn [sc_cell rg_cells map]. split; [now left|].
        assert (Nh : InstrSpec.step c d <> c0).
        { intros E. destruct (ah_there _ _ K) as (p1 & P1 & _). rewrite E in H1. congruence. }
        split; [|split].
        + intros [X|[X|[]]]; [exact X|contradiction].
        + intros ->. destruct (ah_there _ _ K) as (p1 & P1 & F). destruct H0 as [P I0]. assert (p1 = p) by congruence. subst p1. destruct F as [(F1 & F2 & F3 & F4)|(_ & _ & F)]; [|congruence].
          destruct Ch as (B & _). split.
          * eexists. split; [rewrite B; cbn [over routing]; change (sc_cell (rotating c0 d)) with c0; now rewrite (proj2 (cell_eqb_eq c0 c0) eq_refl)|]. now split.
          * split; [cbn; congruence|]. split; [exact F2|]. split; [|now apply faces_turned]. cbn. destruct (act_eqb (p_act (dp p)) AUnitary); [intros [X|X]; discriminate X|exact F3].
        + intros Nc X. cbn in X. injection X as ->. apply Nc. apply (ah_only _ _ K). exists p. exact H0.
      - subst s. intros Bk. cbn [back_at sc_cell] in Bk. injection Bk as ->. destruct o0; try discriminate. destruct Mo as (p0 & sc & -> & _ & _ & M3 & _). cbn [back_at]. intro X. injection X as X.
        destruct (M3 X) as ((r & R & _ & _ & S) & _). destruct H0 as [P I0]. congruence.
      - subst s. cbn [minds] in M. destruct M as (p & sc & E & M1 & M2 & M3 & M4). exists p, sc. split; [exact E|]. split; [exact M1|]. split; [exact M2|]. split; [|exact M4].
        assert (E1 : more (Busy reg steps after) n = n) by (unfold more; cbn; destruct (N.eqb_spec steps 0); [lia|reflexivity]).
        intros Hc. rewrite E1. destruct (M3 Hc) as [(r & Q & S) X]. split; [|exact X]. exists r. split; [|exact S]. destruct Ch as (B & _). rewrite B. exact Q.
      - exact Dj. }
    split.
    + intros o' X. destruct (Lf o' X) as (z & Hz & ->). now apply Fo.
    + intros o Mo Dj. split; [now apply Oth|]. intros o' X. destruct (Lf o' X) as (z & Hz & ->). exact (proj2 Fo o z Mo Dj Hz).
Qed.

Lemma home_advance : forall n s s', at_home n s -> advance_slice L s = Ok s' -> at_home n s' /\ forall o, minds n s o -> minds n s' o.
Proof.
  intros n s s' K E. pose proof K as [T Th Ap On]. destruct (advance_timed L s W T) as (s1 & E1 & T1). assert (s1 = s') by congruence. subst s1.
  destruct (C34_survivors L s W (proj1 T) (proj2 T)) as (s1 & E2 & _ & _ & _ & Sv). assert (s1 = s') by congruence. subst s1.
  assert (Al : home_kept s s').
  { intros p Hp. destruct Th as (p0 & Q & F). assert (p0 = p) by congruence. subst p0.
    assert (Nc : ~ consumed (p_act (dp p))) by (destruct F as [(_ & _ & F & _)|(_ & F & _)]; [exact F|rewrite F; intros [X|X]; discriminate X]).
    destruct (Sv c0 p Hp Nc (or_intror (or_intror Nr))) as (p' & P' & S1 & S2 & _ & _ & S3 & S4 & _). exists p'. split; [exact P'|]. split; [exact S2|]. split; [exact S1|].
    rewrite S3. split; [|split; [intros (_ & X & _); now rewrite X|exact S4]]. intros _ [X|X]; destruct (p_act (dp p)); try discriminate X; apply Nc; [now left|now right]. }
  split.
  - split; auto.
    + eapply kept_there; eauto.
    + destruct (advance_ok L s W (proj1 T) (proj2 T)) as (s1 & E3 & _ & _ & _ & _ & _ & _ & St). assert (s1 = s') by congruence. subst s1.
      intros Hc. destruct (l_magic_reserved L).
      * destruct St as (_ & X & _). apply Ap. now apply X.
      * destruct St as (new & De & _). apply (de_list _ _ _ _ _ De) in Hc as [Hc|Hc]; [exact (Ap Hc)|].
        apply in_map_iff in Hc as ((i & c') & Ec & Hi). cbn in Ec. subst c'. destruct (de_new _ _ _ _ _ De i c0 Hi) as (_ & (l & Q1 & Q2) & _). apply (Nq l); auto. eapply nth_error_In; eauto.
    + intros c Hc. apply On. eapply advance_ids; eauto; apply T.
  - intros o M. destruct o; try exact M. destruct M as (p & sc & E0 & M1 & M2 & M3 & M4). exists p, sc. split; [exact E0|]. split; [exact M1|]. split; [exact M2|]. split; [|exact M4].
    intros Hc. destruct (M3 Hc) as [S X]. split; [|exact X]. now apply (kept_spin s).
Qed.

Lemma home_runs : forall pl late grow prog w t r, (pl = Wave -> Forall few_patches prog) -> at_home k0 (w_slice w) ->
  Forall (fun i => leaves_be q (op i)) prog -> halts pl e late grow prog w t r ->
  each_shown (fun h s => at_home (k0 + quarter_turns q h) s) (t_events t).
Proof.
  intros pl late grow prog w t r Few K M H.
  apply (runs_trace e (fun h s => at_home (k0 + quarter_turns q h) s) (fun h s o => minds (k0 + quarter_turns q h) s o) not_both Ed) with (pl := pl) (late := late) (grow := grow) (prog := prog) (w := w) (r := r); auto.
  - intros o o' D X Z. exact (D Z X).
  - intros h w1 i a K1 M1 H1. pose proof (home_step _ w1 i a K1 M1 H1) as X. cbv zeta in X.
    replace (k0 + quarter_turns q (after_try h i a)) with (if a_error a then k0 + quarter_turns q h else if turns_it q (Applied (tried i a)) then S (k0 + quarter_turns q h) else k0 + quarter_turns q h); [exact X|].
    unfold after_try. destruct (a_error a); [reflexivity|]. rewrite turns_one. destruct (turns_it q (Applied (tried i a))); lia.
  - intros h s s' K1 Ad. rewrite turns_one. cbn [turns_it]. now apply home_advance.
  - cbn. now rewrite Nat.add_0_r.
  - apply (Forall_impl _ (P := fun i => leaves_be q (op i))); [|exact M]. intros i X. destruct (op i); cbn in X |- *; try exact X; try contradiction;
      destruct X as (X1 & X2 & ->); (split; [exact X1|split; [exact X2|intro Z; congruence]]).
  - rewrite Forall_forall in M. intros i i' Hi _ Bk. specialize (M i Hi). destruct (op i); try discriminate Bk. contradiction.
Qed.
End One.
