(** C66 for a wave of CNOTs whose routes may cross: each route puts a label on one side of the patch it starts from and
    one side of the patch it ends at, and giving the marked sides their types back leaves every patch as it was. *)
From Verif Require Import Base PatchesModel LayoutModel LayoutSpec LayoutProofs InstrModel InstrSpec InstrProofs.
From Verif Require Import SliceModel SliceSpec SliceProofs RouterModel RouterSpec RouterProofs RouterProps ApplyModel ApplySpec ApplyProofs ApplyEffect ApplyBell MarksModel MarksProofs MarksWave.
Open Scope nat_scope.

(** Attempts at CNOTs that still look for a route or have just got one, in any order *)
Inductive routing (e : env) (w : world) : world -> Prop :=
| routing_none : routing e w w
| routing_next w1 c t s1 s2 r wt cl z : routing e w w1 -> c <> t -> try_apply e w1 (mkI (BellCNOT c t s1 s2 r None None None) wt cl) = Ok z -> routing e w (a_world z).

Definition ref_dec : forall a b : bref, {a = b} + {a <> b}.
Proof. intros [[r1 c1] d1] [[r2 c2] d2]. destruct (Z.eq_dec r1 r2), (Z.eq_dec c1 c2), d1, d2; subst; try (right; congruence); left; reflexivity. Defined.
(** Writing a type on some sides *)
Lemma write_types : forall far t refs s, sized far s -> (forall c d, In (c, d) refs -> tile_at s c <> None) ->
  exists s', foldM (fun s r => set_ref_type s r t) refs s = Ok s' /\ sized far s'
  /\ forall c, match tile_at s c with
               | None => tile_at s' c = None
               | Some p => exists p', tile_at s' c = Some p' /\ dp p' = dp p /\ forall d, bactive (side (db p') d) = bactive (side (db p) d)
                           /\ (In (c, d) refs -> btype (side (db p') d) = t) /\ (~ In (c, d) refs -> btype (side (db p') d) = btype (side (db p) d))
               end.
Proof.
  intros far t refs. induction refs as [|[c d] refs IH]; intros s Hs Hr.
  - exists s. split; [reflexivity|]. split; [exact Hs|]. intros c. destruct (tile_at s c) as [p|]; [|reflexivity]. exists p. repeat (apply conj); auto. intros d. repeat split. intros [].
  - destruct (tile_at s c) as [p|] eqn:Ep; [|now exfalso; apply (Hr c d); [left|]]. pose proof (tile_on _ _ _ _ Hs Ep) as Ho.
    set (q := mkDP (dp p) (set_side (db p) d (mkB t (bactive (side (db p) d))))).
    assert (E1 : set_ref_type s (c, d) t = Ok (put s c (Some q))).
    { unfold set_ref_type, read_ref, write_ref. cbn [fst snd]. rewrite (patch_at_ok far) by auto. cbn [bind]. rewrite Ep. cbn [bind]. rewrite (set_patch_ok far) by auto. reflexivity. }
    assert (T : forall x, tile_at (put s c (Some q)) x = if cell_eqb c x then Some q else tile_at s x) by (intros x; apply (tile_put far); auto).
    destruct (IH (put s c (Some q))) as (s' & F & S' & W); [now apply sized_put| |].
    { intros x y Hx. rewrite T. destruct (cell_eqb_spec c x); [discriminate|]. apply (Hr x y). now right. }
    exists s'. cbn [foldM]. rewrite E1. cbn [bind]. split; [exact F|]. split; [exact S'|]. intros x. specialize (W x). rewrite T in W.
    destruct (cell_eqb_spec c x) as [Ex|Nx].
    + subst x. rewrite Ep. destruct W as (p' & A & B & C). exists p'. split; [exact A|]. split; [exact B|]. intros y. destruct (C y) as (C1 & C2 & C3). cbn [q db] in C1, C3. rewrite side_set_side in C1, C3.
      split; [rewrite C1; destruct d, y; reflexivity|]. destruct (in_dec ref_dec (c, y) refs) as [Hi|Hi].
      * split; [auto|]. intros Z. exfalso. apply Z. now right.
      * split.
        -- intros [Z|Z]; [|contradiction]. injection Z as <-. rewrite (C3 Hi). destruct d; reflexivity.
        -- intros Z. rewrite (C3 Hi). destruct d, y; try reflexivity; exfalso; apply Z; now left.
    + destruct (tile_at s x) as [p1|]; [|exact W]. destruct W as (p' & A & B & C). exists p'. split; [exact A|]. split; [exact B|]. intros y. destruct (C y) as (C1 & C2 & C3).
      split; [exact C1|]. split; [intros [Z|Z]; [congruence|auto]|]. intros Z. apply C3. intros Z'. apply Z. now right.
Qed.

Lemma bounds_eq : forall a b, (forall d, side a d = side b d) -> a = b.
Proof. intros [] [] H. pose proof (H DTop). pose proof (H DBottom). pose proof (H DLeft). pose proof (H DRight). cbn in *. congruence. Qed.

Lemma marks_back : forall L s0 s, wave_marks L s0 s -> exists s', give_back s = Ok s' /\ s_rough s' = [] /\ s_smooth s' = []
  /\ (forall c p, tile_at s0 c = Some p -> tile_at s' c = Some p)
  /\ (forall c p, tile_at s0 c = None -> tile_at s' c = Some p -> p_type (dp p) = TRouting /\ p_act (dp p) = AEDPC /\ p_id (dp p) = None).
Proof.
  intros L s0 s [[Hs K P Cr Wi] Wr Ws Wl].
  assert (Ex : forall c d, marked s c d -> tile_at s c <> None).
  { intros c d H Z. apply Wl in H. unfold labb in H. rewrite Z in H. discriminate. }
  destruct (write_types (l_furthest L) BRough (s_rough s) s Hs) as (s1 & F1 & S1 & T1); [intros c d H; apply (Ex c d); now left|].
  destruct (write_types (l_furthest L) BSmooth (s_smooth s) s1 S1) as (s2 & F2 & S2 & T2).
  { intros c d H Z. pose proof (T1 c) as X. destruct (tile_at s c) as [p|] eqn:E; [|apply (Ex c d); [now right|exact E]]. destruct X as (p' & X & _). congruence. }
  exists (with_marks s2 [] []). unfold give_back. rewrite F1. cbn [bind]. rewrite F2. cbn [bind]. split; [reflexivity|]. split; [reflexivity|]. split; [reflexivity|].
  split.
  - intros c p Hp. destruct (K c p Hp) as (q & Hq & Dq & Bq). pose proof (T1 c) as X. rewrite Hq in X. destruct X as (q1 & Hq1 & Dq1 & Bq1).
    pose proof (T2 c) as Y. rewrite Hq1 in Y. destruct Y as (q2 & Hq2 & Dq2 & Bq2). change (tile_at s2 c = Some p). rewrite Hq2. f_equal.
    destruct q2 as [dq bq], p as [dp1 bp]. cbn [dp db] in *. f_equal; [congruence|]. apply bounds_eq. intros d.
    destruct (Bq d) as [A1 A2], (Bq1 d) as (A3 & A4 & A5), (Bq2 d) as (A6 & A7 & A8).
    assert (Eb : forall x y : boundary, bactive x = bactive y -> btype x = btype y -> x = y) by (intros [] []; cbn; congruence). apply Eb; [congruence|].
    destruct (in_dec ref_dec (c, d) (s_smooth s)) as [I2|I2].
    + destruct (Ws c d I2) as (p0 & Hp0 & B0). rewrite (A7 I2). rewrite Hp in Hp0. injection Hp0 as <-. cbn in B0. congruence.
    + rewrite (A8 I2). destruct (in_dec ref_dec (c, d) (s_rough s)) as [I1|I1].
      * destruct (Wr c d I1) as (p0 & Hp0 & B0). rewrite (A4 I1). rewrite Hp in Hp0. injection Hp0 as <-. cbn in B0. congruence.
      * rewrite (A5 I1). destruct A2 as [A2|[A2|A2]]; [exact A2|contradiction..].
  - intros c p H0 Hp. change (tile_at s2 c = Some p) in Hp. pose proof (T1 c) as X. pose proof (T2 c) as Y. destruct (tile_at s c) as [q|] eqn:Eq.
    + destruct X as (q1 & Hq1 & Dq1 & _). rewrite Hq1 in Y. destruct Y as (q2 & Hq2 & Dq2 & _). assert (q2 = p) by congruence. subst q2. rewrite Dq2, Dq1. now apply (Wi c).
    + rewrite X in Y. congruence.
Qed.

Section Wave.
Variables (e : env) (pick : pick_fun) (stop : bool) (w : world).
Let s0 := w_slice w.
Hypotheses (He : e_edpc e = true) (Er : e_route e = plain_router (e_layout e) true pick stop) (Hv : valid_pick pick) (Hs : sized (l_furthest (e_layout e)) s0)
  (N0 : forall c p, tile_at s0 c = Some p -> p_act (dp p) <> AEDPC) (R0 : s_rough s0 = []) (S0 : s_smooth s0 = []) (C0 : s_crossing s0 = []).

Lemma start_marks : wave_marks (e_layout e) s0 s0.
Proof.
  split.
  - split; auto.
    + intros c p Hp. exists p. repeat (apply conj); auto.
    + intros c d Hc Hl. unfold labb in Hl. rewrite Hc in Hl. discriminate.
    + intros c Hc. rewrite C0 in Hc. destruct Hc.
    + intros c p H1 H2. congruence.
  - intros c d H. rewrite R0 in H. destruct H.
  - intros c d H. rewrite S0 in H. destruct H.
  - intros c d [H|H]; [rewrite R0 in H|rewrite S0 in H]; destruct H.
Qed.

Lemma routing_marks : forall w', routing e w w' -> wave_marks (e_layout e) s0 (w_slice w').
Proof.
  intros w' H. induction H as [|w1 c t s1 s2 r wt cl z Hr IH D H]; [apply start_marks|]. rename H into E.
  cbn [try_apply op wait clients] in E. unfold apply_cnot in E. destruct (e_local e); [|discriminate]. cbn [negb] in E. set (s := w_slice w1) in *.
  assert (Fl : forall w x, failed w x = Ok z -> a_world z = w) by (intros w' x F; apply failed_inv in F; apply F).
  destruct (get_patch_by_id s c) as [pa|] eqn:Pa; [|apply Fl in E; now rewrite E]. destruct (get_patch_by_id s t) as [pb|] eqn:Pb; [|apply Fl in E; now rewrite E].
  destruct (dp_is_active pa) eqn:Aa; [apply Fl in E; now rewrite E|]. destruct (dp_is_active pb) eqn:Ab; [apply Fl in E; now rewrite E|].
  rewrite He in E. destruct r as [reg|].
  { unfold cnot_decompose in E. bstep E. destruct x as [p1 p2]. apply Fl in E. now rewrite E. }
  unfold cnot_find_route in E. rewrite Er in E. unfold plain_router in E. fold s in E. apply bind_ok in E as ([r ca] & Ef & E). apply bind_ok in Ef as (r' & Ef & Eq). injection Eq as -> <-.
  destruct r as [reg|]; [|apply Fl in E; now rewrite E].
  destruct (Nat.ltb_spec (length (rg_cells reg)) 2) as [|Hn]; [discriminate|].
  destruct (get_cell_by_id s c) as [a|] eqn:Ga; [|discriminate]. destruct (get_cell_by_id s t) as [b|] eqn:Gb; [|discriminate].
  cbn [value_ bind] in E. apply bind_ok in E as ([s' reg'] & Em & E). apply bind_ok in E as (y0 & _ & E). injection E as E. subst z. cbn [a_world with_slice w_slice].
  pose proof (rs_sized _ _ _ _ (wm_rest _ _ _ IH)) as Hs1. pose proof (proj2 (proj2 (get_cell_by_id_Some _ _ _ _ Hs1 Ga))) as Qa. pose proof (proj2 (proj2 (get_cell_by_id_Some _ _ _ _ Hs1 Gb))) as Qb.
  fold s in Qa, Qb. rewrite Pa in Qa. rewrite Pb in Qb.
  refine (route_marks _ _ N0 pick stop s c t a b pa pb reg s' reg' IH Hv D Ga Gb (eq_sym Qa) (eq_sym Qb) Aa Ab Ef _ Em). intros Z. rewrite Z in Hn. cbn in Hn. lia.
Qed.
End Wave.

(** However many CNOTs have marked their routes, and wherever those cross: the marked sides get their types back, every
    patch that was there is then as it was at the start, and all that is new are tiles of routes. *)
Theorem C66_wave : forall e pick stop w w', e_edpc e = true -> e_route e = plain_router (e_layout e) true pick stop -> valid_pick pick ->
  sized (l_furthest (e_layout e)) (w_slice w) -> (forall c p, tile_at (w_slice w) c = Some p -> p_act (dp p) <> AEDPC) ->
  s_rough (w_slice w) = [] -> s_smooth (w_slice w) = [] -> s_crossing (w_slice w) = [] -> routing e w w' ->
  exists s', give_back (w_slice w') = Ok s' /\ s_rough s' = [] /\ s_smooth s' = []
  /\ (forall c p, tile_at (w_slice w) c = Some p -> tile_at s' c = Some p)
  /\ (forall c p, tile_at (w_slice w) c = None -> tile_at s' c = Some p -> p_type (dp p) = TRouting /\ p_act (dp p) = AEDPC /\ p_id (dp p) = None).
Proof. intros e pick stop w w' He Er Hv Hs N0 R0 S0 C0 H. apply (marks_back (e_layout e)). now apply (routing_marks e pick stop w). Qed.
Print Assumptions C66_wave.

(** While the routes are marked: a patch that was there differs from what it was only in a label on a side, and a label on
    a side of a route tile faces a label, so that no two routes share a side. *)
Theorem C66_wave_labels : forall e pick stop w w', e_edpc e = true -> e_route e = plain_router (e_layout e) true pick stop -> valid_pick pick ->
  sized (l_furthest (e_layout e)) (w_slice w) -> (forall c p, tile_at (w_slice w) c = Some p -> p_act (dp p) <> AEDPC) ->
  s_rough (w_slice w) = [] -> s_smooth (w_slice w) = [] -> s_crossing (w_slice w) = [] -> routing e w w' ->
  let label t := t = BLabel1 \/ t = BLabel2 in
  (forall c p, tile_at (w_slice w) c = Some p -> exists p', tile_at (w_slice w') c = Some p' /\ dp p' = dp p
     /\ forall d, side (db p') d = side (db p) d
        \/ label (btype (side (db p') d)) /\ bactive (side (db p') d) = bactive (side (db p) d) /\ (btype (side (db p) d) = BRough \/ btype (side (db p) d) = BSmooth))
  /\ (forall c d p, tile_at (w_slice w) c = None -> tile_at (w_slice w') c = Some p -> label (btype (side (db p) d)) ->
     exists p', tile_at (w_slice w') (step c d) = Some p' /\ label (btype (side (db p') (dir_not d)))).
Proof.
  intros e pick stop w w' He Er Hv Hs N0 R0 S0 C0 H label. pose proof (routing_marks e pick stop w He Er Hv Hs N0 R0 S0 C0 w' H) as W.
  assert (Lb : forall t, is_label t = true <-> label t) by (intros []; unfold label; cbn; split; intros; try discriminate; auto; destruct H0; discriminate).
  split.
  - intros c p Hp. destruct (rs_kept _ _ _ _ (wm_rest _ _ _ W) c p Hp) as (q & Q1 & Q2 & Q3). exists q. split; [exact Q1|]. split; [exact Q2|]. intros d. destruct (Q3 d) as [A B].
    destruct B as [B|B]; [left|right].
    + destruct (side (db q) d), (side (db p) d). cbn in *. congruence.
    + repeat (apply conj); [|exact A|].
      * apply Lb. pose proof (wm_lab _ _ _ W c d B) as Z. unfold labb in Z. now rewrite Q1 in Z.
      * destruct B as [B|B]; [left; destruct (wm_rough _ _ _ W c d B) as (p0 & X & Y)|right; destruct (wm_smooth _ _ _ W c d B) as (p0 & X & Y)]; congruence.
  - intros c d p Hn Hp Hl. apply Lb in Hl. destruct (rs_paired _ _ _ _ (wm_rest _ _ _ W) c d Hn) as [[A _]|[]]; [unfold labb; now rewrite Hp|].
    unfold labb in A. destruct (tile_at (w_slice w') (step c d)) as [q|]; [|discriminate]. exists q. split; [reflexivity|]. now apply Lb.
Qed.
Print Assumptions C66_wave_labels.

(** Two CNOTs whose routes cross, and a third that is tried again once it has its route *)
From Verif Require BellCrossProps.
Definition marks_start : world := mkW (snd BellCrossProps.cross_start) 0 [].
Definition marks_end : world := Eval vm_compute in
  match (do a <- try_apply BellCrossProps.cross_env marks_start (mkI (BellCNOT 1 3 20 21 None None None None) 5 []) ;;
         try_apply BellCrossProps.cross_env (a_world a) (mkI (BellCNOT 0 2 22 23 None None None None) 5 [])) with
  | Ok z => a_world z | _ => marks_start end.
Example C66_wave_ex : routing BellCrossProps.cross_env marks_start marks_end
  /\ length (s_rough (w_slice marks_end)) = 2 /\ length (s_smooth (w_slice marks_end)) = 2 /\ s_crossing (w_slice marks_end) <> []
  /\ tile_at (w_slice marks_end) (mkCell 1 1) <> tile_at (w_slice marks_start) (mkCell 1 1)
  /\ exists s', give_back (w_slice marks_end) = Ok s' /\ (forall c p, tile_at (w_slice marks_start) c = Some p -> tile_at s' c = Some p).
Proof.
  assert (R : routing BellCrossProps.cross_env marks_start marks_end).
  { eapply (routing_next _ _ _ 0 2 22 23 None 5 []%N (mkA marks_end _ _ _)); [eapply (routing_next _ _ _ 1 3 20 21 None 5 []%N (mkA _ _ _ _)); [apply routing_none|discriminate|vm_compute; reflexivity]|discriminate|].
    vm_compute. reflexivity. }
  split; [exact R|]. split; [reflexivity|]. split; [reflexivity|]. split; [discriminate|]. split; [vm_compute; discriminate|].
  assert (Hs : sized (l_furthest (e_layout BellCrossProps.cross_env)) (w_slice marks_start)) by small_sized.
  destruct (C66_wave BellCrossProps.cross_env pick_min false marks_start marks_end eq_refl eq_refl pick_min_valid Hs) as (s' & A & _ & _ & B & _); try reflexivity; try exact R.
  - intros c p Hp. pose proof (proj2 (tiles_In _ _ c (Some p) Hs) (conj (tile_on _ _ _ _ Hs Hp) (eq_sym Hp))) as Z. vm_compute in Z.
    repeat (destruct Z as [Z|Z]; [try discriminate Z; injection Z as _ <-; discriminate|]). destruct Z.
  - exists s'. auto.
Qed.
