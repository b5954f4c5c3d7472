(** Crossing routes: what marking them does to the sides of the tiles. *)
From Verif Require Import Base PatchesModel LayoutModel LayoutSpec LayoutProofs InstrModel InstrSpec InstrProofs.
From Verif Require Import SliceModel SliceSpec SliceProofs RouterModel RouterSpec RouterProofs RouterProps ApplyModel ApplySpec ApplyProofs ApplyEffect ApplyBell MarksModel.
Open Scope nat_scope.

(** A side with a label *)
Definition labb (s : slice) (c : cell) (d : dir) : bool :=
  match tile_at s c with Some p => is_label (btype (side (db p) d)) | None => false end.
Lemma label_not : forall t, is_label t = true -> is_label (bt_not t) = true.
Proof. intros [] H; try discriminate; reflexivity. Qed.
Lemma towards_step : forall L c d n, neighbour_towards L c d = Some n -> n = step c d.
Proof.
  intros L c d n H. unfold neighbour_towards, get_directional_neighbor in H. destruct d; cbn in H |- *;
    repeat match type of H with (if ?b then _ else _) = _ => destruct b end; congruence.
Qed.
Lemma step_diff : forall c d, step c d <> c.
Proof. intros [r k] d H. destruct d; cbn in H; injection H as H; lia. Qed.
Lemma not_not : forall d, dir_not (dir_not d) = d. Proof. now destruct d. Qed.
Lemma back_towards : forall c d, side_towards (step c d) c = Some (dir_not d).
Proof. intros c d. apply side_towards_iff. symmetry. apply step_not. Qed.

Section Marks.
Variables (L : layout) (s0 : slice) (mk : cell -> dir -> Prop).
Let far := l_furthest L.

(** The tiles that were taken before any route was marked are as they were, up to the types of marked sides. *)
Definition kept (s : slice) : Prop := forall c p, tile_at s0 c = Some p -> exists p', tile_at s c = Some p' /\ dp p' = dp p
  /\ forall d, bactive (side (db p') d) = bactive (side (db p) d) /\ (btype (side (db p') d) = btype (side (db p) d) \/ mk c d).
(** A side that may get a label *)
Definition free_side (c : cell) (d : dir) : Prop := tile_at s0 c = None \/ mk c d.

(** Some sides got other labels, those in [N] got a label. *)
Record relab (N : cell -> dir -> Prop) (s s' : slice) : Prop := {
  re_sized : sized far s';
  re_rest : s_crossing s' = s_crossing s /\ s_rough s' = s_rough s /\ s_smooth s' = s_smooth s;
  re_dp : forall x p, tile_at s x = Some p -> exists p', tile_at s' x = Some p' /\ dp p' = dp p;
  re_none : forall x, tile_at s x = None -> tile_at s' x = None;
  re_more : forall x d, labb s x d = true -> labb s' x d = true;
  re_new : forall x d, labb s' x d = true -> labb s x d = true \/ N x d;
  re_same : forall x d p p', tile_at s x = Some p -> tile_at s' x = Some p' -> labb s' x d = false -> side (db p') d = side (db p) d;
  re_kept : kept s -> kept s' }.
Definition none (_ : cell) (_ : dir) : Prop := False.

Lemma relab_refl : forall N s, sized far s -> relab N s s.
Proof. intros N s H. split; auto; [intros x p Hp; exists p; auto|]. intros x d p p' H1 H2 _. congruence. Qed.
Lemma relab_trans : forall N s s1 s2, relab N s s1 -> relab N s1 s2 -> relab N s s2.
Proof.
  intros N s s1 s2 [A1 (A2 & A3 & A4) A5 A6 A7 A8 A0 A9] [B1 (B2 & B3 & B4) B5 B6 B7 B8 B0 B9]. split; auto; [repeat split; congruence| | |].
  - intros x p Hp. destruct (A5 x p Hp) as (p1 & H1 & E1). destruct (B5 x p1 H1) as (p2 & H2 & E2). exists p2. split; congruence.
  - intros x d H. destruct (B8 x d H); auto.
  - intros x d p p2 H1 H2 Hl. destruct (A5 x p H1) as (p1 & H3 & _). rewrite (B0 x d p1 p2 H3 H2 Hl). apply (A0 x d p p1 H1 H3).
    destruct (labb s1 x d) eqn:E; [|reflexivity]. apply B7 in E. congruence.
Qed.
Lemma relab_weaken : forall (N N' : cell -> dir -> Prop) s s', (forall x d, N x d -> N' x d) -> relab N s s' -> relab N' s s'.
Proof. intros N N' s s' H [A1 A2 A5 A6 A7 A8 A0 A9]. split; auto. intros x d Hl. destruct (A8 x d Hl); auto. Qed.
Lemma relab_labb : forall s s' x d, relab none s s' -> labb s' x d = labb s x d.
Proof.
  intros s s' x d R. destruct (labb s x d) eqn:E; [now apply (re_more _ _ _ R)|]. destruct (labb s' x d) eqn:E'; [|reflexivity].
  destruct (re_new _ _ _ R x d E') as [X|[]]. congruence.
Qed.
Lemma relab_tile : forall N s s' x, relab N s s' -> (tile_at s' x = None <-> tile_at s x = None).
Proof.
  intros N s s' x R. split; [|apply (re_none _ _ _ R)]. intros H. destruct (tile_at s x) as [p|] eqn:E; [|reflexivity].
  destruct (re_dp _ _ _ R x p E) as (p' & H' & _). congruence.
Qed.

Lemma write_relab : forall s c d t a s', sized far s -> write_ref s (c, d) (mkB t a) = Ok s' -> is_label t = true ->
  (tile_at s0 c = None \/ mk c d /\ forall p, tile_at s c = Some p -> a = bactive (side (db p) d)) ->
  relab (fun x y => x = c /\ y = d) s s' /\ labb s' c d = true.
Proof.
  intros s c d t a s' Hs H Ht Hf. apply (write_ref_inv far) in H as (p & Hp & Ho & ->); auto.
  assert (E : forall x, tile_at (put s c (Some (mkDP (dp p) (set_side (db p) d (mkB t a))))) x = if cell_eqb c x then Some (mkDP (dp p) (set_side (db p) d (mkB t a))) else tile_at s x)
    by (intros x; apply (tile_put far); auto).
  assert (Z : forall x y, labb (put s c (Some (mkDP (dp p) (set_side (db p) d (mkB t a))))) x y = if cell_eqb c x && dir_eqb d y then true else labb s x y).
  { intros x y. unfold labb. rewrite E. destruct (cell_eqb_spec c x) as [<-|Nx]; [|reflexivity]. cbn [db]. rewrite side_set_side. rewrite Hp.
    destruct (dir_eqb d y); cbn [andb btype]; [exact Ht|reflexivity]. }
  split.
  - split; [apply sized_put; auto|cbn; auto|..].
    + intros x q Hq. rewrite E. destruct (cell_eqb_spec c x) as [<-|Nx]; [|exists q; auto]. eexists. split; [reflexivity|]. cbn. congruence.
    + intros x Hx. rewrite E. destruct (cell_eqb_spec c x) as [<-|Nx]; [congruence|exact Hx].
    + intros x y Hl. rewrite Z. destruct (_ && _); auto.
    + intros x y Hl. rewrite Z in Hl. destruct (cell_eqb_spec c x) as [<-|Nx]; [|auto]. destruct d, y; cbn in Hl; auto.
    + intros x y q q' Hq Hq' Hl. rewrite Z in Hl. rewrite E in Hq'. destruct (cell_eqb_spec c x) as [<-|Nx]; [|congruence]. injection Hq' as <-. cbn [db]. rewrite side_set_side.
      assert (q = p) by congruence. subst q. destruct (dir_eqb d y); [discriminate|reflexivity].
    + intros K x q Hq. destruct (K x q Hq) as (p1 & P1 & D1 & S1). rewrite E. destruct (cell_eqb_spec c x) as [<-|Nx]; [|exists p1; auto].
      assert (p1 = p) by congruence. subst p1. eexists. split; [reflexivity|]. split; [exact D1|]. intros y. cbn [db]. rewrite side_set_side.
      destruct (dir_eqb d y) eqn:Dy; [|apply S1]. assert (y = d) by (destruct d, y; try discriminate; reflexivity). subst y.
      destruct Hf as [Hf|[Hm Ha]]; [congruence|]. cbn [bactive btype]. split; [|now right]. rewrite (Ha p Hp). apply S1.
  - rewrite Z. rewrite cell_eqb_refl. now destruct d.
Qed.
Lemma type_relab : forall s c d t s', sized far s -> set_ref_type s (c, d) t = Ok s' -> is_label t = true -> free_side c d ->
  relab (fun x y => x = c /\ y = d) s s' /\ labb s' c d = true.
Proof.
  intros s c d t s' Hs H Ht Hf. unfold set_ref_type in H. bstep H. apply (read_ref_inv far) in H0 as (p & Hp & ->); auto.
  eapply write_relab; eauto. destruct Hf as [Hf|Hf]; [auto|right]. split; [exact Hf|]. intros q Hq. congruence.
Qed.
Lemma already : forall (s s' : slice) c d, labb s c d = true -> relab (fun x y => x = c /\ y = d) s s' -> relab none s s'.
Proof. intros s s' c d H [A1 A2 A5 A6 A7 A8 A0 A9]. split; auto. intros x y Hl. destruct (A8 x y Hl) as [X|[-> ->]]; auto. Qed.
Lemma flip_relab : forall s c d s', sized far s -> flip_ref s (c, d) = Ok s' -> labb s c d = true -> free_side c d -> relab none s s'.
Proof.
  intros s c d s' Hs H Hl Hf. unfold flip_ref in H. bstep H. apply (read_ref_inv far) in H0 as (p & Hp & ->); auto.
  apply (already _ _ c d Hl). eapply write_relab; eauto.
  - apply label_not. unfold labb in Hl. now rewrite Hp in Hl.
  - destruct Hf as [Hf|Hf]; [auto|right]. split; [exact Hf|]. intros q Hq. congruence.
Qed.

(** The other side of the edge has a label as well. *)
Definition led (s : slice) (c : cell) (d : dir) : Prop := labb s (step c d) (dir_not d) = true /\ free_side (step c d) (dir_not d).
Lemma led_same : forall s s' c d, relab none s s' -> led s c d -> led s' c d.
Proof. intros s s' c d R [A B]. split; [now rewrite (relab_labb _ _ _ _ R)|exact B]. Qed.
Lemma led_more : forall N s s' c d, relab N s s' -> led s c d -> led s' c d.
Proof. intros N s s' c d R [A B]. split; [now apply (re_more _ _ _ R)|exact B]. Qed.

Lemma flip_conj_relab : forall s c d s', sized far s -> flip_conjugate s (step c d) c = Ok s' -> led s c d -> relab none s s'.
Proof.
  intros s c d s' Hs H [Hl Hf]. unfold flip_conjugate in H. bstep H. apply (boundary_ref_inv far) in H0 as [_ ->]; auto.
  rewrite back_towards in H. destruct (tile_at s (step c d)); [|injection H as <-; now apply relab_refl]. eapply flip_relab; eauto.
Qed.
Lemma label_conj_relab : forall s c d t s', sized far s -> label_conjugate s (step c d) c t = Ok s' -> is_label t = true -> free_side (step c d) (dir_not d) ->
  relab (fun x y => x = step c d /\ y = dir_not d) s s' /\ (tile_at s (step c d) <> None -> labb s' (step c d) (dir_not d) = true).
Proof.
  intros s c d t s' Hs H Ht Hf. unfold label_conjugate in H. bstep H. apply (boundary_ref_inv far) in H0 as [_ ->]; auto.
  rewrite back_towards in H. destruct (tile_at s (step c d)) eqn:E; [|injection H as <-; split; [now apply relab_refl|congruence]].
  destruct (type_relab _ _ _ _ _ Hs H Ht Hf). auto.
Qed.

(** On tiles of routes every label leads to a label, apart from the end of the route being marked. *)
Variable exc : cell -> dir -> Prop.
Definition paired (s : slice) : Prop := forall c d, tile_at s0 c = None -> labb s c d = true -> led s c d \/ exc c d.
Definition crossings (s : slice) : Prop := forall c, In c (s_crossing s) -> tile_at s0 c = None /\ tile_at s c <> None /\ forall d, ~ exc c d.
Lemma paired_same : forall s s', relab none s s' -> paired s -> paired s'.
Proof. intros s s' R P c d Hc Hl. rewrite (relab_labb _ _ _ _ R) in Hl. destruct (P c d Hc Hl); [left; eapply led_same; eauto|auto]. Qed.
Lemma crossings_same : forall s s', relab none s s' -> crossings s -> crossings s'.
Proof.
  intros s s' R X c Hc. rewrite (proj1 (re_rest _ _ _ R)) in Hc. destruct (X c Hc) as (A & B & C). repeat split; auto.
  intro H. apply B. now apply (relab_tile _ _ _ _ R).
Qed.
Record sound (s : slice) : Prop := { so_sized : sized far s; so_paired : paired s; so_cross : crossings s }.
Lemma sound_same : forall s s', relab none s s' -> sound s -> sound s'.
Proof. intros s s' R [A B C]. split; [apply R|eapply paired_same; eauto|eapply crossings_same; eauto]. Qed.

Lemma flip_pair : forall s c d s1 s2, sound s -> tile_at s0 c = None -> (forall y, ~ exc c y) -> labb s c d = true ->
  flip_ref s (c, d) = Ok s1 -> flip_conjugate s1 (step c d) c = Ok s2 -> relab none s s2.
Proof.
  intros s c d s1 s2 [Hs P X] Hc Ne Hl H1 H2. pose proof (flip_relab _ _ _ _ Hs H1 Hl (or_introl Hc)) as R1.
  eapply relab_trans; [exact R1|]. eapply flip_conj_relab; [apply R1|exact H2|]. eapply led_same; [exact R1|]. destruct (P c d Hc Hl) as [|E]; [auto|destruct (Ne d E)].
Qed.

Lemma flip_side_relab : forall s c d d' s', sound s -> In c (s_crossing s) -> flip_side L c d s d' = Ok s' -> relab none s s'.
Proof.
  intros s c d d' s' So Hc H. pose proof So as [Hs P X]. unfold flip_side in H. destruct (neighbour_towards L c d') as [n|] eqn:En; [|discriminate].
  apply towards_step in En. subst n. bstep H. apply (read_ref_inv far) in H0 as (p & Hp & ->); auto.
  destruct (is_label (btype (side (db p) d'))) eqn:Hl; cbn [negb] in H; [|discriminate].
  destruct (dir_eqb d' (dir_not d)); [injection H as <-; now apply relab_refl|]. bstep H.
  destruct (X c Hc) as (A & _ & Ne). eapply flip_pair; eauto. unfold labb. now rewrite Hp.
Qed.
Lemma flip_sides_relab : forall l s c d s', sound s -> In c (s_crossing s) -> foldM (flip_side L c d) l s = Ok s' -> relab none s s'.
Proof.
  induction l as [|y l IH]; intros s c d s' So Hc H; cbn [foldM] in H; [injection H as <-; apply relab_refl; apply So|].
  bstep H. apply flip_side_relab in H0; auto. eapply relab_trans; [exact H0|]. eapply IH; [eapply sound_same; eauto| |exact H].
  now rewrite (proj1 (re_rest _ _ _ H0)).
Qed.
Lemma chain_relab : forall fuel s c d s', sound s -> flip_crossing_chain fuel L s c d = Ok s' -> relab none s s'.
Proof.
  induction fuel as [|f IH]; intros s c d s' So H; [discriminate|]. cbn [flip_crossing_chain] in H.
  destruct (mem_cell c (s_crossing s)) eqn:Hc; cbn [negb] in H; [|discriminate]. apply mem_cell_In in Hc.
  bstep H. destruct x as [p|]; [|discriminate]. bstep H. apply flip_sides_relab in H1; auto.
  destruct (neighbour_towards L c d) as [n|]; [|injection H as <-; auto].
  destruct (mem_cell n (s_crossing x)); [|injection H as <-; auto].
  eapply relab_trans; [exact H1|]. eapply IH; [eapply sound_same; eauto|exact H].
Qed.
Lemma follow_relab : forall s n d ci nc s' ci' nc', sound s -> follow_chain L s n d ci nc = Ok (s', ci', nc') -> relab none s s'.
Proof.
  intros s n d ci nc s' ci' nc' So H. unfold follow_chain in H. destruct (mem_cell n (s_crossing s)).
  - bstep H. injection H as <- _ _. eapply chain_relab; eauto.
  - injection H as <- _ _. apply relab_refl, So.
Qed.

(** One side of a crossing tile *)
Ltac fives := refine (conj _ (conj _ (conj _ (conj _ (conj _ _))))).
Lemma cross_side_relab : forall s c prev pd pc tmp ci nc nr d s' tmp' ci' nc' nr', sound s -> tile_at s0 c = None -> (forall y, ~ exc c y) ->
  (forall t, tmp = Some t -> labb s c t = true) ->
  cross_side L c prev pd pc (s, tmp, ci, nc, nr) d = Ok (s', tmp', ci', nc', nr') ->
  relab none s s' /\ (forall t, tmp' = Some t -> labb s' c t = true) /\ nr' = (if labb s c d then S nr else nr)
  /\ (labb s c d = false -> exists p, tile_at s c = Some p /\ btype (side (db p) d) = BNone) /\ (labb s c d = true -> step c d = prev -> pc = true) /\ neighbour_towards L c d = Some (step c d).
Proof.
  intros s c prev pd pc tmp ci nc nr d s' tmp' ci' nc' nr' So Hc Ne Ht H. pose proof So as [Hs P X]. unfold cross_side in H.
  destruct (neighbour_towards L c d) as [n|] eqn:En; [|discriminate]. pose proof (towards_step _ _ _ _ En). subst n.
  bstep H. apply (read_ref_inv far) in H0 as (p & Hp & ->); auto.
  assert (El : labb s c d = is_label (btype (side (db p) d))) by (unfold labb; now rewrite Hp). rewrite El.
  destruct (is_label (btype (side (db p) d))) eqn:Hl.
  - destruct (cell_eqb_spec (step c d) prev) as [Ep|Np].
    + destruct pc; [|discriminate]. injection H as <- <- <- <- <-. fives; auto; try discriminate. apply relab_refl; auto.
    + destruct tmp as [t|].
      * bstep H. destruct (negb _).
        -- bstep H. bstep H. bstep H. destruct x2 as [[s3 ci3] nc3]. injection H as <- <- <- <- <-.
           pose proof (flip_relab _ _ _ _ Hs H1 El (or_introl Hc)) as R1.
           assert (Ld : led s c d) by (destruct (P c d Hc El) as [|E]; [auto|destruct (Ne d E)]).
           pose proof (led_same _ _ _ _ R1 Ld) as Ld1.
           destruct (label_conj_relab _ _ _ _ _ (re_sized _ _ _ R1) H2 (label_not _ Hl) (proj2 Ld1)) as [R2 _]. apply (already _ _ _ _ (proj1 Ld1)) in R2.
           pose proof (relab_trans _ _ _ _ R1 R2) as R3. apply follow_relab in H3; [|eapply sound_same; eauto]. pose proof (relab_trans _ _ _ _ R3 H3) as R4.
           fives; auto; try discriminate; try congruence. intros t' E. injection E as <-. rewrite (relab_labb _ _ _ _ R4). auto.
        -- injection H as <- <- <- <- <-. fives; auto; try discriminate; try congruence. apply relab_refl; auto.
      * bstep H. destruct (btype_eqb _ _).
        -- bstep H. bstep H. bstep H. destruct x2 as [[s3 ci3] nc3]. injection H as <- <- <- <- <-.
           pose proof (flip_pair _ _ _ _ _ So Hc Ne El H1 H2) as R3. apply follow_relab in H3; [|eapply sound_same; eauto]. pose proof (relab_trans _ _ _ _ R3 H3) as R4.
           fives; auto; try discriminate; try congruence. intros t' E. injection E as <-. rewrite (relab_labb _ _ _ _ R4). auto.
        -- injection H as <- <- <- <- <-. fives; auto; try discriminate; try congruence; solve [apply relab_refl; auto|intros t' E; injection E as <-; exact El].
  - destruct (btype (side (db p) d)) eqn:Eb; cbn in H; try discriminate. injection H as <- <- <- <- <-. fives; auto; try discriminate; [apply relab_refl; auto|]. intros _. exists p. auto.
Qed.
Fixpoint labels (s : slice) (c : cell) (l : list dir) : nat := match l with [] => 0 | d :: l' => (if labb s c d then 1 else 0) + labels s c l' end.
Lemma labels_same : forall s s' c l, relab none s s' -> labels s' c l = labels s c l.
Proof. intros s s' c l R. induction l as [|d l IH]; [reflexivity|]. cbn. now rewrite IH, (relab_labb _ _ _ _ R). Qed.
Lemma cross_fold_relab : forall l s c prev pd pc tmp ci nc nr s' tmp' ci' nc' nr', sound s -> tile_at s0 c = None -> (forall y, ~ exc c y) ->
  (forall t, tmp = Some t -> labb s c t = true) ->
  foldM (cross_side L c prev pd pc) l (s, tmp, ci, nc, nr) = Ok (s', tmp', ci', nc', nr') ->
  relab none s s' /\ (forall t, tmp' = Some t -> labb s' c t = true) /\ nr' = nr + labels s c l
  /\ (forall d, In d l -> labb s c d = true -> step c d = prev -> pc = true)
  /\ (forall d, In d l -> neighbour_towards L c d = Some (step c d) /\ forall p, labb s c d = false -> tile_at s c = Some p -> btype (side (db p) d) = BNone).
Proof.
  induction l as [|d l IH]; intros s c prev pd pc tmp ci nc nr s' tmp' ci' nc' nr' So Hc Ne Ht H; cbn [foldM] in H.
  - injection H as <- <- <- <- <-. cbn. repeat (apply conj); auto; [apply relab_refl, So|contradiction].
  - apply bind_ok in H as ([[[[s2 tm2] c2] n3] n4] & H1 & H). apply cross_side_relab in H1; auto. destruct H1 as (R1 & T1 & N1 & B1 & P1 & E1).
    apply IH in H; auto; [|eapply sound_same; eauto]. destruct H as (R2 & T2 & N2 & P2 & B2). repeat (apply conj); auto.
    + eapply relab_trans; eauto.
    + rewrite N2, N1, (labels_same _ _ _ _ R1). cbn [labels]. destruct (labb s c d); lia.
    + intros y [<-|Hy] Hl E; [auto|]. apply (P2 y Hy); [now rewrite (relab_labb _ _ _ _ R1)|exact E].
    + intros y [<-|Hy].
      * split; [exact E1|]. intros p Hl Hp. destruct (B1 Hl) as (p' & Hp' & X). congruence.
      * destruct (B2 y Hy) as [X Y]. split; [exact X|]. intros p Hl Hp. destruct (re_dp _ _ _ R1 c p Hp) as (p' & Hp' & _).
        rewrite <- (relab_labb _ _ c y R1) in Hl. rewrite <- (re_same _ _ _ R1 c y p p' Hp Hp' Hl). now apply Y.
Qed.

(** Labelling the free sides of a crossing tile *)
Definition fresh (s : slice) (c : cell) (x : cell) (y : dir) : Prop :=
  x = c /\ labb s c y = false \/ exists d, labb s c d = false /\ x = step c d /\ y = dir_not d.
Lemma label_sides_relab : forall l t s c s', sized far s -> is_label t = true -> tile_at s0 c = None ->
  (forall d, labb s c d = false -> free_side (step c d) (dir_not d)) ->
  (forall d, neighbour_towards L c d = Some (step c d) /\ forall p, labb s c d = false -> tile_at s c = Some p -> btype (side (db p) d) = BNone) ->
  foldM (label_side L c t) l s = Ok s' ->
  relab (fresh s c) s s'
  /\ (forall d, In d l -> labb s' c d = true /\ (labb s c d = false -> tile_at s (step c d) <> None -> labb s' (step c d) (dir_not d) = true)).
Proof.
  induction l as [|d l IH]; intros t s c s' Hs Ht Hc Hf Hb H; cbn [foldM] in H.
  - injection H as <-. split; [now apply relab_refl|contradiction].
  - bstep H.
    assert (K : relab (fresh s c) s x /\ labb x c d = true /\ (labb s c d = false -> tile_at s (step c d) <> None -> labb x (step c d) (dir_not d) = true)
      /\ forall y, labb x c y = true -> labb s c y = true \/ y = d).
    { unfold label_side in H0. destruct (Hb d) as [Ed Bd]. rewrite Ed in H0. bstep H0. apply (read_ref_inv far) in H1 as (p & Hp & ->); auto.
      assert (El : labb s c d = is_label (btype (side (db p) d))) by (unfold labb; now rewrite Hp).
      destruct (labb s c d) eqn:Hl.
      - destruct (btype (side (db p) d)) eqn:Eb; try discriminate El; cbn in H0; injection H0 as <-; (split; [now apply relab_refl|split; [exact Hl|split; [discriminate|auto]]]).
      - rewrite (Bd p eq_refl Hp) in H0. cbn in H0. bstep H0.
        destruct (write_relab _ _ _ _ _ _ Hs H1 Ht (or_introl Hc)) as [R1 L1].
        destruct (label_conj_relab _ _ _ _ _ (re_sized _ _ _ R1) H0 Ht (Hf d Hl)) as [R2 L2].
        split; [|split; [now apply (re_more _ _ _ R2)|split]].
        + eapply relab_trans; [eapply relab_weaken; [|exact R1]|eapply relab_weaken; [|exact R2]].
          * intros x1 y1 [-> ->]. now left.
          * intros x1 y1 [-> ->]. right. exists d. auto.
        + intros _ Hn. apply L2. intro Z. apply Hn. now apply (relab_tile _ _ _ _ R1).
        + intros y Hy. destruct (re_new _ _ _ R2 c y Hy) as [Z|[Z _]]; [|symmetry in Z; destruct (step_diff c d Z)].
          destruct (re_new _ _ _ R1 c y Z) as [|[_ ->]]; auto. }
    destruct K as (R1 & L1 & C1 & O1).
    assert (Un : forall y, labb x c y = false -> labb s c y = false) by (intros y E; destruct (labb s c y) eqn:E'; [apply (re_more _ _ _ R1) in E'; congruence|reflexivity]).
    apply IH in H; auto; [|apply R1|].
    + destruct H as [R2 L2]. split.
      * eapply relab_trans; [exact R1|]. eapply relab_weaken; [|exact R2]. intros x1 y1 [[-> A]|(d1 & A & B & C)]; [left; auto|right; exists d1; auto].
      * intros y [<-|Hy]; [split; [now apply (re_more _ _ _ R2)|intros A B; apply (re_more _ _ _ R2); auto]|].
        destruct (L2 y Hy) as [A B]. split; [exact A|]. intros Hl Hn. destruct (labb x c y) eqn:E.
        -- apply (re_more _ _ _ R2). destruct (O1 y E) as [X|X]; [congruence|]. subst y. auto.
        -- apply B; [reflexivity|]. intro Z. apply Hn. now apply (relab_tile _ _ _ _ R1).
    + intros y. destruct (Hb y) as [A B]. split; [exact A|]. intros p' Hl Hp'. destruct (tile_at s c) as [p|] eqn:Hp; [|apply (re_none _ _ _ R1) in Hp; congruence].
      rewrite (re_same _ _ _ R1 c y p p' Hp Hp' Hl). apply B; auto.
Qed.
End Marks.

Arguments none : clear implicits.

Section Route.
Variables (L : layout) (s0 : slice) (mk : cell -> dir -> Prop).
Let far := l_furthest L.
Hypothesis N0 : forall c p, tile_at s0 c = Some p -> p_act (dp p) <> AEDPC.

(** A tile where routes cross: two sides are taken, the others are those of the new route. *)
Lemma crossing_relab : forall exc s c pd nd s' lab, sound L s0 mk exc s -> tile_at s0 c = None -> (forall y, ~ exc c y) -> pd <> nd ->
  labb s c nd = false -> free_side s0 mk (step c pd) (dir_not pd) -> free_side s0 mk (step c nd) (dir_not nd) ->
  mark_boundaries_for_crossing_cell L s c (step c pd) = Ok (s', lab) ->
  relab L s0 mk (fresh s c) s s' /\ is_label lab = true /\ (forall d, labb s' c d = true)
  /\ (forall d, labb s c d = false -> (d = pd \/ d = nd) /\ (tile_at s (step c d) <> None -> labb s' (step c d) (dir_not d) = true)).
Proof.
  intros exc s c pd nd s' lab So Hc Ne Hpn Hn Fp Fn H. pose proof So as [Hs P X]. unfold mark_boundaries_for_crossing_cell in H. bstep H.
  destruct x as [p|]; [|discriminate]. bstep H. set (pc := mem_cell (step c pd) (s_crossing s)) in *. ifd H.
  bstep H. destruct x0 as [[[[s1 tmp] ci] nc] nr].
  apply (cross_fold_relab L s0 mk exc) in H2; auto; [|discriminate]. destruct H2 as (R1 & T1 & Nr & Pc & Bn). cbn [plus] in Nr.
  ifd H. bstep H. destruct x0; cbn [negb] in H; [|discriminate].
  destruct (nr =? 4) eqn:E4; [discriminate|]. destruct ((nr =? 3) && negb pc) eqn:E3; [discriminate|]. destruct ((nr =? 2) && pc) eqn:E2; [discriminate|].
  destruct (nr <? 2) eqn:E1; [discriminate|]. bstep H. destruct tmp as [t|]; [|discriminate]. cbn [deref] in H3. injection H3 as <-. bstep H. bstep H. injection H as <- <-.
  apply (read_ref_inv far) in H3 as (q & Hq & ->); [|apply R1].
  assert (Il : is_label (bt_not (btype (side (db q) t))) = true). { apply label_not. specialize (T1 t eq_refl). unfold labb in T1. now rewrite Hq in T1. }
  assert (Two : forall d, labb s c d = false -> d = pd \/ d = nd).
  { assert (Pp : pc = false -> labb s c pd = false).
    { intros E. destruct (labb s c pd) eqn:El; [|reflexivity]. rewrite (Pc pd) in E; [discriminate|destruct pd; cbn; auto|exact El|reflexivity]. }
    unfold labels, all_dirs in Nr. intros d Hd.
    destruct pc.
    - assert (nr <> 2) by (intros ->; discriminate). assert (nr <> 4) by (intros ->; discriminate). assert (2 <= nr) by (apply Nat.ltb_ge; exact E1).
      destruct d, nd; auto; rewrite ?Hd, ?Hn in Nr; repeat match type of Nr with context [if ?b then _ else _] => destruct b end; cbn in Nr; lia.
    - assert (nr <> 3) by (intros ->; discriminate). assert (nr <> 4) by (intros ->; discriminate). assert (2 <= nr) by (apply Nat.ltb_ge; exact E1). specialize (Pp eq_refl).
      destruct d, nd, pd; auto; try congruence; rewrite ?Hd, ?Hn, ?Pp in Nr; repeat match type of Nr with context [if ?b then _ else _] => destruct b end; cbn in Nr; lia. }
  match goal with X : foldM (label_side _ _ _) _ _ = Ok _ |- _ => rename X into H5 end.
  apply (label_sides_relab L s0 mk) in H5; auto; [|apply R1| |].
  - destruct H5 as [R2 L2]. assert (R3 : relab L s0 mk (fresh s c) s x1).
    { eapply relab_trans; [eapply relab_weaken; [|exact R1]; intros ? ? []|]. eapply relab_weaken; [|exact R2].
      intros x2 y2 [[-> A]|(d1 & A & B & C)]; rewrite (relab_labb _ _ _ _ _ _ _ R1) in A; [left; auto|right; exists d1; auto]. }
    assert (Al : forall d, In d all_dirs) by (intros []; cbn; auto).
    split; [exact R3|]. split; [exact Il|]. split; [intros d; apply (L2 d (Al d))|]. intros d Hd. split; [auto|]. intros Hx. apply (L2 d (Al d)); [now rewrite (relab_labb _ _ _ _ _ _ _ R1)|].
    intro Z. apply Hx. now apply (relab_tile _ _ _ _ _ _ _ R1).
  - intros d Hd. rewrite (relab_labb _ _ _ _ _ _ _ R1) in Hd. destruct (Two d Hd) as [->| ->]; auto.
  - intros d. destruct (Bn d ltac:(destruct d; cbn; auto)) as [A B]. split; [exact A|]. intros p' Hl Hp'.
    assert (exists p0, tile_at s c = Some p0) as (p0 & Hp0). { destruct (tile_at s c) as [p0|] eqn:E; [eauto|]. apply (re_none _ _ _ _ _ _ R1) in E. congruence. }
    rewrite (re_same _ _ _ _ _ _ R1 c d p0 p' Hp0 Hp' Hl). rewrite (relab_labb _ _ _ _ _ _ _ R1) in Hl. now apply B.
Qed.

(** Between two CNOTs *)
Record rested (s : slice) : Prop := {
  rs_sized : sized far s; rs_kept : kept s0 mk s; rs_paired : paired s0 mk none s;
  rs_cross : forall c, In c (s_crossing s) -> tile_at s0 c = None /\ tile_at s c <> None;
  rs_wire : forall c p, tile_at s0 c = None -> tile_at s c = Some p -> p_type (dp p) = TRouting /\ p_act (dp p) = AEDPC /\ p_id (dp p) = None }.
(** While a route is marked, which came to [prev] and goes on to [cur] *)
Definition pending_end (prev cur : cell) (s : slice) (x : cell) (d : dir) : Prop :=
  x = prev /\ step x d = cur /\ (tile_at s cur = None \/ ~ In x (s_crossing s)).
Record going (prev cur : cell) (s : slice) : Prop := {
  go_sized : sized far s; go_kept : kept s0 mk s; go_paired : paired s0 mk (pending_end prev cur s) s;
  go_cross : forall c, In c (s_crossing s) -> tile_at s0 c = None /\ tile_at s c <> None;
  go_wire : forall c p, tile_at s0 c = None -> tile_at s c = Some p -> p_type (dp p) = TRouting /\ p_act (dp p) = AEDPC /\ p_id (dp p) = None;
  go_prev : exists d, cur = step prev d /\ labb s prev d = true /\ free_side s0 mk prev d }.
(** The rest of the way is not taken. *)
Definition untaken (s : slice) : list cell -> Prop :=
  consecutive (fun x y => forall d, y = step x d -> tile_at s0 x = None -> labb s x d = false).
Definition steps : list cell -> Prop := consecutive (fun x y => exists d, y = step x d).

Lemma relabel_label : forall label mark b, is_label label = true -> mark = mkB BLabel1 true ->
  is_label (btype (relabel label (if b : bool then mark else mkB BNone false))) = b.
Proof. intros label mark b Hl ->. destruct label, b; try discriminate; reflexivity. Qed.
Lemma relabel_side : forall t sc d, side (sc_b (relabel4 t sc)) d = relabel t (side (sc_b sc) d).
Proof. intros t sc []; reflexivity. Qed.

Lemma place_going : forall opid label prev sc next s s', going prev (sc_cell sc) s -> is_label label = true -> tile_at s0 (sc_cell sc) = None -> tile_at s (sc_cell sc) = None ->
  joined_to (mkB BLabel1 true) sc prev next -> (exists nd, next = step (sc_cell sc) nd) ->
  place_routing s (relabel4 label sc) AEDPC opid = Ok s' ->
  going (sc_cell sc) next s' /\ (forall x, x <> sc_cell sc -> tile_at s' x = tile_at s x) /\ s_rough s' = s_rough s /\ s_smooth s' = s_smooth s.
Proof.
  intros opid label prev sc next s s' [Hs K P Cr Wi (dp0 & Ep & Lp & Fp)] Hl H0c Hc J (nd & En) H. set (c := sc_cell sc) in *.
  unfold place_routing, place_sparse in H. cbn [sp_cells] in H. bstep H. destruct x as [s3 c3].
  eapply (place_single_inv far) in H0 as (Ec & _ & Ho & E3); auto. 2: reflexivity. cbn [sp_patch] in E3. change (sc_cell (relabel4 label sc)) with c in Ec. subst c3.
  assert (s' = s3) by congruence. subst s' s3. clear H. set (q := mkDP (mkPatch TRouting AEDPC None None opid) (sc_b (relabel4 label sc))).
  assert (E : forall x, tile_at (put s c (Some q)) x = if cell_eqb c x then Some q else tile_at s x) by (intros x; apply (tile_put far); auto).
  assert (Eo : forall x, x <> c -> tile_at (put s c (Some q)) x = tile_at s x) by (intros x Nx; rewrite E; destruct (cell_eqb_spec c x); [congruence|reflexivity]).
  assert (Lo : forall x d, x <> c -> labb (put s c (Some q)) x d = labb s x d) by (intros x d Nx; unfold labb; now rewrite Eo).
  assert (Lc : forall d, labb (put s c (Some q)) c d = cell_eqb (step c d) prev || cell_eqb (step c d) next).
  { intros d. unfold labb. rewrite E, cell_eqb_refl. unfold q. cbn [db]. rewrite relabel_side, (J d). apply relabel_label; auto. }
  assert (Np : prev <> c) by (intros ->; symmetry in Ep; exact (step_diff _ _ Ep)).
  assert (Un : forall x d, step x d = c -> led s0 mk s x d -> False).
  { intros x d Ex [A _]. rewrite Ex in A. unfold labb in A. now rewrite Hc in A. }
  split; [|split; [exact Eo|split; reflexivity]]. split.
  - apply sized_put; auto.
  - intros x p Hp. destruct (K x p Hp) as (p' & A & B). exists p'. split; [|exact B]. rewrite Eo; [exact A|congruence].
  - intros x d Hx Hd. destruct (cell_eqb_spec x c) as [->|Nx].
    + rewrite Lc in Hd. destruct (cell_eqb_spec (step c d) prev) as [Ed|Nd].
      * left. assert (D0 : dir_not d = dp0). { apply (step_inj prev). rewrite <- Ep, <- Ed. apply step_not. }
        unfold led. rewrite Ed, D0. split; [now rewrite Lo|exact Fp].
      * cbn in Hd. apply cell_eqb_eq in Hd. right. split; [reflexivity|]. split; [exact Hd|]. right. cbn. intro Z. now apply (proj2 (Cr c Z)).
    + rewrite Lo in Hd by auto. destruct (P x d Hx Hd) as [Ld|(-> & Ex & _)].
      * left. destruct Ld as [A B]. split; [|exact B]. rewrite Lo; [exact A|]. intro Z. exact (Un x d Z (conj A B)).
      * left. unfold led. rewrite Ex. split; [|left; exact H0c]. rewrite Lc. assert (step c (dir_not d) = prev) by (rewrite <- Ex; apply step_not).
        rewrite H, cell_eqb_refl. reflexivity.
  - intros x Hx. cbn in Hx. destruct (Cr x Hx) as [A B]. split; [exact A|]. rewrite Eo; [exact B|]. intros ->. congruence.
  - intros x p Hx Hp. destruct (cell_eqb_spec x c) as [->|Nx]; [|rewrite Eo in Hp by auto; now apply (Wi x)]. rewrite E, cell_eqb_refl in Hp. injection Hp as <-. auto.
  - exists nd. split; [exact En|]. split; [rewrite Lc, En, cell_eqb_refl; apply orb_true_r|left; exact H0c].
Qed.

Lemma crossing_going : forall prev c nd s s' lab, going prev c s -> tile_at s0 c = None -> tile_at s c <> None -> prev <> step c nd -> labb s c nd = false ->
  free_side s0 mk (step c nd) (dir_not nd) ->
  mark_boundaries_for_crossing_cell L (with_crossing s (cset_insert c (s_crossing s))) c prev = Ok (s', lab) ->
  going c (step c nd) s' /\ is_label lab = true /\ (forall x d, labb s x d = true -> labb s' x d = true)
  /\ (forall x d, labb s' x d = true -> labb s x d = true \/ x = c \/ step x d = c) /\ (forall x, tile_at s' x = None <-> tile_at s x = None)
  /\ s_rough s' = s_rough s /\ s_smooth s' = s_smooth s.
Proof.
  intros prev c nd s s' lab [Hs K P Cr Wi (dp0 & Ep & Lp & Fp)] H0c Hc Nn Ln Fn H. set (s1 := with_crossing s (cset_insert c (s_crossing s))) in *.
  pose (exc := fun x d => x = prev /\ step x d = c /\ ~ In x (s_crossing s)).
  assert (Np : c <> prev) by (intros ->; symmetry in Ep; exact (step_diff _ _ Ep)).
  assert (Eprev : prev = step c (dir_not dp0)) by (rewrite Ep; symmetry; apply step_not).
  assert (So : sound L s0 mk exc s1).
  { split; [exact Hs| |].
    - intros x d Hx Hl. destruct (P x d Hx Hl) as [A|(-> & A & [B|B])]; [left; exact A|congruence|right; repeat split; auto].
    - intros x Hx. cbn in Hx. apply cset_insert_In in Hx as [->|Hx].
      + repeat split; auto. intros d (E & _). congruence.
      + destruct (Cr x Hx) as [A B]. repeat split; auto. intros d (-> & _ & Z). auto. }
  rewrite Eprev in H. apply (crossing_relab exc s1 c (dir_not dp0) nd) in H; auto.
  2: { intros y (E & _). congruence. }
  2: { intros E. apply Nn. rewrite Eprev, E. reflexivity. }
  2: { rewrite <- Eprev, not_not. exact Fp. }
  destruct H as (R & Il & Al & Tw). 
  assert (Tl : forall x, tile_at s' x = None <-> tile_at s x = None) by (intros x; apply (relab_tile _ _ _ _ _ _ _ R)).
  assert (Pt : tile_at s prev <> None) by (intros Z; unfold labb in Lp; rewrite Z in Lp; discriminate).
  destruct (re_rest _ _ _ _ _ _ R) as (E1 & E2 & E3).
  split; [split|split; [exact Il|split; [apply R|split; [|split; [exact Tl|split; [exact E2|exact E3]]]]]].
  - apply R.
  - apply (re_kept _ _ _ _ _ _ R). exact K.
  - intros x d Hx Hl. destruct (re_new _ _ _ _ _ _ R x d Hl) as [A|[[-> A]|(d1 & A & -> & ->)]].
    + destruct (P x d Hx A) as [B|(-> & B & _)]; [left; eapply led_more; [exact R|exact B]|]. left. unfold led. rewrite B. split; [apply Al|left; exact H0c].
    + destruct (Tw d A) as [D B]. destruct D as [->| ->].
      * left. unfold led. rewrite <- Eprev in *. split; [apply B; exact Pt|now rewrite not_not].
      * destruct (tile_at s (step c nd)) as [q|] eqn:Et.
        -- left. split; [apply B; cbn; unfold s1; change (tile_at (with_crossing s _) ?x) with (tile_at s x); congruence|exact Fn].
        -- right. repeat split; auto. left. now apply Tl.
    + left. unfold led. rewrite step_not, not_not. split; [apply Al|left; exact H0c].
  - intros x Hx. rewrite E1 in Hx. cbn in Hx. apply cset_insert_In in Hx as [->|Hx]; [split; auto; intro Z; apply Hc, Tl, Z|]. destruct (Cr x Hx) as [A B]. split; [exact A|]. intro Z. now apply B, Tl.
  - intros x p Hx Hp. destruct (tile_at s x) as [q|] eqn:Et; [|apply Tl in Et; congruence]. destruct (re_dp _ _ _ _ _ _ R x q Et) as (p' & A & B). assert (p' = p) by congruence. subst p'. rewrite B. now apply (Wi x).
  - exists nd. split; [reflexivity|]. split; [apply Al|left; exact H0c].
  - intros x d Hl. destruct (re_new _ _ _ _ _ _ R x d Hl) as [A|[[-> _]|(d1 & _ & -> & ->)]]; auto. right. right. apply step_not.
Qed.

Lemma consecutive_keep : forall (R R' : cell -> cell -> Prop) l, (forall x y, In x l -> In y l -> R x y -> R' x y) -> consecutive R l -> consecutive R' l.
Proof.
  intros R R' l. induction l as [|a [|b l] IH]; intros Hi H; auto. destruct H as [H1 H2]. split; [apply Hi; cbn; auto|].
  apply IH; [intros x y Hx Hy; apply Hi; right; auto|exact H2].
Qed.
Lemma last_skip : forall (l : list scell) sc a, last (map sc_cell l) (sc_cell sc) = last (map sc_cell (sc :: l)) a.
Proof. induction l as [|x l IH]; intros sc a; [reflexivity|]. rewrite <- (IH x (sc_cell sc)). rewrite (IH x a). reflexivity. Qed.
(** From the second tile of a route to its end *)
Lemma mark_inner : forall opid all inner lst s label k prev s' cells', 
  (exists pre sp, all = pre ++ sp :: inner ++ [lst] /\ k = S (length pre) /\ sc_cell sp = prev) ->
  is_label label = true -> going prev (match inner with [] => sc_cell lst | sc :: _ => sc_cell sc end) s ->
  untaken s (map sc_cell (inner ++ [lst])) -> NoDup (prev :: map sc_cell (inner ++ [lst])) -> steps (prev :: map sc_cell (inner ++ [lst])) ->
  Forall (fun sc => tile_at s0 (sc_cell sc) = None) inner -> all_joined (mkB BLabel1 true) prev inner (sc_cell lst) ->
  tile_at s0 (sc_cell lst) <> None -> (forall d, step (sc_cell lst) d = last (map sc_cell inner) prev -> mk (sc_cell lst) d) ->
  mark_cells L AEDPC opid all s label k (Some prev) (inner ++ [lst]) = Ok (s', cells') ->
  rested s' /\ (forall x d, labb s x d = true -> labb s' x d = true) /\ s_rough s' = s_rough s
  /\ exists d, step (sc_cell lst) d = last (map sc_cell inner) prev /\ s_smooth s' = s_smooth s ++ [(sc_cell lst, d)] /\ labb s' (sc_cell lst) d = true.
Proof.
  intros opid all inner. induction inner as [|sc inner IH]; intros lst s label k prev s' cells' Hp Hl G U Nd St F0 J Hsrc Hmk H.
  - cbn [app] in *. cbn [mark_cells] in H. change (act_eqb AEDPC AEDPC) with true in H. cbv iota in H. set (c := sc_cell lst) in *.
    pose proof G as [Hs K P Cr Wi (dp0 & Ep & Lp & Fp)]. bstep H. apply (patch_at_inv far) in H0 as [Ho ->]; auto.
    destruct (tile_at s0 c) as [p0|] eqn:E0; [|congruence]. destruct (K c p0 E0) as (p & Hpt & Hdp & Hsides). rewrite Hpt in H.
    assert (Na : act_eqb (p_act (dp p)) AEDPC = false). { rewrite Hdp. pose proof (N0 c p0 E0) as Z. destruct (p_act (dp p0)); try reflexivity. congruence. }
    rewrite Na in H. destruct Hp as (pre & scp & Eall & Ek & Ecp).
    assert (Hlen : length all = S k) by (rewrite Eall, app_length; cbn; lia).
    destruct (Nat.eqb_spec k 0) as [|_]; [lia|]. destruct (Nat.eqb_spec (S k) (length all)) as [_|Ne]; [|lia].
    apply bind_ok in H as ([[s1 l1] sc1] & H1 & H). bstep H1. 
    assert (x = scp). { unfold idx in H0. replace (length all - 2) with (length pre + 0) in H0 by lia. rewrite Eall, nth_error_app2, Nat.add_comm, Nat.add_sub in H0 by lia. cbn in H0. congruence. } subst x. rewrite Ecp in H1.
    bstep H1. apply (boundary_ref_inv far) in H2 as [_ ->]; auto. rewrite Hpt in H1.
    assert (Ed : side_towards c prev = Some (dir_not dp0)). { rewrite Ep. apply back_towards. } rewrite Ed in H1. bstep H1. injection H1 as <- <- <-.
    assert (Epr : step c (dir_not dp0) = prev) by (rewrite Ep; apply step_not).
    assert (Fc : free_side s0 mk c (dir_not dp0)) by (right; apply Hmk; cbn; exact Epr).
    apply (type_relab L s0 mk) in H2; auto. destruct H2 as [R Ll]. destruct (re_rest _ _ _ _ _ _ R) as (E1 & E2 & E3).
    cbn [bind] in H. injection H as <- _. split; [|split; [apply R|split; [exact E2|]]].
    + split; cbn.
      * apply R.
      * apply (re_kept _ _ _ _ _ _ R). exact K.
      * intros x1 d Hx Hd. left. destruct (re_new _ _ _ _ _ _ R x1 d Hd) as [A|[-> ->]]; [|congruence].
        destruct (P x1 d Hx A) as [B|(-> & B & _)]; [exact (led_more _ _ _ _ _ _ _ _ R B)|].
        assert (d = dp0) by (apply (step_inj prev); congruence). subst d. unfold led. change (tile_at (with_marks ?a _ _)) with (tile_at a). rewrite B. split; [exact Ll|exact Fc].
      * intros x1 Hx. rewrite E1 in Hx. destruct (Cr x1 Hx) as [A B]. split; [exact A|]. intro Z. apply B. now apply (relab_tile _ _ _ _ _ _ _ R).
      * intros x1 p1 Hx Hp1. change (tile_at x x1 = Some p1) in Hp1. destruct (tile_at s x1) as [q|] eqn:Et; [|apply (re_none _ _ _ _ _ _ R) in Et; congruence].
        destruct (re_dp _ _ _ _ _ _ R x1 q Et) as (p' & A & B). assert (p' = p1) by congruence. subst p'. rewrite B. now apply (Wi x1).
    + exists (dir_not dp0). split; [exact Epr|]. cbn. rewrite E3. split; [reflexivity|exact Ll].
  - cbn [app] in *. cbn [mark_cells] in H. change (act_eqb AEDPC AEDPC) with true in H. cbv iota in H. set (c := sc_cell sc) in *.
    pose proof G as [Hs K P Cr Wi (dp0 & Ep & Lp & Fp)]. inversion F0 as [|? ? F1 F2]; subst. fold c in F1.
    bstep H. apply (patch_at_inv far) in H0 as [Ho ->]; auto. apply bind_ok in H as ([[s1 l1] sc1] & H1 & H).
    set (nextc := match inner with [] => sc_cell lst | x :: _ => sc_cell x end).
    assert (Hd : exists rest, map sc_cell (inner ++ [lst]) = nextc :: rest) by (destruct inner; cbn; eauto). destruct Hd as (rest & Er).
    assert (Un : exists nd, nextc = step c nd) by (destruct St as [_ St]; cbn [map] in St; rewrite Er in St; destruct St as [St _]; exact St).
    destruct Un as (nd & En).
    assert (Nd2 : NoDup (c :: map sc_cell (inner ++ [lst])) /\ prev <> nextc).
    { cbn [map] in Nd. fold c in Nd. inversion Nd as [|? ? Z1 Z2]; subst. split; [exact Z2|]. intros ->. apply Z1. rewrite Er. right. now left. }
    destruct Nd2 as [Nd2 Npn].
    assert (Fn : free_side s0 mk nextc (dir_not nd)).
    { destruct inner as [|x inner]; [right|left; inversion F2; auto]. cbn in nextc. apply Hmk. cbn. fold c. unfold nextc in En. rewrite En. apply step_not. }
    assert (Kst : going c nextc s1 /\ is_label l1 = true /\ (forall x d, labb s x d = true -> labb s1 x d = true)
       /\ (forall x d, labb s1 x d = true -> labb s x d = true \/ x = c \/ step x d = c) /\ s_rough s1 = s_rough s /\ s_smooth s1 = s_smooth s).
    { destruct (tile_at s c) as [p|] eqn:Et.
      - destruct (Wi c p F1 Et) as (_ & Ac & _). rewrite Ac in H1. change (act_eqb AEDPC AEDPC) with true in H1. cbv iota in H1.
        destruct (mem_cell c (s_crossing s)); [discriminate|]. cbn [deref bind] in H1. bstep H1. destruct x as [s2 lab]. injection H1 as <- <- <-.
        assert (Lx : labb s c nd = false) by (cbn [map] in U; rewrite Er in U; destruct U as [U _]; apply U; auto).
        rewrite En in *. apply (crossing_going prev c nd) in H0; auto; [|congruence].
        + destruct H0 as (A1 & A2 & A3 & A4 & _ & A5 & A6). repeat (apply conj); auto.
      - bstep H1. injection H1 as <- <- <-. destruct J as [J _]. apply (place_going opid label prev sc nextc) in H0; auto; [|exists nd; exact En].
        destruct H0 as (A1 & A2 & A3 & A4). fold c in A1, A2. repeat (apply conj); auto.
        + intros y d Hy. unfold labb in *. destruct (cell_eqb_spec y c) as [->|Ny]; [now rewrite Et in Hy|]. now rewrite A2.
        + intros y d Hy. destruct (cell_eqb_spec y c) as [->|Ny]; [auto|]. left. unfold labb in *. now rewrite A2 in Hy. }
    destruct Kst as (G1 & Il & Mo & Nw & Rr & Rs).
    bstep H. destruct x as [s2 rest2]. injection H as <- _.
    eapply IH in H0.
    + destruct H0 as (B1 & B2 & B3 & d & B4 & B5 & B6). split; [exact B1|]. split; [auto|]. split; [congruence|]. exists d. 
      assert (El : last (map sc_cell inner) c = last (map sc_cell (sc :: inner)) prev) by apply last_skip.
      split; [rewrite B4; exact El|]. split; [congruence|exact B6].
    + destruct Hp as (pre & sp & A & B & _). exists (pre ++ [sp]), sc. rewrite <- app_assoc. cbn [app]. rewrite app_length. cbn [length]. repeat (apply conj); [exact A|lia|reflexivity].
    + exact Il.
    + exact G1.
    + cbn [map] in U. rewrite Er in U. destruct U as [_ U]. rewrite <- Er in U. apply NoDup_cons_iff in Nd2 as [Nc _]. revert U. unfold untaken.
      apply consecutive_keep. intros x y Hx Hy A d -> Hn. destruct (labb s1 x d) eqn:Z; [|reflexivity]. apply Nw in Z as [Z|[->|Z]]; [rewrite A in Z; congruence|contradiction|]. rewrite Z in Hy. contradiction.
    + exact Nd2.
    + destruct St as [_ St]. exact St.
    + exact F2.
    + destruct J as [_ J]. exact J.
    + exact Hsrc.
    + intros d Hd. apply Hmk. rewrite Hd. apply last_skip.
Qed.
End Route.
