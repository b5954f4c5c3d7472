(** Marking the routes of a wave of CNOTs, one after the other. *)
From Verif Require Import Base PatchesModel LayoutModel LayoutSpec LayoutProofs InstrModel InstrSpec InstrProofs.
From Verif Require Import SliceModel SliceSpec SliceProofs RouterModel RouterSpec RouterProofs RouterProps ApplyModel ApplySpec ApplyProofs ApplyEffect ApplyBell MarksModel MarksProofs.
Open Scope nat_scope.

Definition marked (s : slice) (c : cell) (d : dir) : Prop := In (c, d) (s_rough s) \/ In (c, d) (s_smooth s).
Record wave_marks (L : layout) (s0 s : slice) : Prop := {
  wm_rest : rested L s0 (marked s) s;
  wm_rough : forall c d, In (c, d) (s_rough s) -> exists p, tile_at s0 c = Some p /\ btype (side (db p) d) = BRough;
  wm_smooth : forall c d, In (c, d) (s_smooth s) -> exists p, tile_at s0 c = Some p /\ btype (side (db p) d) = BSmooth;
  wm_lab : forall c d, marked s c d -> labb s c d = true }.

Lemma rested_more : forall L s0 (mk mk' : cell -> dir -> Prop) s, (forall c d, mk c d -> mk' c d) -> rested L s0 mk s -> rested L s0 mk' s.
Proof.
  intros L s0 mk mk' s M [A B C D E]. split; auto.
  - intros c p Hp. destruct (B c p Hp) as (q & Q1 & Q2 & Q3). exists q. split; [exact Q1|]. split; [exact Q2|]. intros d. destruct (Q3 d) as [X [Y|Y]]; auto.
  - intros c d H1 H2. destruct (C c d H1 H2) as [[X [Y|Y]]|[]]; left; split; auto; [left|right]; auto.
Qed.
Lemma rested_ext : forall L s0 (mk mk' : cell -> dir -> Prop) s, (forall c d, mk c d <-> mk' c d) -> rested L s0 mk s -> rested L s0 mk' s.
Proof. intros L s0 mk mk' s M. apply rested_more. intros c d. apply M. Qed.
Lemma hd_of_rev : forall (l : list cell) d, hd d (rev l) = last l d.
Proof. intros l d. induction l as [|x l IH] using rev_ind; [reflexivity|]. now rewrite rev_app_distr, last_last. Qed.
Lemma last_of_rev : forall (l : list cell) d, last (rev l) d = hd d l.
Proof. intros l d. now rewrite <- hd_of_rev, rev_involutive. Qed.

Lemma consecutive_snoc : forall (R : cell -> cell -> Prop) l x d, consecutive R l -> R (last l d) x -> consecutive R (l ++ [x]).
Proof.
  intros R l. induction l as [|a [|b l] IH]; intros x d H Hx; [exact Logic.I|split; [exact Hx|exact Logic.I]|]. destruct H as [H1 H2]. split; [exact H1|]. exact (IH x d H2 Hx).
Qed.
Lemma last_in : forall (l : list cell) d, l <> [] -> In (last l d) l.
Proof. intros l d. induction l as [|a [|b l] IH]; intros H; [congruence|now left|]. right. apply IH. discriminate. Qed.

Lemma rev_frame : forall (i : list cell) a b, rev (a :: rev i ++ [b]) = b :: i ++ [a].
Proof. intros i a b. cbn [rev]. now rewrite rev_app_distr, rev_involutive. Qed.

Section One.
Variables (L : layout) (s0 : slice).
Hypothesis N0 : forall c p, tile_at s0 c = Some p -> p_act (dp p) <> AEDPC.

(** A side that shows an operator has had that type from the start. *)
Lemma shows_then : forall s c n o, wave_marks L s0 s -> tile_at s0 c <> None -> RouterSpec.shows s c n o ->
  exists d p0 t, n = step c d /\ side_for o t /\ tile_at s0 c = Some p0 /\ btype (side (db p0) d) = t /\ labb s c d = false.
Proof.
  intros s c n o W Hc (p & d & t & Hp & En & St & Bt). destruct (tile_at s0 c) as [p0|] eqn:E0; [|congruence].
  assert (Lf : labb s c d = false) by (unfold labb; rewrite Hp, Bt; destruct St; reflexivity).
  exists d, p0, t. repeat (apply conj); auto. destruct (rs_kept _ _ _ _ (wm_rest _ _ _ W) c p0 E0) as (q & Q1 & _ & Q3).
  assert (q = p) by congruence. subst q. destruct (Q3 d) as [_ [X|X]]; [congruence|]. apply (wm_lab _ _ _ W) in X. congruence.
Qed.

Lemma route_marks : forall pick stop s c t a b pa pb reg s' reg', wave_marks L s0 s -> valid_pick pick -> c <> t ->
  get_cell_by_id s c = Some a -> get_cell_by_id s t = Some b -> tile_at s a = Some pa -> tile_at s b = Some pb -> dp_is_active pa = false -> dp_is_active pb = false ->
  find_route L true pick stop s c PZ t PX = Ok (Some reg) -> rg_cells reg <> [] ->
  mark_routing_region L s (with_ends reg a b) AEDPC = Ok (s', reg') -> wave_marks L s0 s'.
Proof.
  intros pick stop s c t a b pa pb reg s' reg' W Hv D Ga Gb Ta Tb Aa Ab Ef Hc Em. pose proof (wm_rest _ _ _ W) as [Hs K P Cr Wi].
  destruct (C29_route _ _ _ _ _ _ _ _ _ _ Hs Hv Ef) as (a' & b' & Ea & Eb & Ca & Cb & _ & Rt).
  assert (a' = a) by congruence. assert (b' = b) by congruence. subst a' b'.
  destruct (C29_crossing _ _ _ _ _ _ _ _ _ Hs Hv Ef) as [_ Cx].
  assert (Un : forall x p, tile_at s x = Some p -> dp_is_active p = false -> ~ usable true s x).
  { intros x p Hx Hp U. unfold usable in U. rewrite Hx in U. destruct U as [_ U]. unfold dp_is_active in Hp. rewrite U in Hp. discriminate. }
  assert (In0 : forall x n, carries s x n -> tile_at s0 x <> None).
  { intros x n (p & Hp & Hi) Z. destruct (Wi x p Z Hp) as (_ & _ & Q). congruence. }
  destruct Rt as (Wk & Nd & Na & Nb & Us & J). destruct (walk_ends _ _ _ _ _ _ _ _ Wk (Un _ _ Ta Aa) (Un _ _ Tb Ab)) as (_ & Sa & _ & Sb).
  rewrite hd_of_rev in Sa. rewrite last_of_rev in Sb. rewrite <- in_rev in Na, Nb. set (cells := rg_cells reg) in *. set (inner := map sc_cell cells) in *.
  assert (Dab : a <> b). { intros ->. destruct Ca as (p & P1 & P2), Cb as (q & Q1 & Q2). congruence. }
  destruct (shows_then s a _ _ W (In0 _ _ Ca) Sa) as (da & p0a & ta & Ena & Sta & T0a & Bta & Lfa).
  destruct (shows_then s b _ _ W (In0 _ _ Cb) Sb) as (db0 & p0b & tb & Enb & Stb & T0b & Btb & Lfb).
  assert (ta = BSmooth) by (inversion Sta; auto). assert (tb = BRough) by (inversion Stb; auto). clear Sta Stb. rewrite H in Bta. rewrite H0 in Btb. clear ta tb H H0.
  pose (mk := fun x d => marked s x d \/ (x = b /\ d = db0) \/ (x = a /\ d = da)).
  assert (R1 : rested L s0 mk s) by (apply (rested_more _ _ (marked s)); [intros x d; unfold mk; auto|apply W]).
  unfold mark_routing_region in Em. bstep Em. destruct x as [s2 cs]. injection Em as <- _.
  cbn [with_ends rg_cells rg_id] in H. fold cells in H. set (all := mkSC bare_bounds b :: cells ++ [mkSC bare_bounds a]) in *.
  unfold all in H at 2. cbn [mark_cells] in H. change (act_eqb AEDPC AEDPC) with true in H. cbv iota in H. cbn [sc_cell] in H.
  bstep H. apply (patch_at_inv (l_furthest L)) in H0 as [Ho ->]; auto. rewrite Tb in H.
  assert (Ba : act_eqb (p_act (dp pb)) AEDPC = false). { unfold dp_is_active in Ab. destruct (p_act (dp pb)); reflexivity || discriminate. }
  rewrite Ba in H. change (0 =? 0) with true in H. cbv iota in H.
  destruct cells as [|sc1 cells'] eqn:Ecs; [congruence|]. cbn in Enb.
  bstep H. destruct x as [[s1 lab] scx]. bstep H0. assert (x = sc1) by (unfold idx, all in H1; cbn in H1; congruence). subst x.
  bstep H0. apply (boundary_ref_inv (l_furthest L)) in H2 as [_ ->]; auto. rewrite Tb in H0. rewrite Enb in H0.
  assert (Ed : side_towards b (step b db0) = Some db0) by (apply side_towards_iff; reflexivity). rewrite Ed in H0. bstep H0. injection H0 as <- <- _.
  apply (type_relab L s0 mk) in H2; auto; [|right; unfold mk; auto]. destruct H2 as [R Ll].
  destruct (re_rest _ _ _ _ _ _ R) as (E1 & E2 & E3). set (s1 := with_marks x (s_rough x ++ [(b, db0)]) (s_smooth x)) in *.
  assert (G : going L s0 mk b (sc_cell sc1) s1).
  { split.
    - apply R.
    - apply (re_kept _ _ _ _ _ _ R). apply R1.
    - intros y d Hy Hd. left. change (labb x y d = true) in Hd. destruct (re_new _ _ _ _ _ _ R y d Hd) as [A|[-> _]]; [|congruence].
      destruct (rs_paired _ _ _ _ R1 y d Hy A) as [B|[]]. exact (led_more _ _ _ _ _ _ _ _ R B).
    - intros y Hy. cbn in Hy. rewrite E1 in Hy. destruct (Cr y Hy) as [A B]. split; [exact A|]. intro Z. apply B. now apply (relab_tile _ _ _ _ _ _ _ R).
    - intros y p1 Hx Hp1. change (tile_at x y = Some p1) in Hp1. destruct (tile_at s y) as [q|] eqn:Et; [|apply (re_none _ _ _ _ _ _ R) in Et; congruence].
      destruct (re_dp _ _ _ _ _ _ R y q Et) as (p' & A & B). assert (p' = p1) by congruence. subst p'. rewrite B. now apply (Wi y).
    - exists db0. split; [exact Enb|]. split; [exact Ll|]. right. unfold mk. auto. }
  bstep H. destruct x0 as [s3 cs3]. injection H as -> _.
  assert (Hin : map sc_cell ((sc1 :: cells') ++ [mkSC bare_bounds a]) = inner ++ [a]) by (rewrite map_app; reflexivity).
  assert (Nr : NoDup (b :: inner ++ [a])).
  { apply NoDup_rev in Nd. rewrite rev_involutive in Nd. constructor.
    - rewrite in_app_iff. cbn [In]. intros [|[|]]; auto.
    - apply NoDup_app_intro; auto; [repeat constructor; auto|]. intros y Hy [<-|[]]. auto. }
  assert (Free : forall y, In y inner -> tile_at s0 y = None).
  { intros y Hy. rewrite Forall_forall in Us. assert (U : usable true s y) by (apply Us, in_rev; rewrite rev_involutive; exact Hy).
    destruct (tile_at s0 y) as [p0|] eqn:E0; [|reflexivity]. destruct (K y p0 E0) as (q & Q1 & Q2 & _). unfold usable in U. rewrite Q1, Q2 in U. destruct (N0 _ _ E0). apply U. }
  apply (mark_inner L s0 mk N0 (rg_id reg) all (sc1 :: cells') (mkSC bare_bounds a) s1 BLabel1 1 b) in H0; auto.
  - destruct H0 as (Rr & Mo & Er & da' & Eda & Es & Lla). cbn [sc_cell] in *.
    assert (da' = da) by (apply (step_inj a); rewrite Eda; exact Ena). subst da'.
    assert (Mk : forall y d, mk y d <-> marked s2 y d).
    { intros y d. unfold mk, marked. rewrite Er, Es. cbn. rewrite E2, E3, !in_app_iff. cbn [In]. split.
      - intros [[A|A]|[[-> ->]|[-> ->]]]; auto.
      - intros [[A|[A|[]]]|[A|[A|[]]]]; auto; injection A as <- <-; auto. }
    split.
    + apply (rested_ext _ _ mk); auto.
    + intros y d Hy. rewrite Er in Hy. cbn in Hy. rewrite E2, in_app_iff in Hy. cbn [In] in Hy. destruct Hy as [Hy|[Hy|[]]]; [now apply (wm_rough _ _ _ W)|]. injection Hy as <- <-. eauto.
    + intros y d Hy. rewrite Es in Hy. cbn in Hy. rewrite E3, in_app_iff in Hy. cbn [In] in Hy. destruct Hy as [Hy|[Hy|[]]]; [now apply (wm_smooth _ _ _ W)|]. injection Hy as <- <-. eauto.
    + intros y d Hy. apply Mk in Hy. destruct Hy as [Hy|[[-> ->]|[-> ->]]]; [|apply Mo; exact Ll|exact Lla].
      apply Mo. change (labb x y d = true). apply (re_more _ _ _ _ _ _ R). now apply (wm_lab _ _ _ W).
  - exists [], (mkSC bare_bounds b). repeat split.
  - rewrite Hin. unfold untaken.
    assert (Old : forall y d, In y (inner ++ [a]) -> tile_at s0 y = None -> labb s1 y d = true -> labb s (step y d) (dir_not d) = true).
    { intros y d Hy Hn Hd. change (labb x y d = true) in Hd. destruct (re_new _ _ _ _ _ _ R y d Hd) as [A|[-> _]]; [|congruence].
      destruct (P y d Hn A) as [[B _]|[]]. exact B. }
    apply (consecutive_snoc _ _ _ b).
    + revert Cx. apply consecutive_keep. intros y z Hy Hz Z d -> Hn. destruct (labb s1 y d) eqn:E; [|reflexivity]. exfalso. apply Z.
      apply Old in E; [|apply in_app_iff; auto|exact Hn]. unfold labb in E. destruct (tile_at s (step y d)) as [q|] eqn:Eq; [|discriminate].
      exists q, (dir_not d). split; [exact Eq|]. split; [symmetry; apply step_not|]. destruct (btype (side (db q) (dir_not d))); auto; discriminate.
    + intros d Ed2 Hn. destruct (labb s1 (last inner b) d) eqn:E; [|reflexivity]. exfalso. apply Old in E; [| |exact Hn].
      * rewrite <- Ed2 in E. assert (dir_not d = da). { apply (step_inj a). transitivity (last inner b); [rewrite Ed2; apply step_not|exact Ena]. } congruence.
      * apply in_app_iff. left. apply last_in. unfold inner. discriminate.
  - rewrite Hin. exact Nr.
  - rewrite Hin. destruct Wk as [Wk _]. unfold steps. rewrite <- (rev_frame inner a b).
    apply (consecutive_rev cell (fun x y => exists d, y = step x d)). revert Wk. apply consecutive_keep. intros y z _ _ [Z _]. apply adjacent_step. apply adjacent_sym. exact Z.
  - apply Forall_forall. intros y Hy. apply Free. unfold inner. now apply in_map.
  - cbn. congruence.
  - cbn [sc_cell]. intros d Hd. assert (d = da) by (apply (step_inj a); rewrite Hd; exact Ena). subst d. unfold mk. auto.
Qed.
End One.
