(** Long-range Bell operations: the state changes, and crossing routes. *)
From Verif Require Import Base PatchesModel LayoutModel LayoutSpec LayoutProofs InstrModel InstrSpec InstrProofs.
From Verif Require Import SliceModel SliceSpec SliceProofs RouterModel RouterSpec RouterProofs ApplyModel ApplySpec ApplyProofs ApplyEffect.
Local Open Scope Z_scope.

Lemma run_locals_spec : forall far e ls s i s' j all, sized far s -> run_locals e s ls i = Ok (s', j, all) ->
  sized far s' /\ exists done rest, ls = done ++ rest /\ j = (i + length done)%nat
    /\ (all = true <-> rest = []) /\ ran (e_edpc e) s done s'
    /\ match rest with [] => True | l :: _ => forall u, ~ local_effect (e_edpc e) s' l u end.
Proof.
  intros far e ls. induction ls as [|l ls IH]; intros s i s' j all Hs H; cbn [run_locals] in H.
  - injection H as <- <- <-. split; auto. exists [], []. split; auto. split; [cbn; lia|]. split; [tauto|].
    split; [constructor|auto].
  - bstep H. destruct x as [s1 err]. destruct err.
    + injection H as <- <- <-. apply (try_local_error far) in H0 as [-> Hn]; auto. split; auto.
      exists [], (l :: ls). split; auto. split; [cbn; lia|]. split; [split; discriminate|].
      split; [constructor|auto].
    + apply (try_local_spec far) in H0 as (S1 & _ & u & Hu & B); auto.
      apply IH in H as (S' & d & r & -> & -> & Ha & R & Hr); auto. split; auto.
      exists (l :: d), r. split; auto. split; [cbn; lia|]. split; auto. split; auto. econstructor; eauto.
Qed.

Lemma local_effect_cells : forall edpc s l u, local_effect edpc s l u -> map fst u = local_cells l.
Proof. intros edpc s l u H. inversion H; reflexivity. Qed.

Lemma ran_frame : forall edpc s ls s', ran edpc s ls s' ->
  rest_same s s' /\ forall c, ~ In c (flat_map local_cells ls) -> tile_at s' c = tile_at s c.
Proof.
  intros edpc s ls s' H. induction H as [s|s l u s1 ls s' Hu B R [IH1 IH2]].
  - split; [apply rest_same_refl|auto].
  - split; [eapply rest_same_trans; [apply B|auto]|]. intros c Hc. cbn [flat_map] in Hc.
    rewrite in_app_iff in Hc. rewrite IH2 by tauto. rewrite (becomes_tile _ _ _ _ B). apply over_not_in.
    erewrite local_effect_cells by eauto. tauto.
Qed.

(** ** Crossing routes *)

Lemma marked_refl : forall opid cells s, marked opid cells s s.
Proof.
  intros opid cells s. split; [|auto 10]. intros c [d b] H. exists b. auto.
Qed.

Lemma marked_trans : forall opid cells a b c, marked opid cells a b -> marked opid cells b c -> marked opid cells a c.
Proof.
  intros opid cells a b c (A1&A2&A3&A4&A5) (B1&B2&B3&B4&B5). split; [|split; [|intuition congruence]].
  - intros x p Hp. destruct (A1 x p Hp) as [q Hq]. destruct (B1 x _ Hq) as [r Hr]. exists r. auto.
  - intros x Hx. destruct (A2 x Hx) as [H|[Hin [q Hq]]]; auto. right. split; auto.
    destruct (B1 x _ Hq) as [r Hr]. exists r. auto.
Qed.

Lemma marked_weaken : forall opid cells cells' s s', (forall c, In c cells -> In c cells') ->
  marked opid cells s s' -> marked opid cells' s s'.
Proof.
  intros opid cells cells' s s' H (A1&A2&A3&A4&A5). split; auto. split; auto.
  intros x Hx. destruct (A2 x Hx) as [?|[Hin ?]]; auto.
Qed.

(** The invariant: same size, only sides altered. *)
Definition sides (far : cell) (s s' : slice) : Prop := sized far s' /\ marked None [] s s'.

Lemma marked_any : forall opid cells s s', marked None [] s s' -> marked opid cells s s'.
Proof.
  intros opid cells s s' (A1&A2&A3&A4&A5). split; auto. split; auto.
  intros x Hx. destruct (A2 x Hx) as [?|[[] ?]]; auto.
Qed.

Lemma sides_refl : forall far s, sized far s -> sides far s s.
Proof. intros far s H. split; auto. apply marked_refl. Qed.
Lemma sides_trans : forall far a b c, sides far a b -> sides far b c -> sides far a c.
Proof. intros far a b c [H1 H2] [H3 H4]. split; auto. eapply marked_trans; eauto. Qed.

Lemma write_sides : forall far s r b s', sized far s -> write_ref s r b = Ok s' -> sides far s s'.
Proof.
  intros far s [c d] b s' Hs H. apply (write_ref_inv far) in H as (p & Hp & Ho & ->); auto.
  split; [apply sized_put; auto|]. split; [|split; [|cbn; auto]].
  - intros x q Hq. rewrite (tile_put far) by auto. destruct (cell_eqb_spec c x) as [<-|]; [|exists (db q); rewrite Hq; destruct q; auto].
    assert (q = p) by congruence. subst. eexists. reflexivity.
  - intros x Hx. rewrite (tile_put far) by auto. destruct (cell_eqb_spec c x) as [<-|]; auto. congruence.
Qed.
Lemma type_sides : forall far s r t s', sized far s -> set_ref_type s r t = Ok s' -> sides far s s'.
Proof. intros far s r t s' Hs H. unfold set_ref_type in H. bstep H. eapply write_sides; eauto. Qed.
Lemma flip_sides : forall far s r s', sized far s -> flip_ref s r = Ok s' -> sides far s s'.
Proof. intros far s r s' Hs H. unfold flip_ref in H. bstep H. eapply write_sides; eauto. Qed.
Lemma flip_conj_sides : forall far s n c s', sized far s -> flip_conjugate s n c = Ok s' -> sides far s s'.
Proof.
  intros far s n c s' Hs H. unfold flip_conjugate in H. bstep H. destruct x.
  - eapply flip_sides; eauto.
  - injection H as <-. apply sides_refl; auto.
Qed.
Lemma label_conj_sides : forall far s n c t s', sized far s -> label_conjugate s n c t = Ok s' -> sides far s s'.
Proof.
  intros far s n c t s' Hs H. unfold label_conjugate in H. bstep H. destruct x.
  - eapply type_sides; eauto.
  - injection H as <-. apply sides_refl; auto.
Qed.

Lemma foldM_sides : forall A far (f : slice -> A -> outcome slice) l s s', sized far s ->
  (forall s a s', sized far s -> f s a = Ok s' -> sides far s s') -> foldM f l s = Ok s' -> sides far s s'.
Proof.
  intros A far f l s s' Hs Hf H. revert s Hs H. induction l as [|a l IH]; intros s Hs H; cbn [foldM] in H.
  - injection H as <-. apply sides_refl; auto.
  - bstep H. apply Hf in H0; auto. eapply sides_trans; [exact H0|]. apply IH; auto. apply H0.
Qed.

Lemma flip_side_sides : forall far L c d s d' s', sized far s -> flip_side L c d s d' = Ok s' -> sides far s s'.
Proof.
  intros far L c d s d' s' Hs H. unfold flip_side in H. destruct (neighbour_towards L c d') as [n|]; [|discriminate].
  bstep H. destruct (is_label (btype x)); cbn in H; [|discriminate].
  destruct (dir_eqb d' (dir_not d)); [injection H as <-; apply sides_refl; auto|].
  bstep H. apply (flip_sides far) in H1; auto. eapply sides_trans; [exact H1|].
  eapply flip_conj_sides; eauto. apply H1.
Qed.

Lemma flip_chain_sides : forall far L fuel s c d s', sized far s -> flip_crossing_chain fuel L s c d = Ok s' ->
  sides far s s' /\ s_crossing s' = s_crossing s.
Proof.
  intros far L fuel. induction fuel as [|f IH]; intros s c d s' Hs H; [discriminate|]. cbn [flip_crossing_chain] in H.
  destruct (mem_cell c (s_crossing s)); cbn [negb] in H; [|discriminate].
  bstep H. destruct x as [p|]; [|discriminate]. bstep H.
  assert (H1' : sides far s x).
  { eapply foldM_sides; [exact Hs| |exact H1]. intros; eapply flip_side_sides; eauto. }
  assert (X : s_crossing x = s_crossing s).
  { clear - H1. revert s H1. generalize all_dirs. induction l as [|y l IH]; intros s H1; cbn [foldM] in H1; [congruence|].
    bstep H1. rewrite (IH _ H1). clear - H. unfold flip_side in H.
    destruct (neighbour_towards L c y) as [n|]; [|discriminate]. bstep H.
    destruct (is_label _); cbn in H; [|discriminate]. destruct (dir_eqb _ _); [congruence|].
    assert (W : forall s r b s', write_ref s r b = Ok s' -> s_crossing s' = s_crossing s).
    { clear. intros s r b s' H. unfold write_ref in H. bstep H. destruct x; [|discriminate].
      unfold set_patch in H. do 2 bstep H. injection H as <-. reflexivity. }
    assert (F : forall s r s', flip_ref s r = Ok s' -> s_crossing s' = s_crossing s).
    { intros s0 r s' HH. unfold flip_ref in HH. bstep HH. eauto. }
    bstep H. apply F in H1. rewrite <- H1. unfold flip_conjugate in H. bstep H. destruct x2; [eauto|congruence]. }
  destruct (neighbour_towards L c d) as [n|]; [|injection H as <-; auto].
  destruct (mem_cell n (s_crossing x)); [|injection H as <-; auto].
  apply IH in H as [H2 X2]; [|apply H1']. split; [|congruence]. eapply sides_trans; eauto.
Qed.

Lemma follow_sides : forall far L s n d ci nc s' ci' nc', sized far s ->
  follow_chain L s n d ci nc = Ok (s', ci', nc') -> sides far s s'.
Proof.
  intros far L s n d ci nc s' ci' nc' Hs H. unfold follow_chain in H. destruct (mem_cell n (s_crossing s)).
  - bstep H. injection H as <- <- <-. eapply flip_chain_sides; eauto.
  - injection H as <- <- <-. apply sides_refl; auto.
Qed.

Lemma cross_side_sides : forall far L c prev pd pc s tmp ci nc nr d s' tmp' ci' nc' nr', sized far s ->
  cross_side L c prev pd pc (s, tmp, ci, nc, nr) d = Ok (s', tmp', ci', nc', nr') -> sides far s s'.
Proof.
  intros far L c prev pd pc s tmp ci nc nr d s' tmp' ci' nc' nr' Hs H. unfold cross_side in H.
  destruct (neighbour_towards L c d) as [n|]; [|discriminate]. bstep H.
  destruct (is_label (btype x)).
  - destruct (cell_eqb n prev); [destruct pc; [injection H as <- <- <- <- <-; apply sides_refl; auto|discriminate]|].
    destruct tmp as [t|].
    + bstep H. destruct (btype_eqb (btype x) (btype x0)); cbn [negb] in H;
        [injection H as <- <- <- <- <-; apply sides_refl; auto|].
      bstep H. apply (flip_sides far) in H2; auto. bstep H. apply (label_conj_sides far) in H3; [|apply H2].
      bstep H. destruct x3 as [[s3 ci3] nc3]. apply (follow_sides far) in H4; [|apply H3].
      injection H as <- <- <- <- <-. eapply sides_trans; [exact H2|]. eapply sides_trans; eauto.
    + bstep H. destruct (btype_eqb (btype x) (btype x0)); cbn [negb] in H;
        [|injection H as <- <- <- <- <-; apply sides_refl; auto].
      bstep H. apply (flip_sides far) in H2; auto. bstep H. apply (flip_conj_sides far) in H3; [|apply H2].
      bstep H. destruct x3 as [[s3 ci3] nc3]. apply (follow_sides far) in H4; [|apply H3].
      injection H as <- <- <- <- <-. eapply sides_trans; [exact H2|]. eapply sides_trans; eauto.
  - destruct (btype_eqb (btype x) BNone); cbn in H; [|discriminate].
    injection H as <- <- <- <- <-. apply sides_refl; auto.
Qed.

Lemma label_side_sides : forall far L c t s d s', sized far s -> label_side L c t s d = Ok s' -> sides far s s'.
Proof.
  intros far L c t s d s' Hs H. unfold label_side in H. destruct (neighbour_towards L c d) as [n|];
    [|injection H as <-; apply sides_refl; auto].
  bstep H. destruct (btype_eqb (btype x) BNone); [|injection H as <-; apply sides_refl; auto].
  bstep H. apply (write_sides far) in H1; auto. eapply sides_trans; [exact H1|].
  eapply label_conj_sides; eauto. apply H1.
Qed.

Lemma cross_fold_sides : forall far L c prev pd pc l s tmp ci nc nr s' tmp' ci' nc' nr', sized far s ->
  foldM (cross_side L c prev pd pc) l (s, tmp, ci, nc, nr) = Ok (s', tmp', ci', nc', nr') -> sides far s s'.
Proof.
  intros far L c prev pd pc l. induction l as [|d l IH]; intros s tmp ci nc nr s' tmp' ci' nc' nr' Hs H; cbn [foldM] in H.
  - injection H as -> _ _ _ _. apply sides_refl; auto.
  - apply bind_ok in H as ([[[[s2 tm2] c2] n3] n4] & H1 & H). apply (cross_side_sides far) in H1; auto.
    eapply sides_trans; [exact H1|]. eapply IH; [apply H1|exact H].
Qed.

Ltac ifd H := match type of H with (if ?b then _ else _) = _ => destruct b; [discriminate H|] end.

Lemma crossing_sides : forall far L s c prev s' lab, sized far s ->
  mark_boundaries_for_crossing_cell L s c prev = Ok (s', lab) -> sides far s s'.
Proof.
  intros far L s c prev s' lab Hs H. unfold mark_boundaries_for_crossing_cell in H. bstep H.
  destruct x as [p|]; [|discriminate]. bstep H. ifd H.
  bstep H. destruct x0 as [[[[s1 tmp] ci] nc] nr].
  assert (S1 : sides far s s1).
  { eapply cross_fold_sides; eauto. }
  ifd H. bstep H. destruct x0; cbn [negb] in H; [|discriminate].
  ifd H. ifd H. ifd H.
  ifd H. bstep H. bstep H. bstep H. injection H as <- <-.
  eapply sides_trans; [exact S1|].
  apply (foldM_sides _ far (label_side L c (bt_not (btype x1))) all_dirs); [apply S1| |exact H6].
  intros; eapply label_side_sides; eauto.
Qed.

Lemma mark_cells_edpc : forall L opid all todo far s label k prev s' cells', sized far s ->
  mark_cells L AEDPC opid all s label k prev todo = Ok (s', cells') ->
  sized far s' /\ marked opid (map sc_cell todo) s s' /\ map sc_cell cells' = map sc_cell todo.
Proof.
  intros L opid all. induction todo as [|sc todo IH]; intros far s label k prev s' cells' Hs H; cbn [mark_cells] in H.
  - injection H as <- <-. split; auto. split; auto. apply marked_refl.
  - bstep H. apply (patch_at_inv far) in H0 as [Ho ->]; auto. bstep H. destruct x as [[s1 label1] sc1].
    assert (K : sized far s1 /\ marked opid (map sc_cell (sc :: todo)) s s1 /\ sc_cell sc1 = sc_cell sc).
    { change (act_eqb AEDPC AEDPC) with true in H0. cbv iota in H0.
      destruct (tile_at s (sc_cell sc)) as [p|] eqn:Et.
      - destruct (act_eqb (p_act (dp p)) AEDPC).
        + destruct (mem_cell (sc_cell sc) (s_crossing s)); [discriminate|]. bstep H0. bstep H0. destruct x0 as [s2 lab].
          apply (crossing_sides far) in H2 as [S2 M2]; [|exact Hs]. injection H0 as <- <- <-.
          split; auto. split; auto. apply marked_any. exact M2.
        + destruct (k =? 0)%nat.
          * bstep H0. bstep H0. destruct x0 as [r|]; [|discriminate]. bstep H0.
            apply (type_sides far) in H3 as [S2 M2]; auto. injection H0 as <- <- <-.
            split; [exact S2|]. split; auto. apply marked_any. exact M2.
          * destruct (S k =? length all)%nat; [|discriminate].
            bstep H0. bstep H0. destruct x0 as [r|]; [|discriminate]. bstep H0.
            apply (type_sides far) in H3 as [S2 M2]; auto. injection H0 as <- <- <-.
            split; [exact S2|]. split; auto. apply marked_any. exact M2.
      - bstep H0. unfold place_routing, place_sparse in H1. cbn [sp_cells] in H1. bstep H1. destruct x0 as [s3 c3].
        eapply (place_single_inv far) in H2 as (-> & _ & _ & E3); auto. 2: reflexivity. cbn in E3.
        assert (x = s3) by congruence. subst x s3. injection H0 as <- <- <-.
        split; [apply sized_put; auto|]. split; auto. split; [|split; [|cbn; auto]].
        + intros x q Hq. rewrite (tile_put far) by auto. destruct (cell_eqb_spec (sc_cell sc) x) as [<-|]; [congruence|].
          exists (db q). rewrite Hq. destruct q; auto.
        + intros x Hx. rewrite (tile_put far) by auto. destruct (cell_eqb_spec (sc_cell sc) x) as [<-|]; auto.
          right. split; [left; auto|]. eexists. reflexivity. }
    destruct K as (S1 & M1 & C1). bstep H. destruct x as [s2 rest']. apply (IH far) in H1 as (S2 & M2 & C2); auto.
    injection H as <- <-. split; auto. split.
    + eapply marked_trans; [exact M1|]. eapply marked_weaken; [|exact M2]. intros c Hc. right. auto.
    + cbn. congruence.
Qed.

Lemma skipn_skipn_add : forall A (l : list A) a b, skipn a (skipn b l) = skipn (b + a) l.
Proof. induction l as [|x l IH]; intros a b; destruct b; cbn; auto. destruct a; auto. Qed.

Lemma skipn_app_length : forall A (a b : list A), skipn (length a) (a ++ b) = b.
Proof. induction a; cbn; auto. Qed.

Lemma run_pending : forall far e s ls first s' i all, sized far s ->
  run_locals e s (skipn first ls) first = Ok (s', i, all) ->
  sized far s' /\ advanced (e_edpc e) s (skipn first ls) s' (skipn i ls) /\ (all = true <-> skipn i ls = []).
Proof.
  intros far e s ls first s' i all Hs H. apply (run_locals_spec far) in H as (S' & d & r & E & -> & Ha & R & Hr); auto.
  assert (Er : skipn (first + length d) ls = r).
  { rewrite <- skipn_skipn_add, E. apply skipn_app_length. }
  split; auto. rewrite Er. split; auto. exists d. auto.
Qed.

(** What applying a long-range operation leads to. *)
Definition bell_good (far : cell) (e : env) (w : world) (o : operation) (wt : N) (cl : list N) (a : applied) : Prop :=
  let s := w_slice w in let s' := w_slice (a_world a) in
  sized far s' /\
  (a_error a = true -> s' = s /\ a_follow a = []
     \/ e_edpc e = true /\ (exists reg opid, a_follow a = [mkI (a_op a) wt cl]
          /\ marked opid (map sc_cell (rg_cells reg)) s s'
          /\ exists c t s1 s2 cs sets ph, o = BellCNOT c t s1 s2 None cs sets ph
              /\ a_op a = BellCNOT c t s1 s2 (Some reg) cs sets ph)) /\
  (a_error a = false -> exists todo rest,
     (if e_edpc e then unstarted o /\ planned e w o todo \/ ~ unstarted o /\ todo = pending true o
      else unstarted o /\ planned e w o todo \/ ~ unstarted o /\ todo = pending false o)
     /\ advanced (e_edpc e) s todo s' rest
     /\ (rest <> [] -> pending (e_edpc e) (a_op a) = rest /\ ~ unstarted (a_op a) /\ a_follow a = [mkI (a_op a) wt cl])
     /\ (rest = [] -> e_edpc e = false \/ (exists s1 s2 l1 l2 ls k, o = BellInit s1 s2 l1 l2 ls k) -> a_follow a = [])).

Lemma bell_failed : forall far e w w' o o' wt cl a, sized far (w_slice w) -> w_slice w' = w_slice w ->
  failed w' o' = Ok a -> bell_good far e w o wt cl a.
Proof.
  intros far e w w' o o' wt cl a Hs Hw H. apply failed_inv in H as (E1 & _ & E & E2). unfold bell_good.
  rewrite E1, Hw. split; auto. split; [auto|congruence].
Qed.

Lemma bell_init_good : forall far e w s1 s2 l1 l2 locals counter wt cl a, sized far (w_slice w) ->
  apply_bell_init e w s1 s2 l1 l2 locals counter wt cl = Ok a ->
  bell_good far e w (BellInit s1 s2 l1 l2 locals counter) wt cl a.
Proof.
  intros far e w s1 s2 l1 l2 locals counter wt cl a Hs H. unfold apply_bell_init in H.
  destruct (e_local e); cbn [negb] in H; [|discriminate].
  destruct (has_patch (w_slice w) (pnt_target l1)); cbn [negb] in H; [|eapply bell_failed; eauto].
  destruct (has_patch (w_slice w) (pnt_target l2)); cbn [negb] in H; [|eapply bell_failed; eauto].
  assert (G : forall w1 ls first, w_slice w1 = w_slice w ->
    (do ls0 <- value_ (Some ls) ;;
     do (s', i, all) <- run_locals e (w_slice w1) (skipn first ls0) first ;;
     let o' := BellInit s1 s2 l1 l2 (Some ls0) (Some (first, i)) in
     Ok (mkA (with_slice w1 s') o' false (if all : bool then [] else [mkI o' wt cl]))) = Ok a ->
    (if e_edpc e then
       unstarted (BellInit s1 s2 l1 l2 locals counter) /\ planned e w (BellInit s1 s2 l1 l2 locals counter) (skipn first ls)
       \/ ~ unstarted (BellInit s1 s2 l1 l2 locals counter) /\ skipn first ls = pending true (BellInit s1 s2 l1 l2 locals counter)
     else
       unstarted (BellInit s1 s2 l1 l2 locals counter) /\ planned e w (BellInit s1 s2 l1 l2 locals counter) (skipn first ls)
       \/ ~ unstarted (BellInit s1 s2 l1 l2 locals counter) /\ skipn first ls = pending false (BellInit s1 s2 l1 l2 locals counter)) ->
    bell_good far e w (BellInit s1 s2 l1 l2 locals counter) wt cl a).
  { intros w1 ls first Ew HH Hp. cbn [value_ bind] in HH. rewrite Ew in HH. bstep HH. destruct x as [[s' i] all].
    apply (run_pending far) in H0 as (S' & A & Hall); auto. injection HH as <-.
    unfold bell_good. cbn [a_world a_error a_follow a_op w_slice with_slice]. split; auto. split; [discriminate|].
    intros _. exists (skipn first ls), (skipn i ls). split; auto. split; auto. split.
    - intros Hr. cbn [pending]. split; auto. split; [cbn; auto|]. destruct all; auto. exfalso. apply Hr, Hall. auto.
    - intros Hr _. apply Hall in Hr. rewrite Hr. auto. }
  destruct counter as [[k1 k2]|].
  - destruct locals as [ls|]; [|discriminate]. eapply (G w ls k2); auto.
    destruct (e_edpc e); right; split; cbn; auto.
  - bstep H. destruct x as [r cache]. destruct r as [reg|]; [|eapply bell_failed; [| |exact H]; auto].
    destruct (length (rg_cells reg) <? 2)%nat; [eapply bell_failed; [| |exact H]; auto|].
    bstep H. destruct x as [la lb]. eapply (G (mkW (w_slice w) (w_ops w) cache) (la ++ lb) 0%nat); auto.
    cbn [skipn]. assert (P : planned e w (BellInit s1 s2 l1 l2 locals None) (la ++ lb)).
    { exists reg, cache, la, lb. auto. }
    destruct (e_edpc e); left; cbn; auto.
Qed.

Lemma idx_ok : forall A (l : list A) i x, idx l i = Ok x -> nth_error l i = Some x.
Proof. intros A l i x H. unfold idx in H. destruct (nth_error l i); congruence. Qed.

Lemma nth_set_row : forall A (l : list A) i x y, nth_error l i = Some y -> nth_error (set_row l i x) i = Some x.
Proof. intros A l i x y H. apply set_row_same. apply nth_error_Some. congruence. Qed.

Lemma cnot_good : forall far e w control target s1 s2 wt cl route counters sets phase a, sized far (w_slice w) ->
  apply_cnot e w control target s1 s2 wt cl route counters sets phase = Ok a ->
  bell_good far e w (BellCNOT control target s1 s2 route counters sets phase) wt cl a.
Proof.
  intros far e w control target s1 s2 wt cl route counters sets phase a Hs H. unfold apply_cnot in H.
  destruct (e_local e); cbn [negb] in H; [|discriminate].
  destruct (get_patch_by_id (w_slice w) control) as [pc|] eqn:Pc; [|eapply bell_failed; eauto].
  destruct (get_patch_by_id (w_slice w) target) as [pt|] eqn:Pt; [|eapply bell_failed; eauto].
  destruct (dp_is_active pc) eqn:Ac; [eapply bell_failed; eauto|]. destruct (dp_is_active pt) eqn:At; [eapply bell_failed; eauto|].
  apply (get_patch_by_id_tile far) in Pc as (cc0 & Gc & Tc & Ic & _); auto. apply (get_patch_by_id_tile far) in Pt as (ct0 & Gt & Tt & It & _); auto.
  apply (is_active_idle _ _ _ Tc) in Ac. apply (is_active_idle _ _ _ Tt) in At.
  destruct (e_edpc e) eqn:Ee.
  - destruct route as [reg|]; [destruct counters as [cs|]|].
    + unfold cnot_phase in H. apply bind_ok in H as (ph & Hph & H).
      destruct phase as [ph0|]; [|discriminate]. cbn in Hph. injection Hph as ->.
      apply bind_ok in H as (cs' & Hcs & H). bstep H. apply idx_ok in H0. bstep H.
      destruct sets as [ss|]; [|discriminate]. cbn in H1. injection H1 as <-. bstep H. apply idx_ok in H1.
      bstep H. destruct x1 as [[s' i] all]. apply (run_pending far) in H2 as (S' & A & Hall); auto.
      assert (EP : skipn (snd x) x0 = pending true (BellCNOT control target s1 s2 (Some reg) (Some cs) (Some ss) (Some ph))).
      { cbn [pending]. rewrite H1.
        assert (Ec : nth_error cs ph = Some x).
        { destruct (ph =? 0)%nat eqn:E0; [congruence|]. apply Nat.eqb_neq in E0. bstep Hcs. unfold set_idx in Hcs.
          bstep Hcs. assert (cs' = set_row cs (ph - 1) (snd x1, snd x1)) by congruence. subst cs'.
          rewrite set_row_other in H0 by lia. auto. }
        rewrite Ec. destruct x. reflexivity. }
      destruct all; cbn [negb] in H.
      * assert (Hr : skipn i x0 = []) by (apply Hall; auto).
        apply bind_ok in H as (third & _ & H).
        assert (K : a_error a = false /\ w_slice (a_world a) = s').
        { destruct (_ || _) in H; injection H as <-; auto. }
        destruct K as [K1 K2]. unfold bell_good. rewrite K1, K2, Ee. split; auto. split; [discriminate|].
        intros _. exists (skipn (snd x) x0), (skipn i x0). split; [right; split; cbn; auto|].
        split; [rewrite <- Ee; auto|]. split; [contradiction|].
        intros _ [?|(?&?&?&?&?&?&?)]; discriminate.
      * injection H as <-. unfold bell_good. cbn [a_world a_error a_follow a_op w_slice with_slice]. rewrite Ee. split; auto.
        split; [discriminate|]. intros _. exists (skipn (snd x) x0), (skipn i x0). split; [right; split; cbn; auto|].
        split; [rewrite <- Ee; auto|]. split.
        -- intros _. split; [|split; [cbn; auto|reflexivity]]. cbn [pending cnot_op].
           erewrite nth_set_row by eauto. rewrite H1. reflexivity.
        -- intros Hr. apply Hall in Hr. discriminate.
    + unfold cnot_decompose in H. bstep H. destruct x as [p1 p2]. eapply bell_failed; [| |exact H]; auto.
    + unfold cnot_find_route in H. bstep H. destruct x as [r cache]. destruct r as [reg|];
        [|eapply bell_failed; [| |exact H]; auto].
      destruct (length (rg_cells reg) <? 2)%nat; [discriminate|]. bstep H. bstep H. bstep H. destruct x1 as [s' reg'].
      unfold mark_routing_region in H3. bstep H3. destruct x1 as [s3 cells].
      apply (mark_cells_edpc _ _ _ _ far) in H4 as (S3 & M3 & C3); auto. injection H3 as <- <-. bstep H.
      injection H as <-. unfold bell_good. cbn [a_world a_error a_follow a_op w_slice with_slice]. split; auto.
      split; [|discriminate]. intros _. right. split; auto.
      exists (mkRegion cells (rg_id (with_ends reg x x0))), (rg_id (with_ends reg x x0)). split; auto. split.
      * cbn [rg_cells]. rewrite C3. exact M3.
      * do 7 eexists. split; reflexivity.
  - unfold cnot_plain in H.
    assert (G : forall w1 route cs ss, w_slice w1 = w_slice w ->
      cnot_locals e control target s1 s2 wt cl w1 route cs (Some ss) phase = Ok a ->
      (forall x ls, nth_error cs 0 = Some x -> nth_error ss 0 = Some ls ->
       unstarted (BellCNOT control target s1 s2 route counters sets phase)
         /\ planned e w (BellCNOT control target s1 s2 route counters sets phase) (skipn (snd x) ls)
       \/ ~ unstarted (BellCNOT control target s1 s2 route counters sets phase)
         /\ skipn (snd x) ls = pending false (BellCNOT control target s1 s2 route counters sets phase)) ->
      bell_good far e w (BellCNOT control target s1 s2 route counters sets phase) wt cl a).
    { intros w1 route' cs ss Ew HH Hp. unfold cnot_locals in HH. bstep HH. apply idx_ok in H0. cbn [value_ bind] in HH.
      bstep HH. apply idx_ok in H1. rewrite Ew in HH. bstep HH. destruct x1 as [[s' i] all].
      apply (run_pending far) in H2 as (S' & A & Hall); auto. injection HH as <-.
      unfold bell_good. cbn [a_world a_error a_follow a_op w_slice with_slice]. rewrite Ee. split; auto. split; [discriminate|].
      intros _. exists (skipn (snd x) x0), (skipn i x0). split; [auto|]. split; [rewrite <- Ee; auto|]. split.
      - intros Hr. split; [|split; [cbn; auto|]].
        + cbn [pending cnot_op]. erewrite nth_set_row by eauto. rewrite H1. reflexivity.
        + destruct all; auto. exfalso. apply Hr, Hall. auto.
      - intros Hr _. apply Hall in Hr. rewrite Hr. auto. }
    destruct counters as [cs|].
    + destruct sets as [ss|].
      * eapply (G w route cs ss); auto. intros [x1 x2] ls Hx Hl. right. split; [cbn; auto|]. cbn [pending]. rewrite Hx, Hl. auto.
      * unfold cnot_locals in H. bstep H. discriminate.
    + bstep H. destruct x as [r cache]. destruct r as [reg|]; [|eapply bell_failed; [| |exact H]; auto].
      destruct (Nat.ltb_spec (length (rg_cells reg)) 2) as [|Hlen]; [discriminate|].
      destruct (get_cell_by_id (w_slice w) control) as [cc|] eqn:Ec; [|discriminate].
      destruct (get_cell_by_id (w_slice w) target) as [ct|] eqn:Et; [|discriminate]. cbn [value_ bind] in H.
      bstep H. destruct x as [la lb].
      eapply (G _ route [(0%nat, 0%nat)] [la ++ lb]); [|exact H|]; auto.
      intros x ls Hx Hl. cbn in Hx, Hl. injection Hx as <-. injection Hl as <-. left. split; [cbn; auto|].
      exists reg, cache, cc, ct, la, lb. split; auto. split; auto.
      injection Gc as <-. injection Gt as <-.
      split; [exists pc; repeat split; auto; apply Ac|]. split; [exists pt; repeat split; auto; apply At|]. split; auto.
      cbn [with_ends rg_cells map sc_cell] in H1. rewrite map_app in H1. exact H1.
Qed.
