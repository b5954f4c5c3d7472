(** The tiles that an operation under way relies on. *)
From Verif Require Import Base TextModel PatchesModel LayoutModel LayoutSpec LayoutProofs InstrModel InstrSpec InstrProofs.
From Verif Require Import SliceModel SliceSpec SliceProofs SliceProps RouterModel RouterSpec RouterProofs RouterProps.
From Verif Require Import ApplyModel ApplySpec ApplyProofs ApplyEffect ApplyBell ApplyIds BellSpec BellProofs BellRun BellCnot BellIds.
Open Scope nat_scope.

(** ** Local operations *)

(** The tiles on which a local operation works on what is there, those on which it puts something, and those
    the patch of which it measures. *)
Definition uses (l : local_instr) : list cell :=
  match l with
  | LPrepareY _ _ | LBellPrepare _ _ _ _ => []
  | LBellMeasure a b | LTwoPatchMeasure a b | LMergeContract a b => [a; b]
  | LExtendSplit _ a _ | LMove a _ _ => [a]
  end.
Definition makes (l : local_instr) : list cell :=
  match l with
  | LPrepareY _ c => [c]
  | LBellPrepare _ _ a b => [a; b]
  | LExtendSplit _ _ b | LMove _ b _ => [b]
  | LBellMeasure _ _ | LTwoPatchMeasure _ _ | LMergeContract _ _ => []
  end.
Definition spoils (l : local_instr) : list cell :=
  match l with
  | LBellMeasure a b => [a; b]
  | LMergeContract _ b => [b]
  | LMove a _ _ => [a]
  | _ => []
  end.

(** The tiles that must hold something now for the list of operations to go through: those worked on
    before anything is put there. *)
Fixpoint needs (ls : list local_instr) : list cell :=
  match ls with
  | [] => []
  | l :: r => uses l ++ filter (fun c => negb (mem_cell c (makes l))) (needs r)
  end.
Lemma needs_cons : forall l r c, In c (needs (l :: r)) <-> In c (uses l) \/ In c (needs r) /\ ~ In c (makes l).
Proof.
  intros l r c. cbn [needs]. rewrite in_app_iff, filter_In, Bool.negb_true_iff. 
  assert (E : mem_cell c (makes l) = false <-> ~ In c (makes l)); [|tauto].
  rewrite <- Bool.not_true_iff_false. unfold mem_cell. rewrite existsb_exists. split; intros H X; apply H.
  - exists c. split; [exact X|]. destruct (cell_eqb_spec c c); congruence.
  - destruct X as (y & Y & E). destruct (cell_eqb_spec c y); congruence.
Qed.
Lemma needs_uses : forall ls c, In c (needs ls) -> In c (flat_map uses ls).
Proof. induction ls as [|l r IH]; intros c H; [exact H|]. apply needs_cons in H. cbn [flat_map]. rewrite in_app_iff. destruct H as [H|[H _]]; auto. Qed.
Lemma needs_app : forall a b c, In c (needs (a ++ b)) -> In c (flat_map uses a) \/ In c (needs b) /\ ~ In c (flat_map makes a).
Proof.
  induction a as [|l a IH]; intros b c H; [right; split; [exact H|intros []]|]. cbn [app] in H. apply needs_cons in H. cbn [flat_map]. rewrite !in_app_iff.
  destruct H as [H|[H N]]; [tauto|]. destruct (IH _ _ H) as [X|[X Y]]; [tauto|]. right. split; [exact X|]. tauto.
Qed.

(** Nothing measured is needed later. *)
Fixpoint clean (ls : list local_instr) : Prop :=
  match ls with [] => True | l :: r => (forall c, In c (spoils l) -> ~ In c (needs r)) /\ clean r end.
Lemma clean_app : forall a b, clean (a ++ b) -> clean b.
Proof. induction a as [|l a IH]; intros b H; [exact H|]. apply IH, H. Qed.

(** ** The compiled operations *)

Lemma layers_clean : forall (does : nat -> local_instr -> Prop) (at_ : nat -> cell) n ka la kb lb,
  Forall2 does ka la -> Forall2 does kb lb -> NoDup kb ->
  (forall k l, In k ka -> does k l -> spoils l = []) ->
  (forall k l c, In k kb -> does k l -> In c (spoils l) -> exists i, (i = k \/ i = k + 1) /\ c = at_ i /\ 0 < i /\ i + 1 < n) ->
  (forall k l c, In k kb -> does k l -> In c (uses l) -> exists i, (i = k \/ i = k + 1) /\ i < n /\ c = at_ i) ->
  (forall k k', In k kb -> In k' kb -> k <> k' + 1) ->
  (forall i i', 0 < i -> i + 1 < n -> i' < n -> at_ i = at_ i' -> i = i') ->
  clean (la ++ lb).
Proof.
  intros does at_ n ka la kb lb Fa Fb Nb Ha Hb Hu Par Inj.
  assert (Cb : clean lb).
  { clear Fa Ha. induction Fb as [|k l kb lb D Fb IH]; [exact I|]. inversion Nb as [|? ? Nk Nb']; subst. split; [|apply IH; auto].
    - intros c Hs Hn. apply needs_uses, in_flat_map in Hn as (l' & L' & U'). destruct (forall2_in_r _ _ _ _ _ _ Fb L') as (k' & K' & D').
      destruct (Hb k l c (or_introl eq_refl) D Hs) as (i & Hi & -> & I1 & I2). destruct (Hu k' l' _ (or_intror K') D' U') as (i' & Hi' & I3 & E).
      apply Inj in E; auto. subst i'. pose proof (Par k k' (or_introl eq_refl) (or_intror K')). pose proof (Par k' k (or_intror K') (or_introl eq_refl)).
      assert (k <> k') by (intros ->; contradiction). lia.
    - intros k1 l1 c K1. apply Hb. now right.
    - intros k1 l1 c K1. apply Hu. now right.
    - intros k1 k2 K1 K2. apply Par; now right. }
  induction Fa as [|k l ka la D Fa IH]; [exact Cb|]. cbn [app clean]. split.
  - rewrite (Ha k l (or_introl eq_refl) D). intros c [].
  - apply IH. intros k1 l1 K1. apply Ha. now right.
Qed.
Lemma layers_needs : forall (does : nat -> local_instr -> Prop) (E : cell -> Prop) ka la kb lb,
  Forall2 does ka la -> Forall2 does kb lb ->
  (forall k l c, In k ka -> does k l -> In c (uses l) -> E c) ->
  (forall k l c, In k kb -> does k l -> In c (uses l) -> E c \/ exists k', In k' ka /\ forall l', does k' l' -> In c (makes l')) ->
  forall c, In c (needs (la ++ lb)) -> E c.
Proof.
  intros does E ka la kb lb Fa Fb Ha Hb c H. apply needs_app in H as [H|[H N]].
  - apply in_flat_map in H as (l & L & U). destruct (forall2_in_r _ _ _ _ _ _ Fa L) as (k & K & D). eauto.
  - apply needs_uses, in_flat_map in H as (l & L & U). destruct (forall2_in_r _ _ _ _ _ _ Fb L) as (k & K & D).
    destruct (Hb k l c K D U) as [X|(k' & K' & M)]; [exact X|]. exfalso. apply N, in_flat_map.
    assert (X : exists l', In l' la /\ does k' l').
    { clear -Fa K'. induction Fa as [|x y ka la D Fa IH]; [destruct K'|]. destruct K' as [->|K']; [exists y; split; [now left|exact D]|].
      destruct (IH K') as (l' & L' & D'). exists l'. split; [now right|exact D']. }
    destruct X as (l' & L' & D'). exists l'. auto.
Qed.

Lemma seg_inj : forall route, NoDup route -> forall i j, i < length route -> j < length route -> seg route 0 i = seg route 0 j -> i = j.
Proof. intros route H i j Hi Hj E. unfold seg in E. cbn [plus] in E. apply (proj1 (NoDup_nth route (mkCell 0 0)) H); auto. Qed.

(** A pair over a distance needs nothing. *)
Lemma pair_claims : forall route s1 s2 la lb, 2 <= length route -> NoDup route ->
  compile_bell LRPrep ([], []) route 0 (length route - 1) false (Some s1) (Some s2) = Ok (la, lb) ->
  clean (la ++ lb) /\ needs (la ++ lb) = [].
Proof.
  intros route s1 s2 la lb Hl Nd E.
  destruct (compile_shape LRPrep ([], []) route 0 (length route - 1) false (Some s1) (Some s2)) as (la' & lb' & E' & A & B); [lia|].
  rewrite E in E'. cbn [fst snd app] in E'. injection E' as <- <-. replace (length route - 1 - 0 + 1) with (length route) in A, B by lia.
  set (n := length route) in *. destruct A as (ka & Fa & Na & Ia), B as (kb & Fb & Nb & Ib).
  set (does := link_does LRPrep n false (Some s1) (Some s2) _ _ (seg route 0)) in *.
  assert (Sel : forall k, in_first LRPrep n false k = if Nat.odd n then Nat.odd k else negb (Nat.odd k)).
  { intro k. unfold in_first. cbn [producing negb]. rewrite Bool.andb_true_r. destruct (Nat.odd n); [rewrite even_odd; now destruct (Nat.odd k)|reflexivity]. }
  assert (Pr : forall k, in_first LRPrep n false k = true -> (move_link n false = Some k -> False) /\ forall l, does k l -> exists i j, l = LBellPrepare i j (seg route 0 k) (seg route 0 (k + 1))).
  { intros k Hk. assert (M : move_link n false = Some k -> False).
    { unfold move_link. rewrite Sel in Hk. destruct (Nat.odd n); [|discriminate]. intro X. injection X as <-. discriminate. }
    split; [exact M|]. intros l D. unfold does, link_does in D. rewrite Hk in D. destruct (move_link n false) as [m|]; cbn in D.
    - destruct (Nat.eqb_spec k m) as [->|_]; [destruct (M eq_refl)|]. destruct D as (x & y & Ei & i & j & -> & _ & P). destruct (P eq_refl) as [-> _].
      exists i, j. destruct Ei as [[_ ->]|[X ->]]; [reflexivity|]. now rewrite X.
    - destruct D as (x & y & Ei & i & j & -> & _ & P). destruct (P eq_refl) as [-> _].
      exists i, j. destruct Ei as [[_ ->]|[X ->]]; [reflexivity|]. now rewrite X. }
  assert (Me : forall k l, in_first LRPrep n false k = false -> does k l -> 
     (k = 0 /\ Nat.odd n = true /\ l = LMove (seg route 0 1) (seg route 0 0) None)
     \/ (0 < k /\ exists x y, either (seg route 0 k) (seg route 0 (k + 1)) x y /\ l = LBellMeasure x y)).
  { intros k l Hk D. unfold does, link_does in D. rewrite Hk in D. rewrite Sel in Hk. unfold move_link in D. destruct (Nat.odd n); cbn in D.
    - destruct (Nat.eqb_spec k 0) as [->|Hk0]; [left; auto|]. right. split; [lia|]. exact D.
    - right. split; [destruct k; [discriminate|lia]|exact D]. }
  assert (Up : forall k, In k kb -> k + 2 < n).
  { intros k K. apply Ib in K as [K1 K2]. apply Bool.negb_true_iff in K2. rewrite Sel in K2.
    destruct (Nat.eq_dec (k + 2) n) as [X|X]; [|lia]. rewrite <- X in K2. replace (k + 2) with (S (S k)) in K2 by lia.
    rewrite Nat.odd_succ_succ in K2. destruct (Nat.odd k); discriminate. }
  assert (Prev : forall k, In k kb -> 0 < k -> In (k - 1) ka).
  { intros k K Hk. apply Ia. apply Ib in K as [K1 K2]. split; [lia|]. apply Bool.negb_true_iff in K2. rewrite Sel in K2 |- *.
    destruct k as [|k]; [lia|]. replace (S k - 1) with k by lia. rewrite Nat.odd_succ, even_odd in K2. destruct (Nat.odd n), (Nat.odd k); cbn in *; congruence. }
  assert (Next : forall k, In k kb -> In (k + 1) ka).
  { intros k K. apply Ia. pose proof (Up k K). apply Ib in K as [K1 K2]. split; [lia|]. apply Bool.negb_true_iff in K2. rewrite Sel in K2 |- *.
    replace (k + 1) with (S k) by lia. rewrite Nat.odd_succ, even_odd. destruct (Nat.odd n), (Nat.odd k); cbn in *; congruence. }
  assert (Hub : forall k l c, In k kb -> does k l -> In c (uses l) -> exists i, (i = k \/ i = k + 1) /\ 0 < i /\ i + 1 < n /\ c = seg route 0 i).
  { intros k l c K D U. pose proof (Up k K) as Hk. pose proof K as K0. apply Ib in K as [K1 K2]. apply Bool.negb_true_iff in K2. 
    destruct (Me k l K2 D) as [(-> & _ & ->)|(Hp & x & y & Ei & ->)].
    - destruct U as [<-|[]]. exists 1. repeat split; lia || auto.
    - destruct Ei as [[-> ->]|[-> ->]], U as [<-|[<-|[]]]; eexists; (split; [|split; [|split; [|reflexivity]]]); lia. }
  split.
  - apply (layers_clean does (seg route 0) n ka la kb lb Fa Fb Nb).
    + intros k l K D. apply Ia in K as [_ K]. destruct (proj2 (Pr k K) l D) as (i & j & ->). reflexivity.
    + intros k l c K D S. destruct (Hub k l c K D) as (i & I1 & I2 & I3 & I4); [|exists i; repeat split; auto].
      pose proof K as K0. apply Ib in K as [K1 K2]. apply Bool.negb_true_iff in K2. destruct (Me k l K2 D) as [(_ & _ & ->)|(_ & x & y & _ & ->)]; exact S.
    + intros k l c K D U. destruct (Hub k l c K D U) as (i & I1 & I2 & I3 & I4). exists i. repeat split; auto; lia.
    + intros k k' K K' X. apply Ib in K as [_ K], K' as [_ K']. apply Bool.negb_true_iff in K, K'. rewrite Sel in K, K'. subst k.
      replace (k' + 1) with (S k') in K by lia. rewrite Nat.odd_succ, even_odd in K. destruct (Nat.odd n), (Nat.odd k'); discriminate.
    + intros i i' H1 H2 H3 X. eapply seg_inj; eauto. fold n. lia.
  - destruct (needs (la ++ lb)) as [|c r] eqn:En; [reflexivity|]. exfalso.
    apply (layers_needs does (fun _ => False) ka la kb lb Fa Fb) with (c := c); [| |rewrite En; now left].
    + intros k l c0 K D U. apply Ia in K as [_ K]. destruct (proj2 (Pr k K) l D) as (i & j & ->). exact U.
    + intros k l c0 K D U. right. destruct (Hub k l c0 K D U) as (i & I1 & I2 & I3 & ->). destruct I1 as [->| ->].
      * exists (k - 1). split; [apply Prev; auto|]. intros l' D'. assert (K' := Prev k K I2). apply Ia in K' as [_ K']. destruct (proj2 (Pr _ K') l' D') as (i & j & ->).
        right. left. f_equal. lia.
      * exists (k + 1). split; [apply Next; auto|]. intros l' D'. assert (K' := Next k K). apply Ia in K' as [_ K']. destruct (proj2 (Pr _ K') l' D') as (i & j & ->). now left.
Qed.

(** A CNOT needs the two patches at the ends. *)
Lemma cnot_claims : forall route s1 s2 la lb, 4 <= length route ->
  (forall i j, 0 < i -> i + 1 < length route -> j < length route -> seg route 0 i = seg route 0 j -> i = j) ->
  compile_cnot ([], []) route s1 s2 = Ok (la, lb) ->
  clean (la ++ lb) /\ forall c, In c (needs (la ++ lb)) -> c = seg route 0 0 \/ c = seg route 0 (length route - 1).
Proof.
  intros route s1 s2 la lb Hl Inj E. destruct (cnot_shape route s1 s2 Hl) as (la' & lb' & E' & A & B). rewrite E in E'. injection E' as <- <-.
  set (n := length route) in *. destruct A as (ka & Fa & Na & Ia), B as (kb & Fb & Nb & Ib).
  set (does := cnot_link s1 s2 (cnot_k1 n) 1 n (seg route 0)) in *.
  assert (Odd2 : forall k, k = n - 2 -> Nat.odd k = Nat.odd n).
  { intros k ->. assert (X : n = S (S (n - 2))) by lia. rewrite X at 2. now rewrite Nat.odd_succ_succ. }
  (* first layer *)
  assert (Pr : forall k l, In k ka -> does k l ->
     k = n - 2 /\ l = LExtendSplit None (seg route 0 (n - 1)) (seg route 0 (n - 2))
     \/ k <> n - 2 /\ exists x y i j, either (seg route 0 k) (seg route 0 (k + 1)) x y /\ l = LBellPrepare i j x y).
  { intros k l K D. apply Ia in K as [K1 K2]. unfold does, cnot_link in D. destruct (Nat.eqb_spec k 0) as [->|_]; [discriminate|].
    destruct (Nat.eqb_spec k (n - 2)) as [X|X].
    - left. split; [exact X|]. rewrite (Odd2 k X) in K2. rewrite even_odd, K2 in D. exact D.
    - right. split; [exact X|]. rewrite K2 in D. destruct D as (x & y & Ei & i & j & -> & _). exists x, y, i, j. auto. }
  (* second layer *)
  assert (Me : forall k l, In k kb -> does k l ->
     k = 0 /\ l = LMergeContract (seg route 0 0) (seg route 0 1)
     \/ 0 < k /\ k = n - 2 /\ l = LMergeContract (seg route 0 (n - 1)) (seg route 0 (n - 2))
     \/ 0 < k /\ k + 2 < n /\ exists x y, either (seg route 0 k) (seg route 0 (k + 1)) x y /\ l = LBellMeasure x y).
  { intros k l K D. apply Ib in K as [K1 K2]. apply Bool.negb_true_iff in K2. unfold does, cnot_link in D. destruct (Nat.eqb_spec k 0) as [->|K0]; [left; auto|]. right.
    destruct (Nat.eqb_spec k (n - 2)) as [X|X].
    - left. split; [lia|]. split; [exact X|]. rewrite (Odd2 k X) in K2. rewrite even_odd, K2 in D. exact D.
    - right. split; [lia|]. split; [lia|]. rewrite K2 in D. exact D. }
  assert (Prev : forall k, In k kb -> 0 < k -> In (k - 1) ka).
  { intros k K Hk. apply Ia. apply Ib in K as [K1 K2]. split; [lia|]. apply Bool.negb_true_iff in K2.
    destruct k as [|k]; [lia|]. replace (S k - 1) with k by lia. rewrite Nat.odd_succ, even_odd in K2. destruct (Nat.odd k); cbn in *; congruence. }
  assert (Next : forall k, In k kb -> k + 2 < n -> In (k + 1) ka).
  { intros k K Hk. apply Ia. apply Ib in K as [K1 K2]. split; [lia|]. apply Bool.negb_true_iff in K2.
    replace (k + 1) with (S k) by lia. rewrite Nat.odd_succ, even_odd, K2. reflexivity. }
  assert (Mk : forall k, In k ka -> forall l', does k l' -> In (seg route 0 k) (makes l') /\ (k <> n - 2 -> In (seg route 0 (k + 1)) (makes l'))).
  { intros k K l' D. destruct (Pr k l' K D) as [(-> & ->)|(X & x & y & i & j & Ei & ->)]; [split; [now left|congruence]|].
    split; [|intros _]; destruct Ei as [[-> ->]|[-> ->]]; cbn; auto. }
  split.
  - apply (layers_clean does (seg route 0) n ka la kb lb Fa Fb Nb); [..|exact Inj].
    + intros k l K D. destruct (Pr k l K D) as [(_ & ->)|(_ & x & y & i & j & _ & ->)]; reflexivity.
    + intros k l c K D S. pose proof (proj1 (proj1 (Ib k) K)) as Kn. destruct (Me k l K D) as [(-> & ->)|[(Hk & -> & ->)|(Hk & Hk2 & x & y & Ei & ->)]].
      * destruct S as [<-|[]]. exists 1. repeat split; auto; lia.
      * destruct S as [<-|[]]. exists (n - 2). repeat split; auto; lia.
      * destruct Ei as [[-> ->]|[-> ->]], S as [<-|[<-|[]]]; eexists; (split; [|split; [reflexivity|]]); lia.
    + intros k l c K D U. destruct (Me k l K D) as [(-> & ->)|[(Hk & -> & ->)|(Hk & Hk2 & x & y & Ei & ->)]].
      * destruct U as [<-|[<-|[]]]; eexists; (split; [|split; [|reflexivity]]); lia.
      * destruct U as [<-|[<-|[]]]; eexists; (split; [|split; [|reflexivity]]); lia.
      * destruct Ei as [[-> ->]|[-> ->]], U as [<-|[<-|[]]]; eexists; (split; [|split; [|reflexivity]]); lia.
    + intros k k' K K' X. apply Ib in K as [_ K], K' as [_ K']. apply Bool.negb_true_iff in K, K'. subst k.
      replace (k' + 1) with (S k') in K by lia. rewrite Nat.odd_succ, even_odd in K. destruct (Nat.odd k'); discriminate.
  - apply (layers_needs does (fun c => c = seg route 0 0 \/ c = seg route 0 (n - 1)) ka la kb lb Fa Fb).
    + intros k l c K D U. destruct (Pr k l K D) as [(_ & ->)|(_ & x & y & i & j & _ & ->)]; [|destruct U]. destruct U as [<-|[]]. auto.
    + intros k l c K D U. pose proof (proj1 (proj1 (Ib k) K)) as Kn.
      assert (P : 0 < k -> c = seg route 0 k -> exists k', In k' ka /\ forall l', does k' l' -> In c (makes l')).
      { intros Hk ->. exists (k - 1). pose proof (Prev k K Hk) as Hp. split; [exact Hp|]. intros l' D'. destruct (Mk _ Hp l' D') as [_ M].
        replace (k - 1 + 1) with k in M by lia. apply M. lia. }
      assert (Q : k + 2 < n -> c = seg route 0 (k + 1) -> exists k', In k' ka /\ forall l', does k' l' -> In c (makes l')).
      { intros Hk ->. exists (k + 1). pose proof (Next k K Hk) as Hp. split; [exact Hp|]. intros l' D'. apply (Mk _ Hp l' D'). }
      destruct (Me k l K D) as [(-> & ->)|[(Hk & Ek & ->)|(Hk & Hk2 & x & y & Ei & ->)]].
      * destruct U as [<-|[<-|[]]]; [auto|]. right. apply Q; [lia|reflexivity].
      * destruct U as [<-|[<-|[]]]; [auto|]. right. apply P; [exact Hk|]. f_equal. lia.
      * right. destruct Ei as [[-> ->]|[-> ->]], U as [<-|[<-|[]]]; auto.
Qed.

(** ** What is kept while local operations are carried out *)

(** A patch that neither goes away by itself nor can be taken for a magic state. *)
Definition solid (L : layout) (c : cell) (p : dpatch) : Prop :=
  p_type (dp p) = TQubit \/ p_type (dp p) = TPreparedState /\ p_id (dp p) <> None
  \/ p_type (dp p) = TRouting /\ ~ In c (l_reserved L).
(** Something that stays is on the tile; if it has an id, it is one of the given ones. *)
Definition held (L : layout) (ids : list N) (s : slice) (c : cell) : Prop :=
  exists p, tile_at s c = Some p /\ ~ consumed (p_act (dp p)) /\ solid L c p /\ forall id, p_id (dp p) = Some id -> In id ids.

Lemma over_cases : forall u s c, (exists t, In (c, t) u /\ over u s c = t) \/ ~ In c (map fst u) /\ over u s c = tile_at s c.
Proof.
  induction u as [|[c' t] u IH]; intros s c; [right; split; [intros []|reflexivity]|]. cbn [over map fst].
  destruct (cell_eqb_spec c' c) as [->|N]; [left; exists t; split; [now left|reflexivity]|].
  destruct (IH s c) as [(t' & T & E)|(X & E)]; [left; exists t'; split; [now right|exact E]|right]. split; [|exact E]. intros [Y|Y]; auto.
Qed.

Lemma local_kept : forall s l u s' c p, local_effect false s l u -> becomes s s' u -> tile_at s c = Some p -> ~ In c (uses l) -> tile_at s' c = Some p.
Proof.
  intros s l u s' c p H [B _] T Nu. rewrite B. destruct (over_cases u s c) as [(t & Ht & _)|(_ & ->)]; [|exact T]. exfalso.
  assert (Cl : forall x, claimable false s x -> tile_at s x = None) by (intros x [X|[X _]]; [exact X|discriminate]).
  destruct H; repeat match goal with X : claimable false _ _ |- _ => apply Cl in X end; cbn [uses] in Nu;
    repeat (destruct Ht as [Ht|Ht]; [injection Ht; intros; subst; cbn [In] in Nu; try congruence; tauto|]); destruct Ht.
Qed.

Lemma local_makes : forall L ids s l u s' c, local_effect false s l u -> becomes s s' u -> In c (makes l) ->
  incl (local_ids l) ids -> (forall c, In c (uses l) -> held L ids s c) -> held L ids s' c.
Proof.
  intros L ids s l u s' c H [B _] M Il U.
  assert (Sq : forall id lab p, p = square id lab \/ (exists d, p = joined d (square id lab)) \/ p = doing AUnitary (square id lab) ->
     (forall x, id = Some x -> In x ids) -> ~ consumed (p_act (dp p)) /\ solid L c p /\ forall x, p_id (dp p) = Some x -> In x ids).
  { intros id lab p Hp Hi. destruct Hp as [->|[(d & ->)| ->]]; cbn; (split; [intros [X|X]; discriminate|]); (split; [now left|exact Hi]). }
  assert (Il' : forall x, In x (local_ids l) -> In x ids) by exact Il.
  unfold held. rewrite B. destruct H; cbn [makes local_ids uses] in *; try (destruct M; fail); cbn [over].
  - destruct M as [<-|[]]. destruct (cell_eqb_spec c0 c0); [|congruence]. eexists. split; [reflexivity|]. eapply Sq; [right; right; reflexivity|]. intros x ->. apply Il'. now left.
  - destruct (cell_eqb_spec c0 c) as [->|N].
    + eexists. split; [reflexivity|]. eapply Sq; [right; left; eexists; reflexivity|]. intros x ->. apply Il', in_app_iff. left. now left.
    + destruct M as [M|[<-|[]]]; [congruence|]. destruct (cell_eqb_spec (step c0 d) (step c0 d)); [|congruence].
      eexists. split; [reflexivity|]. eapply Sq; [right; left; eexists; reflexivity|]. intros x ->. apply Il', in_app_iff. right. now left.
  - destruct M as [<-|[]]. destruct (cell_eqb_spec c0 (step c0 d)) as [X|N]; [symmetry in X; apply step_neq in X; destruct X|].
    destruct (cell_eqb_spec (step c0 d) (step c0 d)); [|congruence].
    eexists. split; [reflexivity|]. eapply Sq; [right; left; eexists; reflexivity|]. intros x ->. apply Il'. now left.
  - destruct M as [<-|[]]. destruct (cell_eqb_spec c0 (step c0 d)) as [X|N]; [symmetry in X; apply step_neq in X; destruct X|].
    destruct (cell_eqb_spec (step c0 d) (step c0 d)); [|congruence].
    eexists. split; [reflexivity|]. eapply Sq; [right; left; eexists; reflexivity|]. intros x Hx. destruct new_id as [y|].
    + injection Hx as ->. apply Il'. now left.
    + destruct (U c0 (or_introl eq_refl)) as (q & Q & _ & _ & Qi). destruct H as (P & _). rewrite P in Q. injection Q as <-. apply Qi. exact Hx.
Qed.

Lemma local_uses : forall L ids s l u s' c, local_effect false s l u -> becomes s s' u -> In c (uses l) -> ~ In c (spoils l) ->
  held L ids s c -> held L ids s' c.
Proof.
  intros L ids s l u s' c H [B _] U Ns (p0 & P0 & P1 & P2 & P3). unfold held. rewrite B.
  assert (J : forall d, ~ consumed (p_act (dp (joined d p0))) /\ solid L c (joined d p0) /\ forall x, p_id (dp (joined d p0)) = Some x -> In x ids).
  { intro d. cbn. split; [exact P1|]. split; [exact P2|exact P3]. }
  destruct H; cbn [uses spoils] in *; try (destruct U; fail); cbn [over].
  - destruct U as [<-|[<-|[]]]; exfalso; apply Ns; cbn; auto.
  - destruct (cell_eqb_spec c0 c) as [->|N]; [destruct H as (P & _); rewrite P in P0; injection P0 as ->; eexists; split; [reflexivity|]; apply J|].
    destruct U as [U|[<-|[]]]; [congruence|]. destruct (cell_eqb_spec (step c0 d) (step c0 d)); [|congruence].
    match goal with X : idle s (step c0 d) _ |- _ => destruct X as (P & _) end. rewrite P in P0. injection P0 as ->. eexists. split; [reflexivity|]. apply J.
  - destruct U as [<-|[]]. destruct (cell_eqb_spec c0 c0); [|congruence]. destruct H as (P & _). rewrite P in P0. injection P0 as ->. eexists. split; [reflexivity|]. apply J.
  - destruct U as [<-|[<-|[]]]; [|exfalso; apply Ns; now left]. destruct (cell_eqb_spec c0 c0); [|congruence]. destruct H as (P & _). rewrite P in P0. injection P0 as ->. eexists. split; [reflexivity|]. apply J.
  - destruct U as [<-|[]]. exfalso. apply Ns. now left.
Qed.

Lemma held_same : forall L ids s s' c, held L ids s c -> tile_at s' c = tile_at s c -> held L ids s' c.
Proof. intros L ids s s' c (p & P) E. exists p. now rewrite E. Qed.

Lemma ran_held : forall L ids done s s' rest, ran false s done s' -> clean (done ++ rest) -> incl (flat_map local_ids done) ids ->
  (forall c, In c (needs (done ++ rest)) -> held L ids s c) -> forall c, In c (needs rest) -> held L ids s' c.
Proof.
  intros L ids done. induction done as [|l r IH]; intros s s' rest R C Il Hh c Hc.
  - inversion R; subst. apply Hh. exact Hc.
  - inversion R as [|? ? u s1 ? ? E B R']; subst. cbn [app clean flat_map] in *. destruct C as [C1 C2].
    assert (Il1 : incl (local_ids l) ids) by (intros x X; apply Il, in_app_iff; auto).
    apply (IH s1 s' rest R' C2); [intros x X; apply Il, in_app_iff; auto| |exact Hc].
    intros c1 H1. destruct (in_dec cell_eq_dec c1 (makes l)) as [M|M].
    + eapply local_makes; eauto. intros c2 U. apply Hh, needs_cons. now left.
    + assert (H2 : held L ids s c1) by (apply Hh, needs_cons; auto).
      destruct (in_dec cell_eq_dec c1 (uses l)) as [U|U].
      * eapply local_uses; eauto. intro S. exact (C1 _ S H1).
      * destruct H2 as (p & P & Q). exists p. split; [eapply local_kept; eauto|exact Q].
Qed.
Lemma ran_kept : forall done s s' rest c p, ran false s done s' -> tile_at s c = Some p -> ~ In c (needs (done ++ rest)) -> tile_at s' c = Some p.
Proof.
  induction done as [|l r IH]; intros s s' rest c p R T N; inversion R as [|? ? u s1 ? ? E B R']; subst; [exact T|].
  cbn [app] in N. rewrite needs_cons in N. assert (T1 : tile_at s1 c = Some p) by (eapply local_kept; eauto; tauto).
  apply (IH s1 s' rest c p R' T1). intro X. apply N. right. split; [exact X|]. intro M.
  (* what is put somewhere is put on an empty tile *)
  assert (Cl : forall x, claimable false s x -> tile_at s x = None) by (intros x [X0|[X0 _]]; [exact X0|discriminate]).
  destruct E; cbn [makes] in M; repeat match goal with X : claimable false _ _ |- _ => apply Cl in X end; repeat (destruct M as [<-|M]; [congruence|]); destruct M.
Qed.
