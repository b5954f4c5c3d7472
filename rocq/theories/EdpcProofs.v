(** Lemmas for the EDPC layout. *)
From Verif Require Import Base TextModel PatchesModel LayoutModel LayoutSpec LayoutProofs CompactProofs SliceProofs EdpcModel.
Open Scope Z_scope.

(** ** Grids as functions *)

Definition char_at (g : grid) (i j : Z) : option ascii :=
  if (i <? 0) || (j <? 0) then None else match nth_error g (Z.to_nat i) with Some r => nth_error r (Z.to_nat j) | None => None end.
Definition square_grid (s : Z) (g : grid) : Prop := Z.of_nat (length g) = s /\ Forall (fun r => Z.of_nat (length r) = s) g.

Lemma put_char_ok : forall s g i j t, square_grid s g -> 0 <= i < s -> 0 <= j < s ->
  exists g', put_char g i j t = Ok g' /\ square_grid s g' /\ forall a b, char_at g' a b = if (a =? i) && (b =? j) then Some t else char_at g a b.
Proof.
  intros s g i j t [H1 H2] Hi Hj. unfold put_char. destruct (Z.ltb_spec i 0); [lia|]. destruct (Z.ltb_spec j 0); [lia|]. cbn [orb]. unfold idx.
  destruct (nth_error g (Z.to_nat i)) as [r|] eqn:Er; [|apply nth_error_None in Er; lia]. cbn [bind].
  assert (Lr : Z.of_nat (length r) = s) by (rewrite Forall_forall in H2; apply H2; eapply nth_error_In; eauto).
  destruct (nth_error r (Z.to_nat j)) as [c|] eqn:Ec; [|apply nth_error_None in Ec; lia]. cbn [bind]. eexists. split; [reflexivity|]. split.
  - split; [rewrite set_row_length; exact H1|]. apply Forall_set_row; [exact H2|]. now rewrite set_row_length.
  - intros a b. unfold char_at. destruct (Z.ltb_spec a 0); cbn [orb].
    { destruct (Z.eqb_spec a i); [lia|reflexivity]. }
    destruct (Z.ltb_spec b 0). { destruct (Z.eqb_spec b j); [lia|]. now rewrite andb_false_r. }
    destruct (Z.eqb_spec a i) as [->|Na].
    + rewrite set_row_same by lia. rewrite Er. destruct (Z.eqb_spec b j) as [->|Nb]; cbn [andb].
      * rewrite set_row_same by lia. reflexivity.
      * rewrite set_row_other by lia. reflexivity.
    + rewrite set_row_other by lia. reflexivity.
Qed.
Lemma char_at_in : forall s g a b, square_grid s g -> 0 <= a < s -> 0 <= b < s -> exists c, char_at g a b = Some c.
Proof.
  intros s g a b [H1 H2] Ha Hb. unfold char_at. destruct (Z.ltb_spec a 0); [lia|]. destruct (Z.ltb_spec b 0); [lia|]. cbn [orb].
  destruct (nth_error g (Z.to_nat a)) as [r|] eqn:Er; [|apply nth_error_None in Er; lia].
  assert (Lr : Z.of_nat (length r) = s) by (rewrite Forall_forall in H2; apply H2; eapply nth_error_In; eauto).
  destruct (nth_error r (Z.to_nat b)) as [c|] eqn:Ec; [eauto|apply nth_error_None in Ec; lia].
Qed.
Lemma char_at_dim : forall s g a b c, square_grid s g -> char_at g a b = Some c -> 0 <= a < s /\ 0 <= b < s.
Proof.
  intros s g a b c [H1 H2]. unfold char_at. destruct (Z.ltb_spec a 0); [discriminate|]. destruct (Z.ltb_spec b 0); [discriminate|]. cbn [orb].
  destruct (nth_error g (Z.to_nat a)) as [r|] eqn:Er; [|discriminate]. intros Ec.
  assert (Lr : Z.of_nat (length r) = s) by (rewrite Forall_forall in H2; apply H2; eapply nth_error_In; eauto).
  assert ((Z.to_nat a < length g)%nat) by (apply nth_error_Some; congruence). assert ((Z.to_nat b < length r)%nat) by (apply nth_error_Some; congruence). lia.
Qed.
Lemma char_at_written : forall g a b t, char_at g a b = Some t <-> written g (mkCell a b) t.
Proof.
  intros g a b t. unfold char_at, written. split.
  - destruct (Z.ltb_spec a 0); [discriminate|]. destruct (Z.ltb_spec b 0); [discriminate|]. cbn [orb].
    destruct (nth_error g (Z.to_nat a)) as [r|] eqn:Er; [|discriminate]. intros E. exists (Z.to_nat a), (Z.to_nat b), r. rewrite !Z2Nat.id by lia. auto.
  - intros (i & j & r & [= -> ->] & Er & Ec). destruct (Z.ltb_spec (Z.of_nat i) 0); [lia|]. destruct (Z.ltb_spec (Z.of_nat j) 0); [lia|].
    cbn [orb]. now rewrite !Nat2Z.id, Er.
Qed.

(** ** Loops *)

Lemma range_nil : forall a b, b <= a -> range a b = [].
Proof. intros a b H. unfold range. replace (Z.to_nat (b - a)) with 0%nat by lia. reflexivity. Qed.
Lemma range_cons : forall a b, a < b -> range a b = a :: range (a + 1) b.
Proof.
  intros a b H. unfold range. replace (Z.to_nat (b - a)) with (S (Z.to_nat (b - (a + 1)))) by lia. cbn [seq map]. f_equal; [lia|].
  rewrite <- seq_shift, map_map. apply map_ext. intros k. lia.
Qed.
Lemma range_app : forall a b c, a <= b <= c -> range a c = range a b ++ range b c.
Proof.
  intros a b c H. remember (Z.to_nat (b - a)) as k eqn:E. revert a E H. induction k as [|k IH]; intros a E H.
  - assert (a = b) by lia. subst. now rewrite (range_nil b b) by lia.
  - rewrite (range_cons a c), (range_cons a b) by lia. cbn [app]. f_equal. apply IH; lia.
Qed.
Lemma range_In : forall a b x, In x (range a b) <-> a <= x < b.
Proof.
  intros a b x. unfold range. rewrite in_map_iff. split.
  - intros (k & <- & H). apply in_seq in H. lia.
  - intros H. exists (Z.to_nat (x - a)). split; [lia|]. apply in_seq. lia.
Qed.
Lemma foldM_app : forall A S (f : S -> A -> outcome S) l1 l2 s, foldM f (l1 ++ l2) s = (do s' <- foldM f l1 s ;; foldM f l2 s').
Proof. induction l1 as [|x l1 IH]; intros l2 s; cbn [foldM app bind]; [reflexivity|]. destruct (f s x); cbn [bind]; auto. Qed.
Lemma foldM_skip : forall A S (f : S -> A -> outcome S) l s, (forall x, In x l -> f s x = Ok s) -> foldM f l s = Ok s.
Proof. induction l as [|x l IH]; intros s H; cbn [foldM]; [reflexivity|]. rewrite (H x) by now left. cbn [bind]. apply IH. intros y Hy. apply H. now right. Qed.
Lemma foldM_keeps : forall A S (f : S -> A -> outcome S) (P : S -> Prop) l s,
  (forall x s, In x l -> P s -> exists s', f s x = Ok s' /\ P s') -> P s -> exists s', foldM f l s = Ok s' /\ P s'.
Proof.
  induction l as [|x l IH]; intros s H Hs; cbn [foldM]; [eauto|]. destruct (H x s) as (s1 & -> & H1); [now left|exact Hs|]. cbn [bind]. apply IH; [|exact H1].
  intros y s' Hy. apply H. now right.
Qed.

(** ** Dimensions *)

Section Edpc.
Variable p : edpc.
Notation n := (ep_n p).
Notation L := (ep_lanes p).
Notation t := (ep_pad p).
Notation s := (ep_size p).
Notation W := (ep_last p).
Notation hi := (ep_size p - ep_pad p - 1).
Notation sr := (ep_root p).
Hypothesis n_pos : 0 <= n.
Hypothesis L_pos : 0 <= L.
Hypothesis small : (sr + 1) * (L + 1) < 2 ^ 31.

Lemma sr_pos : 0 <= sr.
Proof. unfold ep_root. apply Z.sqrt_up_nonneg. Qed.
Lemma sr_enough : n <= sr * sr.
Proof.
  unfold ep_root. destruct (Z.eq_dec n 0) as [->|N]; [reflexivity|]. pose proof (Z.sqrt_up_spec n ltac:(lia)). nia.
Qed.
Lemma core_is : ep_core p = (if ep_condensed p then (sr + 1) * (L + 1) + 1 - L * (sr / 2) else (sr + 1) * (L + 1) + 1).
Proof.
  pose proof sr_pos as S. unfold ep_core. cbv zeta. replace (u64 _) with ((sr + 1) * (L + 1) + 1); [reflexivity|]. unfold u64. rewrite Z.mod_small; nia.
Qed.
Lemma pad_is : t = 0 \/ t = 5.
Proof. unfold ep_pad. destruct (ep_explicit p); auto. Qed.
Lemma core_min : L + 2 <= ep_core p < 2 ^ 32.
Proof.
  pose proof sr_pos as S. rewrite core_is. pose proof (Z.div_pos sr 2 S ltac:(lia)). pose proof (Z.mul_div_le sr 2 ltac:(lia)). destruct (ep_condensed p); nia.
Qed.
Lemma W_is : W = hi - L - 1.
Proof. pose proof core_min. pose proof pad_is. unfold ep_last, u64, ep_size. rewrite Z.mod_small; lia. Qed.
Lemma hi_is : hi = t + ep_core p - 1.
Proof. unfold ep_size. lia. Qed.

(** ** What is where *)

Definition ring (a b : Z) : Prop := t <= a <= hi /\ t <= b <= hi /\ (a = t \/ b = t \/ a = hi \/ b = hi).
Definition inside (a b : Z) : Prop := t < a < hi /\ t < b < hi.

(** The qubits are on the tiles [l], other tiles inside are free; the ring has free tiles and Y states; everything outside is free. *)
Record tidy (g : grid) (l : list (Z * Z)) : Prop := {
  td_square : square_grid s g;
  td_qubit : forall a b, In (a, b) l -> inside a b /\ char_at g a b = Some kQubit;
  td_free : forall a b, inside a b -> ~ In (a, b) l -> char_at g a b = Some kRouting;
  td_ring : forall a b, ring a b -> char_at g a b = Some kRouting \/ char_at g a b = Some kYState;
  td_out : forall a b, 0 <= a < s -> 0 <= b < s -> ~ ring a b -> ~ inside a b -> char_at g a b = Some kRouting;
  td_nodup : NoDup l }.
Definition keeps_Y (g g' : grid) : Prop := forall a b, char_at g a b = Some kYState -> char_at g' a b = Some kYState.

Lemma tidy_Y : forall g l a b, tidy g l -> ring a b -> exists g', put_char g a b kYState = Ok g' /\ tidy g' l /\ keeps_Y g g' /\ char_at g' a b = Some kYState.
Proof.
  intros g l a b T R. pose proof pad_is. destruct R as (R1 & R2 & R3).
  destruct (put_char_ok s g a b kYState (td_square _ _ T)) as (g' & E & Sq & F); [lia|lia|]. exists g'. split; [exact E|].
  assert (Same : forall x y, (x, y) <> (a, b) -> char_at g' x y = char_at g x y).
  { intros x y Nxy. rewrite F. destruct (Z.eqb_spec x a), (Z.eqb_spec y b); cbn [andb]; auto. subst. congruence. }
  assert (There : char_at g' a b = Some kYState) by (rewrite F, !Z.eqb_refl; reflexivity).
  assert (Ni : ~ inside a b) by (unfold inside; lia).
  split; [|split; [|exact There]].
  - constructor.
    + exact Sq.
    + intros x y H1. destruct (td_qubit _ _ T x y H1) as [H2 H3]. split; [exact H2|]. rewrite Same; [exact H3|]. intros [= -> ->]. contradiction.
    + intros x y H1 H2. rewrite Same; [apply (td_free _ _ T); auto|]. intros [= -> ->]. contradiction.
    + intros x y H1. rewrite F. destruct ((x =? a) && (y =? b)); [now right|]. apply (td_ring _ _ T); auto.
    + intros x y H1 H2 H3 H4. rewrite Same; [apply (td_out _ _ T); auto|]. intros [= -> ->]. apply H3. unfold ring. lia.
    + apply (td_nodup _ _ T).
  - intros x y H1. rewrite F. destruct ((x =? a) && (y =? b)); auto.
Qed.
Lemma tidy_Q : forall g l a b, tidy g l -> inside a b -> ~ In (a, b) l -> exists g', put_char g a b kQubit = Ok g' /\ tidy g' ((a, b) :: l) /\ keeps_Y g g'.
Proof.
  intros g l a b T R N. pose proof pad_is. destruct R as (R1 & R2).
  destruct (put_char_ok s g a b kQubit (td_square _ _ T)) as (g' & E & Sq & F); [lia|lia|]. exists g'. split; [exact E|].
  assert (Same : forall x y, (x, y) <> (a, b) -> char_at g' x y = char_at g x y).
  { intros x y Nxy. rewrite F. destruct (Z.eqb_spec x a), (Z.eqb_spec y b); cbn [andb]; auto. subst. congruence. }
  assert (There : char_at g' a b = Some kQubit) by (rewrite F, !Z.eqb_refl; reflexivity).
  assert (Nr : ~ ring a b) by (unfold ring; lia).
  split.
  - constructor.
    + exact Sq.
    + intros x y [[= <- <-]|H1]; [split; [split; lia|exact There]|]. destruct (td_qubit _ _ T x y H1) as [H2 H3]. split; [exact H2|].
      rewrite Same; [exact H3|]. intros [= -> ->]. contradiction.
    + intros x y H1 H2. rewrite Same; [apply (td_free _ _ T); auto; intros X; apply H2; now right|]. intros [= -> ->]. apply H2. now left.
    + intros x y H1. rewrite Same; [apply (td_ring _ _ T); auto|]. intros [= -> ->]. contradiction.
    + intros x y H1 H2 H3 H4. rewrite Same; [apply (td_out _ _ T); auto|]. intros [= -> ->]. apply H4. unfold inside. lia.
    + constructor; [exact N|apply (td_nodup _ _ T)].
  - intros x y H1. rewrite Same; [exact H1|]. intros [= -> ->]. pose proof (td_free _ _ T a b (conj R1 R2) N). rewrite H1 in H0. discriminate.
Qed.

(** ** One tile *)

(** The state after a tile at [j] on which something was placed *)
Definition two (j : Z) : bool := ep_condensed p && (t <? j) && (j <? W).
Definition next_h (h : bool) (j : Z) : bool := if ep_condensed p then if W <=? j then false else if t <? j then true else h else h.
Definition next_c (c : Z) (j : Z) : Z := if two j then c + 1 else c.
(** The number of qubits in a row (column) of tiles placed at [j] *)
Definition width (j : Z) : Z := if (t <? j) && (j <? hi) then if two j then 2 else 1 else 0.

Definition good (st : est) (l : list (Z * Z)) : Prop := tidy (e_grid st) l /\ Z.of_nat (length l) = e_placed st /\ e_placed st <= n.

Lemma ring_dec : forall i j, t <= i <= hi -> t <= j <= hi -> if ep_ring p i j then ring i j else inside i j.
Proof. intros i j Hi Hj. unfold ep_ring, ring, inside. destruct (Z.eqb_spec i t), (Z.eqb_spec j t), (Z.eqb_spec i hi), (Z.eqb_spec j hi); cbn [orb]; lia. Qed.

Lemma visit_ring_ok : forall st l i j, good st l -> ring i j ->
  exists st', visit_ring p st i j = Ok st' /\ good st' l /\ keeps_Y (e_grid st) (e_grid st') /\ char_at (e_grid st') i j = Some kYState
    /\ e_placed st' = e_placed st /\ e_rows_lost st' = e_rows_lost st
    /\ e_horiz st' = next_h (e_horiz st) j /\ e_cols_lost st' = next_c (e_cols_lost st) j
    /\ e_vert st' = (if two i then true else e_vert st) /\ e_row_lost st' = (if two i then true else e_row_lost st).
Proof.
  intros st l i j (T & Ln & Le) R. pose proof W_is as Wi. pose proof R as (R1 & R2 & R3). unfold visit_ring.
  destruct (tidy_Y _ _ i j T R) as (g1 & -> & T1 & K1 & Y1). cbn [bind]. unfold next_h, next_c, two.
  destruct (ep_condensed p); cbn [andb]; [|eexists; split; [reflexivity|]; cbn; unfold good; cbn; tauto].
  assert (A : exists g2, (if (t <? j) && (j <? W) then put_char g1 i (j + 1) kYState else Ok g1) = Ok g2 /\ tidy g2 l /\ keeps_Y g1 g2).
  { destruct ((t <? j) && (j <? W)) eqn:E; [|exists g1; split; [reflexivity|split; [exact T1|intros a b; auto]]].
    destruct (tidy_Y g1 l i (j + 1) T1) as (g2 & -> & T2 & K2 & _); [unfold ring; lia|]. eauto. }
  destruct A as (g2 & -> & T2 & K2). cbn [bind].
  assert (A : exists g3, (if (t <? i) && (i <? W) then put_char g2 (i + 1) j kYState else Ok g2) = Ok g3 /\ tidy g3 l /\ keeps_Y g2 g3).
  { destruct ((t <? i) && (i <? W)) eqn:E; [|exists g2; split; [reflexivity|split; [exact T2|intros a b; auto]]].
    destruct (tidy_Y g2 l (i + 1) j T2) as (g3 & -> & T3 & K3 & _); [unfold ring; lia|]. eauto. }
  destruct A as (g3 & -> & T3 & K3). cbn [bind]. eexists. split; [reflexivity|]. cbn [e_grid e_placed e_vert e_horiz e_rows_lost e_cols_lost e_row_lost].
  split; [split; [exact T3|auto]|]. split; [intros a b X; auto|]. split; [auto|]. repeat split; auto.
  destruct (Z.leb_spec W j); [reflexivity|]. destruct (Z.ltb_spec j W); [|lia]. now rewrite andb_true_r.
Qed.

(** The tiles in [l] are above row [i], or left of column [j] and at most one row below. *)
Definition before (i j : Z) (l : list (Z * Z)) : Prop := forall x y, In (x, y) l -> x < i \/ (x <= i + 1 /\ y < j).

Lemma visit_inside_full : forall st l i j, good st l -> e_placed st = n ->
  exists st', visit_inside p st i j = Ok st' /\ good st' l /\ e_placed st' = n /\ keeps_Y (e_grid st) (e_grid st').
Proof.
  intros st l i j G E. unfold visit_inside. destruct (Z.ltb_spec (e_placed st) n); [lia|]. eexists. split; [reflexivity|]. cbn. split; [exact G|]. split; [exact E|intros a b; auto].
Qed.
Lemma visit_inside_ok : forall st l i j, good st l -> e_placed st < n -> inside i j -> before i j l ->
  exists st' new, visit_inside p st i j = Ok st' /\ good st' (new ++ l) /\ keeps_Y (e_grid st) (e_grid st')
    /\ e_placed st' = Z.min n (e_placed st + width i * width j)
    /\ (forall x y, In (x, y) new -> (x = i \/ x = i + 1 /\ two i = true) /\ (y = j \/ y = j + 1 /\ two j = true))
    /\ e_rows_lost st' = e_rows_lost st
    /\ (e_placed st' < n -> e_horiz st' = next_h (e_horiz st) j /\ e_cols_lost st' = next_c (e_cols_lost st) j
        /\ e_vert st' = (if two i then true else next_h (e_vert st) i) /\ e_row_lost st' = (if two i then true else e_row_lost st)).
Proof.
  intros st l i j (T & Ln & Le) Lt I B. pose proof W_is as Wi. pose proof I as (I1 & I2). unfold visit_inside. destruct (Z.ltb_spec (e_placed st) n); [|lia].
  assert (N0 : ~ In (i, j) l) by (intros X; apply B in X; lia).
  destruct (tidy_Q _ _ i j T I N0) as (g1 & -> & T1 & K1). cbn [bind]. unfold next_h, next_c, width.
  destruct (Z.ltb_spec t i); [|lia]. destruct (Z.ltb_spec i hi); [|lia]. destruct (Z.ltb_spec t j); [|lia]. destruct (Z.ltb_spec j hi); [|lia]. cbn [andb].
  unfold two. destruct (ep_condensed p) eqn:Ec; cbn [andb].
  2:{ eexists; exists [(i, j)]. split; [reflexivity|]. cbn [e_grid e_placed e_vert e_horiz e_rows_lost e_cols_lost e_row_lost app].
      split; [split; [exact T1|cbn [length e_placed]; lia]|]. split; [exact K1|]. split; [lia|]. split; [intros x y [[= <- <-]|[]]; tauto|]. split; [reflexivity|]. auto. }
  destruct (Z.ltb_spec t i); [|lia]. destruct (Z.ltb_spec t j); [|lia]. cbn [andb].
  set (k1 := e_placed st + 1).
  assert (A : exists g2 new, (if (k1 <? n) && (j <? W) then put_char g1 i (j + 1) kQubit else Ok g1) = Ok g2 /\ tidy g2 (new ++ (i, j) :: l) /\ keeps_Y g1 g2
     /\ Z.of_nat (length new) = b2z ((k1 <? n) && (j <? W)) /\ forall c, In c new -> c = (i, j + 1) /\ j < W).
  { destruct ((k1 <? n) && (j <? W)) eqn:E; [|exists g1, []; split; [reflexivity|]; split; [exact T1|]; split; [intros a b; auto|]; split; [reflexivity|intros c []]].
    destruct (tidy_Q g1 ((i, j) :: l) i (j + 1) T1) as (g2 & -> & T2 & K2); [unfold inside; lia|intros [X|X]; [injection X; lia|apply B in X; lia]|].
    exists g2, [(i, j + 1)]. split; [reflexivity|]. split; [exact T2|]. split; [exact K2|]. split; [reflexivity|]. intros c [<-|[]]. split; [reflexivity|lia]. }
  destruct A as (g2 & n2 & -> & T2 & K2 & L2 & In2). cbn [bind].
  set (k2 := if (k1 <? n) && (j <? W) then k1 + 1 else k1) in *.
  assert (A : exists g3 new, (if (k2 <? n) && (i <? W) then put_char g2 (i + 1) j kQubit else Ok g2) = Ok g3 /\ tidy g3 (new ++ n2 ++ (i, j) :: l) /\ keeps_Y g2 g3
     /\ Z.of_nat (length new) = b2z ((k2 <? n) && (i <? W)) /\ forall c, In c new -> c = (i + 1, j) /\ i < W).
  { destruct ((k2 <? n) && (i <? W)) eqn:E; [|exists g2, []; split; [reflexivity|]; split; [exact T2|]; split; [intros a b; auto|]; split; [reflexivity|intros c []]].
    destruct (tidy_Q g2 (n2 ++ (i, j) :: l) (i + 1) j T2) as (g3 & -> & T3 & K3); [unfold inside; lia| |].
    { intros X. apply in_app_or in X. destruct X as [X|[X|X]]; [apply In2 in X; destruct X as [X _]; injection X; lia|injection X; lia|apply B in X; lia]. }
    exists g3, [(i + 1, j)]. split; [reflexivity|]. split; [exact T3|]. split; [exact K3|]. split; [reflexivity|]. intros c [<-|[]]. split; [reflexivity|lia]. }
  destruct A as (g3 & n3 & -> & T3 & K3 & L3 & In3). cbn [bind].
  set (k3 := if (k2 <? n) && (i <? W) then k2 + 1 else k2) in *.
  assert (A : exists g4 new, (if (k3 <? n) && (j <? W) && (i <? W) then put_char g3 (i + 1) (j + 1) kQubit else Ok g3) = Ok g4 /\ tidy g4 (new ++ n3 ++ n2 ++ (i, j) :: l) /\ keeps_Y g3 g4
     /\ Z.of_nat (length new) = b2z ((k3 <? n) && (j <? W) && (i <? W)) /\ forall c, In c new -> c = (i + 1, j + 1) /\ i < W /\ j < W).
  { destruct ((k3 <? n) && (j <? W) && (i <? W)) eqn:E; [|exists g3, []; split; [reflexivity|]; split; [exact T3|]; split; [intros a b; auto|]; split; [reflexivity|intros c []]].
    destruct (tidy_Q g3 (n3 ++ n2 ++ (i, j) :: l) (i + 1) (j + 1) T3) as (g4 & -> & T4 & K4); [unfold inside; lia| |].
    { intros X. apply in_app_or in X. destruct X as [X|X]; [apply In3 in X; destruct X as [X _]; injection X; lia|].
      apply in_app_or in X. destruct X as [X|[X|X]]; [apply In2 in X; destruct X as [X _]; injection X; lia|injection X; lia|apply B in X; lia]. }
    exists g4, [(i + 1, j + 1)]. split; [reflexivity|]. split; [exact T4|]. split; [exact K4|]. split; [reflexivity|]. intros c [<-|[]]. split; [reflexivity|lia]. }
  destruct A as (g4 & n4 & -> & T4 & K4 & L4 & In4). cbn [bind].
  set (k4 := if (k3 <? n) && (j <? W) && (i <? W) then k3 + 1 else k3) in *.
  eexists; exists (n4 ++ n3 ++ n2 ++ [(i, j)]). split; [reflexivity|]. cbn [e_grid e_placed e_vert e_horiz e_rows_lost e_cols_lost e_row_lost].
  assert (Pl : k4 = Z.min n (e_placed st + (if i <? W then 2 else 1) * (if j <? W then 2 else 1))
     /\ (k4 < n -> ((k1 <? n) && (j <? W)) = (j <? W) /\ ((k2 <? n) && (i <? W)) = (i <? W))).
  { unfold k4, k3, k2, k1 in *. destruct (Z.ltb_spec i W), (Z.ltb_spec j W); rewrite ?andb_true_r, ?andb_false_r;
      repeat match goal with |- context [?a <? n] => destruct (Z.ltb_spec a n) end; cbn [andb]; split; intros; try split; try reflexivity; try lia. }
  assert (Lk : k4 = e_placed st + Z.of_nat (length (n4 ++ n3 ++ n2 ++ [(i, j)]))).
  { rewrite !app_length. cbn [length]. unfold k4, k3, k2, k1 in *. destruct (Z.ltb_spec i W), (Z.ltb_spec j W); rewrite ?andb_true_r, ?andb_false_r in *;
      repeat match goal with |- context [?a <? n] => destruct (Z.ltb_spec a n) end; cbn [andb b2z] in *; rewrite ?andb_true_r, ?andb_false_r in *;
      repeat match goal with H : context [?a <? n] |- _ => destruct (Z.ltb_spec a n) end; cbn [andb b2z] in *; try lia. }
  replace ((n4 ++ n3 ++ n2 ++ [(i, j)]) ++ l) with (n4 ++ n3 ++ n2 ++ (i, j) :: l) by (rewrite <- !app_assoc; reflexivity).
  split; [split; [exact T4|]|].
  { cbn [e_placed]. split; [|destruct Pl; lia]. rewrite !app_length in *. cbn [length] in *. lia. }
  split; [intros a b X; auto|]. split; [apply Pl|]. split; [|split; [reflexivity|]].
  - intros x y X. rewrite !in_app_iff in X. destruct X as [X|[X|[X|[X|[]]]]].
    + apply In4 in X. destruct X as ([= -> ->] & Hi & Hj). rewrite (proj2 (Z.ltb_lt i W) Hi), (proj2 (Z.ltb_lt j W) Hj). auto.
    + apply In3 in X. destruct X as ([= -> ->] & Hi). rewrite (proj2 (Z.ltb_lt i W) Hi). auto.
    + apply In2 in X. destruct X as ([= -> ->] & Hj). rewrite (proj2 (Z.ltb_lt j W) Hj). auto.
    + injection X as -> ->. auto.
  - intros Lt4. destruct Pl as [_ Pl]. destruct (Pl Lt4) as [E1 E2]. rewrite E1, E2. destruct (Z.leb_spec W j), (Z.ltb_spec j W), (Z.leb_spec W i), (Z.ltb_spec i W); try lia; auto.
Qed.

(** ** One row *)

(** From position [x] on, with shift [h] and [c] double tiles behind, the remainder is 0 at the positions [hits] exactly. *)
Inductive sched : Z -> bool -> Z -> list Z -> Prop :=
| sc_end : forall c, sched (hi + 1) false c []
| sc_skip : forall x h c l, x <= hi -> ep_offset p x h c <> 0 -> sched (x + 1) h c l -> sched x h c l
| sc_hit : forall x h c l, t <= x <= hi -> ep_offset p x h c = 0 ->
    (ep_condensed p = true -> t < x < W -> ep_offset p x true c = 0) ->
    (ep_condensed p = true -> W <= x -> ep_offset p x false c = 0) ->
    (two x = true -> ep_offset p (x + 1) (next_h h x) (next_c c x) <> 0) ->
    sched (x + 1 + b2z (two x)) (next_h h x) (next_c c x) l -> sched x h c (x :: l).
Definition tot (l : list Z) : Z := fold_right (fun x a => width x + a) 0 l.
Definition coords (l : list Z) : list Z := flat_map (fun x => if width x =? 0 then [] else if two x then [x; x + 1] else [x]) l.
Definition is_inside (x : Z) : Prop := t < x < hi.

Lemma width_pos : forall x, 0 <= width x.
Proof. intros x. unfold width. destruct (_ && _); [destruct (two x)|]; lia. Qed.
Lemma tot_pos : forall l, 0 <= tot l.
Proof. induction l as [|x l IH]; cbn [tot fold_right]; [lia|]. fold (tot l). pose proof (width_pos x). lia. Qed.
Lemma width_ring : forall x, ~ is_inside x -> width x = 0.
Proof. intros x H. unfold width, is_inside in *. destruct ((t <? x) && (x <? hi)) eqn:E; [lia|reflexivity]. Qed.
Lemma width_inside : forall x, is_inside x -> 1 <= width x.
Proof. intros x H. unfold width, is_inside in *. destruct ((t <? x) && (x <? hi)) eqn:E; [destruct (two x); lia|lia]. Qed.
Lemma sched_from : forall x h c l, sched x h c l -> x <= hi + 1 /\ forall y, In y l -> x <= y <= hi.
Proof.
  intros x h c l S. assert (D : forall y, 0 <= b2z (two y) <= 1) by (intros y; destruct (two y); cbn; lia). induction S as [c|x h c l H H1 S IH|x h c l H H1 H2 H3 H4 S IH].
  - split; [lia|intros y []].
  - destruct IH as [I1 I2]. split; [lia|]. intros y Hy. apply I2 in Hy. lia.
  - destruct IH as [I1 I2]. split; [lia|]. intros y [<-|Hy]; [lia|]. apply I2 in Hy. pose proof (D x). lia.
Qed.

(** The row [i] stays visited while its tiles are, whatever they do to the shift. *)
Definition steady (i : Z) (c : Z) (v : bool) : Prop :=
  ep_offset p i v c = 0 /\ (ep_condensed p = true -> t < i < W -> ep_offset p i true c = 0) /\ (ep_condensed p = true -> W <= i -> ep_offset p i false c = 0).
Definition left_of (i x : Z) (l : list (Z * Z)) : Prop := forall a b, In (a, b) l -> a < i \/ (a <= i + b2z (two i) /\ b < x).

Lemma full_cells : forall i cells st l, t <= i <= hi -> (forall j, In j cells -> t <= j <= hi) -> good st l -> e_placed st = n ->
  exists st', foldM (visit_cell p i) cells st = Ok st' /\ good st' l /\ e_placed st' = n /\ keeps_Y (e_grid st) (e_grid st').
Proof.
  intros i cells st l Hi Hc G F.
  destruct (foldM_keeps _ _ (visit_cell p i) (fun st' => good st' l /\ e_placed st' = n /\ keeps_Y (e_grid st) (e_grid st')) cells st) as (st' & E & H).
  - intros j s0 Hj (G0 & F0 & K0). unfold visit_cell. destruct (_ && _); [|eauto]. pose proof (ring_dec i j Hi (Hc j Hj)) as R. destruct (ep_ring p i j).
    + destruct (visit_ring_ok s0 l i j G0 R) as (s1 & E1 & G1 & K1 & _ & P1 & _). exists s1. split; [exact E1|]. split; [exact G1|]. split; [lia|]. intros a b X. auto.
    + destruct (visit_inside_full s0 l i j G0 F0) as (s1 & E1 & G1 & P1 & K1). exists s1. split; [exact E1|]. split; [exact G1|]. split; [exact P1|]. intros a b X. auto.
  - split; [exact G|]. split; [exact F|intros a b; auto].
  - eauto.
Qed.

Lemma steady_ring : forall i c v, steady i c v -> steady i c (if two i then true else v).
Proof. intros i c v (H1 & H2 & H3). unfold steady. destruct (two i) eqn:E; auto. unfold two in E. split; [|auto]. apply H2; destruct (ep_condensed p); cbn [andb] in E; try discriminate; lia. Qed.
Lemma steady_inside : forall i c v, t < i -> steady i c v -> steady i c (if two i then true else next_h v i).
Proof.
  intros i c v Hi (H1 & H2 & H3). unfold steady, next_h, two. split; [|auto]. destruct (ep_condensed p); cbn [andb]; [|exact H1].
  destruct (Z.leb_spec W i), (Z.ltb_spec t i), (Z.ltb_spec i W); cbn [andb]; try lia; auto.
Qed.

Lemma min_more : forall N a b c wi wx T, 0 <= wi -> 0 <= T -> b = Z.min N (a + wi * wx) -> c = Z.min N (b + wi * T) -> c = Z.min N (a + wi * (wx + T)).
Proof. intros N a b c wi wx T H1 H2 -> ->. rewrite Z.mul_add_distr_l. assert (0 <= wi * T) by nia. lia. Qed.
Lemma two_inside : forall i, ~ is_inside i -> two i = false.
Proof.
  intros i Ni. unfold two, is_inside in *. pose proof W_is. destruct (Z.ltb_spec t i); [|now rewrite andb_false_r]. destruct (Z.ltb_spec i W); [lia|]. now rewrite andb_false_r.
Qed.
Lemma ring_not_inside : forall i j, ring i j -> is_inside i /\ is_inside j -> False.
Proof. intros i j. unfold ring, is_inside. lia. Qed.
Local Ltac zlia := repeat match goal with
  | H : ?A -> ?B |- _ => lazymatch B with False => fail | _ => clear H end
  | H : if _ then _ else _ |- _ => clear H
  | H : sched _ _ _ _ |- _ => clear H
  | H : _ = (if _ then _ else _) |- _ => clear H
  | H : (exists _, _) \/ _ |- _ => clear H
  | H : steady _ _ _ |- _ => clear H
  | H : good _ _ |- _ => clear H end; lia.
Lemma cells_ok : forall i x h c cols, sched x h c cols -> t <= x -> t <= i <= hi -> forall st l, good st l -> e_horiz st = h -> e_cols_lost st = c ->
  steady i (e_rows_lost st) (e_vert st) -> left_of i x l ->
  exists st' new, foldM (visit_cell p i) (range x (hi + 1)) st = Ok st' /\ good st' (new ++ l) /\ keeps_Y (e_grid st) (e_grid st')
    /\ e_placed st' = Z.min n (e_placed st + width i * tot cols)
    /\ (forall a b, In (a, b) new -> (is_inside i /\ (a = i \/ a = i + 1 /\ two i = true)) /\ In b (coords cols))
    /\ (e_placed st' < n -> (forall b, In b cols -> ring i b -> char_at (e_grid st') i b = Some kYState) /\ e_rows_lost st' = e_rows_lost st /\ e_horiz st' = false
        /\ (~ is_inside i -> e_vert st' = e_vert st /\ e_row_lost st' = e_row_lost st)
        /\ (is_inside i -> (exists j, In j cols /\ is_inside j) \/ (e_vert st = next_h (e_vert st) i /\ (two i = true -> e_row_lost st = true)) ->
            e_vert st' = next_h (e_vert st) i /\ e_row_lost st' = two i || e_row_lost st)).
Proof.
  intros i x h c cols S. induction S as [c|x h c l0 H H1 S IH|x h c l0 H H1 H2 H3 H4 S IH]; intros Hx Hi st l G Eh Ecl St B.
  - rewrite range_nil by zlia. exists st, []. cbn [foldM app tot fold_right]. split; [reflexivity|]. split; [exact G|]. split; [intros a b; auto|].
    split; [destruct G as (_ & _ & X); zlia|]. split; [intros a b []|]. intros _. split; [intros b []|]. split; [reflexivity|]. split; [exact Eh|]. split; [auto|].
    intros _ [(j & [] & _)|[X1 X2]]. split; [exact X1|]. destruct (two i); [rewrite X2; reflexivity|reflexivity].
  - rewrite range_cons by zlia. cbn [foldM]. unfold visit_cell at 1. rewrite Eh, Ecl. destruct (Z.eqb_spec (ep_offset p x h c) 0); [contradiction|]. rewrite andb_false_r. cbn [bind].
    apply IH; auto; try zlia. intros a b X. destruct (B a b X); [left; zlia|right; zlia].
  - assert (D : forall y, 0 <= b2z (two y) <= 1) by (intros y; destruct (two y); cbn; zlia).
    rewrite range_cons by zlia. cbn [foldM]. unfold visit_cell at 1. rewrite Eh, Ecl, H1. destruct St as (St1 & St2 & St3). rewrite St1. cbn [andb Z.eqb].
    pose proof (conj St1 (conj St2 St3)) as St. fold (steady i (e_rows_lost st) (e_vert st)) in St.
    pose proof (ring_dec i x Hi H) as R. cbn [tot fold_right]. fold (tot l0).
    assert (A : exists st1 new1,
       (if ep_ring p i x then visit_ring p st i x else visit_inside p st i x) = Ok st1 /\ good st1 (new1 ++ l) /\ keeps_Y (e_grid st) (e_grid st1)
       /\ e_placed st1 = Z.min n (e_placed st + width i * width x)
       /\ (forall a b, In (a, b) new1 -> (is_inside i /\ (a = i \/ a = i + 1 /\ two i = true)) /\ is_inside x /\ (b = x \/ b = x + 1 /\ two x = true))
       /\ (ring i x -> char_at (e_grid st1) i x = Some kYState)
       /\ (e_placed st1 < n -> e_rows_lost st1 = e_rows_lost st /\ e_horiz st1 = next_h (e_horiz st) x /\ e_cols_lost st1 = next_c (e_cols_lost st) x
          /\ e_vert st1 = (if ep_ring p i x then (if two i then true else e_vert st) else if two i then true else next_h (e_vert st) i)
          /\ e_row_lost st1 = (if two i then true else e_row_lost st))).
    { destruct (ep_ring p i x).
      - destruct (visit_ring_ok st l i x G R) as (st1 & E1 & G1 & K1 & Y1 & P1 & R1 & Q1 & Q2 & Q3 & Q4). exists st1, []. split; [exact E1|]. split; [exact G1|].
        split; [exact K1|]. split.
        { assert (width i * width x = 0).
          { destruct R as (Ra & Rb & Rc). assert (~ is_inside i \/ ~ is_inside x) as [X|X] by (clear -Ra Rb Rc; unfold is_inside; zlia); rewrite (width_ring _ X); [reflexivity|apply Z.mul_0_r]. }
          destruct G as (_ & _ & X). zlia. }
        split; [intros a b []|]. split; [auto|]. auto.
      - pose proof R as [R1 R2]. destruct (Z.eq_dec (e_placed st) n) as [F|F].
        + destruct (visit_inside_full st l i x G F) as (st1 & E1 & G1 & P1 & K1). exists st1, []. split; [exact E1|]. split; [exact G1|]. split; [exact K1|].
          split; [assert (0 <= width i * width x) by (apply Z.mul_nonneg_nonneg; apply width_pos); zlia|]. split; [intros a b []|]. split; [intros Rg; unfold ring in Rg; zlia|]. zlia.
        + destruct (visit_inside_ok st l i x G) as (st1 & new & E1 & G1 & K1 & P1 & N1 & R3 & Q1); [destruct G as (_ & _ & X); zlia|exact R| |].
          { intros a b X. destruct (B a b X); [auto|]. right. pose proof (D i). zlia. }
          exists st1, new. split; [exact E1|]. split; [exact G1|]. split; [exact K1|]. split; [exact P1|]. split.
          { intros a b X. apply N1 in X. unfold is_inside. tauto. }
          split; [intros Rg; unfold ring in Rg; zlia|]. auto. }
    destruct A as (st1 & new1 & -> & G1 & K1 & P1 & N1 & Y1 & Q1). cbn [bind].
    pose proof (width_pos i) as Wi0. pose proof (width_pos x) as Wx0. pose proof (tot_pos l0) as T0. pose proof G1 as (_ & _ & Le1).
    assert (Nc : forall a b, In (a, b) new1 -> (is_inside i /\ (a = i \/ a = i + 1 /\ two i = true)) /\ In b (coords (x :: l0))).
    { intros a b X. apply N1 in X. destruct X as (X1 & X2 & X3). split; [exact X1|]. unfold coords. cbn [flat_map]. apply in_or_app. left.
      pose proof (width_inside x X2). destruct (Z.eqb_spec (width x) 0); [zlia|]. destruct (two x); [|destruct X3 as [->|[_ ?]]; [now left|discriminate]].
      destruct X3 as [->|[-> _]]; cbn [In]; auto. }
    destruct (Z.eq_dec (e_placed st1) n) as [F|F].
    + destruct (full_cells i (range (x + 1) (hi + 1)) st1 (new1 ++ l) Hi) as (st2 & E2 & G2 & P2 & K2); [intros j X; apply range_In in X; zlia|exact G1|exact F|].
      exists st2, new1. split; [exact E2|]. split; [exact G2|]. split; [intros a b X; auto|]. 
      split; [apply (min_more n (e_placed st) (e_placed st1) _ _ _ _ Wi0 T0 P1); assert (0 <= width i * tot l0) by (apply Z.mul_nonneg_nonneg; auto); zlia|].
      split; [exact Nc|]. intros X. clear -X P2. zlia.
    + assert (Lt1 : e_placed st1 < n) by zlia. destruct (Q1 Lt1) as (Q2 & Q3 & Q4 & Q5 & Q6). pose proof (sched_from _ _ _ _ S) as [Sx _].
      assert (Rest : foldM (visit_cell p i) (range (x + 1) (hi + 1)) st1 = foldM (visit_cell p i) (range (x + 1 + b2z (two x)) (hi + 1)) st1).
      { destruct (two x) eqn:E2; cbn [b2z] in *; [|now rewrite Z.add_0_r]. rewrite (range_cons (x + 1)) by zlia. cbn [foldM]. unfold visit_cell at 1.
        rewrite Q3, Q4, Eh, Ecl. pose proof (H4 eq_refl) as X. destruct (Z.eqb_spec (ep_offset p (x + 1) (next_h h x) (next_c c x)) 0); [contradiction|]. rewrite andb_false_r. reflexivity. }
      rewrite Rest. destruct (IH ltac:(pose proof (D x); zlia) Hi st1 (new1 ++ l) G1) as (st2 & new2 & E2 & G2 & K2 & P2 & N2 & Q7).
      * now rewrite Q3, Eh.
      * now rewrite Q4, Ecl.
      * rewrite Q2, Q5. destruct (ep_ring p i x); [now apply steady_ring|]. apply steady_inside; [apply R|exact St].
      * intros a b X. apply in_app_or in X. destruct X as [X|X].
        -- apply N1 in X. destruct X as ((_ & X1) & _ & X2). right. destruct X1 as [->|[-> ->]], X2 as [->|[-> ->]]; cbn [b2z]; pose proof (D i); pose proof (D x); zlia.
        -- destruct (B a b X); [now left|right]. pose proof (D x). zlia.
      * exists st2, (new2 ++ new1). split; [exact E2|]. rewrite <- app_assoc. split; [exact G2|]. split; [intros a b X; auto|]. split; [apply (min_more n (e_placed st) (e_placed st1) _ _ _ _ Wi0 T0 P1 P2)|]. split.
        { intros a b X. apply in_app_or in X. destruct X as [X|X]; [|auto]. apply N2 in X. split; [apply X|]. unfold coords. cbn [flat_map]. apply in_or_app. right. apply X. }
        intros Lt2. destruct (Q7 Lt2) as (Y2 & Z1 & Z2 & Z3 & Z4). split.
        { intros b [<-|X] Rb; [apply K2; auto|auto]. }
        split; [congruence|]. split; [exact Z2|]. split.
        { intros Ni. destruct (Z3 Ni) as [Z5 Z6]. pose proof (two_inside i Ni) as T2.
          rewrite Z5, Z6, Q5, Q6, T2. destruct (ep_ring p i x); [auto|]. exfalso. apply Ni. apply R. }
        intros Ii Hex. assert (Idem : forall v, next_h (next_h v i) i = next_h v i).
        { intros v. unfold next_h. destruct (ep_condensed p); [|reflexivity]. destruct (W <=? i); [reflexivity|]. destruct (t <? i); reflexivity. }
        assert (Tn : two i = true -> forall v, next_h v i = true).
        { unfold two, next_h, is_inside in *. intros X v. destruct (ep_condensed p); cbn [andb] in X; [|discriminate]. destruct (Z.leb_spec W i); [zlia|]. destruct (Z.ltb_spec t i); [reflexivity|zlia]. }
        destruct (ep_ring p i x) eqn:Er.
        -- destruct (Z4 Ii) as [Z5 Z6].
           { destruct Hex as [(j & [<-|X] & Hj)|[X1 X2]].
             - exfalso. exact (ring_not_inside i x R (conj Ii Hj)).
             - left. eauto.
             - right. rewrite Q5, Q6. destruct (two i) eqn:T2; [rewrite Tn by auto; auto|]. split; [exact X1|discriminate]. }
           rewrite Z5, Z6, Q5, Q6. destruct (two i) eqn:T2; [rewrite !Tn by auto; auto|auto].
        -- destruct (Z4 Ii) as [Z5 Z6].
           { right. rewrite Q5, Q6. destruct (two i) eqn:T2; [rewrite Tn by auto; auto|]. rewrite Idem. split; [reflexivity|discriminate]. }
           rewrite Z5, Z6, Q5, Q6. destruct (two i) eqn:T2; [rewrite !Tn by auto; auto|]. rewrite Idem. auto.
Qed.

(** ** All rows *)

Definition start_row (st : est) : est := mkEst (e_grid st) (e_placed st) (e_vert st) (e_horiz st) (e_rows_lost st) 0 false.
Definition end_row (st : est) : est := mkEst (e_grid st) (e_placed st) (e_vert st) (e_horiz st) (e_rows_lost st + b2z (e_row_lost st)) (e_cols_lost st) (e_row_lost st).
Lemma visit_row_is : forall st i, visit_row p st i = (do st' <- foldM (visit_cell p i) (range t (hi + 1)) (start_row st) ;; Ok (end_row st')).
Proof. intros st i. assert (E : s - t = hi + 1) by lia. unfold visit_row. rewrite <- E. reflexivity. Qed.
Lemma full_rows : forall rws st l, (forall i, In i rws -> t <= i <= hi) -> good st l -> e_placed st = n ->
  exists st', foldM (visit_row p) rws st = Ok st' /\ good st' l /\ e_placed st' = n /\ keeps_Y (e_grid st) (e_grid st').
Proof.
  intros rws st l Hr G F.
  destruct (foldM_keeps _ _ (visit_row p) (fun st' => good st' l /\ e_placed st' = n /\ keeps_Y (e_grid st) (e_grid st')) rws st) as (st' & E & H).
  - intros i s0 Hi (G0 & F0 & K0). rewrite visit_row_is.
    destruct (full_cells i (range t (hi + 1)) (start_row s0) l (Hr i Hi)) as (s1 & -> & G1 & P1 & K1); [intros j X; apply range_In in X; lia|exact G0|exact F0|].
    cbn [bind]. eexists. split; [reflexivity|]. split; [exact G1|]. split; [exact P1|]. intros a b X. apply K1. apply K0, X.
  - split; [exact G|]. split; [exact F|intros a b; auto].
  - eauto.
Qed.
Lemma skip_row : forall st i, ep_offset p i (e_vert st) (e_rows_lost st) <> 0 -> visit_row p st i = Ok (start_row st).
Proof.
  intros st i H. rewrite visit_row_is, foldM_skip; [cbn [bind]; unfold end_row, start_row; cbn; now rewrite Z.add_0_r|].
  intros j _. unfold visit_cell. cbn [start_row e_vert e_rows_lost]. destruct (Z.eqb_spec (ep_offset p i (e_vert st) (e_rows_lost st)) 0); [contradiction|reflexivity].
Qed.
Lemma coords_cons : forall x l, coords (x :: l) = (if width x =? 0 then [] else if two x then [x; x + 1] else [x]) ++ coords l.
Proof. reflexivity. Qed.
Lemma b2z_le : forall b, 0 <= b2z b <= 1.
Proof. intros []; cbn; lia. Qed.

Lemma rows_ok : forall cols, sched t false 0 cols -> (0 < n -> exists j, In j cols /\ is_inside j) ->
  forall x h c rws, sched x h c rws -> t <= x -> (x = t -> h = false) ->
  forall st l, good st l -> (e_placed st < n -> x <= hi -> e_vert st = h /\ e_rows_lost st = c /\ e_horiz st = false) -> (forall a b, In (a, b) l -> a < x) ->
  exists st' new, foldM (visit_row p) (range x (hi + 1)) st = Ok st' /\ good st' (new ++ l) /\ keeps_Y (e_grid st) (e_grid st')
    /\ e_placed st' = Z.min n (e_placed st + tot rws * tot cols)
    /\ (forall a b, In (a, b) new -> In a (coords rws) /\ In b (coords cols))
    /\ (e_placed st < n -> x = t -> ep_offset p t h c = 0 -> forall b, In b cols -> char_at (e_grid st') t b = Some kYState).
Proof.
  intros cols Sc Hex x h c rws S. pose proof (tot_pos cols) as Tc.
  induction S as [c|x h c l0 H H1 S IH|x h c l0 H H1 H2 H3 H4 S IH]; intros Hx Ht st l G Ev B.
  - rewrite range_nil by zlia. exists st, []. cbn [foldM app tot fold_right]. split; [reflexivity|]. split; [exact G|]. split; [intros a b; auto|].
    split; [destruct G as (_ & _ & X); zlia|]. split; [intros a b []|]. intros _ X. exfalso. pose proof core_min. pose proof hi_is. zlia.
  - pose proof (tot_pos l0) as T0. destruct (Z.eq_dec (e_placed st) n) as [F|F].
    + destruct (full_rows (range x (hi + 1)) st l) as (st' & E & G' & P' & K'); [intros i X; apply range_In in X; zlia|exact G|exact F|].
      exists st', []. split; [exact E|]. split; [exact G'|]. split; [exact K'|]. assert (0 <= tot l0 * tot cols) by (apply Z.mul_nonneg_nonneg; auto).
      split; [zlia|]. split; [intros a b []|]. zlia.
    + assert (Lt : e_placed st < n) by (destruct G as (_ & _ & X); zlia). destruct (Ev Lt H) as (E1 & E2 & E3).
      rewrite range_cons by zlia. cbn [foldM]. rewrite skip_row by (rewrite E1, E2; exact H1). cbn [bind].
      destruct (IH ltac:(zlia) ltac:(zlia) (start_row st) l G) as (st' & new & E & G' & K' & P' & N' & Y').
      { intros _ _. cbn. auto. }
      { intros a b X. apply B in X. zlia. }
      exists st', new. split; [exact E|]. split; [exact G'|]. split; [exact K'|]. split; [exact P'|]. split; [exact N'|].
      intros _ -> X. contradiction.
  - pose proof (tot_pos l0) as T0. pose proof (width_pos x) as Wx. destruct (Z.eq_dec (e_placed st) n) as [F|F].
    + destruct (full_rows (range x (hi + 1)) st l) as (st' & E & G' & P' & K'); [intros i X; apply range_In in X; zlia|exact G|exact F|].
      exists st', []. split; [exact E|]. split; [exact G'|]. split; [exact K'|].
      assert (0 <= tot (x :: l0) * tot cols) by (apply Z.mul_nonneg_nonneg; [apply tot_pos|auto]).
      split; [zlia|]. split; [intros a b []|]. zlia.
    + assert (Lt : e_placed st < n) by (destruct G as (_ & _ & X); zlia). destruct (Ev Lt (proj2 H)) as (E1 & E2 & E3).
      assert (Np : 0 < n) by (destruct G as (_ & X & _); zlia).
      rewrite range_cons by zlia. cbn [foldM]. rewrite visit_row_is.
      destruct (cells_ok x t false 0 cols Sc (Z.le_refl t) H (start_row st) l G E3 eq_refl) as (st1 & new1 & -> & G1 & K1 & P1 & N1 & Q1).
      { unfold steady. cbn [start_row e_vert e_rows_lost]. rewrite E1, E2. auto. }
      { intros a b X. left. exact (B a b X). }
      cbn [bind]. cbn [start_row e_placed] in P1. assert (Wc : 0 <= width x * tot cols) by (apply Z.mul_nonneg_nonneg; auto).
      assert (G1' : good (end_row st1) (new1 ++ l)) by exact G1. pose proof G1 as (_ & _ & Le1).
      assert (Nc : forall a b, In (a, b) new1 -> In a (coords (x :: l0)) /\ In b (coords cols)).
      { intros a b X. apply N1 in X. destruct X as ((X1 & X2) & X3). split; [|exact X3]. rewrite coords_cons. apply in_or_app. left.
        pose proof (width_inside x X1). destruct (Z.eqb_spec (width x) 0); [zlia|]. destruct (two x); [|destruct X2 as [->|[_ ?]]; [now left|discriminate]].
        destruct X2 as [->|[-> _]]; cbn [In]; auto. }
      assert (B1 : forall a b, In (a, b) (new1 ++ l) -> a < x + 1 + b2z (two x)).
      { intros a b X. pose proof (b2z_le (two x)). apply in_app_or in X. destruct X as [X|X]; [|apply B in X; zlia].
        apply N1 in X. destruct X as ((_ & [->|[-> X2]]) & _); [zlia|]. rewrite X2. cbn [b2z]. zlia. }
      assert (Yx : e_placed st1 < n -> x = t -> forall b, In b cols -> char_at (e_grid st1) t b = Some kYState).
      { intros Lt1 -> b Hb. destruct (Q1 Lt1) as (Y1 & _). apply Y1; [exact Hb|]. pose proof (proj2 (sched_from _ _ _ _ Sc) b Hb). unfold ring. zlia. }
      assert (Fin : forall T, Z.min n (Z.min n (e_placed st + width x * tot cols) + T * tot cols) = Z.min n (e_placed st + (width x + T) * tot cols) \/ T < 0).
      { intros T. destruct (Z_lt_dec T 0); [now right|left]. rewrite Z.mul_add_distr_r. assert (0 <= T * tot cols) by (apply Z.mul_nonneg_nonneg; zlia). zlia. }
      destruct (Fin (tot l0)) as [Fin'|]; [|zlia]. cbn [tot fold_right] in *. fold (tot l0) in *.
      assert (Top : x = t -> e_placed st1 < n).
      { intros ->. rewrite (width_ring t) in P1 by (unfold is_inside; zlia). zlia. }
      destruct (Z.eq_dec (e_placed st1) n) as [F1|F1].
      * destruct (full_rows (range (x + 1) (hi + 1)) (end_row st1) (new1 ++ l)) as (st' & E & G' & P' & K'); [intros i X; apply range_In in X; zlia|exact G1'|exact F1|].
        exists st', new1. split; [exact E|]. split; [exact G'|]. split; [intros a b X; apply K'; cbn; apply K1; exact X|]. 
        assert (0 <= tot l0 * tot cols) by (apply Z.mul_nonneg_nonneg; auto). split; [rewrite <- Fin'; zlia|]. split; [exact Nc|].
        intros _ X. exfalso. apply Top in X. zlia.
      * assert (Lt1 : e_placed st1 < n) by zlia. destruct (Q1 Lt1) as (Q2 & Q3 & Q4 & Q5 & Q6). cbn [start_row e_rows_lost e_vert e_row_lost] in Q3, Q5, Q6.
        assert (Next : x < hi -> e_vert st1 = next_h h x /\ e_rows_lost st1 + b2z (e_row_lost st1) = next_c c x).
        { intros Xh. destruct (Z.eq_dec x t) as [Ex|Nx].
          - destruct Q5 as [Q7 Q8]; [unfold is_inside; zlia|]. rewrite Q7, Q8, Q3, E1, E2. unfold next_h, next_c, two. rewrite Ht by exact Ex. rewrite Ex.
            destruct (Z.ltb_spec t t); [zlia|]. rewrite !andb_false_r. cbn [andb b2z]. split; [|zlia]. destruct (ep_condensed p); [|reflexivity]. now destruct (W <=? t).
          - destruct Q6 as [Q7 Q8]; [unfold is_inside; zlia|left; auto|]. rewrite Q7, Q8, Q3, E1, E2, orb_false_r. split; [reflexivity|]. unfold next_c. destruct (two x); cbn [b2z]; zlia. }
        pose proof (sched_from _ _ _ _ S) as [Sx _].
        assert (Rest : exists st2, foldM (visit_row p) (range (x + 1) (hi + 1)) (end_row st1) = foldM (visit_row p) (range (x + 1 + b2z (two x)) (hi + 1)) st2
                  /\ e_grid st2 = e_grid st1 /\ e_placed st2 = e_placed st1 /\ (x < hi -> e_vert st2 = next_h h x /\ e_rows_lost st2 = next_c c x) /\ e_horiz st2 = false).
        { destruct (two x) eqn:E2x; cbn [b2z] in *.
          - rewrite (range_cons (x + 1)) by zlia. cbn [foldM]. rewrite skip_row.
            + cbn [bind]. eexists. split; [reflexivity|]. cbn. split; [reflexivity|]. split; [reflexivity|]. split; [exact Next|exact Q4].
            + cbn [end_row e_vert e_rows_lost]. destruct Next as [-> ->]; [zlia|]. apply H4, eq_refl.
          - rewrite Z.add_0_r. exists (end_row st1). split; [reflexivity|]. cbn. split; [reflexivity|]. split; [reflexivity|]. split; [exact Next|exact Q4]. }
        destruct Rest as (st2 & -> & G2 & P2 & V2 & Hz2).
        destruct (IH ltac:(pose proof (b2z_le (two x)); zlia) ltac:(pose proof (b2z_le (two x)); zlia) st2 (new1 ++ l)) as (st' & new & E & G' & K' & P' & N' & _).
        { unfold good in *. rewrite G2, P2. exact G1. }
        { intros _ Xh. pose proof (b2z_le (two x)). destruct V2 as [V3 V4]; [zlia|]. auto. }
        { exact B1. }
        exists st', (new ++ new1). split; [exact E|]. rewrite <- app_assoc. split; [exact G'|]. rewrite G2 in K'. split; [intros a b X; apply K', K1, X|].
        split; [rewrite P', P2, P1; exact Fin'|]. split.
        { intros a b X. apply in_app_or in X. destruct X as [X|X]; [|auto]. apply N' in X. split; [|apply X]. rewrite coords_cons. apply in_or_app. right. apply X. }
        intros _ Xt _ b Hb. apply K'. auto.
Qed.
End Edpc.
