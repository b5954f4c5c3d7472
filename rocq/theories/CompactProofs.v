(** The generated compact layout (C25). *)
From Coq Require Import Relations Sorted Permutation.
From Verif Require Import Base TextModel TextSpec TextProofs PatchesModel InstrProofs LayoutModel LayoutSpec LayoutProofs.
Local Open Scope nat_scope.

Lemma nth_repeat_app {A} (a : A) k l j :
  nth_error (repeat a k ++ l) j = if j <? k then Some a else nth_error l (j - k).
Proof.
  destruct (Nat.ltb_spec j k) as [H|H].
  - rewrite nth_error_app1 by (rewrite repeat_length; exact H).
    rewrite (nth_error_repeat a H). reflexivity.
  - rewrite nth_error_app2 by (rewrite repeat_length; exact H). rewrite repeat_length. reflexivity.
Qed.
Lemma fill_front (x : ctype) k m l t : k <= m ->
  fill_n (repeat x m ++ l) 0 k t = Ok (repeat t k ++ repeat x (m - k) ++ l).
Proof.
  intros H. unfold fill_n. cbn [plus firstn app].
  replace (k <=? length (repeat x m ++ l)) with true
    by (symmetry; apply Nat.leb_le; rewrite app_length, repeat_length; lia).
  f_equal. f_equal. rewrite skipn_app, repeat_length.
  replace (k - m) with 0 by lia. cbn [skipn]. f_equal.
  replace m with (k + (m - k)) at 1 by lia. rewrite repeat_app, skipn_app, repeat_length, Nat.sub_diag.
  rewrite skipn_all2 by (rewrite repeat_length; lia). reflexivity.
Qed.
Lemma fill_at (a b c : list ctype) t : 
  fill_n (a ++ b ++ c) (length a) (length b) t = Ok (a ++ repeat t (length b) ++ c).
Proof.
  unfold fill_n. rewrite !app_length.
  replace (length a + length b <=? length a + (length b + length c)) with true
    by (symmetry; apply Nat.leb_le; lia).
  f_equal. rewrite firstn_app, firstn_all, Nat.sub_diag. cbn [firstn]. rewrite app_nil_r.
  f_equal. f_equal. rewrite app_assoc, skipn_app.
  rewrite skipn_all2 by (rewrite app_length; lia). rewrite app_length, Nat.sub_diag. reflexivity.
Qed.
Lemma set_row_at {A} (a : list A) x b y n : n = length a -> set_row (a ++ x :: b) n y = a ++ y :: b.
Proof. intros ->. induction a; cbn; f_equal; auto. Qed.
Lemma nth_mid {A} (a : list A) x b n : n = length a -> nth_error (a ++ x :: b) n = Some x.
Proof. intros ->. rewrite nth_error_app2, Nat.sub_diag; auto. Qed.

Definition crow0 (c : nat) (nc : bool) : text :=
  repeat kQubit c ++ lit "rAr" ++ (if nc then [] else repeat kRegion0 5).
Definition crow1 (c : nat) (nc : bool) : text :=
  repeat kRouting c ++ (if nc then lit "rrM" else lit "rrr" ++ repeat kRegion0 5).
Definition crow2 (c q : nat) (nc : bool) : text :=
  repeat kQubit q ++ repeat kRouting (c - q) ++ (if nc then lit "rrr" else lit "rAr" ++ repeat kRegion0 5).

Ltac len := repeat rewrite ?app_length, ?repeat_length; cbn; lia.

Lemma compact_grid_eq n nc : let c := (n + 1) / 2 in
  compact_grid n nc = Ok [crow0 c nc; crow1 c nc; crow2 c (n - c) nc].
Proof.
  intros c. unfold compact_grid. fold c.
  assert (Hc : n - c <= c) by (unfold c; pose proof (Nat.div_mod (n + 1) 2); pose proof (Nat.mod_upper_bound (n + 1) 2); lia).
  assert (Hq : (n - c) + (c - (n - c)) = c) by lia.
  set (q := n - c) in *. clearbody q. clearbody c. clear n.
  destruct nc.
  - assert (R : repeat kRouting (c + (3 + 0)) = repeat kRouting c ++ lit "rrr").
    { rewrite repeat_app. reflexivity. }
    rewrite R. cbn [repeat]. unfold fill_row. cbn [at_ nth_error bind].
    rewrite fill_front by lia. cbn [bind set_row at_ nth_error].
    rewrite fill_front by lia. cbn [bind set_row].
    rewrite Nat.sub_diag. cbn [repeat app].
    unfold set_at. cbn [at_ nth_error bind].
    unfold at_ at 1.
    rewrite (app_assoc (repeat kQubit c) [kRouting] [kRouting; kRouting] : (repeat kQubit c ++ lit "rrr") = _).
    rewrite nth_mid by len. cbn [bind set_row at_ nth_error].
    rewrite set_row_at by len.
    rewrite (app_assoc (repeat kRouting c) [kRouting; kRouting] [kRouting] : (repeat kRouting c ++ lit "rrr") = _).
    unfold at_. rewrite nth_mid by len. cbn [bind].
    rewrite set_row_at by len.
    unfold crow0, crow1, crow2. rewrite <- !app_assoc. reflexivity.
  - assert (R : repeat kRouting (c + (3 + 5)) = repeat kRouting c ++ lit "rrr" ++ repeat kRouting 5).
    { rewrite repeat_app. reflexivity. }
    rewrite R. cbn [repeat]. unfold fill_row. cbn [at_ nth_error bind].
    rewrite fill_front by lia. cbn [bind set_row at_ nth_error].
    rewrite fill_front by lia. cbn [bind set_row].
    rewrite Nat.sub_diag. cbn [repeat app].
    set (five := [kRouting; kRouting; kRouting; kRouting; kRouting]).
    assert (E0 : repeat kQubit c ++ (lit "rrr") ++ five = (repeat kQubit c ++ [kRouting]) ++ kRouting :: kRouting :: five)
      by (rewrite <- app_assoc; reflexivity).
    assert (E2 : repeat kQubit q ++ repeat kRouting (c - q) ++ (lit "rrr") ++ five
       = (repeat kQubit q ++ repeat kRouting (c - q) ++ [kRouting]) ++ kRouting :: kRouting :: five)
      by (rewrite <- !app_assoc; reflexivity).
    rewrite E0, E2.
    unfold set_at. cbn [at_ nth_error bind].
    unfold at_ at 1. rewrite nth_mid by len. cbn [bind set_row at_ nth_error].
    rewrite set_row_at by len.
    unfold at_ at 1. rewrite nth_mid by len. cbn [bind set_row at_ nth_error].
    rewrite set_row_at by len.
    (* the three factory rows *)
    assert (F : forall a, length a = c + 3 -> fill_n (a ++ five) (c + 3) 5 kRegion0 = Ok (a ++ repeat kRegion0 5)).
    { intros a Ha. pose proof (fill_at a five [] kRegion0) as H. rewrite !app_nil_r in H.
      rewrite <- Ha. exact H. }
    replace ((repeat kQubit c ++ [kRouting]) ++ kAncilla :: kRouting :: five)
      with ((repeat kQubit c ++ lit "rAr") ++ five) by (rewrite <- !app_assoc; reflexivity).
    rewrite F by len. cbn [bind set_row at_ nth_error].
    replace (repeat kRouting c ++ lit "rrr" ++ five) with ((repeat kRouting c ++ lit "rrr") ++ five)
      by (rewrite <- !app_assoc; reflexivity).
    rewrite F by len. cbn [bind set_row at_ nth_error].
    replace ((repeat kQubit q ++ repeat kRouting (c - q) ++ [kRouting]) ++ kAncilla :: kRouting :: five)
      with ((repeat kQubit q ++ repeat kRouting (c - q) ++ lit "rAr") ++ five) by (rewrite <- !app_assoc; reflexivity).
    rewrite F by len. cbn [bind set_row].
    unfold crow0, crow1, crow2. rewrite <- !app_assoc. reflexivity.
Qed.

Local Open Scope Z_scope.
Lemma written3 r0 r1 r2 a b t : written [r0; r1; r2] (mkCell a b) t <->
  0 <= b /\ ((a = 0 /\ nth_error r0 (Z.to_nat b) = Some t)
          \/ (a = 1 /\ nth_error r1 (Z.to_nat b) = Some t)
          \/ (a = 2 /\ nth_error r2 (Z.to_nat b) = Some t)).
Proof.
  unfold written. split.
  - intros (i & j & r & E & Hr & Hj). injection E as -> ->. split; [lia|]. rewrite Nat2Z.id.
    destruct i as [|[|[|i]]]; cbn in Hr.
    + injection Hr as <-. auto.
    + injection Hr as <-. auto.
    + injection Hr as <-. auto.
    + destruct i; discriminate.
  - intros (Hb & [[-> H]|[[-> H]|[-> H]]]); [exists 0%nat|exists 1%nat|exists 2%nat];
      exists (Z.to_nat b); eexists; (split; [f_equal; lia|]); cbn; eauto.
Qed.

(** What is written where. *)
Definition cchar (c q : Z) (nc : bool) (a b : Z) : ascii :=
  if a =? 1 then
    if b <? c + 2 then kRouting
    else if b =? c + 2 then (if nc then kMagic else kRouting) else kRegion0
  else
    if (b <? (if a =? 0 then c else q)) then kQubit
    else if b <? c + 1 then kRouting
    else if b =? c + 1 then (if (a =? 0) || negb nc then kAncilla else kRouting)
    else if b =? c + 2 then kRouting else kRegion0.

Lemma nth_small (l : text) k t : nth_error l k = Some t ->
  exists pre post, l = pre ++ t :: post /\ length pre = k.
Proof. apply nth_error_split. Qed.

Ltac tail_ k n := match n with O => idtac | S ?m => destruct k as [|k]; [|tail_ k m] end.
Ltac tail8 k := tail_ k 8%nat.

Lemma compact_written c q nc a b t : (q <= c)%nat ->
  (written [crow0 c nc; crow1 c nc; crow2 c q nc] (mkCell a b) t <->
   0 <= a <= 2 /\ 0 <= b < Z.of_nat c + (if nc then 3 else 8)
   /\ t = cchar (Z.of_nat c) (Z.of_nat q) nc a b).
Proof.
  intros Hq. rewrite written3.
  assert (R0 : forall j, nth_error (crow0 c nc) j = Some t <->
     Z.of_nat j < Z.of_nat c + (if nc then 3 else 8) /\ t = cchar (Z.of_nat c) (Z.of_nat q) nc 0 (Z.of_nat j)).
  { intros j. unfold crow0, cchar. rewrite nth_repeat_app. cbn [Z.eqb orb].
    destruct (Nat.ltb_spec j c) as [H|H].
    - replace (Z.of_nat j <? Z.of_nat c) with true by lia.
      split; [intros E; injection E as <-; split; [destruct nc; lia|reflexivity] | intros [_ ->]; reflexivity].
    - replace (Z.of_nat j <? Z.of_nat c) with false by lia.
      remember (j - c)%nat as k eqn:Ek. assert (j = c + k)%nat as -> by lia. clear Ek H.
      destruct nc; tail8 k; cbn [nth_error app lit list_ascii_of_string repeat];
        repeat (match goal with |- context [if ?x then _ else _] => replace x with false by lia end
           || match goal with |- context [if ?x then _ else _] => replace x with true by lia end);
        (split; [intros E; first [discriminate E | injection E as <-; split; [lia|reflexivity] | destruct k; discriminate E]
               | intros [? ->]; first [reflexivity | lia]]). }
  assert (R1 : forall j, nth_error (crow1 c nc) j = Some t <->
     Z.of_nat j < Z.of_nat c + (if nc then 3 else 8) /\ t = cchar (Z.of_nat c) (Z.of_nat q) nc 1 (Z.of_nat j)).
  { intros j. unfold crow1, cchar. rewrite nth_repeat_app. cbn [Z.eqb orb Pos.eqb].
    destruct (Nat.ltb_spec j c) as [H|H].
    - replace (Z.of_nat j <? Z.of_nat c + 2) with true by lia.
      split; [intros E; injection E as <-; split; [destruct nc; lia|reflexivity] | intros [_ ->]; reflexivity].
    - remember (j - c)%nat as k eqn:Ek. assert (j = c + k)%nat as -> by lia. clear Ek H.
      destruct nc; tail8 k; cbn [nth_error app lit list_ascii_of_string repeat];
        repeat (match goal with |- context [if ?x then _ else _] => replace x with false by lia end
           || match goal with |- context [if ?x then _ else _] => replace x with true by lia end);
        (split; [intros E; first [discriminate E | injection E as <-; split; [lia|reflexivity] | destruct k; discriminate E]
               | intros [? ->]; first [reflexivity | lia]]). }
  assert (R2 : forall j, nth_error (crow2 c q nc) j = Some t <->
     Z.of_nat j < Z.of_nat c + (if nc then 3 else 8) /\ t = cchar (Z.of_nat c) (Z.of_nat q) nc 2 (Z.of_nat j)).
  { intros j. unfold crow2, cchar. rewrite !nth_repeat_app. cbn [Z.eqb orb Pos.eqb].
    destruct (Nat.ltb_spec j q) as [H|H].
    - replace (Z.of_nat j <? Z.of_nat q) with true by lia.
      split; [intros E; injection E as <-; split; [destruct nc; lia|reflexivity] | intros [_ ->]; reflexivity].
    - replace (Z.of_nat j <? Z.of_nat q) with false by lia.
      destruct (Nat.ltb_spec (j - q) (c - q)) as [H'|H'].
      + replace (Z.of_nat j <? Z.of_nat c + 1) with true by lia.
        split; [intros E; injection E as <-; split; [destruct nc; lia|reflexivity] | intros [_ ->]; reflexivity].
      + remember (j - q - (c - q))%nat as k eqn:Ek. assert (j = c + k)%nat as -> by lia. clear Ek H H'.
        destruct nc; tail8 k; cbn [nth_error app lit list_ascii_of_string repeat];
        repeat (match goal with |- context [if ?x then _ else _] => replace x with false by lia end
           || match goal with |- context [if ?x then _ else _] => replace x with true by lia end);
        (split; [intros E; first [discriminate E | injection E as <-; split; [lia|reflexivity] | destruct k; discriminate E]
               | intros [? ->]; first [reflexivity | lia]]). }
  rewrite R0, R1, R2. split.
  - intros (Hb & H). rewrite Z2Nat.id in H by exact Hb.
    destruct H as [[-> [H1 H2]]|[[-> [H1 H2]]|[-> [H1 H2]]]]; repeat split; auto; lia.
  - intros (Ha & Hb & H). split; [lia|]. rewrite Z2Nat.id by lia.
    assert (D : a = 0 \/ a = 1 \/ a = 2) by lia.
    destruct D as [->|[->| ->]]; [left|right; left|right; right]; (split; [reflexivity|]); split; auto; lia.
Qed.

Lemma line_In i j n a b : In (mkCell a b) (line i j n) <-> a = i /\ j <= b < j + Z.of_nat n.
Proof.
  unfold line. rewrite in_map_iff. split.
  - intros (k & E & Hk). apply in_seq in Hk. injection E as -> <-. lia.
  - intros [-> H]. exists (Z.to_nat (b - j)). split; [f_equal; lia|]. apply in_seq. lia.
Qed.
Lemma line_length i j n : length (line i j n) = n.
Proof. unfold line. rewrite map_length, seq_length. reflexivity. Qed.
Lemma line_NoDup i j n : NoDup (line i j n).
Proof.
  unfold line. apply FinFun.Injective_map_NoDup; [|apply seq_NoDup].
  intros x y E. injection E as E. lia.
Qed.
Lemma NoDup_app_intro {A} (l l' : list A) : NoDup l -> NoDup l' ->
  (forall x, In x l -> In x l' -> False) -> NoDup (l ++ l').
Proof.
  intros H H' Hd. induction H as [|x l Hx Hl IH]; cbn; auto.
  constructor.
  - rewrite in_app_iff. intros [Hi|Hi]; [auto|]. apply (Hd x); [left; reflexivity|exact Hi].
  - apply IH. intros y Hy. apply Hd. right; exact Hy.
Qed.
Lemma same_length {A} (l l' : list A) : NoDup l -> NoDup l' -> (forall x, In x l <-> In x l') -> length l = length l'.
Proof. intros. apply Permutation_length, NoDup_Permutation; auto. Qed.
Lemma find_all_NoDup g t : NoDup (find_all_cells_of_type g t).
Proof. apply sorted_NoDup. apply find_all_exact. Qed.

Lemma digits_not t : In t digits -> t = kRegion0 \/ ~ In t (lit "rQAM0").
Proof. cbn. intros H. repeat (destruct H as [<-|H]; [first [left; reflexivity | right; intros G; repeat (destruct G as [G|G]; [discriminate G|]); exact G] |]). destruct H. Qed.
Lemma cchar_range c q nc a b : In (cchar c q nc a b) (lit "rQAM0").
Proof. unfold cchar. repeat match goal with |- context [if ?x then _ else _] => destruct x end; cbn; tauto. Qed.


Lemma cchar_cases (c q : Z) (nc : bool) (a b : Z) : q <= c -> 0 <= a <= 2 -> 0 <= b < c + (if nc then 3 else 8) ->
  (cchar c q nc a b = kQubit <-> (a = 0 /\ b < c) \/ (a = 2 /\ b < q)) /\
  (cchar c q nc a b = kMagic <-> nc = true /\ a = 1 /\ b = c + 2) /\
  (cchar c q nc a b = kRegion0 <-> c + 3 <= b).
Proof.
  intros Hq Ha Hb. unfold cchar. destruct nc, (a =? 0) eqn:?;
  cbn [orb negb]; repeat match goal with |- context [if ?x then _ else _] => destruct x eqn:? end;
    (split; [|split]);
    match goal with
    | |- ?x = ?x <-> _ => split; [intros _; lia | intros _; reflexivity]
    | |- _ <-> _ => try (split; [intros E; discriminate E | intros; exfalso; lia])
    end.
Qed.

Section Compact.
Variables c q : nat.
Hypothesis Hq : (q <= c)%nat.
Variable nc : bool.
Let g := [crow0 c nc; crow1 c nc; crow2 c q nc].

Lemma compact_furthest : spec_furthest g = Ok (mkCell 2 (Z.of_nat c + (if nc then 3 else 8) - 1)).
Proof.
  rewrite (spec_furthest_rect g (c + if nc then 3 else 8)).
  - cbn [length g]. f_equal. f_equal; destruct nc; lia.
  - destruct nc; lia.
  - discriminate.
  - unfold g, crow0, crow1, crow2. destruct nc; repeat constructor; len.
Qed.
Lemma compact_mixed : ~ mixed g.
Proof.
  intros [[[a b] H1] (t & [a' b'] & Ht & H2)].
  apply compact_written in H1, H2; auto.
  destruct H1 as (Ha & Hb & E), H2 as (Ha' & Hb' & E').
  symmetry in E. apply cchar_cases in E; try lia.
  destruct (digits_not t Ht) as [->|Hn].
  - symmetry in E'. apply cchar_cases in E'; lia.
  - apply Hn. rewrite E'. apply cchar_range.
Qed.

Lemma compact_digit t a b : In t digits -> written g (mkCell a b) t ->
  t = kRegion0 /\ nc = false /\ 0 <= a <= 2 /\ Z.of_nat c + 3 <= b < Z.of_nat c + 8.
Proof.
  intros Ht H. apply compact_written in H; auto. destruct H as (Ha & Hb & E).
  destruct (digits_not t Ht) as [->|Hn].
  - symmetry in E. apply cchar_cases in E; try lia. split; [reflexivity|]. destruct nc; [lia|split; [reflexivity|lia]].
  - exfalso. apply Hn. rewrite E. apply cchar_range.
Qed.
Lemma compact_zero a b : nc = false -> 0 <= a <= 2 -> Z.of_nat c + 3 <= b < Z.of_nat c + 8 ->
  written g (mkCell a b) kRegion0.
Proof.
  intros Hnc Ha Hb. apply compact_written; auto. rewrite ?Hnc. split; [lia|]. split; [lia|].
  symmetry. apply cchar_cases; rewrite ?Hnc; lia.
Qed.
Lemma compact_linked a b : nc = false -> 0 <= a <= 2 -> Z.of_nat c + 3 <= b < Z.of_nat c + 8 ->
  linked g kRegion0 (mkCell 0 (Z.of_nat c + 3)) (mkCell a b).
Proof.
  intros Hnc Ha Hb.
  assert (Hrow : forall k, (k < 5)%nat -> linked g kRegion0 (mkCell 0 (Z.of_nat c + 3)) (mkCell 0 (Z.of_nat c + 3 + Z.of_nat k))).
  { induction k as [|k IH]; intros Hk.
    - rewrite Z.add_0_r. apply rt_refl.
    - eapply rt_trans; [apply IH; lia|]. apply rt_step. split; [unfold adj; cbn; lia|].
      split; apply compact_zero; auto; lia. }
  eapply rt_trans.
  - apply (Hrow (Z.to_nat (b - (Z.of_nat c + 3)))). lia.
  - replace (Z.of_nat c + 3 + Z.of_nat (Z.to_nat (b - (Z.of_nat c + 3)))) with b by lia.
    assert (Hcol : forall k, (k < 3)%nat -> linked g kRegion0 (mkCell 0 b) (mkCell (Z.of_nat k) b)).
    { induction k as [|k IH]; intros Hk; [apply rt_refl|].
      eapply rt_trans; [apply IH; lia|]. apply rt_step. split; [unfold adj; cbn; lia|].
      split; apply compact_zero; auto; lia. }
    replace a with (Z.of_nat (Z.to_nat a)) by lia. apply Hcol. lia.
Qed.
Lemma compact_core : length (find_all_cells_of_type g kQubit) = (c + q)%nat.
Proof.
  rewrite (same_length _ (line 0 0 c ++ line 2 0 q)).
  - rewrite app_length, !line_length. reflexivity.
  - apply find_all_NoDup.
  - apply NoDup_app_intro; try apply line_NoDup. intros [a b] H H'. apply line_In in H, H'. lia.
  - intros [a b]. rewrite find_all_In, in_app_iff, !line_In.
    unfold g; rewrite compact_written by exact Hq. split.
    + intros (Ha & Hb & E). symmetry in E. apply cchar_cases in E; try lia.
    + intros H. assert (0 <= a <= 2 /\ 0 <= b < Z.of_nat c + (if nc then 3 else 8)) as [Ha Hb] by (destruct nc; lia).
      repeat split; try lia. symmetry. apply cchar_cases; lia.
Qed.
Lemma compact_core_In a b : In (mkCell a b) (find_all_cells_of_type g kQubit) ->
  (a = 0 \/ a = 2) /\ 0 <= b < Z.of_nat c.
Proof.
  rewrite find_all_In. unfold g; rewrite compact_written by exact Hq.
  intros (Ha & Hb & E). symmetry in E. apply cchar_cases in E; lia.
Qed.

(** The tiles of the factory. *)
Definition block : list cell :=
  line 0 (Z.of_nat c + 3) 5 ++ line 1 (Z.of_nat c + 3) 5 ++ line 2 (Z.of_nat c + 3) 5.
Lemma block_In a b : In (mkCell a b) block <-> 0 <= a <= 2 /\ Z.of_nat c + 3 <= b < Z.of_nat c + 8.
Proof. unfold block. rewrite !in_app_iff, !line_In. lia. Qed.
Lemma block_NoDup : NoDup block.
Proof.
  unfold block. repeat apply NoDup_app_intro; try apply line_NoDup;
    intros [a b]; rewrite ?in_app_iff, ?line_In; lia.
Qed.

Lemma compact_lane b : 0 <= b <= Z.of_nat c + 1 \/ (nc = false /\ b = Z.of_nat c + 2) ->
  written g (mkCell 1 b) kRouting.
Proof.
  intros Hb. apply compact_written; auto. split; [lia|]. split; [destruct nc; lia|].
  unfold cchar. cbn [Z.eqb Pos.eqb].
  destruct (b <? Z.of_nat c + 2) eqn:E; auto.
  destruct Hb as [Hb|[-> ->]]; [lia|]. rewrite Z.eqb_refl. reflexivity.
Qed.
End Compact.

Lemma routing_open g o L c : layout_ok g o L -> written g c kRouting -> open_tile L c.
Proof.
  intros (Hf & Hcore & _ & Hdead & Hres & Hy & _ & (times & HI & _) & _) Hw.
  assert (Hne : forall t, t <> kRouting -> ~ In c (find_all_cells_of_type g t)).
  { intros t Ht H. apply find_all_In in H. apply Ht. eapply written_fun; eauto. }
  split; [|split; [|split; [|split; [|split]]]].
  - apply (written_on_lattice g _ Hf). eauto.
  - intros p Hp. rewrite Hcore in Hp. apply in_map_iff in Hp. destruct Hp as (x & <- & Hx).
    cbn. intros [->|[]]. apply (Hne kQubit); [discriminate|exact Hx].
  - intros R HR Hc. destruct HI as [H2 _ _]. cbn [fst snd] in H2.
    destruct (Forall2_In_l _ _ _ _ H2 HR) as (Q & _ & HQ).
    destruct (ro_class _ _ _ HQ) as (t & c0 & Ht & Hw0 & _ & Hcl).
    apply Hcl in Hc. pose proof (linked_written _ _ _ _ Hc Hw0) as Hw1.
    rewrite (written_fun _ _ _ _ Hw1 Hw) in Ht. cbn in Ht.
    repeat (destruct Ht as [Ht|Ht]; [discriminate Ht|]). exact Ht.
  - rewrite Hdead. apply Hne. discriminate.
  - rewrite Hres. apply Hne. discriminate.
  - rewrite Hy. apply Hne. discriminate.
Qed.

Definition compact_ok (n : nat) (nc : bool) (o : dist_options) (L : layout) : Prop :=
  let lane := Z.of_nat ((n + 1) / 2) in
  l_furthest L = mkCell 2 (lane + (if nc then 2 else 7))
  /\ length (l_core L) = n
  /\ Forall (fun p => exists c, p = basic_square_patch c None None
               /\ (row c = 0 \/ row c = 2) /\ 0 <= col c < lane) (l_core L)
  /\ NoDup (l_core L)
  /\ (forall j, 0 <= j <= lane + (if nc then 1 else 2) -> open_tile L (mkCell 1 j))
  /\ l_dead L = [] /\ l_ystates L = []
  /\ (if nc
      then l_regions L = [] /\ l_reserved L = [mkCell 1 (lane + 2)] /\ l_times L = [u32 (d_time o)]
      else l_reserved L = [] /\ l_times L = [u32 (d_time o)] /\
           exists R Q, l_regions L = [R] /\ l_queues L = [Q] /\ length R = 15%nat
             /\ In (mkCell 1 (lane + 2)) Q
             /\ Forall (fun s => 0 <= row (sc_cell s) <= 2 /\ lane + 3 <= col (sc_cell s)) R).

Lemma half_facts n : let c := ((n + 1) / 2)%nat in (n - c <= c)%nat /\ (c + (n - c) = n)%nat.
Proof.
  intros c. pose proof (Nat.div_mod (n + 1) 2). pose proof (Nat.mod_upper_bound (n + 1) 2). unfold c. lia.
Qed.

Lemma compact_layout_ok n o nc : exists L, make_compact_layout n o nc = Ok L /\ compact_ok n nc o L.
Proof.
  unfold make_compact_layout. rewrite compact_grid_eq. cbn [bind].
  destruct (half_facts n) as [Hq Hn].
  unfold compact_ok. set (c := ((n + 1) / 2)%nat) in *. set (q := (n - c)%nat) in *. clearbody q. clearbody c.
  set (g := [crow0 c nc; crow1 c nc; crow2 c q nc]).
  destruct (layout_of_grid_spec g o) as [(L & E & Hok & _)|[_ Hbad]].
  2:{ exfalso. destruct Hbad as [Hbad|Hbad].
      - unfold g in Hbad. rewrite compact_furthest in Hbad by exact Hq. discriminate.
      - exact (compact_mixed c q Hq nc Hbad). }
  exists L. split; [exact E|].
  pose proof Hok as Hok0.
  destruct Hok as (Hf & Hcore & _ & Hdead & Hres & Hy & _ & (times & HI & Ht) & Hcov).
  assert (Hnone : forall t, ~ In t (lit "rQAM0") -> find_all_cells_of_type g t = []).
  { intros t Hnt. destruct (find_all_cells_of_type g t) as [|[a b] l] eqn:El; auto. exfalso.
    assert (W : written g (mkCell a b) t) by (apply find_all_In; rewrite El; left; reflexivity).
    apply compact_written in W; auto. destruct W as (_ & _ & W). apply Hnt. rewrite W. apply cchar_range. }
  split; [|split; [|split; [|split; [|split; [|split; [|split]]]]]].
  - unfold g in Hf. rewrite compact_furthest in Hf by exact Hq. injection Hf as Hf. rewrite <- Hf. f_equal. destruct nc; lia.
  - rewrite Hcore, map_length. unfold g. rewrite compact_core by exact Hq. exact Hn.
  - rewrite Hcore. apply Forall_forall. intros p Hp. apply in_map_iff in Hp.
    destruct Hp as ([a b] & <- & Hp). exists (mkCell a b). split; [reflexivity|].
    apply compact_core_In in Hp; auto.
  - rewrite Hcore. apply FinFun.Injective_map_NoDup; [|apply find_all_NoDup].
    intros x y Exy. injection Exy as ->. reflexivity.
  - intros j Hj. apply (routing_open g o L _ Hok0). apply (compact_lane c q Hq nc).
    destruct nc; [left; lia|]. destruct (Z.eq_dec j (Z.of_nat c + 2)); [right; auto|left; lia].
  - rewrite Hdead. apply Hnone. cbn. intros H. repeat (destruct H as [H|H]; [discriminate H|]). exact H.
  - rewrite Hy. apply Hnone. cbn. intros H. repeat (destruct H as [H|H]; [discriminate H|]). exact H.
  - assert (Hres_len : length (l_reserved L) = if nc then 1%nat else 0%nat).
    { rewrite Hres. rewrite (same_length _ (if nc then [mkCell 1 (Z.of_nat c + 2)] else [])).
      - destruct nc; reflexivity.
      - apply find_all_NoDup.
      - destruct nc; repeat constructor. intros [].
      - intros [a b]. rewrite find_all_In. unfold g. rewrite compact_written by exact Hq. split.
        + intros (Ha & Hb & W). symmetry in W. apply cchar_cases in W; try lia.
          destruct W as (-> & -> & ->). left; reflexivity.
        + destruct nc; cbn; [|tauto]. intros [H|[]]. injection H as <- <-.
          repeat split; try lia. symmetry. apply cchar_cases; lia. }
    assert (Hreg : forall R, In R (l_regions L) -> nc = false
       /\ forall a b, In (mkCell a b) (cells_of R) <-> 0 <= a <= 2 /\ Z.of_nat c + 3 <= b < Z.of_nat c + 8).
    { intros R HR. destruct HI as [H2 _ _]. cbn [fst snd] in H2.
      destruct (Forall2_In_l _ _ _ _ H2 HR) as (Q & _ & HQ).
      destruct (ro_class _ _ _ HQ) as (t & [a0 b0] & Htd & Hw & Hin & Hcl).
      destruct (compact_digit c q Hq nc t a0 b0 Htd Hw) as (-> & Hnc & Ha0 & Hb0).
      split; auto. intros a b. unfold cells_of. rewrite Hcl. split.
      - intros Hl. apply linked_written in Hl; auto.
        destruct (compact_digit c q Hq nc kRegion0 a b Htd Hl) as (_ & _ & Ha & Hb). auto.
      - intros [Ha Hb]. eapply rt_trans; [apply linked_sym|]; apply compact_linked; auto. }
    destruct nc.
    + assert (Hr0 : l_regions L = []).
      { destruct (l_regions L) as [|R l]; auto. destruct (Hreg R) as [H _]; [left; reflexivity|discriminate]. }
      split; [exact Hr0|]. split.
      * rewrite Hres in Hres_len |- *. destruct (find_all_cells_of_type g kMagic) as [|[a b] [|? ?]] eqn:El; try discriminate.
        assert (W : written g (mkCell a b) kMagic) by (apply find_all_In; rewrite El; left; reflexivity).
        apply compact_written in W; auto. destruct W as (Ha & Hb & W). symmetry in W. apply cchar_cases in W; try lia.
        destruct W as (_ & -> & ->). reflexivity.
      * rewrite Ht, Hres_len. destruct HI as [_ _ Htm]. cbn [fst snd] in Htm. rewrite Hr0 in Htm. cbn in Htm.
        subst times. reflexivity.
    + split; [destruct (l_reserved L); [reflexivity|discriminate]|].
      destruct HI as [H2 Hd Htm]. cbn [fst snd] in *.
      destruct (Hcov (mkCell 0 (Z.of_nat c + 3)) kRegion0) as (R & HR & HRin).
      { left; reflexivity. } { apply (compact_zero c q Hq false); lia. }
      destruct (l_regions L) as [|R0 rest] eqn:El; [destruct HR|].
      assert (Hrest : rest = []).
      { destruct rest as [|R1 rest]; auto. exfalso.
        destruct (Hreg R0) as [_ I0]; [left; reflexivity|].
        destruct (Hreg R1) as [_ I1]; [right; left; reflexivity|].
        assert (0%nat = 1%nat); [|discriminate].
        apply (Hd 0%nat 1%nat R0 R1 (mkCell 0 (Z.of_nat c + 3))); try reflexivity; [apply I0|apply I1]; lia. }
      subst rest. cbn [length seq map] in Htm. rewrite Ht, Hres_len, Htm. cbn [repeat app]. split.
      * unfold nth_time. f_equal. destruct (d_staggered o); auto.
        cbn [N.of_nat]. rewrite N.add_0_r. unfold u32. rewrite N.mod_mod by (intros H; discriminate H). reflexivity.
      * inversion H2 as [|? Q ? qs HRok Hnil Ea Eb]; subst. inversion Hnil; subst.
        destruct (Hreg R0) as [_ I0]; [left; reflexivity|].
        exists R0, Q. split; [reflexivity|]. split; [reflexivity|].
        split; [|split].
        { rewrite <- (map_length sc_cell). rewrite (same_length _ (block c)); [reflexivity|apply HRok|exact (block_NoDup c q Hq)|].
          intros [a b]. rewrite (block_In c q Hq). apply I0. }
        { apply (ro_queue _ _ _ HRok). exists (mkCell 1 (Z.of_nat c + 3)). split; [apply I0; lia|].
          split; [unfold adj; cbn; lia|]. apply (compact_lane c q Hq false). right; auto. }
        { apply Forall_forall. intros s Hs. specialize (I0 (row (sc_cell s)) (col (sc_cell s))).
          assert (In (mkCell (row (sc_cell s)) (col (sc_cell s))) (cells_of R0)).
          { destruct (sc_cell s) eqn:Es. cbn. rewrite <- Es. unfold cells_of. apply in_map, Hs. }
          apply I0 in H. lia. }
Qed.
