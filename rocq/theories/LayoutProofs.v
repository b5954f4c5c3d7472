From Coq Require Import Relations Sorted Permutation.
From Verif Require Import Base TextModel TextSpec TextProofs PatchesModel InstrProofs LayoutModel LayoutSpec.
Local Open Scope Z_scope.

Lemma cell_eqb_eq a b : cell_eqb a b = true <-> a = b.
Proof.
  unfold cell_eqb. destruct a, b; cbn. rewrite andb_true_iff, !Z.eqb_eq.
  split; [intros [-> ->]; reflexivity | intros H; injection H; auto].
Qed.
Lemma cell_eq_dec (a b : cell) : {a = b} + {a <> b}.
Proof. decide equality; apply Z.eq_dec. Qed.
Lemma mem_cell_In c l : mem_cell c l = true <-> In c l.
Proof.
  unfold mem_cell. rewrite existsb_exists. split.
  - intros (x & Hx & E). apply cell_eqb_eq in E. subst. exact Hx.
  - intros H. exists c. split; auto. apply cell_eqb_eq; reflexivity.
Qed.
Lemma mem_cell_notin c l : mem_cell c l = false <-> ~ In c l.
Proof. rewrite <- mem_cell_In. destruct (mem_cell c l); split; congruence. Qed.

Lemma enum_from_In {A} (l : list A) : forall k i x,
  In (i, x) (enum_from k l) <-> exists n, nth_error l n = Some x /\ i = k + Z.of_nat n.
Proof.
  induction l as [|y l IH]; intros k i x; cbn [enum_from In].
  - split; [intros [] | intros ([|n] & H & _); discriminate].
  - rewrite IH. split.
    + intros [H | (n & H & ->)].
      * injection H as <- <-. exists O. split; [reflexivity | lia].
      * exists (S n). split; [exact H | lia].
    + intros ([|n] & H & ->).
      * left. injection H as <-. f_equal. lia.
      * right. exists n. split; [exact H | lia].
Qed.

Lemma enum_grid_In g c t : In (c, t) (enum_grid g) <-> written g c t.
Proof.
  unfold enum_grid, written. rewrite in_flat_map. split.
  - intros ([i r] & Hr & Hin). cbn in Hin. apply in_map_iff in Hin.
    destruct Hin as ([j x] & E & Hj). cbn in E. injection E as <- <-.
    apply enum_from_In in Hr, Hj. destruct Hr as (n & Hn & ->), Hj as (m & Hm & ->).
    exists n, m, r. auto.
  - intros (i & j & r & -> & Hr & Hj). exists (Z.of_nat i, r). split.
    + apply enum_from_In. exists i. auto.
    + cbn. apply in_map_iff. exists (Z.of_nat j, t). split; [reflexivity|].
      apply enum_from_In. exists j. auto.
Qed.

Lemma written_fun g c t t' : written g c t -> written g c t' -> t = t'.
Proof.
  intros (i & j & r & -> & Hr & Hj) (i' & j' & r' & E & Hr' & Hj').
  injection E as E1 E2. apply Nat2Z.inj in E1, E2. subst i' j'. congruence.
Qed.

Lemma StronglySorted_app {A} (R : A -> A -> Prop) l1 l2 :
  StronglySorted R l1 -> StronglySorted R l2 ->
  (forall a b, In a l1 -> In b l2 -> R a b) -> StronglySorted R (l1 ++ l2).
Proof.
  intros H1 H2 H. induction H1 as [|a l1 H1 IH Ha]; cbn; auto.
  constructor.
  - apply IH. intros; apply H; [right|]; auto.
  - apply Forall_app. split; auto. apply Forall_forall. intros b Hb. apply H; [left|]; auto.
Qed.
Lemma StronglySorted_filter {A} (R : A -> A -> Prop) f l :
  StronglySorted R l -> StronglySorted R (filter f l).
Proof.
  induction 1 as [|a l H IH Ha]; cbn; [constructor|].
  destruct (f a); auto. constructor; auto.
  apply Forall_forall. intros x Hx. apply filter_In in Hx.
  rewrite Forall_forall in Ha. apply Ha, Hx.
Qed.
Lemma StronglySorted_map {A B} (R : B -> B -> Prop) (f : A -> B) l :
  StronglySorted (fun a b => R (f a) (f b)) l -> StronglySorted R (map f l).
Proof.
  induction 1 as [|a l H IH Ha]; cbn; constructor; auto.
  apply Forall_forall. intros x Hx. apply in_map_iff in Hx.
  destruct Hx as (y & <- & Hy). rewrite Forall_forall in Ha. auto.
Qed.
Lemma sorted_NoDup l : StronglySorted reads_before l -> NoDup l.
Proof.
  induction 1 as [|a l H IH Ha]; constructor; auto.
  intros Hin. rewrite Forall_forall in Ha. specialize (Ha a Hin).
  unfold reads_before in Ha. lia.
Qed.

Lemma enum_from_sorted {A} (l : list A) : forall k,
  StronglySorted (fun a b : Z * A => fst a < fst b) (enum_from k l).
Proof.
  induction l as [|x l IH]; intros k; cbn; constructor; auto.
  apply Forall_forall. intros [i y] H. apply enum_from_In in H.
  destruct H as (n & _ & ->). cbn. lia.
Qed.

Lemma StronglySorted_weaken {A} (R S : A -> A -> Prop) l :
  (forall a b, R a b -> S a b) -> StronglySorted R l -> StronglySorted S l.
Proof.
  intros H. induction 1 as [|a l Hs IH Ha]; constructor; auto.
  eapply Forall_impl; [|exact Ha]. auto.
Qed.

Lemma enum_rows_sorted (g : grid) : forall k,
  StronglySorted (fun a b => reads_before (fst a) (fst b))
    (flat_map (fun ir => map (fun jc => (mkCell (fst ir) (fst jc), snd jc)) (enum_from 0 (snd ir)))
              (enum_from k g)).
Proof.
  induction g as [|r g IH]; intros k; cbn [enum_from flat_map]; [constructor|].
  apply StronglySorted_app; auto.
  - apply StronglySorted_map. eapply StronglySorted_weaken; [|apply enum_from_sorted].
    intros [i x] [j y]; cbn. unfold reads_before; cbn. lia.
  - intros [a t] [b u] Ha Hb. apply in_map_iff in Ha. destruct Ha as ([j x] & E & _).
    cbn in E. injection E as <- <-.
    apply in_flat_map in Hb. destruct Hb as ([i r'] & Hi & Hb).
    apply in_map_iff in Hb. destruct Hb as ([j' x'] & E & _). cbn in E. injection E as <- <-.
    apply enum_from_In in Hi. destruct Hi as (n & _ & ->).
    unfold reads_before; cbn. lia.
Qed.

Lemma find_all_exact g t : lists_exactly g t (find_all_cells_of_type g t).
Proof.
  unfold find_all_cells_of_type. split.
  - apply StronglySorted_map, StronglySorted_filter. apply enum_rows_sorted.
  - intros c. rewrite in_map_iff. split.
    + intros ([c' t'] & E & H). cbn in E. subst c'. apply filter_In in H.
      destruct H as [H1 H2]. cbn in H2. apply Ascii.eqb_eq in H2. subst t'.
      apply enum_grid_In. exact H1.
    + intros H. exists (c, t). split; auto. apply filter_In. split.
      * apply enum_grid_In. exact H.
      * cbn. apply Ascii.eqb_refl.
Qed.
Lemma find_all_In g t c : In c (find_all_cells_of_type g t) <-> written g c t.
Proof. apply find_all_exact. Qed.

Lemma enum_from_length {A} (l : list A) : forall k, length (enum_from k l) = length l.
Proof. induction l; intros; cbn; auto. Qed.

Lemma area_enum g : length (enum_grid g) = area g.
Proof.
  unfold enum_grid. generalize 0 at 2. induction g as [|r g IH]; intros k; [reflexivity|].
  cbn [enum_from flat_map area fold_right]. rewrite app_length, IH, map_length, enum_from_length.
  reflexivity.
Qed.

Lemma cells_bound g l : NoDup l -> (forall c, In c l -> exists t, written g c t) ->
  (length l <= area g)%nat.
Proof.
  intros Hn H. rewrite <- area_enum, <- (map_length fst).
  apply NoDup_incl_length; auto.
  intros c Hc. destruct (H c Hc) as [t Ht]. apply in_map_iff.
  exists (c, t). split; auto. apply enum_grid_In. exact Ht.
Qed.

Lemma cell_at_written g c t : cell_at g c = Ok t <-> written g c t.
Proof.
  unfold cell_at, written, idx. destruct c as [i j]; cbn [row col]. split.
  - destruct ((i <? 0) || (j <? 0)) eqn:E; [discriminate|].
    apply orb_false_iff in E. destruct E as [E1 E2].
    destruct (nth_error g (Z.to_nat i)) as [r|] eqn:Er; [|discriminate]. cbn [bind].
    destruct (nth_error r (Z.to_nat j)) as [x|] eqn:Ej; [|discriminate].
    intros H; injection H as <-. exists (Z.to_nat i), (Z.to_nat j), r.
    split; [f_equal; lia | auto].
  - intros (n & m & r & E & Hr & Hj). injection E as -> ->.
    replace ((Z.of_nat n <? 0) || (Z.of_nat m <? 0)) with false by lia.
    rewrite !Nat2Z.id, Hr. cbn [bind]. rewrite Hj. reflexivity.
Qed.

(** ** Rectangles *)

Lemma spec_furthest_ok g far : spec_furthest g = Ok far ->
  exists n, n <> O /\ g <> [] /\ Forall (fun r => length r = n) g
            /\ far = mkCell (Z.of_nat (length g) - 1) (Z.of_nat n - 1).
Proof.
  unfold spec_furthest. destruct g as [|r g]; [discriminate|].
  destruct (existsb _ _) eqn:E; [discriminate|].
  destruct (Nat.eqb (length r) 0) eqn:E0; [discriminate|].
  intros H; injection H as <-. exists (length r). apply Nat.eqb_neq in E0.
  repeat split; auto; [discriminate|].
  apply Forall_forall. intros x Hx.
  assert (Hf : negb (Nat.eqb (length r) (length x)) = false).
  { destruct (negb _) eqn:En; auto.
    assert (existsb (fun r0 : list ctype => negb (length r =? length r0)%nat) (r :: g) = true)
      by (apply existsb_exists; exists x; auto). congruence. }
  apply negb_false_iff, Nat.eqb_eq in Hf. auto.
Qed.
Lemma spec_furthest_rect g n : n <> O -> g <> [] -> Forall (fun r => length r = n) g ->
  spec_furthest g = Ok (mkCell (Z.of_nat (length g) - 1) (Z.of_nat n - 1)).
Proof.
  intros Hn Hg Hf. destruct g as [|r g]; [congruence|]. unfold spec_furthest.
  assert (Hr : length r = n) by (inversion Hf; auto).
  destruct (existsb _ _) eqn:E.
  - apply existsb_exists in E. destruct E as (x & Hx & E).
    rewrite Forall_forall in Hf. rewrite (Hf x Hx), Hr, Nat.eqb_refl in E. discriminate.
  - rewrite Hr. destruct (Nat.eqb n 0) eqn:E0; [apply Nat.eqb_eq in E0; congruence|]. reflexivity.
Qed.
Lemma spec_furthest_outcomes g :
  (exists far, spec_furthest g = Ok far) \/ spec_furthest g = Throw LogicError.
Proof.
  unfold spec_furthest. destruct g as [|r g]; auto.
  destruct (existsb _ _); auto. destruct (Nat.eqb _ _); eauto.
Qed.

(** A cell is on the lattice exactly when some character is written there. *)
Lemma written_on_lattice g far : spec_furthest g = Ok far -> forall c,
  (exists t, written g c t) <-> on_lattice far c.
Proof.
  intros H c. apply spec_furthest_ok in H. destruct H as (n & Hn & Hg & Hf & ->).
  unfold on_lattice; cbn [row col]. destruct c as [i j]; cbn [row col]. split.
  - intros (t & a & b & r & E & Hr & Hj). injection E as -> ->.
    assert (a < length g)%nat by (apply nth_error_Some; congruence).
    assert (b < length r)%nat by (apply nth_error_Some; congruence).
    rewrite Forall_forall in Hf. rewrite (Hf r) in * by (eapply nth_error_In; eauto). lia.
  - intros [Hi Hj].
    destruct (nth_error g (Z.to_nat i)) as [r|] eqn:Er.
    2:{ apply nth_error_None in Er. lia. }
    assert (Hl : length r = n).
    { rewrite Forall_forall in Hf. apply Hf. eapply nth_error_In; eauto. }
    destruct (nth_error r (Z.to_nat j)) as [x|] eqn:Ej.
    2:{ apply nth_error_None in Ej. lia. }
    exists x, (Z.to_nat i), (Z.to_nat j), r. split; [f_equal; lia | auto].
Qed.

(** ** Neighbours *)
Lemma neigbours_in_spec far c x : on_lattice far c ->
  (In x (get_neigbours_in c (mkCell 0 0) far) <-> adj c x /\ on_lattice far x).
Proof.
  intros Hc. unfold get_neigbours_in, on_lattice, adj in *.
  destruct c as [i j], x as [a b], far as [m n]; cbn [row col] in *.
  rewrite !in_app_iff.
  split.
  - intros [H|[H|[H|H]]];
      match type of H with In _ (if ?b then _ else _) => destruct b eqn:E end;
      cbn in H; try tauto; destruct H as [H|[]]; injection H as <- <-; lia.
  - intros [Ha Hl].
    assert (D : (a = i - 1 /\ b = j) \/ (a = i + 1 /\ b = j) \/ (a = i /\ b = j - 1) \/ (a = i /\ b = j + 1)) by lia.
    destruct D as [[-> ->]|[[-> ->]|[[-> ->]|[-> ->]]]].
    + left. replace (i >? 0) with true by lia. left; reflexivity.
    + right; left. replace (i <? m) with true by lia. left; reflexivity.
    + right; right; left. replace (j >? 0) with true by lia. left; reflexivity.
    + right; right; right. replace (j <? n) with true by lia. left; reflexivity.
Qed.
Lemma neigbours_spec c x : In x (get_neigbours c) <-> adj c x.
Proof.
  unfold get_neigbours, adj. destruct c as [i j], x as [a b]; cbn [row col In]. split.
  - intros [H|[H|[H|[H|[]]]]]; injection H as <- <-; lia.
  - intros Ha.
    assert (D : (a = i - 1 /\ b = j) \/ (a = i + 1 /\ b = j) \/ (a = i /\ b = j - 1) \/ (a = i /\ b = j + 1)) by lia.
    destruct D as [[-> ->]|[[-> ->]|[[-> ->]|[-> ->]]]]; tauto.
Qed.
Lemma adj_sym a b : adj a b -> adj b a.
Proof. unfold adj; lia. Qed.

(** ** Flood fill *)
Section Flood.
Variable g : grid.
Variable far : cell.
Variable t : ctype.
Hypothesis Hfar : spec_furthest g = Ok far.
Variable start : cell.
Hypothesis Hstart : written g start t.

Record flood_inv (C F : list cell) : Prop := {
  fi_nodup : NoDup (C ++ F);
  fi_start : In start (C ++ F);
  fi_sound : forall c, In c (C ++ F) -> linked g t start c /\ written g c t;
  fi_closed : forall c x, In c C -> adj c x -> written g x t -> In x (C ++ F) }.

Lemma grow_fold C : forall ns F,
  (forall x, In x ns -> on_lattice far x) -> NoDup (C ++ F) ->
  exists F', foldM (grow g t C) ns F = Ok F' /\ NoDup (C ++ F')
    /\ (forall c, In c (C ++ F') <-> In c (C ++ F) \/ (In c ns /\ written g c t)).
Proof.
  induction ns as [|x ns IH]; intros F Hns HF.
  - exists F. cbn. split; [reflexivity|]. split; auto. intros; tauto.
  - cbn [foldM]. assert (Hx : exists ty, written g x ty).
    { apply (written_on_lattice g far Hfar). apply Hns. left; reflexivity. }
    destruct Hx as [ty Hty].
    assert (Hg : exists F1, grow g t C F x = Ok F1 /\ NoDup (C ++ F1)
       /\ forall c, In c (C ++ F1) <-> In c (C ++ F) \/ (c = x /\ written g c t)).
    { unfold grow. rewrite (proj2 (cell_at_written g x ty) Hty). cbn [bind].
      destruct (Ascii.eqb ty t && negb (mem_cell x F) && negb (mem_cell x C)) eqn:E.
      - apply andb_true_iff in E. destruct E as [E E3]. apply andb_true_iff in E. destruct E as [E1 E2].
        apply Ascii.eqb_eq in E1. subst ty.
        apply negb_true_iff, mem_cell_notin in E2, E3.
        exists (F ++ [x]). split; [reflexivity|]. split.
        + rewrite app_assoc. apply (Permutation_NoDup (l := x :: (C ++ F))).
          * apply Permutation_cons_append.
          * constructor; auto. rewrite in_app_iff. tauto.
        + intros c. rewrite app_assoc, (in_app_iff (C ++ F)). cbn. split.
          * intros [H|[<-|[]]]; auto.
          * intros [H|[-> _]]; auto.
      - exists F. split; [reflexivity|]. split; auto. intros c. split; auto.
        intros [H|[-> Hw]]; auto.
        assert (ty = t) by (eapply written_fun; eauto). subst ty.
        rewrite Ascii.eqb_refl in E. cbn in E. rewrite in_app_iff.
        destruct (mem_cell x F) eqn:EF; [apply mem_cell_In in EF; auto|].
        destruct (mem_cell x C) eqn:EC; [apply mem_cell_In in EC; auto|]. discriminate. }
    destruct Hg as (F1 & E1 & N1 & S1). rewrite E1. cbn [bind].
    destruct (IH F1) as (F' & E' & N' & S').
    { intros; apply Hns; right; auto. } { exact N1. }
    exists F'. split; [exact E'|]. split; auto. intros c. rewrite S', S1.
    cbn [In]. split.
    + intros [[H|[-> H]]|[H1 H2]]; auto.
    + intros [H|[[<-|H1] H2]]; auto.
Qed.

Lemma flood_ok : forall fuel C F, flood_inv C F -> (area g < fuel + length C)%nat ->
  exists R, flood fuel g t far C F = Ok R /\ flood_inv R [].
Proof.
  induction fuel as [|fuel IH]; intros C F HI Hf.
  - exfalso. assert (length (C ++ F) <= area g)%nat.
    { apply cells_bound; [apply HI|]. intros c Hc. exists t. apply HI; auto. }
    rewrite app_length in H. lia.
  - cbn [flood]. destruct F as [|curr rest].
    { exists C. auto. }
    destruct HI as [Hn Hs Hsound Hclosed].
    assert (Hcurr : linked g t start curr /\ written g curr t).
    { apply Hsound. apply in_app_iff. right; left; reflexivity. }
    assert (Hl : on_lattice far curr).
    { apply (written_on_lattice g far Hfar). exists t. apply Hcurr. }
    assert (Hre : forall c, In c ((C ++ [curr]) ++ rest) <-> In c (C ++ curr :: rest)).
    { intros c. rewrite <- app_assoc. reflexivity. }
    destruct (grow_fold (C ++ [curr]) (get_neigbours_in curr (mkCell 0 0) far) rest) as (F' & E & N & Sp).
    { intros x Hx. apply neigbours_in_spec in Hx; [apply Hx | exact Hl]. }
    { rewrite <- app_assoc. exact Hn. }
    rewrite E. cbn [bind]. apply IH.
    + constructor.
      * exact N.
      * apply Sp. left. apply Hre. exact Hs.
      * intros c Hc. apply Sp in Hc. destruct Hc as [Hc|[Hc Hw]].
        { apply Hsound, Hre, Hc. }
        { apply neigbours_in_spec in Hc; [|exact Hl]. split; auto.
          eapply rt_trans; [apply Hcurr|]. apply rt_step. split; [apply Hc|]. split; [apply Hcurr|auto]. }
      * intros c x Hc Ha Hw. apply Sp. apply in_app_iff in Hc. destruct Hc as [Hc|[<-|[]]].
        { left. apply Hre. eapply Hclosed; eauto. }
        { right. split; auto. apply neigbours_in_spec; auto. split; auto.
          apply (written_on_lattice g far Hfar). eauto. }
    + rewrite app_length; cbn. lia.
Qed.

Lemma connected_component_ok : exists R, connected_component g start = Ok R /\ NoDup R
  /\ forall c, In c R <-> linked g t start c.
Proof.
  unfold connected_component. rewrite (proj2 (cell_at_written g start t) Hstart), Hfar. cbn [bind].
  destruct (flood_ok (S (area g)) [] [start]) as (R & E & HI).
  - constructor.
    + repeat constructor. intros [].
    + left; reflexivity.
    + intros c [<-|[]]. split; [apply rt_refl | exact Hstart].
    + intros c x [].
  - cbn; lia.
  - exists R. destruct HI as [Hn Hs Hsound Hclosed]. rewrite app_nil_r in *.
    split; [exact E|]. split; auto. intros c. split.
    + intros H. apply Hsound, H.
    + intros H. apply clos_rt_rtn1 in H. induction H as [|y z Hyz _ IH]; auto.
      destruct Hyz as (Ha & _ & Hw). apply (Hclosed y z); auto.
Qed.
End Flood.

Lemma linked_written g t a b : linked g t a b -> written g a t -> written g b t.
Proof. induction 1 as [? ? (?&?&?) | |]; auto. Qed.
Lemma linked_sym g t a b : linked g t a b -> linked g t b a.
Proof.
  induction 1 as [x y (Ha&H1&H2) | | x y z _ IH1 _ IH2].
  - apply rt_step. split; [apply adj_sym, Ha|]. auto.
  - apply rt_refl.
  - eapply rt_trans; eauto.
Qed.

(** ** Drawing a region *)
Lemma side_top i j : side_towards (mkCell i j) (mkCell (i - 1) j) = Some DTop.
Proof. unfold side_towards. cbn [row col]. rewrite (proj2 (cell_eqb_eq _ _) eq_refl). reflexivity. Qed.
Lemma side_bottom i j : side_towards (mkCell i j) (mkCell (i + 1) j) = Some DBottom.
Proof.
  unfold side_towards, cell_eqb. cbn [row col].
  replace (i + 1 =? i - 1) with false by lia. rewrite !Z.eqb_refl. reflexivity.
Qed.
Lemma side_left i j : side_towards (mkCell i j) (mkCell i (j - 1)) = Some DLeft.
Proof.
  unfold side_towards, cell_eqb. cbn [row col].
  replace (i =? i - 1) with false by lia. replace (i =? i + 1) with false by lia.
  rewrite !Z.eqb_refl. reflexivity.
Qed.
Lemma side_right i j : side_towards (mkCell i j) (mkCell i (j + 1)) = Some DRight.
Proof.
  unfold side_towards, cell_eqb. cbn [row col].
  replace (i =? i - 1) with false by lia. replace (i =? i + 1) with false by lia.
  replace (j + 1 =? j - 1) with false by lia.
  rewrite !Z.eqb_refl. reflexivity.
Qed.

Definition wall (region : list scell) (c : cell) : boundary_type :=
  if in_region region c then BNone else BSmooth.
Definition drawn (region : list scell) (s : scell) : scell :=
  let c := sc_cell s in
  mkSC (mkBounds (mkB (wall region (mkCell (row c - 1) (col c))) (bactive (b_top (sc_b s))))
                 (mkB (wall region (mkCell (row c + 1) (col c))) (bactive (b_bottom (sc_b s))))
                 (mkB (wall region (mkCell (row c) (col c - 1))) (bactive (b_left (sc_b s))))
                 (mkB (wall region (mkCell (row c) (col c + 1))) (bactive (b_right (sc_b s))))) c.

Lemma draw_sides region s :
  foldM (draw_side region) (get_neigbours (sc_cell s)) s = Ok (drawn region s).
Proof.
  destruct s as [b [i j]]. unfold get_neigbours, drawn. cbn [sc_cell sc_b row col foldM].
  unfold draw_side, get_boundary_with, set_boundary_with.
  cbn [sc_cell]. rewrite side_top. cbn [deref bind sc_cell].
  rewrite side_bottom. cbn [deref bind sc_cell].
  rewrite side_left. cbn [deref bind sc_cell].
  rewrite side_right. cbn [deref bind sc_cell].
  reflexivity.
Qed.

Lemma queue_sides g far : spec_furthest g = Ok far -> forall ns q,
  (forall x, In x ns -> on_lattice far x) ->
  exists q', foldM (queue_side g) ns q = Ok q'
    /\ forall x, In x q' <-> In x q \/ (In x ns /\ written g x kRouting).
Proof.
  intros Hfar. induction ns as [|n ns IH]; intros q Hns.
  - exists q. split; [reflexivity|]. intros; cbn; tauto.
  - cbn [foldM]. destruct (proj2 (written_on_lattice g far Hfar n)) as [ty Hty].
    { apply Hns; left; reflexivity. }
    unfold queue_side at 1. rewrite (proj2 (cell_at_written g n ty) Hty). cbn [bind].
    destruct (Ascii.eqb ty kRouting) eqn:E.
    + apply Ascii.eqb_eq in E. subst ty. cbn [bind].
      destruct (IH (q ++ [n])) as (q' & E' & S'); [intros; apply Hns; right; auto|].
      exists q'. split; [exact E'|]. intros x. rewrite S', in_app_iff. cbn. split.
      * intros [[H|[<-|[]]]|[H1 H2]]; auto.
      * intros [H|[[<-|H1] H2]]; auto.
    + cbn [bind]. destruct (IH q) as (q' & E' & S'); [intros; apply Hns; right; auto|].
      exists q'. split; [exact E'|]. intros x. rewrite S'. cbn. split.
      * intros [H|[H1 H2]]; auto.
      * intros [H|[[<-|H1] H2]]; auto.
        rewrite (written_fun _ _ _ _ Hty H2), Ascii.eqb_refl in E. discriminate.
Qed.

Lemma draw_region_ok g far region : spec_furthest g = Ok far -> forall todo done q,
  (forall s, In s todo -> on_lattice far (sc_cell s)) ->
  exists q', draw_region g far region todo done q = Ok (done ++ map (drawn region) todo, q')
    /\ forall x, In x q' <-> In x q
         \/ (exists s, In s todo /\ adj (sc_cell s) x /\ written g x kRouting).
Proof.
  intros Hfar. induction todo as [|s todo IH]; intros done q Hl.
  - exists q. cbn. rewrite app_nil_r. split; [reflexivity|]. intros x. split; auto.
    intros [H|(s & [] & _)]; auto.
  - cbn [draw_region]. rewrite draw_sides. cbn [bind].
    assert (Hs : on_lattice far (sc_cell s)) by (apply Hl; left; reflexivity).
    destruct (queue_sides g far Hfar (get_neigbours_in (sc_cell s) (mkCell 0 0) far) q) as (q1 & E1 & S1).
    { intros x Hx. apply neigbours_in_spec in Hx; [apply Hx | exact Hs]. }
    rewrite E1. cbn [bind].
    destruct (IH (done ++ [drawn region s]) q1) as (q' & E' & S'); [intros; apply Hl; right; auto|].
    exists q'. rewrite E', <- app_assoc. split; [reflexivity|].
    intros x. rewrite S', S1. split.
    + intros [[H|[H1 H2]]|(s' & H1 & H2)]; auto.
      * right. exists s. split; [left; reflexivity|]. split; auto.
        apply neigbours_in_spec in H1; [apply H1 | exact Hs].
      * right. exists s'. split; [right|]; auto.
    + intros [H|(s' & [<-|H1] & H2 & H3)]; auto.
      * left. right. split; auto. apply neigbours_in_spec; auto. split; auto.
        apply (written_on_lattice g far Hfar). eauto.
      * right. exists s'. auto.
Qed.

(** What one region of a layout is. *)
Record region_ok (g : grid) (R : list scell) (Q : list cell) : Prop := {
  ro_class : exists t c0, In t digits /\ written g c0 t /\ In c0 (map sc_cell R)
      /\ forall c, In c (map sc_cell R) <-> linked g t c0 c;
  ro_nodup : NoDup (map sc_cell R);
  ro_walls : forall s x, In s R -> adj (sc_cell s) x ->
      get_boundary_with s x = Some (mkB (if in_region R x then BNone else BSmooth) false);
  ro_queue : forall x, In x Q <-> exists c, In c (map sc_cell R) /\ adj c x /\ written g x kRouting }.

Lemma in_region_In R c : in_region R c = true <-> In c (map sc_cell R).
Proof.
  unfold in_region. rewrite existsb_exists, in_map_iff. split.
  - intros (s & Hs & E). apply cell_eqb_eq in E. exists s. auto.
  - intros (s & E & Hs). exists s. split; auto. apply cell_eqb_eq. auto.
Qed.
Lemma in_some_region_In rs c : in_some_region rs c = true <->
  exists R, In R rs /\ In c (map sc_cell R).
Proof.
  unfold in_some_region. rewrite existsb_exists.
  split; intros (R & H & H'); exists R; split; auto; apply in_region_In; auto.
Qed.
Lemma in_region_ext R R' c : map sc_cell R = map sc_cell R' -> in_region R c = in_region R' c.
Proof.
  intros E. destruct (in_region R c) eqn:E1, (in_region R' c) eqn:E2; auto;
    [apply in_region_In in E1; rewrite E in E1; apply in_region_In in E1
    |apply in_region_In in E2; rewrite <- E in E2; apply in_region_In in E2]; congruence.
Qed.
Lemma map_drawn region l : map sc_cell (map (drawn region) l) = map sc_cell l.
Proof. rewrite map_map. apply map_ext. reflexivity. Qed.

Lemma drawn_side region c x : adj c x ->
  get_boundary_with (drawn region (make_distillation_region_cell c)) x = Some (mkB (wall region x) false).
Proof.
  intros Ha. apply neigbours_spec in Ha. destruct c as [i j]. unfold get_neigbours in Ha. cbn [row col In] in Ha.
  unfold get_boundary_with, drawn. cbn [sc_cell make_distillation_region_cell sc_b row col].
  destruct Ha as [<-|[<-|[<-|[<-|[]]]]].
  - rewrite side_top. reflexivity.
  - rewrite side_bottom. reflexivity.
  - rewrite side_left. reflexivity.
  - rewrite side_right. reflexivity.
Qed.

Definition cells_of (R : list scell) : list cell := map sc_cell R.
Definition disjoint_regions (rs : list (list scell)) : Prop :=
  forall k k' R R' c, nth_error rs k = Some R -> nth_error rs k' = Some R' ->
    In c (cells_of R) -> In c (cells_of R') -> k = k'.

Definition nth_time (o : dist_options) (k : nat) : N :=
  if d_staggered o then u32 (u32 (d_time o) + N.of_nat k) else u32 (d_time o).

Record regions_inv (g : grid) (o : dist_options) (st : region_state) : Prop := {
  ri_regions : Forall2 (region_ok g) (fst (fst st)) (snd (fst st));
  ri_disjoint : disjoint_regions (fst (fst st));
  ri_times : snd st = map (nth_time o) (seq 0 (length (fst (fst st)))) }.

Definition covered (st : region_state) (c : cell) : Prop :=
  exists R, In R (fst (fst st)) /\ In c (cells_of R).

Lemma nth_error_snoc {A} (l : list A) x k y : nth_error (l ++ [x]) k = Some y ->
  nth_error l k = Some y \/ (k = length l /\ y = x).
Proof.
  intros H. destruct (Nat.lt_ge_cases k (length l)) as [Hk|Hk].
  - rewrite nth_error_app1 in H by exact Hk. auto.
  - rewrite nth_error_app2 in H by exact Hk. right.
    destruct (k - length l)%nat as [|m] eqn:E; cbn in H.
    + injection H as <-. split; auto. lia.
    + destruct m; discriminate.
Qed.
Lemma Forall2_length' {A B} (P : A -> B -> Prop) l l' : Forall2 P l l' -> length l = length l'.
Proof. induction 1; cbn; auto. Qed.
Lemma Forall2_In_l {A B} (P : A -> B -> Prop) l l' a : Forall2 P l l' -> In a l -> exists b, In b l' /\ P a b.
Proof.
  induction 1 as [|x y l l' H _ IH]; intros Hin; [destruct Hin|].
  destruct Hin as [<-|Hin]; [exists y; split; [left|]; auto|].
  destruct (IH Hin) as (b & Hb & Hp). exists b. split; [right|]; auto.
Qed.

Lemma add_region_ok g far o st t start : spec_furthest g = Ok far ->
  In t digits -> written g start t -> regions_inv g o st ->
  exists st', add_region g far o st start = Ok st' /\ regions_inv g o st'
    /\ covered st' start /\ forall c, covered st c -> covered st' c.
Proof.
  intros Hfar Ht Hs HI. destruct st as [[regions queues] times].
  destruct HI as [H2 Hd Htm]. cbn [fst snd] in *. unfold add_region.
  destruct (in_some_region regions start) eqn:E.
  - exists (regions, queues, times). split; [reflexivity|].
    split; [constructor; auto|]. split; auto.
    apply in_some_region_In in E. exact E.
  - unfold make_distillation_region.
    destruct (connected_component_ok g far t Hfar start Hs) as (cs & Ec & Hnd & Hcs).
    rewrite Ec. cbn [bind].
    set (new := map make_distillation_region_cell cs).
    assert (Hnew : map sc_cell new = cs).
    { unfold new. rewrite map_map. cbn. apply map_id. }
    destruct (draw_region_ok g far new Hfar new [] []) as (q & Eq & Hq).
    { intros s Hin. apply (written_on_lattice g far Hfar). exists t.
      eapply linked_written; [|exact Hs]. apply Hcs. rewrite <- Hnew. apply in_map, Hin. }
    rewrite Eq. cbn [bind app].
    eexists. split; [reflexivity|].
    assert (Hcells : map sc_cell (map (drawn new) new) = cs) by (rewrite map_drawn; exact Hnew).
    assert (Hstart_in : In start cs) by (apply Hcs, rt_refl).
    split; [|split].
    + constructor; cbn [fst snd].
      * apply Forall2_app; auto. constructor; [|constructor]. constructor.
        { exists t, start. rewrite Hcells. repeat split; auto. apply Hcs. apply Hcs. }
        { rewrite Hcells. exact Hnd. }
        { intros s x Hin Ha. apply in_map_iff in Hin. destruct Hin as (s0 & <- & Hin).
          unfold new in Hin. apply in_map_iff in Hin. destruct Hin as (c & <- & Hin).
          cbn [drawn sc_cell make_distillation_region_cell] in Ha.
          rewrite drawn_side by exact Ha. unfold wall.
          rewrite (in_region_ext new (map (drawn new) new)) by (rewrite map_drawn; reflexivity).
          reflexivity. }
        { intros x. rewrite Hq, Hcells. split.
          - intros [[]|(s & Hin & Ha & Hw)]. exists (sc_cell s). split; auto.
            rewrite <- Hnew. apply in_map, Hin.
          - intros (c & Hin & Ha & Hw). right. rewrite <- Hnew in Hin. apply in_map_iff in Hin.
            destruct Hin as (s & <- & Hin). exists s. auto. }
      * assert (Hcross : forall k R c, nth_error regions k = Some R -> In c (cells_of R) -> In c cs -> False).
        { intros k R c HR Hc Hc'. apply nth_error_In in HR.
          destruct (Forall2_In_l _ _ _ _ H2 HR) as (Q & _ & HQ).
          destruct (ro_class _ _ _ HQ) as (t' & c0 & _ & Hw0 & Hin0 & Hcl).
          apply Hcl in Hc. apply Hcs in Hc'.
          assert (t = t').
          { eapply written_fun; [eapply linked_written; [exact Hc'|exact Hs]
                                |eapply linked_written; [exact Hc|exact Hw0]]. }
          subst t'. assert (in_some_region regions start = true); [|congruence].
          apply in_some_region_In. exists R. split; auto. apply Hcl.
          eapply rt_trans; [exact Hc|]. apply linked_sym, Hc'. }
        intros k k' R R' c Hk Hk' Hc Hc'.
        apply nth_error_snoc in Hk, Hk'.
        destruct Hk as [Hk|[-> ->]], Hk' as [Hk'|[-> ->]]; auto.
        { eapply Hd; eauto. }
        { exfalso. unfold cells_of in Hc'. rewrite Hcells in Hc'. eapply Hcross; eauto. }
        { exfalso. unfold cells_of in Hc. rewrite Hcells in Hc. eapply Hcross; eauto. }
      * rewrite app_length. cbn [length]. rewrite Nat.add_1_r, seq_S, map_app. cbn [map plus].
        rewrite <- Htm. reflexivity.
    + exists (map (drawn new) new). cbn [fst snd]. split.
      * apply in_app_iff. right; left; reflexivity.
      * unfold cells_of. rewrite Hcells. exact Hstart_in.
    + intros c (R & HR & Hc). exists R. cbn [fst snd] in *. split; auto. apply in_app_iff. auto.
Qed.

Lemma add_regions_fold g far o t : spec_furthest g = Ok far -> In t digits -> forall cells st,
  (forall c, In c cells -> written g c t) -> regions_inv g o st ->
  exists st', foldM (add_region g far o) cells st = Ok st' /\ regions_inv g o st'
    /\ (forall c, In c cells -> covered st' c) /\ forall c, covered st c -> covered st' c.
Proof.
  intros Hfar Ht. induction cells as [|c cells IH]; intros st Hc HI.
  - exists st. cbn. repeat split; auto; try apply HI. intros c [].
  - cbn [foldM]. destruct (add_region_ok g far o st t c Hfar Ht) as (st1 & E1 & I1 & C1 & M1); auto.
    { apply Hc. left; reflexivity. }
    rewrite E1. cbn [bind].
    destruct (IH st1) as (st' & E' & I' & C' & M'); auto.
    { intros; apply Hc; right; auto. }
    exists st'. split; [exact E'|]. split; auto. split; auto.
    intros x [<-|Hx]; auto.
Qed.

Lemma add_types_fold g far o (reserved : bool) : spec_furthest g = Ok far -> forall types st,
  incl types digits -> regions_inv g o st ->
  ((reserved = true /\ exists t c, In t types /\ written g c t)
     /\ foldM (add_regions_of_type g far o reserved) types st = Throw LogicError)
  \/ (~ (reserved = true /\ exists t c, In t types /\ written g c t)
     /\ exists st', foldM (add_regions_of_type g far o reserved) types st = Ok st' /\ regions_inv g o st'
    /\ (forall c t, In t types -> written g c t -> covered st' c)
    /\ forall c, covered st c -> covered st' c).
Proof.
  intros Hfar. induction types as [|t types IH]; intros st Hin HI.
  - right. split; [intros (_ & t & c & [] & _)|]. exists st. cbn. repeat split; auto; try apply HI. intros c t [].
  - cbn [foldM]. unfold add_regions_of_type at 1 3.
    destruct (negb (Nat.eqb (length (find_all_cells_of_type g t)) 0) && reserved) eqn:E.
    + left. apply andb_true_iff in E. destruct E as [E1 ->]. split; [|reflexivity].
      split; auto. destruct (find_all_cells_of_type g t) as [|c l] eqn:El; [discriminate|].
      exists t, c. split; [left; reflexivity|]. apply find_all_In. rewrite El. left; reflexivity.
    + destruct (add_regions_fold g far o t Hfar) with (cells := find_all_cells_of_type g t) (st := st)
        as (st1 & E1 & I1 & C1 & M1); auto.
      { apply Hin. left; reflexivity. }
      { intros c Hc. apply find_all_In, Hc. }
      rewrite E1. cbn [bind].
      assert (Hno : reserved = true -> forall c, ~ written g c t).
      { intros -> c Hw. apply find_all_In in Hw. rewrite andb_true_r in E.
        destruct (find_all_cells_of_type g t); [destruct Hw | discriminate]. }
      destruct (IH st1) as [((Hr & t' & c & Ht' & Hw) & Et)|(Hn & st' & E' & I' & C' & M')]; auto.
      { intros x Hx. apply Hin. right; exact Hx. }
      * left. split; [|exact Et]. split; auto. exists t', c. split; [right|]; auto.
      * right. split.
        { intros (Hr & t' & c & [<-|Ht'] & Hw); [exact (Hno Hr c Hw)|].
          apply Hn. split; auto. exists t', c. auto. }
        exists st'. split; [exact E'|]. split; auto. split; auto.
        intros c t' [<-|Ht'] Hw; eauto. apply M', C1. apply find_all_In, Hw.
Qed.

Definition mixed (g : grid) : Prop :=
  (exists c, written g c kMagic) /\ (exists t c, In t digits /\ written g c t).

Definition layout_ok (g : grid) (o : dist_options) (L : layout) : Prop :=
  spec_furthest g = Ok (l_furthest L)
  /\ l_core L = map (fun c => basic_square_patch c None None) (find_all_cells_of_type g kQubit)
  /\ l_ancilla L = find_all_cells_of_type g kAncilla
  /\ l_dead L = find_all_cells_of_type g kDead
  /\ l_reserved L = find_all_cells_of_type g kMagic
  /\ l_ystates L = find_all_cells_of_type g kYState
  /\ l_magic_reserved L = negb (Nat.eqb (length (l_reserved L)) 0)
  /\ (exists times, regions_inv g o (l_regions L, l_queues L, times)
        /\ l_times L = times ++ repeat (u32 (d_time o)) (length (l_reserved L)))
  /\ (forall c t, In t digits -> written g c t -> exists R, In R (l_regions L) /\ In c (cells_of R)).

Lemma layout_of_grid_spec g o :
  (exists L, layout_of_grid g o = Ok L /\ layout_ok g o L /\ ~ mixed g)
  \/ (layout_of_grid g o = Throw LogicError /\ (spec_furthest g = Throw LogicError \/ mixed g)).
Proof.
  unfold layout_of_grid. destruct (spec_furthest_outcomes g) as [[far Hfar]|Ht].
  2:{ right. rewrite Ht. auto. }
  rewrite Hfar. cbn [bind].
  set (res := find_all_cells_of_type g kMagic).
  assert (Hres : negb (Nat.eqb (length res) 0) = true <-> exists c, written g c kMagic).
  { split.
    - intros H. destruct res as [|c l] eqn:E; [discriminate|]. exists c. apply find_all_In.
      fold res. rewrite E. left; reflexivity.
    - intros [c Hc]. apply find_all_In in Hc. fold res in Hc. destruct res; [destruct Hc|reflexivity]. }
  destruct (add_types_fold g far o (negb (Nat.eqb (length res) 0)) Hfar region_types ([], [], []))
    as [((Hr & Hx) & Et)|(Hn & st' & E' & I' & C' & M')].
  { intros x Hx; exact Hx. }
  { constructor; cbn; auto. intros k k' R R' c H. destruct k; discriminate. }
  - right. rewrite Et. split; [reflexivity|]. right. split; [apply Hres, Hr|exact Hx].
  - left. rewrite E'. destruct st' as [[regions queues] times]. cbn [bind].
    eexists. split; [reflexivity|]. split.
    + unfold layout_ok. cbn [l_furthest l_core l_ancilla l_dead l_reserved l_ystates l_magic_reserved
        l_regions l_queues l_times].
      do 7 (split; [first [exact Hfar | reflexivity]|]). split.
      * exists times. split; [exact I'|reflexivity].
      * intros c t Ht Hw. apply (C' c t Ht Hw).
    + intros [H1 H2]. apply Hn. split; [apply Hres, H1|exact H2].
Qed.

(** ** Text *)
Lemma cell_type_ok c t : cell_type_from_char c = Ok t <-> In c alphabet /\ t = c.
Proof.
  unfold cell_type_from_char. fold alphabet.
  destruct (existsb (Ascii.eqb c) alphabet) eqn:E.
  - apply existsb_exists in E. destruct E as (x & Hx & E). apply Ascii.eqb_eq in E. subst x.
    split; [intros H; injection H; auto | intros [_ ->]; reflexivity].
  - split; [discriminate|]. intros [H _].
    assert (existsb (Ascii.eqb c) alphabet = true); [|congruence].
    apply existsb_exists. exists c. split; auto. apply Ascii.eqb_refl.
Qed.
Lemma cell_type_else c : ~ In c alphabet -> cell_type_from_char c = Throw LogicError.
Proof.
  intros H. unfold cell_type_from_char. fold alphabet.
  destruct (existsb (Ascii.eqb c) alphabet) eqn:E; auto.
  apply existsb_exists in E. destruct E as (x & Hx & E). apply Ascii.eqb_eq in E. subst x. tauto.
Qed.
Lemma alphabet_dec c : {In c alphabet} + {~ In c alphabet}.
Proof. apply in_dec, ascii_dec. Qed.
Lemma mapM_cells (r : text) :
  (Forall (fun c => In c alphabet) r /\ mapM cell_type_from_char r = Ok r)
  \/ (~ Forall (fun c => In c alphabet) r /\ mapM cell_type_from_char r = Throw LogicError).
Proof.
  induction r as [|c r IH]; [left; split; [constructor|reflexivity]|]. cbn [mapM].
  destruct (alphabet_dec c) as [Hc|Hc].
  - rewrite (proj2 (cell_type_ok c c) (conj Hc eq_refl)). cbn [bind].
    destruct IH as [[H ->]|[H ->]]; cbn [bind]; [left|right]; split; auto.
    intros Hf; inversion Hf; auto.
  - right. rewrite (cell_type_else c Hc). split; auto. intros Hf; inversion Hf; auto.
Qed.
Lemma parse_rows_spec lines : let rows := filter nonempty lines in
  (Forall (Forall (fun c => In c alphabet)) rows /\ parse_rows lines = Ok rows)
  \/ (~ Forall (Forall (fun c => In c alphabet)) rows /\ parse_rows lines = Throw LogicError).
Proof.
  induction lines as [|r lines IH]; cbn zeta in *; [left; split; [constructor|reflexivity]|].
  destruct r as [|c r]; cbn [filter nonempty parse_rows]; [exact IH|].
  destruct (mapM_cells (c :: r)) as [[Hr Er]|[Hr Er]]; rewrite Er; cbn [bind].
  - destruct IH as [[H ->]|[H ->]]; cbn [bind]; [left|right]; split; auto.
    intros Hf; inversion Hf; auto.
  - right. split; auto. intros Hf; inversion Hf; auto.
Qed.
Lemma filter_nonempty_split lines :
  Forall (fun l => ~ In newline l) lines ->
  filter nonempty (split_on (intercalate newline lines) newline) = filter nonempty lines.
Proof.
  intros H. destruct lines as [|l lines]; [reflexivity|].
  destruct (list_eq_dec (list_eq_dec ascii_dec) (l :: lines) [[]]) as [E|E].
  - rewrite E. reflexivity.
  - rewrite split_on_intercalate; auto. discriminate.
Qed.

Lemma rectangular_furthest rows : rows <> [] -> (rectangular rows <-> exists far, spec_furthest rows = Ok far).
Proof.
  intros Hr. split.
  - intros (n & Hn & Hf). eexists. apply spec_furthest_rect; eauto.
  - intros [far H]. apply spec_furthest_ok in H. destruct H as (n & Hn & _ & Hf & _). exists n. auto.
Qed.

(** When a layout text is accepted. *)
Definition acceptable (rows : list text) : Prop :=
  rows <> [] /\ rectangular rows /\ Forall (Forall (fun c => In c alphabet)) rows /\ ~ mixed rows.

Lemma layout_text_spec lines o : Forall (fun l => ~ In newline l) lines ->
  let rows := filter nonempty lines in
  (acceptable rows /\ exists L, layout_from_spec (intercalate newline lines) o = Ok L /\ layout_ok rows o L)
  \/ (~ acceptable rows /\ layout_from_spec (intercalate newline lines) o = Throw LogicError).
Proof.
  intros Hl rows. unfold layout_from_spec, parse_grid.
  change ("010"%char) with newline.
  pose proof (parse_rows_spec (split_on (intercalate newline lines) newline)) as Hp. cbn zeta in Hp.
  rewrite filter_nonempty_split in Hp by exact Hl. fold rows in Hp.
  destruct Hp as [[Ha ->]|[Ha ->]]; cbn [bind].
  - destruct (layout_of_grid_spec rows o) as [(L & -> & Hok & Hm)|[-> Hbad]].
    + left. split; [|exists L; auto]. split; [|split; [|split; auto]].
      * intros ->. destruct Hok as [Hf _]. discriminate.
      * destruct Hok as [Hf _]. apply spec_furthest_ok in Hf. destruct Hf as (n & ? & _ & ? & _). exists n; auto.
    + right. split; [|reflexivity]. intros (H1 & H2 & _ & H4). destruct Hbad as [Hbad|]; auto.
      apply rectangular_furthest in H2; auto. destruct H2 as [far H2]. congruence.
  - right. split; [|reflexivity]. intros (_ & _ & H & _). auto.
Qed.
