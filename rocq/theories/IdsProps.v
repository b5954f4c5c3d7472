(** C28 for the pipelines that choose the order themselves: no id in two places in any slice of a whole run. *)
From Verif Require Import Base TextModel PatchesModel LayoutModel LayoutSpec LayoutProofs InstrModel InstrSpec InstrProofs.
From Verif Require Import SliceModel SliceSpec SliceProofs SliceProps RouterModel RouterSpec RouterProofs RouterProps.
From Verif Require Import ApplyModel ApplySpec ApplyProofs ApplyEffect ApplyBell ApplyIds BellSpec BellProofs BellIds BellProps ApplyProps StepProps.
From Verif Require Import MarksModel RunModel RunSpec RunProofs RunProps StreamProps SchedSpec SchedProofs DagLoop DagLoopProps WaveModel WaveSpec WaveProofs WaveProps RunInv.
Open Scope nat_scope.

(** The operation without what is filled in while it is carried out. *)
Definition bare (o : operation) : operation :=
  match o with
  | MultiMeasure obs neg _ => MultiMeasure obs neg None
  | BellInit s1 s2 l1 l2 _ _ => BellInit s1 s2 l1 l2 None None
  | YRequest t n _ => YRequest t n None
  | BellCNOT c t s1 s2 _ _ _ _ => BellCNOT c t s1 s2 None None None None
  | _ => o
  end.
Lemma tried_bare : forall e w i a, try_apply e w i = Ok a -> bare (a_op a) = bare (op i).
Proof.
  intros e w [o wt cl] a H.
  assert (F : forall w' o', failed w' o' = Ok a -> a_op a = o') by (intros w' o' X; apply failed_inv in X; tauto).
  assert (D : forall w' o', done_ w' o' = Ok a -> a_op a = o') by (intros w' o' X; apply done_inv in X; tauto).
  destruct o; cbn [try_apply InstrModel.op wait clients] in *; try discriminate.
  - unfold apply_measure in H. destruct (get_cell_by_id (w_slice w) target); [bstep H; apply D in H|apply F in H]; rewrite H; reflexivity.
  - unfold apply_multi in H. destruct observable as [|[x px] [|[y py] [|? ?]]]; try discriminate.
    repeat (match type of H with (if ?b then _ else _) = _ => destruct b end; try discriminate;
      try (apply F in H; rewrite H; reflexivity)).
    + crawl H. destruct b; cbn [negb] in H; [apply D in H|apply F in H]; rewrite H; reflexivity.
    + crawl H. injection H as <-. reflexivity.
  - unfold apply_init in H. bstep H. destruct x; [|apply F in H; rewrite H; reflexivity]. bstep H. bstep H. apply D in H. rewrite H. reflexivity.
  - unfold apply_bell_init in H.
    repeat (match type of H with (if ?b then _ else _) = _ => destruct b end; try discriminate; try (apply F in H; rewrite H; reflexivity)).
    destruct counter as [[f s]|].
    + crawl H. injection H as <-. reflexivity.
    + bstep H. destruct x as [r cache]. destruct r; [|apply F in H; rewrite H; reflexivity]. destruct (Nat.ltb (length (rg_cells r)) 2); [apply F in H; rewrite H; reflexivity|].
      crawl H. injection H as <-. reflexivity.
  - unfold apply_magic in H. destruct (l_times (e_layout e)); try discriminate. destruct (s_magic (w_slice w)); [apply F in H; rewrite H; reflexivity|].
    repeat bstep H. apply D in H. rewrite H. reflexivity.
  - unfold apply_y in H. destruct (get_cell_by_id (w_slice w) target); [bstep H; apply D in H; rewrite H; reflexivity|].
    destruct (negb (e_local e && e_twists e) && negb (N.eqb (s_yavail (w_slice w)) 0)).
    + bstep H. destruct x as [[z c]|]; [bstep H; apply D in H; rewrite H; reflexivity|]. injection H as <-. reflexivity.
    + destruct (e_twists e); [|injection H as <-; reflexivity].
      bstep H. bstep H. destruct x0; [|apply F in H; rewrite H; reflexivity]. bstep H. destruct x0. apply D in H. rewrite H. reflexivity.
  - unfold apply_single in H. destruct (get_cell_by_id (w_slice w) target), (get_patch_by_id (w_slice w) target); try (apply F in H; rewrite H; reflexivity).
    destruct op; try (match type of H with (if dp_is_active _ then _ else _) = _ => destruct (dp_is_active d); [apply F in H; rewrite H; reflexivity|try (bstep H); apply D in H; rewrite H; reflexivity] end).
    destruct (e_edpc e); try discriminate. bstep H. destruct x as [w' ok]. destruct ok; cbn [negb] in H; [injection H as <-; reflexivity|apply F in H; rewrite H; reflexivity].
  - unfold apply_rotate in H. destruct (get_cell_by_id (w_slice w) target); [|apply F in H; rewrite H; reflexivity]. bstep H. destruct x; [|apply F in H; rewrite H; reflexivity].
    repeat bstep H. destruct x1; try discriminate. bstep H. destruct x1. injection H as <-. reflexivity.
  - unfold apply_busy in H. destruct (N.eqb steps_to_clear 0).
    + repeat bstep H. destruct x0 as [s2 all]. destruct all; [apply D in H|apply F in H]; rewrite H; reflexivity.
    + repeat bstep H. injection H as <-. reflexivity.
  - unfold apply_cnot in H.
    destruct (e_local e); cbn [negb] in H; try discriminate.
    destruct (get_patch_by_id (w_slice w) control); [|apply F in H; rewrite H; reflexivity]. destruct (get_patch_by_id (w_slice w) target); [|apply F in H; rewrite H; reflexivity].
    destruct (dp_is_active d); [apply F in H; rewrite H; reflexivity|]. destruct (dp_is_active d0); [apply F in H; rewrite H; reflexivity|].
    assert (L : forall w' cs se, cnot_locals e control target side1 side2 wt cl w' route cs se phase = Ok a -> bare (a_op a) = BellCNOT control target side1 side2 None None None None).
    { intros w' cs se X. unfold cnot_locals in X. crawl X. injection X as <-. reflexivity. }
    destruct (e_edpc e).
    + destruct route as [reg|]; [destruct counters as [cs|]|].
      * unfold cnot_phase in H. crawl H. destruct b; cbn [negb] in H.
        -- bstep H. match type of H with (if ?b then _ else _) = _ => destruct b end; injection H as <-; reflexivity.
        -- injection H as <-. reflexivity.
      * unfold cnot_decompose in H. bstep H. destruct x as [p1 p2]. apply F in H. rewrite H. reflexivity.
      * unfold cnot_find_route in H. bstep H. destruct x as [r cache]. destruct r; [|apply F in H; rewrite H; reflexivity].
        destruct (Nat.ltb (length (rg_cells r)) 2); try discriminate.
        bstep H. bstep H. bstep H. destruct x1. bstep H. injection H as <-. reflexivity.
    + unfold cnot_plain in H. destruct counters; [eapply L; eauto|].
      bstep H. destruct x as [r cache]. destruct r; [|apply F in H; rewrite H; reflexivity].
      destruct (Nat.ltb (length (rg_cells r)) 2); try discriminate.
      bstep H. bstep H. bstep H. destruct x1. eapply L; eauto.
  - apply D in H. rewrite H. reflexivity.
Qed.

(** The ids that what is left of an instruction puts on the lattice: those that it brings in and the patch that it rotates. *)
Definition owns (edpc : bool) (o : operation) : list N := match o with Rotate t => [t] | _ => puts edpc o end.
Lemma puts_owns : forall ed o id, In id (puts ed o) -> In id (owns ed o).
Proof. intros ed o id H. destruct o; auto. destruct H. Qed.
Lemma owns_remaining : forall e w i a o', try_apply e w i = Ok a -> remaining a = [o'] ->
  (forall id, In id (brings (e_edpc e) o') -> In id (brings (e_edpc e) (op i)) \/ op i = Rotate id /\ exists c, carries (w_slice w) c id) ->
  forall id, In id (owns (e_edpc e) o') -> In id (owns (e_edpc e) (op i)).
Proof.
  intros e w i a o' H R B id Ho.
  assert (Y : (exists t, o' = Rotate t) \/ owns (e_edpc e) o' = puts (e_edpc e) o') by (destruct o'; eauto).
  destruct Y as [(t & ->)|Y].
  - assert (E : a_op a = Rotate t).
    { unfold remaining in R. destruct (follow_shape e w i a H) as [Fo|(j & Fo & _ & [Sh|[(x & ->)|(r & k & p & ->)]])]; rewrite Fo in R.
      - destruct (a_error a); [injection R as ->; reflexivity|discriminate].
      - injection R as R. subst j. exact R.
      - discriminate.
      - discriminate. }
    apply tried_bare in H. rewrite E in H. destruct (op i); try discriminate. cbn in H. injection H as ->. exact Ho.
  - rewrite Y in Ho. destruct (puts_remaining e w i a o' H R B id Ho) as [X|[-> _]]; [now apply puts_owns|now left].
Qed.

(** An operation nothing of which was carried out yet. *)
Definition not_started (o : operation) : Prop :=
  match o with BellInit _ _ _ _ _ c => c = None | BellCNOT _ _ _ _ _ c _ _ => c = None | _ => True end.
Lemma brings_start : forall ed o, not_started o -> brings ed o = brings false o /\ puts ed o = puts false o.
Proof. intros ed o N. destruct o; cbn in *; subst; auto. Qed.
Lemma starts_uncut : forall e prog, Forall (fun i => not_started (op i)) prog -> uncut e prog.
Proof. intros e prog H _. eapply Forall_impl; [|exact H]. intros [o wt cl] N. destruct o; try exact I. cbn in N. subst counters. unfold orderly. cbn. destruct route; exact I. Qed.
Lemma owns_operating : forall ed i, not_started (op i) -> forall id, In id (owns ed (op i)) -> In id (operating_patches i).
Proof.
  intros ed [o wt cl] N id H. apply operating_In. right. cbn [op] in *. destruct o; cbn [not_started] in N; subst; cbn in *; try tauto; try intuition congruence.
  split; [|exact I]. apply in_flat_map in H. destruct H as (p & Hp & Hi). destruct (sp_cells p); [|destruct Hi]. destruct (p_id (sp_patch p)) as [k|] eqn:E; [|destruct Hi].
  destruct Hi as [<-|[]]. exists p. auto.
Qed.

Record apart (e : env) (prog : list instr) (w : world) (p : list (option instr)) : Prop := {
  ap_timed : timed (e_layout e) (w_slice w);
  ap_unique : unique_ids (w_slice w);
  ap_each : forall j x v, nth_error p j = Some (Some x) -> nth_error prog j = Some v ->
    tidy (op x) /\ fresh_for e (w_slice w) (op x) /\ forall id, In id (owns (e_edpc e) (op x)) -> In id (operating_patches v);
  ap_pairs : forall i j x y, i < j -> nth_error p i = Some (Some x) -> nth_error p j = Some (Some y) ->
    (exists u v, nth_error prog i = Some u /\ nth_error prog j = Some v /\ clash u v = true) ->
    forall id, In id (puts (e_edpc e) (op x)) -> ~ In id (brings (e_edpc e) (op y)) }.

Lemma new_ids_at : forall prog used, new_ids used prog -> forall j y, nth_error prog j = Some y ->
  tidy (op y) /\ NoDup (brings false (op y)) /\ (forall id, In id (brings false (op y)) -> ~ In id used)
  /\ forall i x, i < j -> nth_error prog i = Some x -> forall id, In id (puts false (op x)) -> ~ In id (brings false (op y)).
Proof.
  induction prog as [|z prog IH]; intros used Hn j y Hj; [destruct j; discriminate|]. destruct Hn as (T & N & D & R).
  destruct j as [|j].
  - injection Hj as <-. repeat split; auto. intros i x Hi. lia.
  - cbn in Hj. destruct (IH _ R j y Hj) as (A & B & C & E). repeat split; auto.
    + intros id Hi Hu. apply (C id Hi). apply in_app_iff. auto.
    + intros [|i] x Hi Hx id Hp Hb; cbn in Hx; [injection Hx as <-; apply (C id Hb); apply in_app_iff; auto|eapply (E i x); eauto; lia].
Qed.

Section Sched.
Variables (e : env) (again : instr -> applied -> instr -> Prop) (prog : list instr).
Hypothesis W : layout_wf (e_layout e).
Hypothesis Again : forall x a y, again x a y -> op y = a_op a.

Lemma leaves_remaining : forall w x a o, try_apply e w x = Ok a -> leaves again x a o ->
  match o with Some y => remaining a = [op y] | None => remaining a = [] end.
Proof.
  intros w x a o H L. unfold leaves in L. unfold remaining. destruct (follow_shape e w x a H) as [Fo|(j & Fo & Er & _)]; rewrite Fo in *.
  - destruct (a_error a); [|subst; reflexivity]. destruct L as (y & -> & Hy). cbn. now rewrite (Again _ _ _ Hy).
  - destruct (a_error a); [|subst o; reflexivity]. destruct (Er eq_refl) as [_ ->]. destruct L as (y & -> & Hy). cbn. now rewrite (Again _ _ _ Hy).
Qed.
Lemma nth_put_at : forall A n m (v : A) l, n < length l -> nth_error (put_at n v l) m = if Nat.eqb m n then Some v else nth_error l m.
Proof.
  intros A n m v l Hn. unfold put_at. destruct (Nat.eqb_spec m n) as [->|Hm].
  - rewrite nth_error_app2; rewrite firstn_length_le; auto; try lia. now rewrite Nat.sub_diag.
  - revert l m Hn Hm. induction n as [|n IH]; intros [|y l] [|m] Hn Hm; cbn [length] in *; try lia; cbn; auto.
    apply IH; lia.
Qed.

Lemma apart_start : forall w used, timed (e_layout e) (w_slice w) -> unique_ids (w_slice w) ->
  (forall c id, carries (w_slice w) c id -> In id used) -> new_ids used prog -> Forall (fun i => not_started (op i)) prog ->
  apart e prog w (map Some prog).
Proof.
  intros w used T U C N S. rewrite Forall_forall in S.
  assert (M : forall j x, nth_error (map Some prog) j = Some (Some x) -> nth_error prog j = Some x).
  { intros j x H. rewrite nth_error_map in H. destruct (nth_error prog j); cbn in H; congruence. }
  split; auto.
  - intros j x v Hx Hv. apply M in Hx. assert (x = v) by congruence. subst x. destruct (new_ids_at _ _ N _ _ Hv) as (A & B & D & _).
    split; [exact A|]. split; [|apply owns_operating, S; eapply nth_error_In; eauto].
    unfold fresh_for. rewrite (proj1 (brings_start (e_edpc e) (op v) (S v (nth_error_In _ _ Hv)))). split; [exact B|]. intros id Hi c Hc. apply (D id Hi). eauto.
  - intros i j x y Hij Hx Hy _. apply M in Hx, Hy. destruct (new_ids_at _ _ N _ _ Hy) as (_ & _ & _ & E).
    rewrite (proj2 (brings_start (e_edpc e) (op x) (S x (nth_error_In _ _ Hx)))), (proj1 (brings_start (e_edpc e) (op y) (S y (nth_error_In _ _ Hy)))). eapply E; eauto.
Qed.

Lemma apart_try : forall w p j x a o, length p = length prog -> apart e prog w p -> nth_error p j = Some (Some x) ->
  (forall i u v, i < j -> nth_error prog i = Some u -> nth_error prog j = Some v -> clash u v = true -> nth_error p i = Some None) ->
  try_apply e w x = Ok a -> leaves again x a o -> apart e prog (a_world a) (put_at j o p).
Proof.
  intros w p j x a o Len A Hx Rdy H L. pose proof (leaves_remaining _ _ _ _ H L) as Rm.
  assert (Lj : j < length p) by (apply nth_error_Some; congruence).
  destruct (nth_error prog j) as [v|] eqn:Hv; [|apply nth_error_None in Hv; lia].
  destruct (ap_each _ _ _ _ A j x v Hx Hv) as (T & Fr & Ow).
  destruct (C28_step e w x a (proj1 (ap_timed _ _ _ _ A)) H (ap_unique _ _ _ _ A) T Fr) as (U2 & Cc & Rs).
  destruct (C33_timers e w x a (proj1 (ap_timed _ _ _ _ A)) H) as [S2 Tm].
  assert (P : forall k y u, k <> j -> nth_error p k = Some (Some y) -> nth_error prog k = Some u -> forall id, In id (puts (e_edpc e) (op x)) -> ~ In id (brings (e_edpc e) (op y))).
  { intros k y u Nk Hy Hu id Hp Hb. destruct (ap_each _ _ _ _ A k y u Hy Hu) as (_ & _ & Ow').
    assert (Cl : clash u v = true /\ clash v u = true).
    { unfold clash. rewrite (can_commute_sym v u). assert (can_commute u v = true -> False); [|destruct (can_commute u v); auto; tauto].
      rewrite can_commute_iff. intros X. apply (X id). split; [apply Ow', puts_owns; destruct (op y); auto; destruct Hb|apply Ow, puts_owns, Hp]. }
    destruct (Nat.lt_total k j) as [Hk|[Hk|Hk]]; [|contradiction|].
    - rewrite (Rdy k u v Hk Hu eq_refl (proj1 Cl)) in Hy. discriminate.
    - apply (ap_pairs _ _ _ _ A j k x y Hk Hx Hy) with (id := id); auto. exists v, u. tauto. }
  split; [split; [exact S2|rewrite Tm; apply (ap_timed _ _ _ _ A)]|exact U2|..].
  - intros k y u Hy Hu. rewrite nth_put_at in Hy by exact Lj. destruct (Nat.eqb_spec k j) as [->|Nk].
    + injection Hy as ->. rewrite Rm in Rs. destruct Rs as (T' & F' & B'). assert (u = v) by congruence. subst u.
      split; [exact T'|]. split; [exact F'|]. intros id Hi. apply Ow. eapply owns_remaining; eauto.
    + destruct (ap_each _ _ _ _ A k y u Hy Hu) as (T' & [N' F'] & O'). split; [exact T'|]. split; [|exact O']. split; [exact N'|].
      intros id Hi c Hc. destruct (Cc c id Hc) as [(c' & X)|X]; [exact (F' id Hi c' X)|]. exact (P k y u Nk Hy Hu id X Hi).
  - intros i k y z Hik Hy Hz (u & t & Hu & Ht & Cl) id Hp Hb. rewrite nth_put_at in Hy, Hz by exact Lj.
    destruct (Nat.eqb_spec i j) as [->|Ni]; destruct (Nat.eqb_spec k j) as [->|Nk]; try lia.
    + injection Hy as ->. rewrite Rm in Rs. destruct Rs as (_ & _ & B'). assert (u = v) by congruence. subst u.
      pose proof (puts_remaining e w x a (op y) H Rm B' id) as Q. destruct (Q Hp) as [X|[_ (c & X)]].
      * exact (P k z t Nk Hz Ht id X Hb).
      * destruct (ap_each _ _ _ _ A k z t Hz Ht) as (_ & [_ F'] & _). exact (F' id Hb c X).
    + injection Hz as ->. assert (t = v) by congruence. subst t. rewrite (Rdy i u v Hik Hu eq_refl Cl) in Hy. discriminate.
    + apply (ap_pairs _ _ _ _ A i k y z Hik Hy Hz) with (id := id); auto. exists u, t. auto.
Qed.

Lemma apart_show : forall w p s, apart e prog w p -> advance_slice (e_layout e) (w_slice w) = Ok s -> apart e prog (with_slice w s) p.
Proof.
  intros w p s A Ad. destruct (advance_timed (e_layout e) _ W (ap_timed _ _ _ _ A)) as (s' & A2 & T3). assert (s' = s) by congruence. subst s'.
  destruct (C34_ids (e_layout e) _ s W (proj1 (ap_timed _ _ _ _ A)) (proj2 (ap_timed _ _ _ _ A)) Ad) as (_ & B1 & B2).
  split; cbn [w_slice with_slice]; [exact T3|exact (B2 (ap_unique _ _ _ _ A))|..|apply (ap_pairs _ _ _ _ A)].
  intros j x v Hx Hv. destruct (ap_each _ _ _ _ A j x v Hx Hv) as (T & [F1 F2] & O). split; [exact T|]. split; [|exact O]. split; [exact F1|].
  intros id Hi c Hc. apply (F2 id Hi c). auto.
Qed.

Lemma apart_mend : forall w p s, apart e prog w p -> give_back (w_slice w) = Ok s -> apart e prog (with_slice w s) p.
Proof.
  intros w p s A Gb. destruct (give_back_sides _ _ _ (proj1 (ap_timed _ _ _ _ A)) Gb) as (s1 & [S1 (B1 & B2 & _)] & ->).
  assert (Cr : forall c id, carries (with_marks s1 [] []) c id -> carries (w_slice w) c id).
  { intros c id (q & Q1 & Q2). change (tile_at (with_marks s1 [] []) c) with (tile_at s1 c) in Q1. destruct (tile_at (w_slice w) c) as [q0|] eqn:E0.
    - destruct (B1 c q0 E0) as (b & Q3). exists q0. split; [exact E0|]. assert (q = mkDP (dp q0) b) by congruence. subst q. exact Q2.
    - destruct (B2 c E0) as [X|[[] _]]. congruence. }
  split; cbn [w_slice with_slice]; [exact (give_back_timed _ _ _ (ap_timed _ _ _ _ A) Gb)| |..|apply (ap_pairs _ _ _ _ A)].
  - eapply unique_same; [apply (ap_unique _ _ _ _ A)|exact Cr].
  - intros j x v Hx Hv. destruct (ap_each _ _ _ _ A j x v Hx Hv) as (T & [F1 F2] & O). split; [exact T|]. split; [|exact O]. split; [exact F1|].
    intros id Hi c Hc. apply (F2 id Hi c). auto.
Qed.

Lemma sched_apart : forall w0 acts w p, scheduled e clash again prog w0 acts w p -> apart e prog w0 (map Some prog) ->
  length p = length prog /\ apart e prog w p /\ Forall unique_ids (emitted (seen acts)).
Proof.
  intros w0 acts w p S A0. induction S as [|acts w p j x a o S IH Hp Hr Ha Hl|acts w p s S IH Ad|acts w p s S IH Ee Gb].
  - split; [apply map_length|]. split; [exact A0|constructor].
  - destruct IH as (L & A & B). split; [|split; [eapply apart_try; eauto|now rewrite emitted_seen, app_nil_r]].
    assert (j < length p) by (apply nth_error_Some; congruence). unfold put_at. rewrite app_length, firstn_length_le by lia. cbn [length]. rewrite skipn_length. lia.
  - destruct IH as (L & A & B). split; [exact L|]. split; [now apply apart_show|]. rewrite emitted_seen. apply Forall_app. split; [exact B|]. constructor; [apply (ap_unique _ _ _ _ A)|constructor].
  - destruct IH as (L & A & B). split; [exact L|]. split; [now apply apart_mend|]. now rewrite emitted_seen, app_nil_r.
Qed.
End Sched.

(** In every slice that any of the pipelines emits, the wave pipeline with or without EDPC, every id is on at most one tile, whatever is refused and when, and
    however the run ends, if the program never reuses an id. *)
Theorem C28_run : forall pl e late grow prog w t r, (pl = Wave \/ e_edpc e = false) -> layout_wf (e_layout e) -> (pl = Wave -> Forall few_patches prog) ->
  timed (e_layout e) (w_slice w) -> unique_ids (w_slice w) ->
  forall used, (forall c id, carries (w_slice w) c id -> In id used) -> new_ids used prog -> Forall (fun i => not_started (op i)) prog ->
  halts pl e late grow prog w t r -> Forall unique_ids (emitted (t_events t)).
Proof.
  intros pl e late grow prog w t r Ed W Few T U used C N S (n & H). pose proof (apart_start e prog w used T U C N S) as A. destruct pl.
  - destruct Ed as [Ed|Ed]; [discriminate|]. pose proof (C28_stream e late prog w n Ed W T U used C N) as X. rewrite H in X. exact X.
  - destruct (C40_runs e late prog w) as (st0 & E0 & R). rewrite E0 in H. cbn [pbind] in H. specialize (R n). rewrite H in R.
    assert (Ag : forall x a y, same_again x a y -> op y = a_op a) by (intros x a y ->; reflexivity).
    destruct R as [acts w' p S' Ev _ _ _|acts w' p j x r S' Ev _ _|acts w' p j x a o S' Ev _ _|acts w' p j x a o S' Ev _ _|acts w' p S' Ev _|acts w' p r S' Ev _];
    destruct (sched_apart e same_again prog W Ag _ _ _ _ S' A) as (_ & A' & B); rewrite Ev; auto.
    + now rewrite emitted_seen, app_nil_r in B.
    + now rewrite emitted_seen, app_nil_r in B.
    + rewrite emitted_app. apply Forall_app. split; [exact B|]. constructor; [apply (ap_unique _ _ _ _ A')|constructor].
  - pose proof (C41_runs e late grow prog w (starts_uncut e prog S) (Few eq_refl) n) as R. rewrite H in R.
    assert (Ag : forall x a y, less_again x a y -> op y = a_op a) by (intros x a y [->|[_ ->]]; reflexivity).
    destruct R as [acts w' p S' Ev _ _ _|acts w' p j x r S' Ev _ _ _|acts w' p j x S' Ev _ _ _|acts w' p j x a o S' Ev _ _|acts w' p j x a o S' Ev _ _|acts w' p S' Ev _|acts w' p r S' Ev _|acts w' p S' Ev _ _|acts w' p r S' Ev _ _|acts w' p j S' Ev _ _ _ _];
    destruct (sched_apart e less_again prog W Ag _ _ _ _ S' A) as (_ & A' & B); rewrite Ev; auto.
    + now rewrite emitted_seen, app_nil_r in B.
    + now rewrite emitted_seen, app_nil_r in B.
    + rewrite emitted_app. apply Forall_app. split; [exact B|]. constructor; [apply (ap_unique _ _ _ _ A')|constructor].
Qed.
Print Assumptions C28_run.
