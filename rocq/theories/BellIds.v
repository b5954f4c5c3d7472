(** Tiles and ids of what long-range operations are compiled to. *)
From Verif Require Import Base PatchesModel LayoutModel LayoutSpec LayoutProofs InstrModel InstrSpec.
From Verif Require Import SliceModel SliceSpec SliceProofs RouterModel RouterSpec ApplyModel ApplySpec ApplyProofs ApplyIds.
From Verif Require Import BellSpec BellProofs BellRun BellCnot.
Open Scope nat_scope.

(** What any operation on a link is like: on its two tiles, and naming the first
    side on link [k1] only and the second on link [k2] only, each once. *)
Definition link_like (side1 side2 : option N) (k1 k2 : nat) (at_ : nat -> cell) (k : nat) (l : local_instr) : Prop :=
  (exists x y, either (at_ k) (at_ (k + 1)) x y /\ local_cells l = [x; y])
  /\ (forall id, In id (local_ids l) -> side1 = Some id /\ k = k1 \/ side2 = Some id /\ k = k2)
  /\ ((forall id, side1 = Some id -> side2 = Some id -> False) -> NoDup (local_ids l)).

Lemma plain_like : forall side1 side2 k1 k2 at_ k l x y, either (at_ k) (at_ (k + 1)) x y -> local_cells l = [x; y] ->
  local_ids l = [] -> link_like side1 side2 k1 k2 at_ k l.
Proof.
  intros side1 side2 k1 k2 at_ k l x y E C I. split; [eauto|]. rewrite I. split; [intros id []|constructor].
Qed.
Lemma prepare_like : forall side1 side2 k1 k2 at_ k i j x y, either (at_ k) (at_ (k + 1)) x y ->
  ids_at side1 side2 k1 k2 k i j -> link_like side1 side2 k1 k2 at_ k (LBellPrepare i j x y).
Proof.
  intros side1 side2 k1 k2 at_ k i j x y E I. split; [eauto|]. cbn [local_ids].
  assert (O : forall o : option N, NoDup (opt_id o)) by (intros [z|]; repeat constructor; intros []).
  split.
  - intros id Hi. rewrite in_app_iff, !opt_id_In in Hi.
    destruct I as [[[A|[A ?]] [B|[B ?]]]|(A & ? & B)]; destruct Hi as [Hi|Hi]; subst; try discriminate; auto.
  - intros D. apply NoDup_app_intro; auto. intros z Hz Hz'. rewrite opt_id_In in Hz, Hz'.
    destruct I as [[[A|[A ?]] [B|[B ?]]]|(A & ? & B)]; subst; try discriminate. eauto.
Qed.

Lemma link_does_like : forall t n reverse side1 side2 k1 k2 at_ k l,
  link_does t n reverse side1 side2 k1 k2 at_ k l -> link_like side1 side2 k1 k2 at_ k l.
Proof.
  intros t n reverse side1 side2 k1 k2 at_ k l D. unfold link_does in D.
  assert (G : (exists x y, either (at_ k) (at_ (k + 1)) x y
      /\ if in_first t n reverse k
         then exists i j, l = LBellPrepare i j x y /\ ids_at side1 side2 k1 k2 k i j
                /\ (t = LRPrep -> x = at_ k /\ prep_ids n reverse side1 side2 k i j)
         else l = LBellMeasure x y) -> link_like side1 side2 k1 k2 at_ k l).
  { intros (x & y & E & P). destruct (in_first t n reverse k).
    - destruct P as (i & j & -> & I & _). apply prepare_like; auto.
    - subst l. eapply plain_like; eauto. }
  destruct (match move_link n reverse with Some m => k =? m | None => false end).
  - subst l. destruct (producing t), reverse; eapply plain_like; try reflexivity; unfold either; auto.
  - destruct t; auto; destruct (k =? far_link n reverse); auto; subst l; destruct reverse;
      eapply plain_like; try reflexivity; unfold either; auto.
Qed.

Lemma cnot_link_like : forall s1 s2 k1 k2 n at_ k l, 2 <= n -> cnot_link s1 s2 k1 k2 n at_ k l ->
  link_like (Some s1) (Some s2) k1 k2 at_ k l.
Proof.
  intros s1 s2 k1 k2 n at_ k l Hn D. unfold cnot_link in D. destruct (Nat.eqb_spec k 0).
  - subst. eapply plain_like; [|reflexivity|reflexivity]. left. auto.
  - destruct (Nat.eqb_spec k (n - 2)).
    + assert (E : k + 1 = n - 1) by lia. subst l.
      destruct (Nat.even n); eapply plain_like; try reflexivity; rewrite E, <- e; right; auto.
    + destruct D as (x & y & E & D). destruct (Nat.odd k).
      * destruct D as (i & j & -> & I). apply prepare_like; auto.
      * subst l. eapply plain_like; eauto.
Qed.

(** Both layers together. *)
Lemma layers_like : forall (does : nat -> local_instr -> Prop) side1 side2 k1 k2 at_ n sel la lb,
  on_links sel does n la -> on_links (fun k => negb (sel k)) does n lb ->
  (forall k l, does k l -> link_like side1 side2 k1 k2 at_ k l) ->
  (forall l c, In l (la ++ lb) -> In c (local_cells l) -> exists k, k < n /\ c = at_ k)
  /\ (forall id, In id (flat_map local_ids (la ++ lb)) -> side1 = Some id \/ side2 = Some id)
  /\ ((forall id, side1 = Some id -> side2 = Some id -> False) -> NoDup (flat_map local_ids (la ++ lb))).
Proof.
  intros does side1 side2 k1 k2 at_ n sel la lb (ka & Fa & Na & Ia) (kb & Fb & Nb & Ib) Lk.
  assert (F : Forall2 does (ka ++ kb) (la ++ lb)) by (apply Forall2_app; auto).
  assert (Nd : NoDup (ka ++ kb)).
  { apply NoDup_app_intro; auto. intros k A B. apply Ia in A as [_ A]. apply Ib in B as [_ B]. rewrite A in B. discriminate. }
  assert (In_ : forall k, In k (ka ++ kb) -> k + 1 < n).
  { intros k K. apply in_app_iff in K as [K|K]; [apply Ia in K|apply Ib in K]; tauto. }
  clear Fa Fb Na Nb Ia Ib. split; [|split].
  - intros l c Hl Hc. destruct (forall2_in_r _ _ _ _ _ _ F Hl) as (k & K & D).
    destruct (Lk _ _ D) as [(x & y & E & C) _]. rewrite C in Hc. specialize (In_ k K).
    destruct E as [[-> ->]|[-> ->]], Hc as [<-|[<-|[]]]; eexists; (split; [|reflexivity]); lia.
  - intros id Hi. apply in_flat_map in Hi as (l & Hl & Hi). destruct (forall2_in_r _ _ _ _ _ _ F Hl) as (k & K & D).
    destruct (Lk _ _ D) as (_ & I & _). destruct (I _ Hi); tauto.
  - intro Df. set (ops := la ++ lb) in *. clearbody ops. clear In_. induction F as [|k l ks ops D F IH]; [constructor|].
    inversion Nd as [|? ? Hk Nd']; subst. cbn [flat_map]. apply NoDup_app_intro; auto.
    + apply (Lk _ _ D). auto.
    + intros id H1 H2. apply in_flat_map in H2 as (l' & Hl' & H2). destruct (forall2_in_r _ _ _ _ _ _ F Hl') as (k' & K' & D').
      destruct (Lk _ _ D) as (_ & I & _), (Lk _ _ D') as (_ & I' & _).
      destruct (I _ H1) as [[A ->]|[A ->]], (I' _ H2) as [[B ->]|[B ->]]; eauto.
Qed.

Lemma seg_In : forall route start k, start + k < length route -> In (seg route start k) route.
Proof. intros. unfold seg. apply nth_In. auto. Qed.

Lemma pair_todo : forall route s1 s2 la lb, 2 <= length route ->
  compile_bell LRPrep ([], []) route 0 (length route - 1) false (Some s1) (Some s2) = Ok (la, lb) ->
  (forall l c, In l (la ++ lb) -> In c (local_cells l) -> In c route)
  /\ (forall id, In id (flat_map local_ids (la ++ lb)) -> id = s1 \/ id = s2)
  /\ (s1 <> s2 -> NoDup (flat_map local_ids (la ++ lb))).
Proof.
  intros route s1 s2 la lb Hl E.
  destruct (compile_shape LRPrep ([], []) route 0 (length route - 1) false (Some s1) (Some s2)) as (la' & lb' & E' & A & B); [lia|].
  rewrite E in E'. cbn [fst snd app] in E'. injection E' as <- <-.
  destruct (layers_like _ (Some s1) (Some s2) _ _ (seg route 0) _ _ _ _ A B (fun k l D => link_does_like _ _ _ _ _ _ _ _ _ _ D)) as (C & I & N).
  split; [|split].
  - intros l c Hin Hc. destruct (C l c Hin Hc) as (k & K & ->). apply seg_In. lia.
  - intros id Hi. destruct (I id Hi) as [H|H]; injection H as ->; auto.
  - intro D. apply N. intros id X Y. apply D. congruence.
Qed.
Lemma cnot_todo : forall route s1 s2 la lb, 4 <= length route -> compile_cnot ([], []) route s1 s2 = Ok (la, lb) ->
  (forall l c, In l (la ++ lb) -> In c (local_cells l) -> In c route)
  /\ (forall id, In id (flat_map local_ids (la ++ lb)) -> id = s1 \/ id = s2)
  /\ (s1 <> s2 -> NoDup (flat_map local_ids (la ++ lb))).
Proof.
  intros route s1 s2 la lb Hl E. destruct (cnot_shape route s1 s2 Hl) as (la' & lb' & E' & A & B).
  rewrite E in E'. injection E' as <- <-.
  destruct (layers_like _ (Some s1) (Some s2) (cnot_k1 (length route)) 1 (seg route 0) _ _ _ _ A B) as (C & I & N).
  { intros k l D. eapply cnot_link_like; [|exact D]. lia. }
  split; [|split].
  - intros l c Hin Hc. destruct (C l c Hin Hc) as (k & K & ->). apply seg_In. lia.
  - intros id Hi. destruct (I id Hi) as [H|H]; injection H as ->; auto.
  - intro D. apply N. intros id X Y. apply D. congruence.
Qed.

(** ** The phases of a CNOT along a crossing route *)

(** Positions of a list that go up strictly. *)
Fixpoint rising (from : nat) (l : list nat) : Prop :=
  match l with [] => True | k :: r => from <= k /\ rising (S k) r end.

Lemma rising_weaken : forall l a b, a <= b -> rising b l -> rising a l.
Proof. intros [|k l] a b H R; cbn in *; [auto|]. split; [lia|tauto]. Qed.
Lemma rising_nth : forall l a i x y, rising a l -> nth_error l i = Some x -> nth_error l (i + 1) = Some y -> x < y.
Proof.
  intros l. induction l as [|k l IH]; intros a i x y R X Y; [destruct i; discriminate|].
  destruct R as [R1 R2]. destruct i as [|i].
  - cbn in X, Y. injection X as <-. destruct l as [|k' l]; [discriminate|]. cbn in Y. injection Y as <-. destruct R2. lia.
  - cbn [nth_error Nat.add] in X, Y. eapply IH; eauto.
Qed.
Lemma rising_app : forall l a k, rising a l -> (forall x, In x l -> x < k) -> a <= k -> rising a (l ++ [k]).
Proof.
  intros l. induction l as [|x l IH]; intros a k R H Ha; [cbn; lia|]. destruct R as [R1 R2]. cbn. split; auto.
  apply IH; auto; [intros; apply H; cbn; auto|]. specialize (H x (or_introl eq_refl)). lia.
Qed.

Lemma label_changes_rising : forall s cells cur i l last, label_changes s cur i cells = Ok (l, last) ->
  rising i (map fst l) /\ forall k, In k (map fst l) -> k < i + length cells - 1.
Proof.
  intros s cells. induction cells as [|a [|b rest] IH]; intros cur i l last H; cbn [label_changes] in H.
  - injection H as <- <-. cbn. tauto.
  - injection H as <- <-. cbn. tauto.
  - bstep H. destruct (btype_eqb x cur).
    + apply IH in H as [R B]. split; [eapply rising_weaken; [|exact R]; lia|]. intros k K. specialize (B k K).
      cbn [length] in *. lia.
    + bstep H. destruct x0 as [l' last']. injection H as <- <-. apply IH in H1 as [R B]. cbn [map fst]. split; [split; auto|].
      intros k [<-|K]; [cbn [length]; lia|]. specialize (B k K). cbn [length] in *. lia.
Qed.

Definition phase_ops (ph : layers * layers) : list local_instr :=
  let '((a1, b1), (a2, b2)) := ph in (a1 ++ b1) ++ (a2 ++ b2).

Lemma segment_adds : forall t l route a b reverse side1 side2 l', a < b < length route ->
  compile_bell t l route a b reverse side1 side2 = Ok l' ->
  exists la lb, l' = (fst l ++ la, snd l ++ lb)
    /\ (forall x c, In x (la ++ lb) -> In c (local_cells x) -> In c route)
    /\ (forall id, In id (flat_map local_ids (la ++ lb)) -> side1 = Some id \/ side2 = Some id)
    /\ ((forall id, side1 = Some id -> side2 = Some id -> False) -> NoDup (flat_map local_ids (la ++ lb))).
Proof.
  intros t l route a b reverse side1 side2 l' Hab E.
  destruct (compile_shape t l route a b reverse side1 side2 Hab) as (la & lb & E' & A & B).
  rewrite E in E'. injection E' as ->. exists la, lb. split; auto.
  destruct (layers_like _ side1 side2 _ _ (seg route a) _ _ _ _ A B (fun k x D => link_does_like _ _ _ _ _ _ _ _ _ _ D)) as (C & I & N).
  split; [|split; auto]. intros x c Hx Hc. destruct (C x c Hx Hc) as (k & K & ->). apply seg_In. lia.
Qed.

Lemma fold_inv : forall A B (f : A -> B -> outcome A) (P : list B -> A -> Prop) l acc r pre,
  (forall pre x a a', P pre a -> f a x = Ok a' -> P (pre ++ [x]) a') -> P pre acc -> foldM f l acc = Ok r -> P (pre ++ l) r.
Proof.
  intros A B f P l. induction l as [|x l IH]; intros acc r pre St H E; cbn [foldM] in E.
  - injection E as <-. rewrite app_nil_r. auto.
  - apply bind_ok in E as (a' & E1 & E2). replace (pre ++ x :: l) with ((pre ++ [x]) ++ l) by (rewrite <- app_assoc; reflexivity).
    eapply IH; eauto.
Qed.

(** What has been compiled after the segments in [seen]. *)
Definition segments_so_far (route : list cell) (s1 s2 : N) (n : nat) (seen : list nat) (ph : layers * layers) : Prop :=
  (forall x c, In x (phase_ops ph) -> In c (local_cells x) -> In c route)
  /\ (forall id, In id (flat_map local_ids (phase_ops ph)) -> id = s2 /\ In 0 seen \/ id = s1 /\ In (n - 2) seen /\ n <> 2)
  /\ (s1 <> s2 -> NoDup seen -> NoDup (flat_map local_ids (phase_ops ph))).
Lemma so_far_step : forall route s1 s2 n ends seen i ph ph',
  rising 0 (map fst ends) -> (forall k, In k (map fst ends) -> k < length route) -> n = length ends ->
  segments_so_far route s1 s2 n seen ph -> edpc_segment route s1 s2 n ends ph i = Ok ph' ->
  segments_so_far route s1 s2 n (seen ++ [i]) ph'.
Proof.
  intros route s1 s2 n ends seen i [p1 p2] ph' Rs Bd En (C & I & N) E. unfold edpc_segment in E.
  apply bind_ok in E as ([a t] & Ea & E). apply bind_ok in E as ([b tb] & Eb & E).
  assert (Na : nth_error ends i = Some (a, t)) by (unfold idx in Ea; destruct (nth_error ends i); congruence).
  assert (Nb : nth_error ends (i + 1) = Some (b, tb)) by (unfold idx in Eb; destruct (nth_error ends (i + 1)); congruence).
  assert (Hab : a < b < length route).
  { split.
    - eapply rising_nth; [exact Rs|apply (map_nth_error fst) in Na; exact Na|apply (map_nth_error fst) in Nb; exact Nb].
    - apply Bd. apply in_map_iff. exists (b, tb). split; auto. eapply nth_error_In; eauto. }
  (* adding operations that name at most one side *)
  assert (G : forall new, (forall x, In x (phase_ops ph') <-> In x (phase_ops (p1, p2)) \/ In x new) ->
     (forall id, count_occ N.eq_dec (flat_map local_ids (phase_ops ph')) id
        = count_occ N.eq_dec (flat_map local_ids (phase_ops (p1, p2))) id + count_occ N.eq_dec (flat_map local_ids new) id) ->
     (forall x c, In x new -> In c (local_cells x) -> In c route) -> NoDup (flat_map local_ids new) ->
     (forall id, In id (flat_map local_ids new) -> id = s2 /\ i = 0 \/ id = s1 /\ i = n - 2 /\ n <> 2) ->
     segments_so_far route s1 s2 n (seen ++ [i]) ph').
  { intros new Hin Hnd Hc Hn Hid. split; [|split].
    - intros x c Hx. apply Hin in Hx as [Hx|Hx]; eauto.
    - intros id Hi. apply in_flat_map in Hi as (x & Hx & Hi). apply Hin in Hx as [Hx|Hx].
      + assert (J : In id (flat_map local_ids (phase_ops (p1, p2)))) by (apply in_flat_map; eauto).
        apply I in J. rewrite !in_app_iff. tauto.
      + assert (J : In id (flat_map local_ids new)) by (apply in_flat_map; eauto).
        apply Hid in J. rewrite !in_app_iff. cbn. destruct J as [[-> ->]|(-> & -> & J)]; [auto|]. right. auto.
    - intros D Nd. destruct (NoDup_remove seen [] i) as [Ns Nin]; [exact Nd|]. rewrite app_nil_r in Ns, Nin.
      apply (NoDup_count_occ N.eq_dec). intro id. rewrite Hnd.
      pose proof (proj1 (NoDup_count_occ N.eq_dec _) (N D Ns) id) as Q1.
      pose proof (proj1 (NoDup_count_occ N.eq_dec _) Hn id) as Q2.
      destruct (in_dec N.eq_dec id (flat_map local_ids (phase_ops (p1, p2)))) as [J1|J1].
      + destruct (in_dec N.eq_dec id (flat_map local_ids new)) as [J2|J2].
        * exfalso. apply I in J1. apply Hid in J2.
          destruct J1 as [[-> J1]|(-> & J1 & J3)], J2 as [[J2 ->]|(J2 & -> & J4)]; try tauto; subst; tauto.
        * apply (count_occ_not_In N.eq_dec) in J2. lia.
      + apply (count_occ_not_In N.eq_dec) in J1. lia. }
  assert (A1 : forall t reverse side1 side2 l', compile_bell t p1 route a b reverse side1 side2 = Ok l' -> ph' = (l', p2) ->
    side1 = None \/ side2 = None ->
    (forall id, side1 = Some id \/ side2 = Some id -> id = s2 /\ i = 0 \/ id = s1 /\ i = n - 2 /\ n <> 2) ->
    segments_so_far route s1 s2 n (seen ++ [i]) ph').
  { intros t0 reverse side1 side2 l' Ec -> Sd Hs. apply segment_adds in Ec as (la & lb & -> & C' & I' & N'); auto.
    destruct p1 as [a1 b1], p2 as [a2 b2]. apply (G (la ++ lb)); auto.
    - intro x. cbn [phase_ops fst snd]. rewrite !in_app_iff. tauto.
    - intro id. cbn [phase_ops fst snd]. rewrite !flat_map_app, !count_occ_app. lia.
    - apply N'. destruct Sd as [->| ->]; congruence. }
  assert (A2 : forall t reverse side1 side2 l', compile_bell t p2 route a b reverse side1 side2 = Ok l' -> ph' = (p1, l') ->
    side1 = None -> side2 = None -> segments_so_far route s1 s2 n (seen ++ [i]) ph').
  { intros t0 reverse side1 side2 l' Ec -> -> ->. apply segment_adds in Ec as (la & lb & -> & C' & I' & N'); auto.
    destruct p1 as [a1 b1], p2 as [a2 b2]. apply (G (la ++ lb)); auto.
    - intro x. cbn [phase_ops fst snd]. rewrite !in_app_iff. tauto.
    - intro id. cbn [phase_ops fst snd]. rewrite !flat_map_app, !count_occ_app. lia.
    - apply N'. congruence.
    - intros id Hi. apply I' in Hi as [Hi|Hi]; discriminate. }
  destruct t; try discriminate; apply bind_ok in E as (l' & E & E'); injection E' as <-.
  - destruct (Nat.eqb_spec i 0).
    + eapply A1; eauto. intros id [H|H]; [discriminate|]. injection H as ->. auto.
    + destruct (Nat.eqb_spec i (n - 2)).
      * eapply A1; eauto. intros id [H|H]; [discriminate|]. injection H as ->. right. split; auto. split; auto. lia.
      * eapply A1; eauto. intros id [H|H]; discriminate.
  - destruct (i =? 0); [eapply A2; eauto|]. destruct (i =? n - 2); eapply A2; eauto.
Qed.

Lemma edpc_todo : forall s route s1 s2 ph, 4 <= length route -> edpc_decompose s route s1 s2 = Ok ph ->
  (forall x c, In x (phase_ops ph) -> In c (local_cells x) -> In c route)
  /\ (forall id, In id (flat_map local_ids (phase_ops ph)) -> id = s1 \/ id = s2)
  /\ (s1 <> s2 -> NoDup (flat_map local_ids (phase_ops ph))).
Proof.
  intros s route s1 s2 ph Hl H. unfold edpc_decompose in H. apply bind_ok in H as (c0 & _ & H).
  apply bind_ok in H as (c1 & _ & H). apply bind_ok in H as (first & _ & H). apply bind_ok in H as ([mid cur] & Em & H).
  assert (One : forall l, compile_cnot ([], []) route s1 s2 = Ok l -> phase_ops ph = fst l ++ snd l ->
     (forall x c, In x (phase_ops ph) -> In c (local_cells x) -> In c route)
     /\ (forall id, In id (flat_map local_ids (phase_ops ph)) -> id = s1 \/ id = s2)
     /\ (s1 <> s2 -> NoDup (flat_map local_ids (phase_ops ph)))).
  { intros [la lb] Ec ->. exact (cnot_todo _ _ _ _ _ Hl Ec). }
  destruct ((_ =? 2) && btype_eqb cur BLabel1).
  { apply bind_ok in H as (l & Ec & H). apply (One l); auto. injection H as <-. destruct l. cbn. rewrite app_nil_r. auto. }
  destruct ((_ =? 2) && btype_eqb cur BLabel2).
  { apply bind_ok in H as (l & Ec & H). apply (One l); auto. injection H as <-. destruct l. reflexivity. }
  apply label_changes_rising in Em as [R B]. set (ends := (0, first) :: mid ++ [(length route - 1, cur)]) in *.
  assert (Len : length (tl route) = length route - 1) by (destruct route; cbn; lia). rewrite Len in B.
  assert (Rs : rising 0 (map fst ends)).
  { unfold ends. cbn [map fst rising]. split; auto. rewrite map_app. apply rising_app; auto; [|cbn; lia].
    intros k K. apply B in K. cbn [fst]. lia. }
  assert (Bd : forall k, In k (map fst ends) -> k < length route).
  { intros k K. unfold ends in K. cbn [map fst] in K. destruct K as [<-|K]; [lia|]. rewrite map_app in K.
    apply in_app_iff in K as [K|[<-|[]]]; [apply B in K|cbn]; lia. }
  apply (fold_inv _ _ _ (segments_so_far route s1 s2 (length ends)) _ _ _ []) in H.
  - destruct H as (C & I & N). split; auto. split.
    + intros id Hi. destruct (I id Hi); tauto.
    + intro D. apply N; auto. apply seq_NoDup.
  - intros pre x a a' P E. eapply so_far_step; eauto.
  - split; [|split]; cbn; [tauto|tauto|constructor].
Qed.
