(** C53: what the nearest-neighbour steps of long-range operations do to the
    encoded state. *)
From Verif Require Import Base PatchesModel LayoutModel LayoutSpec InstrModel InstrSpec StabSpec StabProofs.
From Verif Require Import SliceModel SliceSpec SliceProofs RouterModel RouterSpec RouterProofs RouterProps ApplyModel ApplySpec BellSpec BellProofs BellProps BellCnot.
From Verif Require Import ApplyProofs ApplyEffect ApplyBell ApplyIds BellStabSpec BellStab BellChain BellLong.
Open Scope nat_scope.

Section Steps.
Variables (patch : cell -> N) (shows : cell -> cell -> pauli) (n : nat) (at_ : nat -> cell).
Notation act := (local_act patch shows).
Notation nm := (fun k => patch (at_ k)).
Hypothesis inj : forall i j, i < n -> j < n -> nm i = nm j -> i = j.
Lemma ne i j : i < n -> j < n -> i <> j -> nm i <> nm j.
Proof. intros Hi Hj D E. apply D. auto. Qed.

Lemma prepare_either k i j x y : k + 1 < n -> either (at_ k) (at_ (k + 1)) x y ->
  ker (nm k) (nm (k + 1)) (act (LBellPrepare i j x y)) /\ pairs_up nm k (act (LBellPrepare i j x y)).
Proof.
  intros H E. assert (D : nm k <> nm (k + 1)) by (apply ne; lia). cbn [local_act]. destruct E as [[-> ->]|[-> ->]]; split.
  - now apply ker_pair.
  - intros G _ _ _. apply same_refl.
  - apply ker_sym; auto. now apply ker_pair, not_eq_sym.
  - intros G X Ua Ub. apply bell_pair_sym; auto.
Qed.
Lemma measure_either k x y : k + 1 < n -> either (at_ k) (at_ (k + 1)) x y ->
  ker (nm k) (nm (k + 1)) (act (LBellMeasure x y)) /\ measures nm k (act (LBellMeasure x y)).
Proof.
  intros H E. assert (D : nm k <> nm (k + 1)) by (apply ne; lia). cbn [local_act]. destruct E as [[-> ->]|[-> ->]]; split.
  - now apply ker_bell_measure.
  - intros G _. apply same_refl.
  - apply ker_sym; auto. now apply ker_bell_measure, not_eq_sym.
  - intros G X. apply bell_measure_sym; auto.
Qed.

Lemma cnot_link_on side1 side2 k1 k2 k l : 3 <= n -> k + 1 < n -> cnot_link side1 side2 k1 k2 n at_ k l -> on_link patch shows nm k l.
Proof.
  intros Hn H C. unfold on_link. unfold cnot_link in C. destruct (Nat.eqb_spec k 0) as [->|Dk].
  - subst l. apply ker_merge. apply ne; lia.
  - destruct (Nat.eqb_spec k (n - 2)) as [->|Dk'].
    + replace (n - 2 + 1) with (n - 1) by lia. apply ker_sym; [apply ne; lia|]. subst l.
      destruct (Nat.even n); cbn [local_act]; [apply ker_merge|apply ker_split]; apply ne; lia.
    + destruct C as (x & y & E & C). destruct (Nat.odd k); [destruct C as (i & j & -> & _); now apply prepare_either|subst l; now apply measure_either].
Qed.

(** The two layers of a CNOT couple the two ends. *)
Lemma cnot_layers side1 side2 k1 k2 la lb G : 4 <= n ->
  xz (shows (at_ 1) (at_ 0)) -> xz (shows (at_ (n - 2)) (at_ (n - 1))) ->
  on_links Nat.odd (cnot_link side1 side2 k1 k2 n at_) n la ->
  on_links (fun k => negb (Nat.odd k)) (cnot_link side1 side2 k1 k2 n at_) n lb ->
  ext G -> (forall k, 0 < k -> k + 1 < n -> unused (nm k) G) ->
  same (local_run patch shows (la ++ lb) G)
    (couple (negb (pauli_eqb (shows (at_ 1) (at_ 0)) (shows (at_ (n - 2)) (at_ (n - 1))))) (nm 0) (nm (n - 1))
       (shows (at_ 0) (at_ 1)) (shows (at_ (n - 1)) (at_ (n - 2))) G).
Proof.
  intros Hn HP HQ A B X U.
  assert (Alt : forall k, Nat.odd (S k) = negb (Nat.odd k)) by (intros k; now rewrite Nat.odd_succ, <- Nat.negb_odd).
  assert (On : forall k l, k + 1 < n -> cnot_link side1 side2 k1 k2 n at_ k l -> on_link patch shows nm k l) by (intros; eapply cnot_link_on; eauto; lia).
  assert (Pr : forall f k, (forall j, j + 1 < n -> cnot_link side1 side2 k1 k2 n at_ j (f j)) -> 0 < k -> k + 2 < n -> Nat.odd k = true -> pairs_up nm k (act (f k))).
  { intros f k Hf H0 H1 O. specialize (Hf k ltac:(lia)). unfold cnot_link in Hf.
    destruct (Nat.eqb_spec k 0) as [E0|_]; [lia|]. destruct (Nat.eqb_spec k (n - 2)) as [E0|_]; [lia|]. rewrite O in Hf.
    destruct Hf as (x & y & E & i & j & -> & _). apply prepare_either; auto; lia. }
  assert (Me : forall f k, (forall j, j + 1 < n -> cnot_link side1 side2 k1 k2 n at_ j (f j)) -> 0 < k -> k + 2 < n -> Nat.odd k = false -> measures nm k (act (f k))).
  { intros f k Hf H0 H1 O. specialize (Hf k ltac:(lia)). unfold cnot_link in Hf.
    destruct (Nat.eqb_spec k 0) as [E0|_]; [lia|]. destruct (Nat.eqb_spec k (n - 2)) as [E0|_]; [lia|]. rewrite O in Hf.
    destruct Hf as (x & y & E & ->). apply measure_either; auto; lia. }
  assert (Od : forall t, Nat.odd (2 + 2 * t + 1) = true) by (intros t; replace (2 + 2 * t + 1) with (1 + 2 * (t + 1)) by lia; now rewrite Nat.odd_add_mul_2).
  assert (Ev : forall t, Nat.odd (2 + 2 * t) = false) by (intros t; now rewrite Nat.odd_add_mul_2).
  destruct (Nat.even n) eqn:En.
  - assert (En0 := En). apply Nat.even_spec in En. destruct En as (h & En). assert (Em : n = 2 * (h - 2) + 4) by lia.
    destruct (order_even n (h - 2) Em) as (N1 & I1 & B1).
    destruct (layers_run patch shows n nm inj _ Nat.odd la lb _ A B Alt On N1 I1 B1) as (f & Hf & S1).
    eapply same_trans; [apply S1, X|]. apply (chain_even patch shows n nm inj) with (m := h - 2); auto.
    + intros H. specialize (Hf 0 ltac:(lia)). cbn [cnot_link Nat.eqb] in Hf. now rewrite Hf.
    + intros t Ht. split; [apply (Pr f _ Hf)|apply (Me f _ Hf)]; auto; lia.
    + intros H. specialize (Hf (n - 2) ltac:(lia)). unfold cnot_link in Hf. rewrite Nat.eqb_refl in Hf.
      destruct (Nat.eqb_spec (n - 2) 0); [lia|]. rewrite En0 in Hf. now rewrite Hf.
  - assert (On' := En). rewrite <- Nat.negb_odd in On'. apply Bool.negb_false_iff, Nat.odd_spec in On'. destruct On' as (h & Eo).
    assert (Em : n = 2 * (h - 2) + 5) by lia.
    destruct (order_odd n (h - 2) Em) as (N1 & I1 & B1).
    destruct (layers_run patch shows n nm inj _ Nat.odd la lb _ A B Alt On N1 I1 B1) as (f & Hf & S1).
    eapply same_trans; [apply S1, X|]. apply (chain_odd patch shows n nm inj) with (m := h - 2); auto.
    + intros H. specialize (Hf 0 ltac:(lia)). cbn [cnot_link Nat.eqb] in Hf. now rewrite Hf.
    + intros t Ht. split; [apply (Pr f _ Hf)|apply (Me f _ Hf)]; auto; lia.
    + apply (Me f _ Hf); auto; try lia. replace (n - 3) with (2 + 2 * (h - 2)) by lia. apply Ev.
    + intros H. specialize (Hf (n - 2) ltac:(lia)). unfold cnot_link in Hf. rewrite Nat.eqb_refl, En in Hf.
      destruct (Nat.eqb_spec (n - 2) 0); [lia|]. now rewrite Hf.
Qed.
End Steps.

Lemma seg_nth route k : seg route 0 k = nth k route (mkCell 0 0). Proof. reflexivity. Qed.
Lemma square_xz a b : xz (square_shows a b).
Proof. unfold square_shows, xz. destruct (beside a b); auto. Qed.
Lemma beside_sym a b : beside a b = beside b a. Proof. apply Z.eqb_sym. Qed.
Lemma square_cross a b a' b' : pauli_eqb (square_shows a b) (square_shows a' b') = Bool.eqb (beside a b) (beside a' b').
Proof. unfold square_shows. destruct (beside a b), (beside a' b'); reflexivity. Qed.

Lemma cnot_couples patch shows tgt inner ctl s1 s2 la lb : inner <> [] ->
  let route := tgt :: inner ++ [ctl] in NoDup route -> own_patches patch route ->
  (forall a b, In a inner -> shows a b = square_shows a b) ->
  compile_cnot ([], []) route s1 s2 = Ok (la, lb) ->
  tiles_act_as patch shows inner (la ++ lb)
    (couple (negb (Bool.eqb (beside tgt (hd ctl inner)) (beside (last inner tgt) ctl))) (patch tgt) (patch ctl)
       (shows tgt (hd ctl inner)) (shows ctl (last inner tgt))).
Proof.
  intros Hi route N Op Sq E G HG U. pose proof (state_ext _ HG) as X.
  set (n := length route). assert (Hn : n = length inner + 2) by (unfold n, route; cbn [length]; rewrite app_length; cbn [length]; lia).
  assert (Hin : 1 <= length inner) by (destruct inner; [congruence|cbn [length]; lia]).
  assert (At : forall k, 0 < k -> k + 1 < n -> In (seg route 0 k) inner).
  { intros k H0 H1. rewrite seg_nth. unfold route. destruct k as [|k]; [lia|]. cbn [nth]. rewrite app_nth1 by lia. apply nth_In. lia. }
  assert (A0 : seg route 0 0 = tgt) by reflexivity.
  assert (A1 : seg route 0 1 = hd ctl inner) by (rewrite seg_nth; unfold route; destruct inner; [congruence|reflexivity]).
  assert (Ac : seg route 0 (n - 1) = ctl).
  { rewrite seg_nth. replace (n - 1) with (S (length inner)) by lia. unfold route. cbn [nth]. now rewrite app_nth2, Nat.sub_diag by lia. }
  assert (Al : seg route 0 (n - 2) = last inner tgt).
  { rewrite seg_nth. replace (n - 2) with (S (length inner - 1)) by lia. unfold route. cbn [nth]. rewrite app_nth1 by lia.
    destruct (exists_last Hi) as (l & x & ->). rewrite app_length, last_last. cbn [length]. rewrite app_nth2 by lia.
    now replace (length l + 1 - 1 - length l) with 0 by lia. }
  assert (inj : forall i j, i < n -> j < n -> patch (seg route 0 i) = patch (seg route 0 j) -> i = j).
  { intros i j Li Lj Ep. apply Op in Ep; [|rewrite seg_nth; apply nth_In; exact Li|rewrite seg_nth; apply nth_In; exact Lj].
    rewrite !seg_nth in Ep. eapply NoDup_nth; eauto. }
  assert (Un : forall k, 0 < k -> k + 1 < n -> unused (patch (seg route 0 k)) G) by (intros k H0 H1; apply U, At; auto).
  assert (SP : shows (seg route 0 1) (seg route 0 0) = square_shows (hd ctl inner) tgt) by (rewrite Sq by (apply At; lia); now rewrite A1, A0).
  assert (SQ : shows (seg route 0 (n - 2)) (seg route 0 (n - 1)) = square_shows (last inner tgt) ctl) by (rewrite Sq by (apply At; lia); now rewrite Al, Ac).
  rewrite (beside_sym tgt), <- square_cross.
  destruct (Nat.eq_dec n 3) as [E3|D3].
  - assert (E1 : length inner = 1) by lia. destruct inner as [|m [|]]; cbn [length] in E1; try lia. clear E1 Hi Hin.
    cbn [hd last app] in *. subst route. cbn in E. injection E as <- <-.
    pose proof (chain_three patch shows 3 (fun k => patch (seg [tgt; m; ctl] 0 k))) as C.
    specialize (C ltac:(subst n; exact inj) (fun k => match k with 0 => LMergeContract tgt m | _ => LExtendSplit None ctl m end)
      (shows tgt m) (shows m tgt) (shows ctl m) (shows m ctl) G eq_refl).
    rewrite <- (Sq m tgt), <- (Sq m ctl) by (now left). apply C; auto; rewrite Sq by (now left); apply square_xz.
  - destruct (cnot_shape route s1 s2 ltac:(fold n; lia)) as (la' & lb' & E' & A & B). rewrite E in E'. injection E' as <- <-.
    fold n in A, B. pose proof (cnot_layers patch shows n (seg route 0) inj s1 s2 (cnot_k1 n) 1 la lb G ltac:(lia)) as C.
    rewrite SP, SQ, A0, A1, Al, Ac in C. apply C; auto using square_xz.
Qed.

(** A CNOT along a route of any length and shape, whose target end shows X and
    whose control end shows Z: if the route leaves the one sideways and the other
    up- or downwards, the two layers are exactly a CNOT of the two end patches, for
    every state of them and everything else; the inner tiles are left without
    state. *)
Theorem C53_cnot : forall patch shows tgt inner ctl s1 s2 la lb, inner <> [] ->
  let route := tgt :: inner ++ [ctl] in NoDup route -> own_patches patch route ->
  (forall a b, In a inner -> shows a b = square_shows a b) ->
  shows tgt (hd ctl inner) = PX -> shows ctl (last inner tgt) = PZ ->
  beside tgt (hd ctl inner) <> beside (last inner tgt) ctl ->
  compile_cnot ([], []) route s1 s2 = Ok (la, lb) ->
  tiles_act_as patch shows inner (la ++ lb) (image (conj_cnot (patch ctl) (patch tgt))).
Proof.
  intros patch shows tgt inner ctl s1 s2 la lb Hi route N Op Sq St Sc B E G HG U.
  pose proof (cnot_couples patch shows tgt inner ctl s1 s2 la lb Hi N Op Sq E G HG U) as C.
  assert (Eb : Bool.eqb (beside tgt (hd ctl inner)) (beside (last inner tgt) ctl) = false) by now apply Bool.eqb_false_iff.
  rewrite Eb, St, Sc in C. eapply same_trans; [exact C|]. apply link_cnot; [|exact (state_ext _ HG)].
  intros Ep. apply Op in Ep; [|right; apply in_app_iff; right; now left|now left]. subst ctl.
  apply NoDup_cons_iff in N. destruct N as [N _]. apply N, in_app_iff. right. now left.
Qed.
Print Assumptions C53_cnot.

(** If it leaves both ends in the same direction (one of them was turned by a
    quarter), the same layers are a joint measurement instead and no CNOT. *)
Theorem C53_straight_refuted : forall patch shows tgt inner ctl s1 s2 la lb, inner <> [] ->
  let route := tgt :: inner ++ [ctl] in NoDup route -> own_patches patch route ->
  (forall a b, In a inner -> shows a b = square_shows a b) ->
  shows tgt (hd ctl inner) = PX -> shows ctl (last inner tgt) = PZ ->
  beside tgt (hd ctl inner) = beside (last inner tgt) ctl ->
  compile_cnot ([], []) route s1 s2 = Ok (la, lb) ->
  tiles_act_as patch shows inner (la ++ lb) (measure [(patch tgt, PX); (patch ctl, PZ)])
  /\ ~ tiles_act_as patch shows inner (la ++ lb) (image (conj_cnot (patch ctl) (patch tgt))).
Proof.
  intros patch shows tgt inner ctl s1 s2 la lb Hi route N Op Sq St Sc B E.
  assert (M : tiles_act_as patch shows inner (la ++ lb) (measure [(patch tgt, PX); (patch ctl, PZ)])).
  { intros G HG U. pose proof (cnot_couples patch shows tgt inner ctl s1 s2 la lb Hi N Op Sq E G HG U) as C.
    assert (Eb : Bool.eqb (beside tgt (hd ctl inner)) (beside (last inner tgt) ctl) = true) by now apply Bool.eqb_true_iff.
    rewrite Eb, St, Sc in C. exact C. }
  split; [exact M|]. intros C.
  assert (D : patch tgt <> patch ctl).
  { intros Ep. apply Op in Ep; [|now left|right; apply in_app_iff; right; now left]. subst ctl.
    apply NoDup_cons_iff in N. destruct N as [N _]. apply N, in_app_iff. right. now left. }
  pose (G := fun g : pstr => peq g pone).
  assert (HG : state G).
  { split; [apply peq_refl|]. split; unfold G.
    - intros f g Hf Hg q. unfold pmul. rewrite Hf, Hg. reflexivity.
    - intros f g Hfg Hf q. rewrite <- Hfg. apply Hf. }
  assert (U : forall c, In c inner -> unused (patch c) G) by (intros c _ g Hg; apply Hg).
  pose proof (same_trans _ _ _ (same_sym _ _ (M G HG U)) (C G HG U)) as S.
  pose (o := upd (upd pone (patch tgt) (bits PX)) (patch ctl) (bits PZ)).
  assert (Ho : measure [(patch tgt, PX); (patch ctl, PZ)] G o).
  { apply measure2_iff; [exact D|exact (state_ext _ HG)|]. unfold o. rewrite upd_eq, upd_ne, upd_eq by auto. split; [reflexivity|]. exists true.
    intros q. unfold upd. destruct (N.eqb_spec q (patch ctl)), (N.eqb_spec q (patch tgt)); subst; try congruence; reflexivity. }
  apply S in Ho. rewrite image_iff in Ho by auto using conj_cnot_congr, conj_cnot_inv, state_ext.
  specialize (Ho (patch tgt)). unfold conj_cnot, o in Ho. rewrite upd_eq, upd_ne, upd_eq in Ho by auto.
  rewrite N.eqb_refl, (proj2 (N.eqb_neq _ _) D) in Ho. vm_compute in Ho. discriminate.
Qed.
Print Assumptions C53_straight_refuted.

(** ** Long-range operations *)
Definition near_does (t : lrb) (n : nat) (at_ : nat -> cell) (k : nat) (l : local_instr) : Prop :=
  if Nat.odd n && (k =? 0) then l = if producing t then LMove (at_ 1) (at_ 0) None else LMove (at_ 0) (at_ 1) None
  else match t, k =? n - 2 with
       | LRMerge, true => l = LMergeContract (at_ (n - 1)) (at_ (n - 2))
       | LRSplit, true => l = LExtendSplit None (at_ (n - 1)) (at_ (n - 2))
       | _, _ => exists x y, either (at_ k) (at_ (k + 1)) x y
           /\ if in_first t n false k then exists i j, l = LBellPrepare i j x y else l = LBellMeasure x y
       end.
Lemma on_links_weak sel (does does' : nat -> local_instr -> Prop) n ops : on_links sel does n ops ->
  (forall k l, k + 1 < n -> does k l -> does' k l) -> on_links sel does' n ops.
Proof.
  intros (ks & F & N & I) H. exists ks. split; [|auto]. assert (Hk : forall k, In k ks -> k + 1 < n) by (intros k Hk; now apply I in Hk).
  clear N I. induction F; constructor; auto; [apply H; auto; apply Hk; now left|apply IHF; intros; apply Hk; now right].
Qed.
Lemma on_links_mirror sel does n ops : on_links sel does n ops -> on_links (fun k => sel (n - 2 - k)) (fun k l => does (n - 2 - k) l) n ops.
Proof.
  intros (ks & F & N & I). exists (map (fun k => n - 2 - k) ks). assert (Hk : forall k, In k ks -> k + 1 < n) by (intros k Hk; now apply I in Hk).
  split; [|split].
  - clear N I. induction F; cbn [map]; constructor; [specialize (Hk _ (or_introl eq_refl)); now replace (n - 2 - (n - 2 - x)) with x by lia|].
    apply IHF. intros; apply Hk; now right.
  - clear F I. induction N; cbn [map]; constructor; [|apply IHN; intros; apply Hk; now right].
    rewrite in_map_iff. intros (y & E & Hy). assert (y = x); [|congruence]. pose proof (Hk x (or_introl eq_refl)). pose proof (Hk y (or_intror Hy)). lia.
  - intros k. rewrite in_map_iff. split.
    + intros (y & <- & Hy). pose proof (Hk y Hy). split; [lia|]. replace (n - 2 - (n - 2 - y)) with y by lia. now apply I in Hy.
    + intros [L S]. exists (n - 2 - k). split; [lia|]. apply I. split; [lia|exact S].
Qed.
Lemma on_links_sel sel sel' does n ops : on_links sel does n ops -> (forall k, k + 1 < n -> sel k = sel' k) -> on_links sel' does n ops.
Proof.
  intros (ks & F & N & I) H. exists ks. split; [exact F|]. split; [exact N|]. intros k. rewrite I. split; intros [L S]; (split; [exact L|]); [now rewrite <- H|now rewrite H].
Qed.
Lemma odd_mirror n k : k + 1 < n -> Nat.odd (n - 2 - k) = xorb (Nat.odd n) (Nat.odd k).
Proof.
  intros H. assert (E : n = (n - 2 - k) + k + 2 * 1) by lia. rewrite E at 2. rewrite odd_shift, Nat.odd_add. now destruct (Nat.odd (n - 2 - k)), (Nat.odd k).
Qed.
Lemma first_mirror t n k : k + 1 < n -> in_first t n true (n - 2 - k) = in_first t n false k.
Proof.
  intros H. unfold in_first. rewrite !Bool.andb_false_r. rewrite odd_mirror by auto. rewrite <- Nat.negb_odd. cbn [negb].
  destruct (Nat.odd n), (Nat.odd k), t; reflexivity.
Qed.
Lemma first_near t n k : in_first t n false k = xorb (producing t) (xorb (Nat.odd n) (Nat.odd k)).
Proof.
  unfold in_first. rewrite <- Nat.negb_odd. destruct (Nat.odd n), (Nat.odd k), t; reflexivity.
Qed.
Lemma link_near t n reverse side1 side2 k1 k2 at_ k l : 2 <= n -> k + 1 < n -> link_does t n reverse side1 side2 k1 k2 at_ k l ->
  near_does t n (fun k => at_ (if reverse then n - 1 - k else k)) (if reverse then n - 2 - k else k) l.
Proof.
  intros Hn Hk H. unfold link_does, move_link, far_link in H. unfold near_does. destruct reverse.
  - assert (E1 : n - 1 - (n - 2 - k + 1) = k) by lia. assert (E2 : n - 1 - (n - 2 - k) = k + 1) by lia. rewrite E1, E2.
    replace (n - 1 - (n - 1)) with 0 by lia. replace (n - 1 - (n - 2)) with 1 by lia.
    destruct (Nat.odd n) eqn:On; cbn [andb].
    + destruct (Nat.eqb_spec k (n - 2)) as [->|D].
      * rewrite Nat.sub_diag. cbn [Nat.eqb]. replace (n - 1 - 0) with (n - 2 + 1) by lia. replace (n - 1 - 1) with (n - 2) by lia. exact H.
      * destruct (Nat.eqb_spec (n - 2 - k) 0); [lia|].
        destruct (Nat.eqb_spec k 0) as [->|D0].
        -- rewrite Nat.sub_0_r, Nat.eqb_refl. rewrite Nat.sub_0_r in *. destruct t; cbn [Nat.add] in *; auto;
           destruct H as (x & y & E & H); exists x, y; (split; [destruct E; [now right|now left]|]); rewrite <- (first_mirror _ n (n - 2)) in * by lia;
           rewrite Nat.sub_diag in *; destruct (in_first _ n true 0); first [exact H|destruct H as (i & j & -> & _); eauto].
        -- destruct (Nat.eqb_spec (n - 2 - k) (n - 2)); [lia|]. assert (F := first_mirror t n (n - 2 - k) ltac:(lia)).
           replace (n - 2 - (n - 2 - k)) with k in F by lia.
           destruct t; destruct H as (x & y & E & H); exists x, y; (split; [destruct E; [now right|now left]|]); rewrite F in H;
           destruct (in_first _ n false (n - 2 - k)); first [exact H|destruct H as (i & j & -> & _); eauto].
    + destruct (Nat.eqb_spec k 0) as [->|D0].
      * rewrite Nat.sub_0_r, Nat.eqb_refl. rewrite Nat.sub_0_r in *. destruct t; cbn [Nat.add] in *; auto;
        destruct H as (x & y & E & H); exists x, y; (split; [destruct E; [now right|now left]|]); rewrite <- (first_mirror _ n (n - 2)) in * by lia;
        rewrite Nat.sub_diag in *; destruct (in_first _ n true 0); first [exact H|destruct H as (i & j & -> & _); eauto].
      * destruct (Nat.eqb_spec (n - 2 - k) (n - 2)); [lia|]. assert (F := first_mirror t n (n - 2 - k) ltac:(lia)).
        replace (n - 2 - (n - 2 - k)) with k in F by lia.
        destruct t; destruct H as (x & y & E & H); exists x, y; (split; [destruct E; [now right|now left]|]); rewrite F in H;
        destruct (in_first _ n false (n - 2 - k)); first [exact H|destruct H as (i & j & -> & _); eauto].
  - assert (E : (match (if Nat.odd n then Some 0 else None) with Some m => k =? m | None => false end) = (Nat.odd n && (k =? 0))%bool)
      by (destruct (Nat.odd n); reflexivity). rewrite E in H.
    destruct (Nat.odd n && (k =? 0))%bool eqn:Em; [apply Bool.andb_true_iff in Em; destruct Em as [_ Em]; apply Nat.eqb_eq in Em; subst k; exact H|].
    destruct (Nat.eqb_spec k (n - 2)) as [->|D].
    + replace (n - 1) with (n - 2 + 1) by lia.
      destruct t; auto; destruct H as (x & y & Exy & H); exists x, y; (split; [exact Exy|]);
        destruct (in_first _ n false (n - 2)); first [exact H|destruct H as (i & j & -> & _); eauto].
    + destruct t; destruct H as (x & y & Exy & H); exists x, y; (split; [exact Exy|]);
        destruct (in_first _ n false k); first [exact H|destruct H as (i & j & -> & _); eauto].
Qed.

Lemma near_on patch shows n at_ t k l : (forall i j, i < n -> j < n -> patch (at_ i) = patch (at_ j) -> i = j) ->
  k + 1 < n -> near_does t n at_ k l -> on_link patch shows (fun k => patch (at_ k)) k l.
Proof.
  intros inj Hk H. unfold on_link. assert (D : forall i j, i < n -> j < n -> i <> j -> patch (at_ i) <> patch (at_ j)) by (intros i j Li Lj N E; apply N; auto).
  unfold near_does in H. destruct (Nat.odd n && (k =? 0))%bool eqn:Em.
  - apply Bool.andb_true_iff in Em. destruct Em as [_ Em]. apply Nat.eqb_eq in Em. subst k.
    destruct (producing t); subst l; cbn [local_act Nat.add]; [apply ker_sym; [apply D; lia|]|]; apply ker_move, D; lia.
  - assert (B : forall t', (exists x y, either (at_ k) (at_ (k + 1)) x y /\ if in_first t' n false k then exists i j, l = LBellPrepare i j x y else l = LBellMeasure x y) ->
        ker (patch (at_ k)) (patch (at_ (k + 1))) (local_act patch shows l)).
    { intros t' (x & y & E & C). destruct (in_first t' n false k); [destruct C as (i & j & ->)|subst l].
      - now apply (prepare_either patch shows n at_ inj k i j x y Hk E).
      - now apply (measure_either patch shows n at_ inj k x y Hk E). }
    destruct (Nat.eqb_spec k (n - 2)) as [->|_]; destruct t; try (now apply B in H); subst l; cbn [local_act];
      replace (n - 2 + 1) with (n - 1) by lia; (apply ker_sym; [apply D; lia|]); first [apply ker_split|apply ker_merge]; apply D; lia.
Qed.

Lemma long_layers : forall patch shows t n at_ reverse side1 side2 k1 k2 la lb, 2 <= n ->
  let near := at_ (near_end n reverse) in let far := at_ (far_end n reverse) in
  let nb := at_ (if reverse then 1 else n - 2) in
  (forall i j, i < n -> j < n -> patch (at_ i) = patch (at_ j) -> i = j) -> (shows nb far = PX \/ shows nb far = PZ) ->
  on_links (in_first t n reverse) (link_does t n reverse side1 side2 k1 k2 at_) n la ->
  on_links (fun k => negb (in_first t n reverse k)) (link_does t n reverse side1 side2 k1 k2 at_) n lb ->
  forall G, ext G -> (forall k, 0 < k -> k + 1 < n -> unused (patch (at_ k)) G) ->
    (producing t = true -> unused (patch near) G) -> (t = LRPrep -> unused (patch far) G) ->
  same (local_run patch shows (la ++ lb) G) (lr_means patch shows t near far nb G).
Proof.
  intros patch shows t n at_ reverse side1 side2 k1 k2 la lb Hn near far nb Inj Xz A B G X U Un Uf.
  pose (bt := fun k => at_ (if reverse then n - 1 - k else k)).
  assert (inj : forall i j, i < n -> j < n -> patch (bt i) = patch (bt j) -> i = j).
  { intros i j Li Lj Ep. unfold bt in Ep. apply Inj in Ep; destruct reverse; lia. }
  assert (A' : on_links (in_first t n false) (near_does t n bt) n la /\ on_links (fun k => negb (in_first t n false k)) (near_does t n bt) n lb).
  { destruct reverse.
    - apply on_links_mirror in A, B. split.
      + eapply on_links_weak; [eapply on_links_sel; [exact A|intros k Hk; now apply first_mirror]|].
        intros k l Hk D. apply (link_near t n true) in D; [|lia|lia]. cbn in D. now replace (n - 2 - (n - 2 - k)) with k in D by lia.
      + eapply on_links_weak; [eapply on_links_sel; [exact B|intros k Hk; cbn beta; now rewrite first_mirror]|].
        intros k l Hk D. apply (link_near t n true) in D; [|lia|lia]. cbn in D. now replace (n - 2 - (n - 2 - k)) with k in D by lia.
    - split; (eapply on_links_weak; [eassumption|]); intros k l Hk D; now apply (link_near t n false) in D. }
  clear A B. destruct A' as [A B].
  assert (Nr : near = bt 0) by (unfold near, bt, near_end; destruct reverse; [now rewrite Nat.sub_0_r|reflexivity]).
  assert (Fr : far = bt (n - 1)) by (unfold far, bt, far_end; destruct reverse; [now rewrite Nat.sub_diag|reflexivity]).
  assert (Nb : nb = bt (n - 2)) by (unfold nb, bt; destruct reverse; [now replace (n - 1 - (n - 2)) with 1 by lia|reflexivity]).
  assert (Ui : inner_unused n (fun k => patch (bt k)) G) by (intros k K0 K1; unfold bt; apply U; destruct reverse; lia).
  rewrite Nr, Fr, Nb in *. clearbody bt. clear near far nb Nr Fr Nb U Inj.
  assert (Alt : forall k, in_first t n false (S k) = negb (in_first t n false k)).
  { intros k. rewrite !first_near, Nat.odd_succ, <- Nat.negb_odd. now destruct (producing t), (Nat.odd n), (Nat.odd k). }
  pose proof (fun k l => near_on patch shows n bt t k l inj) as On.
  assert (Mid : forall f k, near_does t n bt k (f k) -> k + 1 < n -> (Nat.odd n = true -> k <> 0) -> (k = n - 2 -> t = LRPrep \/ t = LRMeasure) ->
     if in_first t n false k then pairs_up (fun k => patch (bt k)) k (local_act patch shows (f k)) else measures (fun k => patch (bt k)) k (local_act patch shows (f k))).
  { intros f k D Hk K0 K1. unfold near_does in D.
    assert (Em : (Nat.odd n && (k =? 0))%bool = false) by (destruct (Nat.odd n); [|reflexivity]; cbn [andb]; apply Nat.eqb_neq; auto).
    rewrite Em in D.
    assert (D' : exists x y, either (bt k) (bt (k + 1)) x y /\ if in_first t n false k then exists i j, f k = LBellPrepare i j x y else f k = LBellMeasure x y).
    { destruct (Nat.eqb_spec k (n - 2)) as [Ek|_]; [|destruct t; exact D]. destruct (K1 Ek); subst t; exact D. }
    destruct D' as (x & y & Exy & D'). destruct (in_first t n false k).
    - destruct D' as (i & j & ->). now apply (prepare_either patch shows n bt inj k i j x y Hk Exy).
    - rewrite D'. now apply (measure_either patch shows n bt inj k x y Hk Exy). }
  assert (Pass : forall f i m, (forall k, k + 1 < n -> near_does t n bt k (f k)) -> in_first t n false i = false -> (Nat.odd n = true -> i <> 0) ->
     i + 2 * m + (match t with LRMerge | LRSplit => 1 | _ => 0 end) < n -> passes patch shows (fun k => patch (bt k)) f i m).
  { intros f i m Hf Ei K0 Hm q Hq.
    assert (P2 : forall z, in_first t n false (i + 2 * z) = false).
    { intros z. rewrite first_near, odd_shift, <- first_near. exact Ei. }
    split.
    - pose proof (Mid f (i + 2 * q + 1) (Hf (i + 2 * q + 1) ltac:(lia)) ltac:(lia) ltac:(intros; lia)) as M.
      rewrite Nat.add_1_r, Alt, P2 in M. rewrite Nat.add_1_r. apply M. intros Ek. destruct t; auto; lia.
    - pose proof (Mid f (i + 2 * q) (Hf (i + 2 * q) ltac:(lia)) ltac:(lia) ltac:(intros o; specialize (K0 o); lia)) as M.
      rewrite P2 in M. apply M. intros Ek. destruct t; auto; lia. }
  assert (Far : forall f, (forall k, k + 1 < n -> near_does t n bt k (f k)) -> t = LRMerge \/ t = LRSplit ->
     f (n - 2) = if producing t then LExtendSplit None (bt (n - 1)) (bt (n - 2)) else LMergeContract (bt (n - 1)) (bt (n - 2))).
  { intros f Hf Ht. specialize (Hf (n - 2) ltac:(lia)). unfold near_does in Hf. rewrite Nat.eqb_refl in Hf.
    destruct (odd_cases n) as [[On' (h & Eh)]|[On' _]]; rewrite On' in Hf; cbn [andb] in Hf; [destruct (Nat.eqb_spec (n - 2) 0); [lia|]|];
      destruct Ht; subst t; exact Hf. }
  assert (Mv : forall f, Nat.odd n = true -> (forall k, k + 1 < n -> near_does t n bt k (f k)) ->
     f 0 = if producing t then LMove (bt 1) (bt 0) None else LMove (bt 0) (bt 1) None).
  { intros f On' Hf. specialize (Hf 0 ltac:(lia)). unfold near_does in Hf. rewrite On' in Hf. exact Hf. }
  pose (run_as := fun ks O => match O with conj N1 (conj I1 B1) => layers_run patch shows n (fun k => patch (bt k)) inj (near_does t n bt) (in_first t n false) la lb ks A B Alt On N1 I1 B1 end).
  assert (Run : forall ks, ordered n (in_first t n false) ks -> exists f, (forall k, k + 1 < n -> near_does t n bt k (f k)) /\
     (forall G, ext G -> same (local_run patch shows (la ++ lb) G) (local_run patch shows (map f ks) G))).
  { intros ks (N1 & I1 & B1). exact (layers_run patch shows n (fun k => patch (bt k)) inj (near_does t n bt) (in_first t n false) la lb ks A B Alt On N1 I1 B1). }
  clear run_as.
  (* splits run from the far end to the near one *)
  pose (ct := fun k => bt (n - 1 - k)).
  assert (injc : forall i j, i < n -> j < n -> patch (ct i) = patch (ct j) -> i = j) by (intros i j Li Lj Ep; apply inj in Ep; lia).
  assert (Uc : inner_unused n (fun k => patch (ct k)) G) by (intros k K0 K1; apply Ui; lia).
  assert (Fi : forall k, in_first t n false k = xorb (producing t) (xorb (Nat.odd n) (Nat.odd k))) by (intros k; apply first_near).
  assert (Fm : forall k, k + 1 < n -> in_first t n false (n - 2 - k) = xorb (producing t) (Nat.odd k)).
  { intros k Hk. rewrite Fi, odd_mirror by auto. now destruct (producing t), (Nat.odd n), (Nat.odd k). }
  assert (RunC : t = LRSplit -> forall ks, ordered n (fun k => negb (Nat.odd k)) ks -> exists f,
     (forall k, k + 1 < n -> near_does t n bt (n - 2 - k) (f k)) /\
     (forall G, ext G -> same (local_run patch shows (la ++ lb) G) (local_run patch shows (map f ks) G))).
  { intros -> ks (N1 & I1 & B1).
    destruct (layers_run patch shows n (fun k => patch (ct k)) injc (fun k l => near_does LRSplit n bt (n - 2 - k) l) (fun k => negb (Nat.odd k)) la lb ks) as (f & Hf & S1); auto.
    - eapply on_links_sel; [exact (on_links_mirror _ _ _ _ A)|]. intros k Hk. cbn beta. rewrite Fm by auto. now destruct (Nat.odd k).
    - eapply on_links_sel; [exact (on_links_mirror _ _ _ _ B)|]. intros k Hk. cbn beta. rewrite Fm by auto. now destruct (Nat.odd k).
    - intros k. rewrite Nat.odd_succ, <- Nat.negb_odd. reflexivity.
    - intros k l Hk D. unfold on_link, ct. apply On in D; [|lia]. unfold on_link in D.
      replace (n - 1 - k) with (n - 2 - k + 1) by lia. replace (n - 1 - (k + 1)) with (n - 2 - k) by lia. apply ker_sym; [|exact D].
      intros Ep. apply inj in Ep; lia.
    - exists f. auto. }
  assert (PassC : t = LRSplit -> forall f m, (forall k, k + 1 < n -> near_does t n bt (n - 2 - k) (f k)) -> 
     1 + 2 * m + (if Nat.odd n then 1 else 0) < n -> passes patch shows (fun k => patch (ct k)) f 1 m).
  { intros -> f m Hf Hm q Hq.
    assert (Sm : forall k F, k + 1 < n -> (pairs_up (fun k => patch (bt k)) (n - 2 - k) F -> pairs_up (fun k => patch (ct k)) k F)
       /\ (measures (fun k => patch (bt k)) (n - 2 - k) F -> measures (fun k => patch (ct k)) k F)).
    { intros k F Hk. unfold pairs_up, measures, ct. replace (n - 1 - k) with (n - 2 - k + 1) by lia. replace (n - 1 - (k + 1)) with (n - 2 - k) by lia.
      assert (D : patch (bt (n - 2 - k)) <> patch (bt (n - 2 - k + 1))) by (intros Ep; apply inj in Ep; lia). split.
      - intros HF G' X' U1 U2. eapply same_trans; [now apply HF|]. now apply bell_pair_sym.
      - intros HF G' X'. eapply same_trans; [now apply HF|]. now apply bell_measure_sym. }
    assert (Par : forall z, z + 1 < n -> in_first LRSplit n false (n - 2 - z) = negb (Nat.odd z)).
    { intros z Hz. rewrite first_near, odd_mirror by auto. cbn [producing]. now destruct (Nat.odd n), (Nat.odd z). }
    split.
    - apply Sm; [destruct (Nat.odd n); lia|]. pose proof (Mid (fun k => f (n - 2 - k)) (n - 2 - (1 + 2 * q + 1))) as M. cbn beta in M.
      rewrite Par in M by (destruct (Nat.odd n); lia). replace (n - 2 - (n - 2 - (1 + 2 * q + 1))) with (1 + 2 * q + 1) in M by (destruct (Nat.odd n); lia).
      replace (Nat.odd (1 + 2 * q + 1)) with false in M by (replace (1 + 2 * q + 1) with (2 + 2 * q) by lia; now rewrite odd_shift).
      apply M; [apply Hf|..]; destruct (Nat.odd n); lia.
    - apply Sm; [destruct (Nat.odd n); lia|]. pose proof (Mid (fun k => f (n - 2 - k)) (n - 2 - (1 + 2 * q))) as M. cbn beta in M.
      rewrite Par in M by (destruct (Nat.odd n); lia). replace (n - 2 - (n - 2 - (1 + 2 * q))) with (1 + 2 * q) in M by (destruct (Nat.odd n); lia).
      replace (Nat.odd (1 + 2 * q)) with true in M by (now rewrite odd_shift).
      apply M; [apply Hf|..]; destruct (Nat.odd n); lia. }
  assert (FarC : t = LRSplit -> forall f, (forall k, k + 1 < n -> near_does t n bt (n - 2 - k) (f k)) -> f 0 = LExtendSplit None (bt (n - 1)) (bt (n - 2))).
  { intros -> f Hf. specialize (Far (fun k => f (n - 2 - k))). cbn beta in Far. rewrite Nat.sub_diag in Far. apply Far; auto.
    intros k Hk. specialize (Hf (n - 2 - k) ltac:(lia)). now replace (n - 2 - (n - 2 - k)) with k in Hf by lia. }
  assert (MvC : t = LRSplit -> forall f, Nat.odd n = true -> (forall k, k + 1 < n -> near_does t n bt (n - 2 - k) (f k)) -> f (n - 2) = LMove (bt 1) (bt 0) None).
  { intros -> f On' Hf. specialize (Mv (fun k => f (n - 2 - k)) On'). cbn beta in Mv. rewrite Nat.sub_0_r in Mv. apply Mv.
    intros k Hk. specialize (Hf (n - 2 - k) ltac:(lia)). now replace (n - 2 - (n - 2 - k)) with k in Hf by lia. }
  destruct (odd_cases n) as [[On' (h & Eh)]|[On' (h & Eh)]]; rewrite On' in *.
  - assert (Em : n = 2 * (h - 1) + 3) by lia. specialize (fun f => Mv f eq_refl).
    assert (O2 : Nat.odd (n - 2) = true) by (rewrite <- (Nat.sub_0_r (n - 2)), odd_mirror, On' by lia; reflexivity).
    destruct t; cbn [lr_means producing] in *.
    + destruct (Run _ (order_b (h - 1) n (in_first LRPrep n false) Em ltac:(intros k; rewrite Fi; now destruct (Nat.odd k)))) as (f & Hf & S1).
      eapply same_trans; [apply S1, X|]. apply (long_pair_odd patch shows n (fun k => patch (bt k)) inj) with (m := h - 1); auto.
      * pose proof (Mid f 1 (Hf 1 ltac:(lia)) ltac:(lia) ltac:(intros; lia) ltac:(auto)) as M. rewrite Fi in M. exact M.
      * apply Pass; auto; [rewrite Fi; reflexivity|lia].
      * intros H. now rewrite (Mv f Hf).
    + destruct (Run _ (order_d (h - 1) n (in_first LRMeasure n false) Em ltac:(intros k; rewrite Fi; now destruct (Nat.odd k)))) as (f & Hf & S1).
      eapply same_trans; [apply S1, X|]. apply (long_measure_odd patch shows n (fun k => patch (bt k)) inj) with (m := h - 1); auto.
      * apply Pass; auto; [rewrite Fi; reflexivity|lia].
      * intros H. now rewrite (Mv f Hf).
      * pose proof (Mid f (n - 2) (Hf (n - 2) ltac:(lia)) ltac:(lia) ltac:(intros; lia) ltac:(auto)) as M. rewrite Fi, O2 in M. exact M.
    + destruct (Run _ (order_d (h - 1) n (in_first LRMerge n false) Em ltac:(intros k; rewrite Fi; now destruct (Nat.odd k)))) as (f & Hf & S1).
      eapply same_trans; [apply S1, X|]. apply (long_merge_odd patch shows n (fun k => patch (bt k)) inj) with (m := h - 1); auto.
      * apply Pass; auto; [rewrite Fi; reflexivity|lia].
      * intros H. now rewrite (Mv f Hf).
      * intros H. now rewrite (Far f Hf) by auto.
    + destruct (RunC eq_refl _ (order_d (h - 1) n (fun k => negb (Nat.odd k)) Em ltac:(auto))) as (f & Hf & S1).
      eapply same_trans; [apply S1, X|].
      pose proof (long_split_odd patch shows n (fun k => patch (ct k)) injc f G X Uc (h - 1) (shows (bt (n - 1)) (bt (n - 2))) (shows (bt (n - 2)) (bt (n - 1))) Em Xz) as C.
      unfold ct in C. rewrite Nat.sub_0_r, Nat.sub_diag in C. replace (n - 1 - 1) with (n - 2) in C by lia. replace (n - 1 - (n - 2)) with 1 in C by lia.
      apply C; auto.
      * apply PassC; auto; lia.
      * intros H. now rewrite (FarC eq_refl f Hf).
      * intros H. now rewrite (MvC eq_refl f eq_refl Hf).
  - assert (Em : n = 2 * (h - 1) + 2) by lia.
    assert (O2 : Nat.odd (n - 2) = false) by (rewrite <- (Nat.sub_0_r (n - 2)), odd_mirror, On' by lia; reflexivity).
    destruct t; cbn [lr_means producing] in *.
    + destruct (Run _ (order_a (h - 1) n (in_first LRPrep n false) Em ltac:(intros k; rewrite Fi; now destruct (Nat.odd k)))) as (f & Hf & S1).
      eapply same_trans; [apply S1, X|]. apply (long_pair_even patch shows n (fun k => patch (bt k)) inj) with (m := h - 1); auto.
      * pose proof (Mid f 0 (Hf 0 ltac:(lia)) ltac:(lia) ltac:(discriminate) ltac:(auto)) as M. rewrite Fi in M. exact M.
      * apply Pass; auto; [rewrite Fi; reflexivity|lia].
    + destruct (Run _ (order_c (h - 1) n (in_first LRMeasure n false) Em ltac:(intros k; rewrite Fi; now destruct (Nat.odd k)))) as (f & Hf & S1).
      eapply same_trans; [apply S1, X|]. apply (long_measure_even patch shows n (fun k => patch (bt k)) inj) with (m := h - 1); auto.
      * apply Pass; auto; [rewrite Fi; reflexivity|discriminate|lia].
      * pose proof (Mid f (n - 2) (Hf (n - 2) ltac:(lia)) ltac:(lia) ltac:(discriminate) ltac:(auto)) as M. rewrite Fi, O2 in M. exact M.
    + destruct (Run _ (order_c (h - 1) n (in_first LRMerge n false) Em ltac:(intros k; rewrite Fi; now destruct (Nat.odd k)))) as (f & Hf & S1).
      eapply same_trans; [apply S1, X|]. apply (long_merge_even patch shows n (fun k => patch (bt k)) inj) with (m := h - 1); auto.
      * apply Pass; auto; [rewrite Fi; reflexivity|discriminate|lia].
      * intros H. now rewrite (Far f Hf) by auto.
    + destruct (RunC eq_refl _ (order_a (h - 1) n (fun k => negb (Nat.odd k)) Em ltac:(auto))) as (f & Hf & S1).
      eapply same_trans; [apply S1, X|].
      pose proof (long_split_even patch shows n (fun k => patch (ct k)) injc f G X Uc (h - 1) (shows (bt (n - 1)) (bt (n - 2))) (shows (bt (n - 2)) (bt (n - 1))) Em Xz) as C.
      unfold ct in C. rewrite Nat.sub_0_r, Nat.sub_diag in C. replace (n - 1 - 1) with (n - 2) in C by lia.
      apply C; auto.
      * apply PassC; auto; lia.
      * intros H. now rewrite (FarC eq_refl f Hf).
Qed.

(** Every long-range operation of every length, in both directions, is exactly the
    corresponding operation on the patches at its two ends: the Bell pair, the
    Bell measurement, the merge into and the split off the far patch, for every
    state of everything else. *)
Theorem C53_long_range : forall patch shows t route start stop reverse side1 side2 la lb, start < stop < length route ->
  let n := stop - start + 1 in let at_ := seg route start in
  let near := at_ (near_end n reverse) in let far := at_ (far_end n reverse) in
  let nb := at_ (if reverse then 1 else n - 2) in
  NoDup route -> own_patches patch route -> (shows nb far = PX \/ shows nb far = PZ) ->
  compile_bell t ([], []) route start stop reverse side1 side2 = Ok (la, lb) ->
  forall G, state G -> (forall k, 0 < k -> k + 1 < n -> unused (patch (at_ k)) G) ->
    (producing t = true -> unused (patch near) G) -> (t = LRPrep -> unused (patch far) G) ->
  same (local_run patch shows (la ++ lb) G) (lr_means patch shows t near far nb G).
Proof.
  intros patch shows t route start stop reverse side1 side2 la lb H n at_ near far nb Nd Op Xz E G HG.
  destruct (C47_compiled t route start stop reverse side1 side2 H) as (la' & lb' & k1 & k2 & E' & A & B).
  rewrite E in E'. injection E' as <- <-.
  apply (long_layers patch shows t n at_ reverse side1 side2 k1 k2); auto using state_ext; [unfold n; lia|].
  intros i j Li Lj Ep. unfold at_, seg in Ep. apply Op in Ep; [|apply nth_In; unfold n in *; lia..].
  apply (proj1 (NoDup_nth route (mkCell 0 0)) Nd) in Ep; unfold n in *; lia.
Qed.
Print Assumptions C53_long_range.

(** ** The routes of the router *)
Lemma beside_step c d : beside c (step c d) = sideways d.
Proof.
  unfold beside. destruct c as [r k], d; cbn [step row col sideways]; try apply Z.eqb_refl; apply Z.eqb_neq; lia.
Qed.
Lemma consecutive_end {A} (R : A -> A -> Prop) (l : list A) x y : consecutive R (l ++ [x; y]) -> R x y.
Proof.
  induction l as [|a l IH]; cbn [app]; [cbn; tauto|]. intros H. apply IH. destruct (l ++ [x; y]) as [|b r] eqn:E; [destruct l; discriminate|].
  cbn [consecutive] in H. apply H.
Qed.
Lemma route_ends L s src sop tgt top cells : is_route false L s src sop tgt top cells -> cells <> [] ->
  (exists p, tile_at s src = Some p) -> (exists p, tile_at s tgt = Some p) ->
  let inner := map sc_cell cells in RouterSpec.shows s src (last inner tgt) sop /\ RouterSpec.shows s tgt (hd src inner) top.
Proof.
  intros ((W & _) & _ & Ns & Nt & Us & _) Hc (p & Hp) (q & Hq) inner. fold inner in W, Ns, Nt, Us.
  assert (Hi : inner <> []) by (unfold inner; destruct cells; [congruence|discriminate]).
  assert (Nu : forall c p', tile_at s c = Some p' -> ~ usable false s c) by (intros c p' E U; unfold usable in U; rewrite E in U; destruct U; discriminate).
  destruct (exists_last Hi) as (l & x & El). split.
  - rewrite El in W, Nt |- *. rewrite rev_app_distr in W, Nt. cbn [rev app] in W, Nt. cbn [consecutive] in W. rewrite last_last.
    destruct W as [[_ St] _]. inversion St; subst.
    + exfalso. match goal with H : usable false s ?c, H' : tile_at s ?c = Some ?p |- _ => exact (Nu _ _ H' H) end.
    + assumption.
    + congruence.
    + exfalso. apply Nt. now left.
  - destruct inner as [|y r]; [congruence|]. cbn [hd rev] in *. rewrite <- app_assoc in W. cbn [app] in W.
    apply (consecutive_end _ (src :: rev r)) in W. destruct W as [_ St]. inversion St; subst.
    + exfalso. match goal with H : usable false s ?c, H' : tile_at s ?c = Some ?p |- _ => exact (Nu _ _ H' H) end.
    + congruence.
    + assumption.
    + exfalso. apply Ns. apply in_app_iff. right. now left.
Qed.
Lemma shows_oriented s c n o p h : RouterSpec.shows s c n o -> tile_at s c = Some p -> oriented p h ->
  beside c n = (if pauli_eqb o PX then h else negb h).
Proof.
  intros (p' & d & t & Hp & -> & So & Et) Hp' O. rewrite Hp in Hp'. injection Hp' as ->. rewrite beside_step.
  specialize (O d). rewrite Et in O. destruct So; destruct (sideways d), h; cbn in O |- *; congruence.
Qed.

(** Whatever route is found between two qubits in a slice, with any search: if
    their patches are turned the same way, the two layers compiled for it are a
    CNOT of the two qubits; if one is turned by a quarter against the other, they
    are a measurement of Z of the control times X of the target. *)
Theorem C53_run : forall L pick stop s c t reg s1 s2 a b pa pb ha hb patch shows,
  sized (l_furthest L) s -> valid_pick pick -> c <> t ->
  get_cell_by_id s c = Some a -> get_cell_by_id s t = Some b ->
  find_route L false pick stop s c PZ t PX = Ok (Some reg) -> 2 <= length (rg_cells reg) ->
  tile_at s a = Some pa -> oriented pa ha -> tile_at s b = Some pb -> oriented pb hb ->
  let inner := map sc_cell (rg_cells reg) in
  reads s shows -> own_patches patch (b :: inner ++ [a]) ->
  exists la lb, compile_cnot ([], []) (b :: inner ++ [a]) s1 s2 = Ok (la, lb)
    /\ tiles_act_as patch shows inner (la ++ lb)
         (if Bool.eqb ha hb then image (conj_cnot (patch a) (patch b)) else measure [(patch b, PX); (patch a, PZ)]).
Proof.
  intros L pick stop s c t reg s1 s2 a b pa pb ha hb patch shows Hs Hv D Ea Eb Hf Hn Ta Oa Tb Ob inner [R1 R2] Op.
  destruct (C29_route _ _ _ _ _ _ _ _ _ _ Hs Hv Hf) as (a' & b' & Ea' & Eb' & Ca & Cb & _ & Rt).
  rewrite Ea in Ea'. injection Ea' as <-. rewrite Eb in Eb'. injection Eb' as <-.
  assert (Hc : rg_cells reg <> []) by (destruct (rg_cells reg); [cbn in Hn; lia|discriminate]).
  assert (Hi : inner <> []) by (unfold inner; destruct (rg_cells reg); [congruence|discriminate]).
  destruct (route_ends _ _ _ _ _ _ _ Rt Hc (ex_intro _ _ Ta) (ex_intro _ _ Tb)) as [Sa Sb]. fold inner in Sa, Sb.
  assert (Dab : a <> b).
  { intros ->. destruct Ca as (p & P1 & P2), Cb as (q & Q1 & Q2). congruence. }
  pose proof (shows_oriented _ _ _ _ _ _ Sa Ta Oa) as Ba. pose proof (shows_oriented _ _ _ _ _ _ Sb Tb Ob) as Bb. cbn in Ba, Bb.
  destruct Rt as (_ & Nd & Na & Nb & Us & _). fold inner in Nd, Na, Nb, Us. rewrite <- in_rev in Na, Nb. rewrite <- (rev_involutive inner) in Hi.
  assert (Nr : NoDup (b :: inner ++ [a])).
  { apply NoDup_rev in Nd. rewrite rev_involutive in Nd. constructor.
    - rewrite in_app_iff. cbn [In]. intros [|[|]]; auto.
    - apply NoDup_app_intro; auto; [repeat constructor; auto|]. intros x Hx [<-|[]]. auto. }
  assert (Sq : forall x y, In x inner -> shows x y = square_shows x y).
  { intros x y Hx. apply R2. rewrite Forall_forall in Us. apply in_rev in Hx. specialize (Us _ Hx). unfold usable in Us.
    destruct (tile_at s x); [destruct Us; discriminate|reflexivity]. }
  rewrite rev_involutive in Hi.
  destruct (cnot_shape (b :: inner ++ [a]) s1 s2) as (la & lb & E & _).
  { cbn [length]. rewrite app_length. unfold inner. rewrite map_length. cbn [length]. lia. }
  exists la, lb. split; [exact E|].
  destruct (Bool.eqb ha hb) eqn:Eh.
  - apply Bool.eqb_prop in Eh. eapply C53_cnot; eauto. rewrite (beside_sym (last inner b)), Ba, Bb, Eh. destruct hb; discriminate.
  - apply Bool.eqb_false_iff in Eh. eapply C53_straight_refuted; eauto. rewrite (beside_sym (last inner b)), Ba, Bb. destruct ha, hb; try reflexivity; now elim Eh.
Qed.
Print Assumptions C53_run.

(** ** The instructions *)
(** A CNOT instruction that starts in a slice: what is done in this slice and what
    is left for the next together are a CNOT of the two qubits if their patches are
    turned the same way, and the joint measurement otherwise. *)
Theorem C53_instruction : forall L pick stop e w wt cl c t s1 s2 r sets ph z a b pa pb ha hb patch shows,
  let s := w_slice w in
  e_edpc e = false -> e_route e = plain_router L false pick stop -> valid_pick pick -> sized (l_furthest L) s ->
  c <> t -> single s c -> single s t -> carries s a c -> carries s b t ->
  tile_at s a = Some pa -> oriented pa ha -> tile_at s b = Some pb -> oriented pb hb ->
  reads s shows -> (forall x y, patch x = patch y -> x = y) ->
  try_apply e w (mkI (BellCNOT c t s1 s2 r None sets ph) wt cl) = Ok z -> a_error z = false ->
  exists inner todo rest, Forall (fun x => tile_at s x = None) inner
    /\ advanced false s todo (w_slice (a_world z)) rest
    /\ (rest <> [] -> pending false (a_op z) = rest /\ a_follow z = [mkI (a_op z) wt cl]) /\ (rest = [] -> a_follow z = [])
    /\ tiles_act_as patch shows inner todo
         (if Bool.eqb ha hb then image (conj_cnot (patch a) (patch b)) else measure [(patch b, PX); (patch a, PZ)]).
Proof.
  intros L pick stop e w wt cl c t s1 s2 r sets ph z a b pa pb ha hb patch shows s He Er Hv Hs D Sc St Ca Cb Ta Oa Tb Ob R Pj E Ez.
  cbn [try_apply op wait clients] in E.
  destruct (cnot_good (l_furthest L) _ _ _ _ _ _ _ _ _ _ _ _ _ Hs E) as (_ & _ & G). destruct (G Ez) as (todo & rest & Pl & Ad & N1 & N2). rewrite He in *.
  destruct Pl as [[_ (reg & ca & cc & ct & la & lb & P1 & P2 & (pcc & P3 & _) & (pct & P4 & _) & P5 & ->)]|[Un _]]; [|exfalso; apply Un; exact I]. apply sits_carries in P3, P4. fold s in P1, P3, P4, Ad.
  assert (cc = a) by (eapply Sc; eauto). assert (ct = b) by (eapply St; eauto). subst cc ct.
  rewrite Er in P1. unfold plain_router in P1. apply bind_ok in P1. destruct P1 as (rr & Hf & P1). injection P1 as -> <-.
  pose proof (get_single _ _ _ _ Hs Sc Ca) as Ga. pose proof (get_single _ _ _ _ Hs St Cb) as Gb.
  destruct (C53_run L pick stop s c t reg s1 s2 a b pa pb ha hb patch shows Hs Hv D Ga Gb Hf P2 Ta Oa Tb Ob R) as (la' & lb' & E' & T).
  { intros x y _ _. apply Pj. }
  rewrite P5 in E'. injection E' as <- <-. exists (map sc_cell (rg_cells reg)), (la ++ lb), rest.
  destruct (C29_route _ _ _ _ _ _ _ _ _ _ Hs Hv Hf) as (a' & b' & _ & _ & _ & _ & _ & (_ & _ & _ & _ & Us & _)).
  split; [|split; [exact Ad|split; [intros Hr; destruct (N1 Hr) as (Q1 & _ & Q2); auto|split; [auto|exact T]]]].
  apply Forall_forall. intros x Hx. rewrite Forall_forall in Us. apply in_rev in Hx. specialize (Us _ Hx). unfold usable in Us.
  destruct (tile_at s x); [destruct Us; discriminate|reflexivity].
Qed.
Print Assumptions C53_instruction.

(** A Bell pair instruction prepares the pair on the first and the last tile of
    the route, whatever the length. *)
Theorem C53_pair_instruction : forall L pick stop e w wt cl s1 s2 l1 l2 loc z patch shows,
  let s := w_slice w in
  e_edpc e = false -> e_route e = plain_router L false pick stop -> valid_pick pick -> sized (l_furthest L) s ->
  reads s shows -> (forall x y, patch x = patch y -> x = y) ->
  try_apply e w (mkI (BellInit s1 s2 l1 l2 loc None) wt cl) = Ok z -> a_error z = false ->
  exists inner todo rest near far, Forall (fun x => tile_at s x = None) inner /\ near <> far /\ In near inner /\ In far inner
    /\ advanced false s todo (w_slice (a_world z)) rest
    /\ (rest <> [] -> pending false (a_op z) = rest /\ a_follow z = [mkI (a_op z) wt cl]) /\ (rest = [] -> a_follow z = [])
    /\ tiles_act_as patch shows inner todo (bell_pair (patch near) (patch far)).
Proof.
  intros L pick stop e w wt cl s1 s2 l1 l2 loc z patch shows s He Er Hv Hs [R1 R2] Pj E Ez.
  cbn [try_apply op wait clients] in E.
  destruct (bell_init_good (l_furthest L) _ _ _ _ _ _ _ _ _ _ _ Hs E) as (_ & _ & G). destruct (G Ez) as (todo & rest & Pl & Ad & N1 & N2). rewrite He in *.
  destruct Pl as [[_ (reg & ca & la & lb & P1 & P2 & ->)]|[Un _]]; [|exfalso; apply Un; exact I]. fold s in P1, Ad.
  rewrite Er in P1. unfold plain_router in P1. apply bind_ok in P1. destruct P1 as (rr & Hf & P1). injection P1 as -> <-.
  destruct (C29_route _ _ _ _ _ _ _ _ _ _ Hs Hv Hf) as (a' & b' & _ & _ & _ & _ & _ & (_ & Nd & _ & _ & Us & _)).
  set (inner := map sc_cell (rg_cells reg)) in *. assert (Ln : length (rg_cells reg) = length inner) by (unfold inner; now rewrite map_length).
  rewrite Ln in P2. apply NoDup_rev in Nd. rewrite rev_involutive in Nd.
  assert (Fr : forall x, In x inner -> tile_at s x = None).
  { intros x Hx. rewrite Forall_forall in Us. apply in_rev in Hx. specialize (Us _ Hx). unfold usable in Us.
    destruct (tile_at s x); [destruct Us; discriminate|reflexivity]. }
  assert (L2 : 2 <= length inner) by (unfold compile_bell in P2; destruct (Nat.leb_spec (length inner - 1) 0); [discriminate|lia]).
  pose proof (C53_long_range patch shows LRPrep inner 0 (length inner - 1) false (Some s1) (Some s2) la lb ltac:(lia)) as C. cbn zeta in C.
  replace (length inner - 1 - 0 + 1) with (length inner) in C by lia. cbn [near_end far_end lr_means producing] in C.
  assert (In0 : forall k, k < length inner -> In (seg inner 0 k) inner) by (intros k Hk; rewrite seg_nth; now apply nth_In).
  exists inner, (la ++ lb), rest, (seg inner 0 0), (seg inner 0 (length inner - 1)).
  split; [now apply Forall_forall|]. split.
  { intros Eq. rewrite !seg_nth in Eq. apply (proj1 (NoDup_nth inner (mkCell 0 0)) Nd) in Eq; lia. }
  split; [apply In0; lia|]. split; [apply In0; lia|]. split; [exact Ad|]. split; [intros Hr; destruct (N1 Hr) as (Q1 & _ & Q2); auto|].
  split; [auto|]. intros G' HG U. apply C; auto; try (intros; apply U, In0; lia).
  - intros x y _ _. apply Pj.
  - rewrite R2 by (apply Fr, In0; lia). apply square_xz.
Qed.
Print Assumptions C53_pair_instruction.

(** ** A program for which it is not a CNOT *)
(** Two qubits, a Hadamard on the target, which turns its patch, and a CNOT: the
    instruction is carried out without error and measures instead. *)
Definition turned_world : world := Eval vm_compute in
  match (do z <- try_apply bell_env ex_world (mkI (SingleOp 3 SqH false) 5 []) ;; advance_slice (fst ex_start) (w_slice (a_world z))) with
  | Ok s => mkW s 0 [] | _ => ex_world end.
Definition turned_done : applied := Eval vm_compute in
  match try_apply bell_env turned_world ex_cnot with Ok z => z | _ => mkA turned_world (op ex_cnot) true [] end.
Lemma carried_listed far s c id : sized far s -> carries s c id -> In (c, Some id) (on_tiles s).
Proof.
  intros Hs (p & Hp & Hi). unfold on_tiles. apply in_flat_map. exists (c, Some p). split; [|cbn; rewrite Hi; now left].
  apply (tiles_In far); auto. split; [|now symmetry]. eapply tile_on; eauto.
Qed.
Theorem C53_after_h_refuted : exists z todo rest a b inner,
  try_apply bell_env ex_world (mkI (SingleOp 3 SqH false) 5 []) = Ok z /\ a_error z = false
  /\ advance_slice (fst ex_start) (w_slice (a_world z)) = Ok (w_slice turned_world)
  /\ (let s := w_slice turned_world in carries s a 7 /\ carries s b 3 /\ Forall (fun x => tile_at s x = None) inner
  /\ exists z', try_apply bell_env turned_world ex_cnot = Ok z' /\ a_error z' = false
  /\ advanced false s todo (w_slice (a_world z')) rest /\ pending false (a_op z') = rest
  /\ forall patch shows, reads s shows -> (forall x y, patch x = patch y -> x = y) ->
     tiles_act_as patch shows inner todo (measure [(patch b, PX); (patch a, PZ)])
     /\ ~ tiles_act_as patch shows inner todo (image (conj_cnot (patch a) (patch b)))).
Proof.
  eexists. 
  assert (E : try_apply bell_env turned_world ex_cnot = Ok turned_done) by (vm_compute; reflexivity).
  assert (Hs : sized (l_furthest (fst ex_start)) (w_slice turned_world)) by small_sized.
  pose proof E as E0. cbn [try_apply op wait clients ex_cnot] in E0.
  destruct (cnot_good (l_furthest (fst ex_start)) _ _ _ _ _ _ _ _ _ _ _ _ _ Hs E0) as (_ & _ & G).
  destruct (G eq_refl) as (todo & rest & Pl & Ad & N1 & N2). cbn [e_edpc bell_env] in Pl, Ad, N1.
  destruct Pl as [[_ (reg & ca & cc & ct & la & lb & P1 & P2 & (pcc & P3 & _) & (pct & P4 & _) & P5 & ->)]|[Un _]]; [|exfalso; apply Un; exact I]. apply sits_carries in P3, P4.
  exists (la ++ lb), rest, cc, ct, (map sc_cell (rg_cells reg)).
  split; [vm_compute; reflexivity|]. split; [reflexivity|]. split; [vm_compute; reflexivity|].
  assert (T : on_tiles (w_slice turned_world) = [(mkCell 1 1, Some 7%N); (mkCell 1 3, Some 3%N)]) by (vm_compute; reflexivity).
  assert (cc = mkCell 1 1).
  { apply (carried_listed _ _ _ _ Hs) in P3. rewrite T in P3. destruct P3 as [Q|[Q|[]]]; [now injection Q|discriminate]. }
  assert (ct = mkCell 1 3).
  { apply (carried_listed _ _ _ _ Hs) in P4. rewrite T in P4. destruct P4 as [Q|[Q|[]]]; [discriminate|now injection Q]. }
  subst cc ct. vm_compute in P1. injection P1 as <- <-. cbn [rg_cells map sc_cell app] in *.
  split; [exact P3|]. split; [exact P4|]. split; [repeat constructor|]. exists turned_done. split; [exact E|]. split; [reflexivity|].
  split; [exact Ad|]. split.
  - destruct rest as [|x r]; [exfalso|exact (proj1 (N1 ltac:(discriminate)))]. specialize (N2 eq_refl (or_introl eq_refl)). discriminate.
  - intros patch shows [R1 R2] Pj.
    apply (C53_straight_refuted patch shows (mkCell 1 3) [mkCell 0 3; mkCell 0 2; mkCell 0 1] (mkCell 1 1) 20 21 la lb); auto.
    + discriminate.
    + repeat constructor; cbn [In app]; intuition discriminate.
    + intros x y _ _. apply Pj.
    + intros x y Hx. apply R2. cbn [In] in Hx. destruct Hx as [<-|[<-|[<-|[]]]]; reflexivity.
    + apply R1. cbn [hd]. do 2 eexists. exists BRough. split; [reflexivity|]. split; [|split; [constructor|]]; [instantiate (1 := DTop); reflexivity|reflexivity].
    + apply R1. cbn [last]. do 2 eexists. exists BSmooth. split; [reflexivity|]. split; [|split; [constructor|]]; [instantiate (1 := DTop); reflexivity|reflexivity].
Qed.
Print Assumptions C53_after_h_refuted.

(** Without the Hadamard: the hypotheses of [C53_instruction] hold for the two
    qubits of "rrrrr/rQrQr/rrrrr", and it is a CNOT. *)
Definition fresh_shows (s : slice) (a b : cell) : pauli :=
  match tile_at s a with
  | None => square_shows a b
  | Some p => match find (fun d => cell_eqb (step a d) b) [DTop; DBottom; DLeft; DRight] with
              | Some d => match btype (side (db p) d) with BRough => PX | _ => PZ end
              | None => square_shows a b
              end
  end.
Lemma fresh_reads s : reads s (fresh_shows s).
Proof.
  split.
  - intros a b o (p & d & t & Hp & -> & So & Et). unfold fresh_shows. rewrite Hp.
    assert (F : find (fun d' => cell_eqb (step a d') (step a d)) [DTop; DBottom; DLeft; DRight] = Some d).
    { unfold find, cell_eqb. destruct a as [r k], d; cbn [step row col]; repeat match goal with |- context[Z.eqb ?x ?y] => destruct (Z.eqb_spec x y); try lia end; reflexivity. }
    rewrite F, Et. now destruct So.
  - intros a b Hn. unfold fresh_shows. now rewrite Hn.
Qed.
Lemma square_oriented : forall i l, oriented (square i l) true.
Proof. intros i l []; reflexivity. Qed.
Definition ex_done : applied := Eval vm_compute in
  match try_apply bell_env ex_world ex_cnot with Ok z => z | _ => mkA ex_world (op ex_cnot) true [] end.
Definition ex_patch (c : cell) : dpatch := match tile_at (snd ex_start) c with Some p => p | None => square None None end.
Example C53_ex : exists z, try_apply bell_env ex_world ex_cnot = Ok z /\ a_error z = false /\ a_follow z <> []
  /\ forall patch, (forall x y, patch x = patch y -> x = y) -> exists inner todo rest,
     advanced false (snd ex_start) todo (w_slice (a_world z)) rest /\ pending false (a_op z) = rest
     /\ tiles_act_as patch (fresh_shows (snd ex_start)) inner todo (image (conj_cnot (patch (mkCell 1 1)) (patch (mkCell 1 3)))).
Proof.
  assert (E : try_apply bell_env ex_world ex_cnot = Ok ex_done) by (vm_compute; reflexivity).
  exists ex_done. split; [exact E|]. split; [reflexivity|]. split; [discriminate|]. intros patch Pj.
  assert (Hs : sized (l_furthest (fst ex_start)) (w_slice ex_world)) by small_sized.
  assert (T : on_tiles (w_slice ex_world) = [(mkCell 1 1, Some 7%N); (mkCell 1 3, Some 3%N)]) by (vm_compute; reflexivity).
  assert (C1 : forall c, carries (w_slice ex_world) c 7 -> c = mkCell 1 1).
  { intros c Hc. apply (carried_listed _ _ _ _ Hs) in Hc. rewrite T in Hc. destruct Hc as [Q|[Q|[]]]; [now injection Q|discriminate]. }
  assert (C2 : forall c, carries (w_slice ex_world) c 3 -> c = mkCell 1 3).
  { intros c Hc. apply (carried_listed _ _ _ _ Hs) in Hc. rewrite T in Hc. destruct Hc as [Q|[Q|[]]]; [discriminate|now injection Q]. }
  destruct (C53_instruction (fst ex_start) pick_min false bell_env ex_world 5 [] 7 3 20 21 None None None ex_done (mkCell 1 1) (mkCell 1 3)
    (ex_patch (mkCell 1 1)) (ex_patch (mkCell 1 3)) true true patch (fresh_shows (snd ex_start))) as (inner & todo & rest & _ & Ad & N1 & N2 & Act); auto using pick_min_valid, fresh_reads.
  - discriminate.
  - intros x y Hx Hy. rewrite (C1 _ Hx). symmetry. auto.
  - intros x y Hx Hy. rewrite (C2 _ Hx). symmetry. auto.
  - exists (ex_patch (mkCell 1 1)). split; vm_compute; reflexivity.
  - exists (ex_patch (mkCell 1 3)). split; vm_compute; reflexivity.
  - intros []; vm_compute; reflexivity.
  - intros []; vm_compute; reflexivity.
  - exists inner, todo, rest. split; [exact Ad|]. split; [|exact Act]. destruct rest as [|x r]; [specialize (N2 eq_refl); discriminate|]. exact (proj1 (N1 ltac:(discriminate))).
Qed.
