(** Where the tiles of the EDPC layout are, and what its edges and corners hold. *)
From Verif Require Import Base TextModel PatchesModel LayoutModel LayoutSpec LayoutProofs CompactProofs SliceProofs EdpcModel EdpcProofs.
Open Scope Z_scope.

Section Shape.
Variable p : edpc.
Notation n := (ep_n p).
Notation L := (ep_lanes p).
Notation t := (ep_pad p).
Notation s := (ep_size p).
Notation W := (ep_last p).
Notation hi := (ep_size p - ep_pad p - 1).
Notation sr := (ep_root p).
Hypothesis n_pos : 0 <= n.
Hypothesis L_pos : 0 <= L.
Hypothesis small : (sr + 1) * (L + 1) < 2 ^ 31.

Lemma mod_step : forall d q r, 0 < d -> 0 <= r < d -> (q * d + r) mod d = r.
Proof. intros d q r Hd Hr. rewrite Z.add_comm, Z.mod_add by lia. now apply Z.mod_small. Qed.
Lemma size_bound : hi + 1 < 2 ^ 33.
Proof. pose proof (core_min p L_pos small). pose proof (pad_is p). pose proof (hi_is p). lia. Qed.
Lemma off_false : forall x c, x <= hi + 1 -> t + c * (L + 2) <= x -> 0 <= c -> ep_offset p x false c = (x - t - c * (L + 2)) mod (L + 1).
Proof.
  intros x c Hx Hc C0. pose proof size_bound. pose proof (pad_is p). unfold ep_offset. cbn [b2z]. cbv zeta. unfold u64.
  replace (x - t - ((1 - 0) * c + 0) * (L + 1 + (1 - 0))) with (x - t - c * (L + 2)) by lia. rewrite (Z.mod_small _ (2 ^ 64)); [f_equal; lia|]. split; [lia|]. nia.
Qed.
Lemma off_true : forall x c, x <= hi + 1 -> t + L + 1 <= x -> ep_offset p x true c = (x - t - (L + 1)) mod (L + 2).
Proof.
  intros x c Hx Hc. pose proof size_bound. pose proof (pad_is p). unfold ep_offset. cbn [b2z]. cbv zeta. unfold u64.
  replace (x - t - ((1 - 1) * c + 1) * (L + 1 + (1 - 1))) with (x - t - (L + 1)) by lia. rewrite (Z.mod_small _ (2 ^ 64)) by lia. f_equal. lia.
Qed.
Lemma skip_to : forall (k : nat) x y h c l, y = x + Z.of_nat k -> y <= hi + 1 -> (forall z, x <= z < y -> ep_offset p z h c <> 0) -> sched p y h c l -> sched p x h c l.
Proof.
  induction k as [|k IH]; intros x y h c l E Hy Hz S; [now replace x with y by lia|]. apply sc_skip; [lia|apply Hz; lia|]. apply (IH _ y); auto; [lia|]. intros z X. apply Hz. lia.
Qed.
Lemma skip_false : forall x y c l q, 0 <= c -> t + c * (L + 2) <= x -> x <= y <= hi + 1 -> t + c * (L + 2) + q * (L + 1) < x -> y <= t + c * (L + 2) + (q + 1) * (L + 1) ->
  sched p y false c l -> sched p x false c l.
Proof.
  intros x y c l q C0 Hc Hxy H1 H2. apply (skip_to (Z.to_nat (y - x))); [lia|lia|]. intros z Hz. rewrite off_false by lia.
  replace (z - t - c * (L + 2)) with (q * (L + 1) + (z - t - c * (L + 2) - q * (L + 1))) by lia. rewrite mod_step; lia.
Qed.
Lemma skip_true : forall x y c l q, t + L + 1 <= x -> x <= y <= hi + 1 -> t + L + 1 + q * (L + 2) < x -> y <= t + L + 1 + (q + 1) * (L + 2) ->
  sched p y true c l -> sched p x true c l.
Proof.
  intros x y c l q Hc Hxy H1 H2. apply (skip_to (Z.to_nat (y - x))); [lia|lia|]. intros z Hz. rewrite off_true by lia.
  replace (z - t - (L + 1)) with (q * (L + 2) + (z - t - (L + 1) - q * (L + 2))) by lia. rewrite mod_step; lia.
Qed.
Lemma at_false : forall c q, 0 <= c -> 0 <= q -> t + c * (L + 2) + q * (L + 1) <= hi + 1 -> ep_offset p (t + c * (L + 2) + q * (L + 1)) false c = 0.
Proof. intros c q C0 Q0 H. rewrite off_false by nia. replace (t + c * (L + 2) + q * (L + 1) - t - c * (L + 2)) with (q * (L + 1)) by lia. apply Z.mod_mul. lia. Qed.
Lemma at_true : forall c q, 0 <= q -> t + L + 1 + q * (L + 2) <= hi + 1 -> ep_offset p (t + L + 1 + q * (L + 2)) true c = 0.
Proof. intros c q Q0 H. rewrite off_true by nia. replace (t + L + 1 + q * (L + 2) - t - (L + 1)) with (q * (L + 2)) by lia. apply Z.mod_mul. lia. Qed.

(** ** Without condensing *)
Lemma plain_hi : ep_condensed p = false -> hi = t + (sr + 1) * (L + 1).
Proof. intros C. rewrite hi_is, core_is, C by auto. lia. Qed.
Lemma plain_state : ep_condensed p = false -> forall x h c, two p x = false /\ next_h p h x = h /\ next_c p c x = c.
Proof. intros C x h c. unfold next_c, next_h, two. rewrite C. auto. Qed.
Lemma plain_sched : ep_condensed p = false -> sched p t false 0 (map (fun k => t + k * (L + 1)) (range 0 (sr + 2))).
Proof.
  intros C. pose proof (plain_hi C) as Hh. pose proof (plain_state C) as St. pose proof (sr_pos p) as S0.
  assert (A : forall (d : nat) k, Z.of_nat d = sr + 1 - k -> 0 <= k -> sched p (t + k * (L + 1)) false 0 (map (fun k => t + k * (L + 1)) (range k (sr + 2)))).
  { assert (Hit : forall k l, 0 <= k <= sr + 1 -> sched p (t + k * (L + 1) + 1) false 0 l -> sched p (t + k * (L + 1)) false 0 (t + k * (L + 1) :: l)).
    { intros k l Hk Sl. assert (t + k * (L + 1) <= hi) by nia. apply sc_hit; try congruence.
      - nia.
      - pose proof (at_false 0 k ltac:(lia) ltac:(lia)) as X. rewrite Z.mul_0_l, Z.add_0_r in X. apply X. lia.
      - destruct (St (t + k * (L + 1)) false 0) as (-> & _). discriminate.
      - destruct (St (t + k * (L + 1)) false 0) as (-> & -> & ->). cbn [b2z]. now rewrite Z.add_0_r. }
    induction d as [|d IH]; intros k Hd Hk; rewrite range_cons by lia; cbn [map]; apply Hit; try lia.
    - rewrite range_nil by lia. cbn [map]. replace (t + k * (L + 1) + 1) with (hi + 1) by (rewrite Hh; nia). constructor.
    - assert ((k + 1) * (L + 1) <= (sr + 1) * (L + 1)) by nia.
      apply (skip_false _ (t + (k + 1) * (L + 1)) 0 _ k); try nia. apply IH; lia. }
  specialize (A (Z.to_nat (sr + 1)) 0). rewrite Z.mul_0_l, Z.add_0_r in A. apply A; lia.
Qed.

(** ** Condensed *)
Notation m := (ep_root p / 2).
Notation e := (ep_root p mod 2).
Notation pos k := (ep_pad p + ep_lanes p + 1 + (k) * (ep_lanes p + 2)).
Lemma sr_split : sr = 2 * m + e /\ 0 <= m /\ (e = 0 \/ e = 1).
Proof. pose proof (sr_pos p). pose proof (Z.div_mod sr 2). pose proof (Z.mod_pos_bound sr 2). pose proof (Z.div_pos sr 2). lia. Qed.
Lemma cond_hi : ep_condensed p = true -> hi = pos m + e * (L + 1) /\ W = t + m * (L + 2) + e * (L + 1).
Proof.
  intros C. pose proof sr_split as (S1 & S2 & S3). rewrite W_is, hi_is, core_is, C by auto. set (q := m) in *. rewrite S1. destruct S3 as [-> | ->]; nia.
Qed.
Lemma cond_sched : ep_condensed p = true -> sched p t false 0 (t :: map (fun k => pos k) (range 0 (m + 1)) ++ (if e =? 0 then [] else [hi])).
Proof.
  intros C. pose proof (cond_hi C) as [Hh HW]. pose proof sr_split as (S1 & S2 & S3).
  assert (St : forall x h c, t < x -> two p x = (x <? W) /\ next_h p h x = (x <? W) /\ next_c p c x = c + b2z (x <? W)).
  { intros x h c X. unfold next_c, next_h, two. rewrite C. cbn [andb]. destruct (Z.ltb_spec t x); [|lia]. cbn [andb].
    destruct (Z.leb_spec W x), (Z.ltb_spec x W); try lia; cbn [b2z]; repeat split; lia. }
  assert (Pe : forall k, 0 <= k <= m -> pos k <= hi) by (intros k Hk; assert (k * (L + 2) <= m * (L + 2)) by nia; nia).
  assert (A : forall (d : nat) k, Z.of_nat d = m - k -> 0 <= k ->
     sched p (pos k) (negb (k =? 0)) k (map (fun k => pos k) (range k (m + 1)) ++ (if e =? 0 then [] else [hi]))).
  { assert (Here : forall k, 0 <= k <= m -> ep_offset p (pos k) (negb (k =? 0)) k = 0).
    { intros k Hk. pose proof (Pe k Hk). destruct (Z.eqb_spec k 0) as [->|Nk]; cbn [negb]; [|apply at_true; lia].
      pose proof (at_false 0 1 ltac:(lia) ltac:(lia)) as X. replace (pos 0) with (t + 0 * (L + 2) + 1 * (L + 1)) by lia. apply X. lia. }
    induction d as [|d IH]; intros k Hd Hk; rewrite range_cons by lia; cbn [map app]; assert (Hp := Pe k ltac:(lia)); assert (Hl : 0 <= k * (L + 2)) by nia;
      destruct (St (pos k) (negb (k =? 0)) k ltac:(lia)) as (T1 & T2 & T3).
    - assert (k = m) by lia. subst k. assert (Nw : (pos m <? W) = false) by (destruct (Z.ltb_spec (pos m) W); [destruct S3 as [X|X]; rewrite X in *; lia|reflexivity]).
      rewrite Nw in *. rewrite range_nil by lia. cbn [map app]. apply sc_hit.
      + lia.
      + apply Here. lia.
      + intros _ X. destruct (Z.ltb_spec (pos m) W); [discriminate|lia].
      + intros _ _. pose proof (at_false m 1 ltac:(lia) ltac:(lia)) as X. replace (pos m) with (t + m * (L + 2) + 1 * (L + 1)) by lia. apply X. lia.
      + rewrite T1. discriminate.
      + rewrite T1, T2, T3. cbn [b2z]. rewrite !Z.add_0_r. destruct (Z.eqb_spec e 0) as [E0|E0].
        * rewrite E0, Z.mul_0_l, Z.add_0_r in Hh. rewrite <- Hh. constructor.
        * destruct S3 as [?|E1]; [contradiction|]. rewrite E1, Z.mul_1_l in Hh. apply (skip_false _ hi m _ 1); try lia.
          assert (Th : t < hi) by lia. destruct (St hi false m Th) as (U1 & U2 & U3). assert (Nh : (hi <? W) = false) by (destruct (Z.ltb_spec hi W); [lia|reflexivity]). rewrite Nh in *.
          assert (Oh : ep_offset p hi false m = 0).
          { pose proof (at_false m 2 ltac:(lia) ltac:(lia)) as X. replace hi with (t + m * (L + 2) + 2 * (L + 1)) by lia. apply X. lia. }
          apply sc_hit; [lia|exact Oh|intros _ X; destruct (Z.ltb_spec hi W); [discriminate|lia]|auto|rewrite U1; discriminate|].
          rewrite U1, U2, U3. cbn [b2z]. rewrite !Z.add_0_r. constructor.
    - assert (Kl : (k + 1) * (L + 2) <= m * (L + 2)) by nia. assert (Nw : (pos k <? W) = true) by (apply Z.ltb_lt; destruct S3 as [X|X]; rewrite X in *; nia).
      rewrite Nw in *. pose proof (Pe (k + 1) ltac:(lia)) as Pn. apply sc_hit.
      + lia.
      + apply Here. lia.
      + intros _ _. apply at_true; lia.
      + intros _ X. apply Z.ltb_lt in Nw. lia.
      + intros _. rewrite T2. rewrite off_true by lia. replace (pos k + 1 - t - (L + 1)) with (k * (L + 2) + 1) by lia. rewrite mod_step; lia.
      + rewrite T1, T2, T3. cbn [b2z]. apply (skip_true _ (pos (k + 1)) _ _ k); try lia. specialize (IH (k + 1) ltac:(lia) ltac:(lia)).
        destruct (Z.eqb_spec (k + 1) 0); [lia|]. exact IH. }
  assert (T1 : two p t = false /\ next_h p false t = false /\ next_c p 0 t = 0).
  { unfold next_c, next_h, two. rewrite C. destruct (Z.ltb_spec t t); [lia|]. cbn [andb]. destruct (W <=? t); auto. }
  destruct T1 as (T1 & T2 & T3). assert (P0 := Pe 0 ltac:(lia)).
  assert (Ot : ep_offset p t false 0 = 0).
  { pose proof (at_false 0 0 ltac:(lia) ltac:(lia)) as X. replace (t + 0 * (L + 2) + 0 * (L + 1)) with t in X by lia. apply X. lia. }
  apply sc_hit; [lia|exact Ot|lia|auto|rewrite T1; discriminate|]. rewrite T1, T2, T3. cbn [b2z]. rewrite Z.add_0_r.
  apply (skip_false _ (pos 0) 0 _ 0); try lia. specialize (A (Z.to_nat m) 0 ltac:(lia) ltac:(lia)). exact A.
Qed.

(** ** The rows and columns with qubits *)

(** The [k]th row (column) of qubits *)
Definition coord (k : Z) : Z := t + (if ep_condensed p then (L + 1) + (k / 2) * (L + 2) + k mod 2 else (k + 1) * (L + 1)).

Lemma tot_app : forall l1 l2, tot p (l1 ++ l2) = tot p l1 + tot p l2.
Proof. induction l1 as [|x l1 IH]; intros l2; cbn [tot fold_right app]; [reflexivity|]. fold (tot p l1) (tot p (l1 ++ l2)). rewrite IH. lia. Qed.
Lemma width_lo : width p t = 0.
Proof. apply width_ring. unfold is_inside. lia. Qed.
Lemma width_hi : width p hi = 0.
Proof. apply width_ring. unfold is_inside. lia. Qed.
Lemma schedule : exists cols, sched p t false 0 cols /\ tot p cols = sr /\ (0 < n -> exists j, In j cols /\ is_inside p j)
  /\ (forall x, In x (coords p cols) -> exists k, 0 <= k < sr /\ x = coord k) /\ ep_offset p t false 0 = 0 /\ In t cols /\ In (t + L + 1) cols.
Proof.
  pose proof (sr_pos p) as S0. assert (Ot : ep_offset p t false 0 = 0).
  { pose proof (at_false 0 0 ltac:(lia) ltac:(lia)) as X. replace (t + 0 * (L + 2) + 0 * (L + 1)) with t in X by lia. apply X. pose proof (core_min p L_pos small). pose proof (hi_is p). lia. }
  assert (Np : 0 < n -> 0 < sr) by (pose proof (sr_enough p n_pos); nia).
  destruct (ep_condensed p) eqn:C.
  - exists (t :: map (fun k => pos k) (range 0 (m + 1)) ++ (if e =? 0 then [] else [hi])). split; [now apply cond_sched|].
    pose proof (cond_hi C) as [Hh HW]. pose proof sr_split as (S1 & S2 & S3).
    assert (Wd : forall k, 0 <= k <= m -> width p (pos k) = (if k <? m then 2 else e) /\ two p (pos k) = (k <? m)).
    { intros k Hk. assert (K0 : 0 <= k * (L + 2)) by nia. assert (Tw : two p (pos k) = (k <? m)).
      { unfold two. rewrite C. cbn [andb]. destruct (Z.ltb_spec t (pos k)); [|lia]. cbn [andb]. destruct (Z.ltb_spec k m).
        - apply Z.ltb_lt. assert ((k + 1) * (L + 2) <= m * (L + 2)) by nia. destruct S3 as [X|X]; rewrite X in *; lia.
        - replace k with m by lia. apply Z.ltb_ge. destruct S3 as [X|X]; rewrite X in *; lia. }
      split; [|exact Tw]. unfold width. rewrite Tw. destruct (Z.ltb_spec t (pos k)); [|lia]. cbn [andb]. destruct (Z.ltb_spec k m).
      - assert ((k + 1) * (L + 2) <= m * (L + 2)) by nia. destruct (Z.ltb_spec (pos k) hi); [reflexivity|]. destruct S3 as [X|X]; rewrite X in *; lia.
      - replace k with m by lia. destruct S3 as [X|X]; rewrite X in *; destruct (Z.ltb_spec (pos m) hi); lia. }
    split; [|split; [|split; [|split; [exact Ot|split; [now left|]]]]].
    + cbn [tot fold_right]. fold (tot p (map (fun k => pos k) (range 0 (m + 1)) ++ (if e =? 0 then [] else [hi]))). rewrite width_lo, tot_app.
      replace (tot p (if e =? 0 then [] else [hi])) with 0 by (destruct (e =? 0); cbn [tot fold_right]; [reflexivity|rewrite width_hi; reflexivity]).
      assert (A : forall (d : nat) k, Z.of_nat d = m - k -> 0 <= k -> tot p (map (fun k => pos k) (range k (m + 1))) = 2 * (m - k) + e).
      { induction d as [|d IH]; intros k Hd Hk; rewrite range_cons by lia; cbn [map tot fold_right]; fold (tot p (map (fun k => pos k) (range (k + 1) (m + 1))));
          destruct (Wd k ltac:(lia)) as [-> _].
        - rewrite range_nil by lia. cbn [map tot fold_right]. destruct (Z.ltb_spec k m); lia.
        - rewrite IH by lia. destruct (Z.ltb_spec k m); lia. }
      rewrite (A (Z.to_nat m)) by lia. lia.
    + intros Hn. specialize (Np Hn). exists (pos 0). split.
      * right. apply in_or_app. left. apply in_map_iff. exists 0. split; [reflexivity|]. apply range_In. lia.
      * unfold is_inside. destruct (Wd 0 ltac:(lia)) as [X _]. assert (m = 0 /\ e = 1 \/ 0 < m) as [[Xm Xe]|Xm] by lia.
        -- rewrite Xm, Xe in Hh. lia.
        -- assert (1 * (L + 2) <= m * (L + 2)) by nia. destruct S3 as [Y|Y]; rewrite Y in *; lia.
    + intros x Hx. rewrite coords_cons, width_lo in Hx. cbn [Z.eqb app] in Hx. unfold coords in Hx. rewrite flat_map_app in Hx. apply in_app_or in Hx. destruct Hx as [Hx|Hx].
      * apply in_flat_map in Hx. destruct Hx as (y & Hy & Hx). apply in_map_iff in Hy. destruct Hy as (k & <- & Hk). apply range_In in Hk.
        destruct (Wd k ltac:(lia)) as [W1 W2]. rewrite W1, W2 in Hx. unfold coord. rewrite C. destruct (Z.ltb_spec k m).
        -- cbn [Z.eqb In] in Hx. destruct Hx as [<-|[<-|[]]].
           ++ exists (2 * k). split; [lia|]. replace (2 * k / 2) with k by (rewrite Z.mul_comm, Z.div_mul; lia). replace ((2 * k) mod 2) with 0 by (rewrite Z.mul_comm, Z.mod_mul; lia). lia.
           ++ exists (k * 2 + 1). split; [lia|]. rewrite Z.div_add_l by lia. rewrite (mod_step 2 k 1) by lia. change (1 / 2) with 0. lia.
        -- destruct (Z.eqb_spec e 0); cbn [In] in Hx; [destruct Hx|]. destruct Hx as [<-|[]]. exists (k * 2 + 0). split; [lia|].
           rewrite Z.div_add_l by lia. rewrite (mod_step 2 k 0) by lia. change (0 / 2) with 0. lia.
      * destruct (e =? 0); cbn [flat_map In] in Hx; [destruct Hx|]. rewrite width_hi in Hx. destruct Hx.
    + right. apply in_or_app. left. apply in_map_iff. exists 0. split; [lia|]. apply range_In. lia.
  - exists (map (fun k => t + k * (L + 1)) (range 0 (sr + 2))). split; [now apply plain_sched|]. pose proof (plain_hi C) as Hh.
    assert (Wd : forall k, 0 <= k <= sr + 1 -> width p (t + k * (L + 1)) = (if (0 <? k) && (k <? sr + 1) then 1 else 0) /\ two p (t + k * (L + 1)) = false).
    { intros k Hk. assert (Tw : two p (t + k * (L + 1)) = false) by (unfold two; rewrite C; reflexivity). split; [|exact Tw]. unfold width. rewrite Tw, Hh.
      destruct (Z.ltb_spec 0 k), (Z.ltb_spec k (sr + 1)); cbn [andb].
      - assert (1 * (L + 1) <= k * (L + 1)) by nia. assert ((k + 1) * (L + 1) <= (sr + 1) * (L + 1)) by nia.
        destruct (Z.ltb_spec t (t + k * (L + 1))), (Z.ltb_spec (t + k * (L + 1)) (t + (sr + 1) * (L + 1))); cbn [andb]; lia.
      - replace k with (sr + 1) by lia. rewrite Z.ltb_irrefl, andb_false_r. reflexivity.
      - replace k with 0 by lia. rewrite Z.mul_0_l, Z.add_0_r, Z.ltb_irrefl. reflexivity.
      - lia. }
    split; [|split; [|split; [|split; [exact Ot|split]]]].
    + rewrite range_cons by lia. cbn [map tot fold_right]. fold (tot p (map (fun k => t + k * (L + 1)) (range (0 + 1) (sr + 2)))). destruct (Wd 0 ltac:(lia)) as [-> _]. cbn [Z.ltb Z.compare andb].
      assert (A : forall (d : nat) k, Z.of_nat d = sr + 1 - k -> 1 <= k -> tot p (map (fun k => t + k * (L + 1)) (range k (sr + 2))) = sr + 1 - k).
      { induction d as [|d IH]; intros k Hd Hk; rewrite range_cons by lia; cbn [map tot fold_right]; fold (tot p (map (fun k => t + k * (L + 1)) (range (k + 1) (sr + 2))));
          destruct (Wd k ltac:(lia)) as [-> _]; destruct (Z.ltb_spec 0 k); try lia; cbn [andb].
        - rewrite range_nil by lia. cbn [map tot fold_right]. destruct (Z.ltb_spec k (sr + 1)); lia.
        - rewrite IH by lia. destruct (Z.ltb_spec k (sr + 1)); lia. }
      rewrite (A (Z.to_nat sr)) by lia. lia.
    + intros Hn. specialize (Np Hn). exists (t + 1 * (L + 1)). split; [apply in_map_iff; exists 1; split; [reflexivity|apply range_In; lia]|].
      unfold is_inside. assert (2 * (L + 1) <= (sr + 1) * (L + 1)) by nia. lia.
    + intros x Hx. unfold coords in Hx. apply in_flat_map in Hx. destruct Hx as (y & Hy & Hx). apply in_map_iff in Hy. destruct Hy as (k & <- & Hk). apply range_In in Hk.
      destruct (Wd k ltac:(lia)) as [W1 W2]. rewrite W1, W2 in Hx. unfold coord. rewrite C.
      destruct (Z.ltb_spec 0 k), (Z.ltb_spec k (sr + 1)); cbn [andb Z.eqb In] in Hx; try (destruct Hx; fail). destruct Hx as [<-|[]]. exists (k - 1). split; [lia|]. f_equal. f_equal. lia.
    + apply in_map_iff. exists 0. split; [lia|]. apply range_In. lia.
    + apply in_map_iff. exists 1. split; [lia|]. apply range_In. lia.
Qed.

(** ** The main loop *)
Lemma size_pos : L + 2 <= s.
Proof. pose proof (core_min p L_pos small). pose proof (pad_is p). unfold ep_size. lia. Qed.
Lemma blank_square : square_grid s (repeat (repeat kRouting (Z.to_nat s)) (Z.to_nat s)).
Proof. pose proof size_pos. split; [rewrite repeat_length; lia|]. apply Forall_forall. intros r H1. apply repeat_spec in H1. subst. rewrite repeat_length. lia. Qed.
Lemma blank_char : forall a b, 0 <= a < s -> 0 <= b < s -> char_at (repeat (repeat kRouting (Z.to_nat s)) (Z.to_nat s)) a b = Some kRouting.
Proof.
  intros a b Ha Hb. destruct (char_at_in _ _ a b blank_square Ha Hb) as [c E]. rewrite E. f_equal. apply char_at_written in E. destruct E as (i & j & r & _ & E1 & E2).
  apply nth_error_In, repeat_spec in E1. subst. now apply nth_error_In, repeat_spec in E2.
Qed.
Lemma place_ok : exists g l, place_tiles p = Ok g /\ tidy p g l /\ Z.of_nat (length l) = n
  /\ (forall a b, In (a, b) l -> exists k k', 0 <= k < sr /\ 0 <= k' < sr /\ a = coord k /\ b = coord k')
  /\ (0 < n -> char_at g t t = Some kYState /\ char_at g t (t + L + 1) = Some kYState).
Proof.
  destruct schedule as (cols & Sc & Tc & Hex & Co & Ot & I1 & I2). pose proof (pad_is p) as Pd. pose proof size_pos as Sp.
  set (st0 := mkEst (repeat (repeat kRouting (Z.to_nat s)) (Z.to_nat s)) 0 false false 0 0 false).
  destruct (rows_ok p L_pos small cols Sc Hex t false 0 cols Sc (Z.le_refl t) (fun _ => eq_refl) st0 []) as (st & l & E & G & K & P & N & Y).
  - split; [|split; [reflexivity|exact n_pos]]. constructor; cbn [e_grid st0].
    + apply blank_square.
    + intros a b [].
    + intros a b [H1 H2] _. apply blank_char; lia.
    + intros a b (H1 & H2 & _). left. apply blank_char; lia.
    + intros a b H1 H2 _ _. now apply blank_char.
    + constructor.
  - auto.
  - intros a b [].
  - rewrite app_nil_r in G. exists (e_grid st), l. assert (Es : s - t = hi + 1) by lia.
    unfold place_tiles. cbv zeta. rewrite Es. fold st0. rewrite E. cbn [bind]. split; [reflexivity|]. destruct G as (G1 & G2 & G3). split; [exact G1|].
    cbn [st0 e_placed] in P. rewrite Tc in P. pose proof (sr_enough p n_pos). split; [lia|]. split.
    + intros a b H1. apply N in H1. destruct H1 as [H1 H2]. apply Co in H1, H2. destruct H1 as (k & ? & ?), H2 as (k' & ? & ?). exists k, k'. auto.
    + intros Hn. split; apply Y; auto.
Qed.

(** ** The edges *)

Record edged (g : grid) (l : list (Z * Z)) : Prop := {
  ed_square : square_grid s g;
  ed_qubit : forall a b, In (a, b) l -> inside p a b /\ char_at g a b = Some kQubit;
  ed_free : forall a b, inside p a b -> ~ In (a, b) l -> char_at g a b = Some kRouting;
  ed_ring : forall a b, ring p a b -> char_at g a b = Some kRouting \/ char_at g a b = Some kYState \/ (ep_explicit p = false /\ char_at g a b = Some kMagic);
  ed_out : forall a b, 0 <= a < s -> 0 <= b < s -> ~ ring p a b -> ~ inside p a b -> char_at g a b = Some kRouting \/ (ep_explicit p = true /\ char_at g a b = Some kRegion0);
  ed_nodup : NoDup l }.
(** A source of magic states *)
Definition source (g : grid) : Prop := exists a b, char_at g a b = Some (if ep_explicit p then kRegion0 else kMagic).

Lemma ring_range : forall a b, ring p a b -> 0 <= a < s /\ 0 <= b < s.
Proof. intros a b (H1 & H2 & _). pose proof (pad_is p). lia. Qed.
Lemma edged_ring : forall g l a b c, edged g l -> ring p a b -> c = kRouting \/ (ep_explicit p = false /\ c = kMagic) ->
  exists g', put_char g a b c = Ok g' /\ edged g' l /\ (forall x y, (x, y) <> (a, b) -> char_at g' x y = char_at g x y) /\ char_at g' a b = Some c.
Proof.
  intros g l a b c T R Hc. pose proof (ring_range a b R) as [Ra Rb].
  destruct (put_char_ok s g a b c (ed_square _ _ T) Ra Rb) as (g' & E & Sq & F). exists g'. split; [exact E|].
  assert (Same : forall x y, (x, y) <> (a, b) -> char_at g' x y = char_at g x y).
  { intros x y Nxy. rewrite F. destruct (Z.eqb_spec x a), (Z.eqb_spec y b); cbn [andb]; auto. subst. congruence. }
  assert (There : char_at g' a b = Some c) by (rewrite F, !Z.eqb_refl; reflexivity).
  assert (Ni : ~ inside p a b) by (intros X; apply (ring_not_inside p a b R); exact X).
  split; [|auto]. constructor.
  - exact Sq.
  - intros x y H1. destruct (ed_qubit _ _ T x y H1) as [H2 H3]. split; [exact H2|]. rewrite Same; [exact H3|]. intros [= -> ->]. contradiction.
  - intros x y H1 H2. rewrite Same; [apply (ed_free _ _ T); auto|]. intros [= -> ->]. contradiction.
  - intros x y H1. rewrite F. destruct ((x =? a) && (y =? b)); [|apply (ed_ring _ _ T); auto]. destruct Hc as [->|[? ->]]; auto.
  - intros x y H1 H2 H3 H4. rewrite Same; [apply (ed_out _ _ T); auto|]. intros [= -> ->]. contradiction.
  - apply (ed_nodup _ _ T).
Qed.
Lemma edged_out : forall g l a b, edged g l -> 0 <= a < s -> 0 <= b < s -> ~ ring p a b -> ~ inside p a b -> ep_explicit p = true ->
  exists g', put_char g a b kRegion0 = Ok g' /\ edged g' l /\ (forall x y, (x, y) <> (a, b) -> char_at g' x y = char_at g x y) /\ char_at g' a b = Some kRegion0.
Proof.
  intros g l a b T Ra Rb Nr Ni He.
  destruct (put_char_ok s g a b kRegion0 (ed_square _ _ T) Ra Rb) as (g' & E & Sq & F). exists g'. split; [exact E|].
  assert (Same : forall x y, (x, y) <> (a, b) -> char_at g' x y = char_at g x y).
  { intros x y Nxy. rewrite F. destruct (Z.eqb_spec x a), (Z.eqb_spec y b); cbn [andb]; auto. subst. congruence. }
  assert (There : char_at g' a b = Some kRegion0) by (rewrite F, !Z.eqb_refl; reflexivity).
  split; [|auto]. constructor.
  - exact Sq.
  - intros x y H1. destruct (ed_qubit _ _ T x y H1) as [H2 H3]. split; [exact H2|]. rewrite Same; [exact H3|]. intros [= -> ->]. contradiction.
  - intros x y H1 H2. rewrite Same; [apply (ed_free _ _ T); auto|]. intros [= -> ->]. contradiction.
  - intros x y H1. rewrite Same; [apply (ed_ring _ _ T); auto|]. intros [= -> ->]. contradiction.
  - intros x y H1 H2 H3 H4. rewrite F. destruct ((x =? a) && (y =? b)); [auto|]. apply (ed_out _ _ T); auto.
  - apply (ed_nodup _ _ T).
Qed.

(** A block of a factory: outside the ring, and only there with explicit factories *)
Definition block_ok (B : list (Z * Z)) : Prop :=
  (ep_explicit p = true -> B <> []) /\ forall a b, In (a, b) B -> ep_explicit p = true /\ 0 <= a < s /\ 0 <= b < s /\ ~ ring p a b /\ ~ inside p a b.
Lemma fill_ok : forall B g l, edged g l -> (forall a b, In (a, b) B -> ep_explicit p = true /\ 0 <= a < s /\ 0 <= b < s /\ ~ ring p a b /\ ~ inside p a b) ->
  exists g', fill_block g B = Ok g' /\ edged g' l /\ (forall x y, ring p x y -> char_at g' x y = char_at g x y)
    /\ (forall x y, In (x, y) B \/ char_at g x y = Some kRegion0 -> char_at g' x y = Some kRegion0).
Proof.
  induction B as [|[a b] B IH]; intros g l T H; cbn [fill_block foldM fst snd].
  - exists g. split; [reflexivity|]. split; [exact T|]. split; [auto|]. intros x y [[]|X]. exact X.
  - destruct (H a b (or_introl eq_refl)) as (He & Ha & Hb & Nr & Ni). destruct (edged_out g l a b T Ha Hb Nr Ni He) as (g1 & -> & T1 & S1 & C1). cbn [bind].
    destruct (IH g1 l T1) as (g2 & E2 & T2 & S2 & C2); [intros x y X; apply H; now right|]. fold (fill_block g1 B). rewrite E2. exists g2. split; [reflexivity|].
    split; [exact T2|]. split.
    + intros x y R. rewrite S2 by exact R. apply S1. intros [= -> ->]. contradiction.
    + intros x y X. apply C2. destruct (Z.eq_dec x a) as [->|Nx]; [destruct (Z.eq_dec y b) as [->|Ny]; [auto|]|].
      * destruct X as [[X|X]|X]; [congruence|auto|]. right. rewrite S1 by congruence. exact X.
      * destruct X as [[X|X]|X]; [congruence|auto|]. right. rewrite S1 by congruence. exact X.
Qed.

Lemma cell_at_is : forall g a b, 0 <= a < s -> 0 <= b < s -> square_grid s g -> exists c, cell_at g (mkCell a b) = Ok c /\ char_at g a b = Some c.
Proof.
  intros g a b Ha Hb Sq. destruct (char_at_in _ _ a b Sq Ha Hb) as [c E]. exists c. split; [|exact E]. unfold cell_at, char_at in *. cbn [row col] in *.
  destruct (Z.ltb_spec a 0); [lia|]. destruct (Z.ltb_spec b 0); [lia|]. cbn [orb] in *. unfold idx. destruct (nth_error g (Z.to_nat a)); [|discriminate]. cbn [bind]. now rewrite E.
Qed.
Definition is_Y (g : grid) (ij : Z * Z) : bool := match char_at g (fst ij) (snd ij) with Some c => Ascii.eqb c kYState | None => false end.
Definition ycount (g : grid) (cells : list (Z * Z)) : nat := length (filter (is_Y g) cells).
Definition keeps_source (g g' : grid) : Prop := source g -> source g'.

Lemma visit_edge_ok : forall block g l a i j, edged g l -> ring p i j -> block_ok (block i j) ->
  exists g' a', visit_edge p block (g, a) (i, j) = Ok (g', a') /\ edged g' l /\ keeps_source g g'
    /\ (forall x y, ring p x y -> (x, y) <> (i, j) -> char_at g' x y = char_at g x y)
    /\ a' = (if is_Y g (i, j) then a + 1 else a) /\ (is_Y g (i, j) = true -> Z.even a' = true -> source g').
Proof.
  intros block g l a i j T R [Bn B]. pose proof (ring_range i j R) as [Ri Rj]. unfold visit_edge.
  destruct (cell_at_is g i j Ri Rj (ed_square _ _ T)) as (c & -> & Ec). cbn [bind]. unfold is_Y. cbn [fst snd]. rewrite Ec.
  destruct (Ascii.eqb_spec c kYState) as [Y|Y].
  2:{ exists g, a. split; [reflexivity|]. split; [exact T|]. split; [intros X; exact X|]. split; [auto|]. split; [reflexivity|discriminate]. }
  subst c. cbv zeta.
  destruct (edged_ring g l i j (if ep_explicit p then kRouting else kMagic) T R) as (g1 & E1 & T1 & S1 & C1); [destruct (ep_explicit p); auto|].
  assert (Ks : keeps_source g g1).
  { intros (x & y & X). unfold source. exists x, y. rewrite S1; [exact X|]. intros [= -> ->]. rewrite Ec in X. destruct (ep_explicit p); discriminate. }
  destruct (Z.even (a + 1)) eqn:Ev.
  - rewrite E1. cbn [bind]. destruct (fill_ok (block i j) g1 l T1) as (g2 & -> & T2 & S2 & C2); [intros x y X; apply B; exact X|]. cbn [bind].
    exists g2, (a + 1). split; [reflexivity|]. split; [exact T2|].
    assert (Sr : source g2).
    { unfold source. destruct (ep_explicit p) eqn:He.
      - destruct (block i j) as [|[x y] bl] eqn:Eb; [now exfalso; apply Bn|]. exists x, y. apply C2. left. now left.
      - exists i, j. rewrite S2 by exact R. exact C1. }
    split; [intros _; exact Sr|]. split; [|auto]. intros x y Rx Nx. rewrite S2 by exact Rx. now apply S1.
  - destruct (ep_predistilled p).
    + exists g, (a + 1). split; [reflexivity|]. split; [exact T|]. split; [intros X; exact X|]. split; [auto|]. split; [reflexivity|]. rewrite Ev. discriminate.
    + rewrite E1. cbn [bind]. exists g1, (a + 1). split; [reflexivity|]. split; [exact T1|]. split; [exact Ks|]. split; [auto|]. split; [reflexivity|]. rewrite Ev. discriminate.
Qed.
Lemma edge_cells : forall block cells g l a, edged g l -> (forall i j, In (i, j) cells -> ring p i j /\ block_ok (block i j)) -> NoDup cells ->
  exists g' a', foldM (visit_edge p block) cells (g, a) = Ok (g', a') /\ edged g' l /\ keeps_source g g'
    /\ ((2 <= ycount g cells + (if Z.even a then 0 else 1))%nat -> source g').
Proof.
  intros block. induction cells as [|[i j] cells IH]; intros g l a T H Nd.
  - cbn [foldM]. exists g, a. split; [reflexivity|]. split; [exact T|]. split; [intros X; exact X|]. cbn. destruct (Z.even a); lia.
  - inversion Nd as [|? ? Nin Nd']; subst. destruct (H i j (or_introl eq_refl)) as [R Bk].
    destruct (visit_edge_ok block g l a i j T R Bk) as (g1 & a1 & E1 & T1 & K1 & S1 & A1 & Sr1). cbn [foldM]. rewrite E1. cbn [bind].
    destruct (IH g1 l a1 T1) as (g2 & a2 & E2 & T2 & K2 & Sr2); [intros x y X; apply H; now right|exact Nd'|].
    exists g2, a2. split; [exact E2|]. split; [exact T2|]. split; [intros X; apply K2, K1, X|].
    assert (Yc : ycount g1 cells = ycount g cells).
    { unfold ycount. f_equal. apply filter_ext_in. intros [x y] X. unfold is_Y. cbn [fst snd]. rewrite S1; [reflexivity| |intros Q; congruence].
      apply (H x y). now right. }
    intros Hc. unfold ycount in Hc. cbn [filter] in Hc. destruct (is_Y g (i, j)) eqn:Ey.
    + destruct (Z.even a1) eqn:Ev; [apply K2, Sr1; auto|]. apply Sr2. rewrite Yc. unfold ycount. cbn [length] in Hc.
      subst a1. rewrite Z.add_1_r, Z.even_succ, <- Z.negb_even in Ev. destruct (Z.even a); [lia|discriminate].
    + apply Sr2. rewrite Yc. subst a1. exact Hc.
Qed.
Lemma one_edge_ok : forall block cells g l, edged g l -> (forall i j, In (i, j) cells -> ring p i j /\ block_ok (block i j)) -> NoDup cells ->
  exists g', one_edge p cells block g = Ok g' /\ edged g' l /\ keeps_source g g' /\ ((2 <= ycount g cells)%nat -> source g').
Proof.
  intros block cells g l T H Nd. destruct (edge_cells block cells g l 0 T H Nd) as (g' & a' & E & T' & K & Sr). unfold one_edge. rewrite E. cbn [bind]. exists g'.
  split; [reflexivity|]. split; [exact T'|]. split; [exact K|]. cbn [Z.even] in Sr. now rewrite Nat.add_0_r in Sr.
Qed.
Lemma rect_In : forall i0 i1 j0 j1 a b, In (a, b) (rect i0 i1 j0 j1) <-> i0 <= a < i1 /\ j0 <= b < j1.
Proof.
  intros i0 i1 j0 j1 a b. unfold rect. rewrite in_flat_map. split.
  - intros (x & Hx & H). apply in_map_iff in H. destruct H as (y & [= <- <-] & Hy). apply range_In in Hx, Hy. lia.
  - intros [H1 H2]. exists a. split; [now apply range_In|]. apply in_map_iff. exists b. split; [reflexivity|now apply range_In].
Qed.
Lemma rect_full : forall i0 i1 j0 j1, i0 < i1 -> j0 < j1 -> rect i0 i1 j0 j1 <> [].
Proof. intros i0 i1 j0 j1 H1 H2 E. assert (X : In (i0, j0) (rect i0 i1 j0 j1)) by (apply rect_In; lia). rewrite E in X. destruct X. Qed.
Lemma range_NoDup : forall a b, NoDup (range a b).
Proof. intros a b. unfold range. apply FinFun.Injective_map_NoDup; [intros x y; lia|apply seq_NoDup]. Qed.
Lemma pad_explicit : ep_explicit p = (0 <? t).
Proof. unfold ep_pad. destruct (ep_explicit p); reflexivity. Qed.
Lemma ring_out : forall a b, a < t \/ b < t \/ hi < a \/ hi < b -> ~ ring p a b /\ ~ inside p a b.
Proof. intros a b H. unfold ring, inside. lia. Qed.

Lemma tidy_edged : forall g l, tidy p g l -> edged g l.
Proof.
  intros g l T. constructor; try apply T.
  - intros a b H. destruct (td_ring _ _ _ T a b H); auto.
  - intros a b H1 H2 H3 H4. left. now apply (td_out _ _ _ T).
Qed.
Lemma edges_ok : forall g l, edged g l -> exists g', edges p g = Ok g' /\ edged g' l
  /\ (char_at g t t = Some kYState -> char_at g t (t + L + 1) = Some kYState -> source g').
Proof.
  intros g l T. pose proof (pad_is p) as Pd. pose proof size_pos as Sp. pose proof (hi_is p) as Hh. pose proof (core_min p L_pos small) as Cm. unfold edges. cbv zeta.
  assert (Inj1 : forall c a b, NoDup (map (fun j : Z => (c : Z, j)) (range a b))) by (intros c a b; apply FinFun.Injective_map_NoDup; [intros x y [= ?]; auto|apply range_NoDup]).
  assert (Inj2 : forall c a b, NoDup (map (fun j : Z => (j, c : Z)) (range a b))) by (intros c a b; apply FinFun.Injective_map_NoDup; [intros x y [= ?]; auto|apply range_NoDup]).
  destruct (one_edge_ok (fun i j => rect (i - t) i (j - 1) (j + 2)) (map (fun j => (t, j)) (range t (s - t))) g l T) as (g1 & -> & T1 & _ & Sr1); [|apply Inj1|].
  { intros i j X. apply in_map_iff in X. destruct X as (y & [= <- <-] & Hy). apply range_In in Hy. split; [unfold ring; lia|]. split.
    - rewrite pad_explicit. intros X. apply Z.ltb_lt in X. apply rect_full; lia.
    - intros a b X. apply rect_In in X. rewrite pad_explicit. destruct (Z.ltb_spec 0 t); [|lia]. split; [reflexivity|]. split; [lia|]. split; [lia|]. apply ring_out. lia. }
  cbn [bind].
  destruct (one_edge_ok (fun i j => rect (i + 1) (i + t + 1) (j - 1) (j + 2)) (map (fun j => (hi, j)) (range t (s - t))) g1 l T1) as (g2 & -> & T2 & K2 & _); [|apply Inj1|].
  { intros i j X. apply in_map_iff in X. destruct X as (y & [= <- <-] & Hy). apply range_In in Hy. split; [unfold ring; lia|]. split.
    - rewrite pad_explicit. intros X. apply Z.ltb_lt in X. apply rect_full; lia.
    - intros a b X. apply rect_In in X. rewrite pad_explicit. destruct (Z.ltb_spec 0 t); [|lia]. split; [reflexivity|]. split; [lia|]. split; [lia|]. apply ring_out. lia. }
  cbn [bind].
  destruct (one_edge_ok (fun i j => rect (i - 1) (i + 2) (j - t) j) (map (fun i => (i, t)) (range t (s - t))) g2 l T2) as (g3 & -> & T3 & K3 & _); [|apply Inj2|].
  { intros i j X. apply in_map_iff in X. destruct X as (y & [= <- <-] & Hy). apply range_In in Hy. split; [unfold ring; lia|]. split.
    - rewrite pad_explicit. intros X. apply Z.ltb_lt in X. apply rect_full; lia.
    - intros a b X. apply rect_In in X. rewrite pad_explicit. destruct (Z.ltb_spec 0 t); [|lia]. split; [reflexivity|]. split; [lia|]. split; [lia|]. apply ring_out. lia. }
  cbn [bind].
  destruct (one_edge_ok (fun i j => rect (i - 1) (i + 2) (j + 1) (j + t + 1)) (map (fun i => (i, hi)) (range t (s - t))) g3 l T3) as (g4 & -> & T4 & K4 & _); [|apply Inj2|].
  { intros i j X. apply in_map_iff in X. destruct X as (y & [= <- <-] & Hy). apply range_In in Hy. split; [unfold ring; lia|]. split.
    - rewrite pad_explicit. intros X. apply Z.ltb_lt in X. apply rect_full; lia.
    - intros a b X. apply rect_In in X. rewrite pad_explicit. destruct (Z.ltb_spec 0 t); [|lia]. split; [reflexivity|]. split; [lia|]. split; [lia|]. apply ring_out. lia. }
  exists g4. split; [reflexivity|]. split; [exact T4|]. intros Y1 Y2. apply K4, K3, K2, Sr1. unfold ycount.
  rewrite (range_app t (t + L + 1) (s - t)) by lia. rewrite (range_cons t), (range_cons (t + L + 1)) by lia. rewrite map_app, filter_app, app_length. cbn [map filter].
  assert (F1 : is_Y g (t, t) = true) by (unfold is_Y; cbn [fst snd]; rewrite Y1; apply Ascii.eqb_refl).
  assert (F2 : is_Y g (t, t + L + 1) = true) by (unfold is_Y; cbn [fst snd]; rewrite Y2; apply Ascii.eqb_refl).
  rewrite F1, F2. cbn [length]. lia.
Qed.

(** ** The unused tiles *)
Lemma enum_nth : forall A (l : list A) k i, nth_error (enum_from k l) i = option_map (fun x => (k + Z.of_nat i, x)) (nth_error l i).
Proof.
  induction l as [|x l IH]; intros k i; cbn [enum_from]; [now destruct i|]. destruct i as [|i]; cbn [nth_error option_map]; [f_equal; f_equal; lia|].
  rewrite IH. destruct (nth_error l i); cbn [option_map]; [|reflexivity]. f_equal. f_equal. lia.
Qed.
Lemma dead_square : forall g, square_grid s g -> square_grid s (dead_tiles p g).
Proof.
  intros g [H1 H2]. unfold dead_tiles. split; [rewrite map_length, enum_from_length; exact H1|]. apply Forall_forall. intros r X. apply in_map_iff in X.
  destruct X as ([i r'] & <- & X). rewrite map_length, enum_from_length. cbn [snd]. apply enum_from_In in X.
  destruct X as [_ X]. apply nth_error_In in X.
  rewrite Forall_forall in H2. now apply H2.
Qed.
Lemma dead_char : forall g a b, char_at (dead_tiles p g) a b = option_map (fun c => if core_pos p a b then c else if Ascii.eqb c kRouting then kDead else c) (char_at g a b).
Proof.
  intros g a b. unfold char_at, dead_tiles. destruct (Z.ltb_spec a 0); [reflexivity|]. destruct (Z.ltb_spec b 0); [reflexivity|]. cbn [orb].
  rewrite nth_error_map, enum_nth. destruct (nth_error g (Z.to_nat a)) as [r|]; cbn [option_map]; [|reflexivity]. cbn [fst snd].
  rewrite nth_error_map, enum_nth. destruct (nth_error r (Z.to_nat b)) as [c|]; cbn [option_map]; [|reflexivity]. cbn [fst snd]. rewrite !Z2Nat.id, !Z.add_0_l by lia. reflexivity.
Qed.

(** ** The layout *)
Lemma core_pos_spec : forall a b, core_pos p a b = true <-> t <= a <= hi /\ t <= b <= hi.
Proof. intros a b. unfold core_pos. rewrite !andb_true_iff, !Z.leb_le, !Z.ltb_lt. lia. Qed.
Lemma grid_ok : exists g l, edpc_grid p = Ok g /\ square_grid s g /\ Z.of_nat (length l) = n /\ NoDup l
  /\ (forall a b, In (a, b) l -> exists k k', 0 <= k < sr /\ 0 <= k' < sr /\ a = coord k /\ b = coord k')
  /\ (forall a b, char_at g a b = Some kQubit <-> In (a, b) l)
  /\ (forall a b, In (a, b) l -> inside p a b)
  /\ (forall a b, inside p a b -> ~ In (a, b) l -> char_at g a b = Some kRouting)
  /\ (forall a b c, char_at g a b = Some c -> c = kQubit \/ c = kRouting \/ c = kYState \/ c = kDead \/ c = (if ep_explicit p then kRegion0 else kMagic))
  /\ (forall a b c, char_at g a b = Some c -> c = kDead \/ c = kRegion0 -> ep_explicit p = true /\ ~ (t <= a <= hi /\ t <= b <= hi))
  /\ (0 < n -> source g).
Proof.
  destruct place_ok as (g0 & l & E0 & T0 & Ln & Co & Ys). destruct (edges_ok g0 l (tidy_edged _ _ T0)) as (g1 & E1 & T1 & Sr). exists (dead_tiles p g1), l.
  unfold edpc_grid. rewrite E0. cbn [bind]. rewrite E1. cbn [bind]. split; [reflexivity|]. split; [apply dead_square, T1|]. split; [exact Ln|]. split; [apply T1|]. split; [exact Co|].
  assert (Nat_ : forall a b c, char_at g1 a b = Some c -> (In (a, b) l /\ c = kQubit /\ inside p a b) \/ (~ In (a, b) l /\ inside p a b /\ c = kRouting)
      \/ (ring p a b /\ (c = kRouting \/ c = kYState \/ (ep_explicit p = false /\ c = kMagic)))
      \/ (~ ring p a b /\ ~ inside p a b /\ (c = kRouting \/ ep_explicit p = true /\ c = kRegion0))).
  { intros a b c E. destruct (char_at_dim _ _ _ _ _ (ed_square _ _ T1) E) as [Da Db].
    assert (Dec : {In (a, b) l} + {~ In (a, b) l}) by (apply in_dec; intros [x y] [x' y']; destruct (Z.eq_dec x x'), (Z.eq_dec y y'); [left|right|right|right]; congruence).
    destruct Dec as [I|I]; [left; destruct (ed_qubit _ _ T1 a b I); split; [exact I|]; split; [congruence|assumption]|].
    assert (ring p a b \/ inside p a b \/ (~ ring p a b /\ ~ inside p a b)) as [R|[R|[R1 R2]]] by (unfold ring, inside; lia).
    - right; right; left. split; [exact R|]. destruct (ed_ring _ _ T1 a b R) as [X|[X|[X1 X]]]; rewrite E in X; injection X as X; auto.
    - right; left. split; [exact I|]. split; [exact R|]. pose proof (ed_free _ _ T1 a b R I). congruence.
    - right; right; right. split; [exact R1|]. split; [exact R2|]. destruct (ed_out _ _ T1 a b Da Db R1 R2) as [X|[X1 X]]; rewrite E in X; injection X as X; auto. }
  assert (Ins : forall a b, inside p a b -> core_pos p a b = true) by (intros a b [H1 H2]; apply core_pos_spec; lia).
  split; [|split; [|split; [|split; [|split]]]].
  - intros a b. rewrite dead_char. split.
    + destruct (char_at g1 a b) as [c|] eqn:E; cbn [option_map]; [|discriminate]. intros X. destruct (Nat_ a b c E) as [(I & _)|[(_ & I & ->)|[(R & H)|(R1 & R2 & H)]]]; [exact I| | |]; exfalso.
      * rewrite (Ins a b I) in X. discriminate.
      * destruct H as [-> | [-> | [_ ->]]]; destruct (core_pos p a b); discriminate.
      * destruct H as [-> | [_ ->]]; destruct (core_pos p a b); discriminate.
    + intros I. destruct (ed_qubit _ _ T1 a b I) as [R ->]. cbn [option_map]. now rewrite (Ins a b R).
  - intros a b I. apply (ed_qubit _ _ T1 a b I).
  - intros a b R I. rewrite dead_char, (ed_free _ _ T1 a b R I). cbn [option_map]. now rewrite (Ins a b R).
  - intros a b c. rewrite dead_char. destruct (char_at g1 a b) as [c0|] eqn:E; cbn [option_map]; [|discriminate]. intros [= <-].
    destruct (Nat_ a b c0 E) as [(_ & -> & _)|[(_ & _ & ->)|[(R & H)|(R1 & R2 & H)]]].
    + destruct (core_pos p a b); auto.
    + destruct (core_pos p a b); cbn; auto.
    + destruct H as [-> | [-> | [-> ->]]]; destruct (core_pos p a b); cbn; auto 6.
    + destruct H as [-> | [-> ->]]; destruct (core_pos p a b); cbn; auto 6.
  - intros a b c. rewrite dead_char. destruct (char_at g1 a b) as [c0|] eqn:E; cbn [option_map]; [|discriminate]. intros [= <-] Hc.
    destruct (char_at_dim _ _ _ _ _ (ed_square _ _ T1) E) as [Da Db].
    assert (Cp : core_pos p a b = false).
    { destruct (core_pos p a b) eqn:Cp; [exfalso|reflexivity]. pose proof (proj1 (core_pos_spec a b) Cp) as Cp'. destruct (Nat_ a b c0 E) as [(_ & -> & _)|[(_ & _ & ->)|[(R & H)|(R1 & R2 & H)]]].
      - destruct Hc; discriminate.
      - destruct Hc; discriminate.
      - destruct H as [-> | [-> | [_ ->]]]; destruct Hc; discriminate.
      - unfold ring, inside in *. lia. }
    assert (Out : ~ (t <= a <= hi /\ t <= b <= hi)) by (intros X; apply core_pos_spec in X; congruence). split; [|exact Out].
    rewrite pad_explicit. apply Z.ltb_lt. lia.
  - intros Hn. destruct (Ys Hn) as [Y1 Y2]. destruct (Sr Y1 Y2) as (a & b & X). exists a, b. rewrite dead_char, X. cbn [option_map]. destruct (core_pos p a b), (ep_explicit p); reflexivity.
Qed.
End Shape.
