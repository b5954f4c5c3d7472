(** Proofs about the wave pipeline. *)
From Verif Require Import MarksModel WaveDefer Base InstrProofs PatchesModel LayoutModel InstrModel LoweringModel DagModel DagProofs SliceModel CompactProofs ApplyModel ApplyProofs
  RunModel RunProofs WaveModel SchedSpec SchedProofs WaveSpec.
From Coq Require Import Permutation.
Open Scope nat_scope.

Lemma put_is {B} : @put B = @put_at B. Proof. reflexivity. Qed.

(** ** The constructor *)

Definition deps_of (recs : list (instr * list nat)) : list (list nat) := map snd recs.
(** [d] is a dependent of [k] *)
Definition edge (dl : list (list nat)) (k d : nat) : Prop := exists ds, nth_error dl k = Some ds /\ In d ds.
Inductive reach (dl : list (list nat)) (i : nat) : nat -> Prop :=
| re_one j : edge dl i j -> reach dl i j
| re_more k j : reach dl i k -> edge dl k j -> reach dl i j.

Lemma reach_incl : forall dl dl' i j, (forall k d, edge dl k d -> edge dl' k d) -> reach dl i j -> reach dl' i j.
Proof. intros dl dl' i j H R. induction R; [apply re_one|eapply re_more]; eauto. Qed.

Definition occ (l : list nat) (j : nat) : nat := count_occ Nat.eq_dec l j.
Lemma occ_app : forall a b j, occ (a ++ b) j = occ a j + occ b j.
Proof. intros. unfold occ. apply count_occ_app. Qed.
Lemma occ_In : forall l j, In j l <-> 0 < occ l j.
Proof. intros. unfold occ. rewrite (count_occ_In Nat.eq_dec). lia. Qed.
Lemma occ_zero : forall l j, ~ In j l <-> occ l j = 0.
Proof. intros. rewrite occ_In. lia. Qed.
Lemma occ_concat_put : forall dl k ds j d, nth_error dl k = Some ds ->
  occ (concat (put_at k (ds ++ [d]) dl)) j = occ (concat dl) j + (if Nat.eqb d j then 1 else 0).
Proof.
  induction dl as [|x dl IH]; intros [|k] ds j d H; cbn in H; try discriminate.
  - injection H as ->. change (put_at 0 (ds ++ [d]) (ds :: dl)) with ((ds ++ [d]) :: dl). cbn [concat]. rewrite !occ_app. unfold occ at 2. cbn [count_occ].
    destruct (Nat.eq_dec d j) as [->|D]; [rewrite Nat.eqb_refl|rewrite (proj2 (Nat.eqb_neq d j)) by auto]; lia.
  - change (put_at (S k) (ds ++ [d]) (x :: dl)) with (x :: put_at k (ds ++ [d]) dl). cbn [concat]. rewrite !occ_app, (IH _ _ _ _ H). lia.
Qed.
Lemma edge_put : forall dl k ds d0, nth_error dl k = Some ds -> forall i d, edge (put_at k (ds ++ [d0]) dl) i d <-> edge dl i d \/ (i = k /\ d = d0).
Proof.
  intros dl k ds d0 H i d. unfold edge. pose proof (nth_short _ _ _ H) as K. destruct (Nat.eq_dec k i) as [<-|D].
  - rewrite put_at_same by auto. split.
    + intros (l & E & X). injection E as <-. apply in_app_iff in X. destruct X as [X|[<-|[]]]; [left; eauto|auto].
    + intros [(l & E & X)|[_ ->]]; [assert (l = ds) by congruence; subst|]; eexists; split; try reflexivity; apply in_app_iff; auto. right. now left.
  - rewrite put_at_other by auto. split; [eauto|]. intros [?|[E _]]; [auto|congruence].
Qed.
Lemma deps_put : forall recs k x ds, nth_error recs k = Some (x, ds) -> forall d, deps_of (put k (x, ds ++ [d]) recs) = put_at k (ds ++ [d]) (deps_of recs).
Proof.
  intros recs k x ds _ d. rewrite put_is. unfold deps_of, put_at. rewrite map_app, firstn_map. cbn [map snd]. rewrite skipn_map. reflexivity.
Qed.
Lemma fst_put : forall (recs : list (instr * list nat)) k x ds ds', nth_error recs k = Some (x, ds) -> map fst (put k (x, ds') recs) = map fst recs.
Proof.
  induction recs as [|[y l] recs IH]; intros [|k] x ds ds' H; cbn in H; try discriminate; [injection H as -> ->; reflexivity|].
  change (put (S k) (x, ds') ((y, l) :: recs)) with ((y, l) :: put k (x, ds') recs). cbn [map fst]. f_equal. eapply IH; eauto.
Qed.
Lemma deps_nth : forall recs k ds, nth_error (deps_of recs) k = Some ds <-> exists x, nth_error recs k = Some (x, ds).
Proof.
  intros. unfold deps_of. rewrite nth_error_map. destruct (nth_error recs k) as [[x l]|]; cbn; split.
  - intros E. injection E as <-. eauto. - intros (y & E). congruence. - discriminate. - intros (y & E). discriminate.
Qed.

(** How many of the patches were met before *)
Definition hits (last : list (N * nat)) (l : list N) : nat :=
  length (filter (fun q => match alookup last q with Some _ => true | None => false end) l).

Lemma note_patches : forall id l recs c h last recs' c' h' last', NoDup l ->
  (forall q k, In q l -> alookup last q = Some k -> k < length recs) ->
  fold_left (note_patch id) l (recs, c, h, last) = (recs', c', h', last') -> (c < 256)%N ->
  map fst recs' = map fst recs /\ length recs' = length recs
  /\ (forall k d, edge (deps_of recs') k d <-> edge (deps_of recs) k d \/ (d = id /\ exists q, In q l /\ alookup last q = Some k))
  /\ (forall j, occ (concat (deps_of recs')) j = occ (concat (deps_of recs)) j + (if Nat.eqb id j then hits last l else 0))
  /\ c' = ((c + N.of_nat (hits last l)) mod 256)%N /\ h' = (h && Nat.eqb (hits last l) 0)%bool
  /\ forall q, alookup last' q = if memN q l then Some id else alookup last q.
Proof.
  intros id l. induction l as [|q l IH]; intros recs c h last recs' c' h' last' Nd Hl F Hc.
  - injection F as <- <- <- <-. unfold hits. cbn [filter length]. rewrite N.add_0_r, N.mod_small, andb_true_r by lia.
    repeat split; auto; [intros [?|[_ (q & [] & _)]]; auto|intros j; destruct (Nat.eqb id j); lia].
  - inversion Nd as [|? ? Nq Nd']; subst. cbn [fold_left] in F.
    assert (Lk : forall q', In q' l -> alookup ((q, id) :: last) q' = alookup last q').
    { intros q' Hq. cbn [alookup]. destruct (N.eqb_spec q' q) as [->|]; [contradiction|reflexivity]. }
    assert (Hh : hits ((q, id) :: last) l = hits last l).
    { unfold hits. f_equal. clear - Lk. induction l as [|x l IH]; [reflexivity|]. cbn [filter]. rewrite Lk by now left. rewrite IH by (intros; apply Lk; now right). reflexivity. }
    assert (Tail : forall recs1 c1 h1, length recs1 = length recs -> fold_left (note_patch id) l (recs1, c1, h1, (q, id) :: last) = (recs', c', h', last') -> (c1 < 256)%N ->
      map fst recs' = map fst recs1 /\ length recs' = length recs1
      /\ (forall k d, edge (deps_of recs') k d <-> edge (deps_of recs1) k d \/ (d = id /\ exists q, In q l /\ alookup last q = Some k))
      /\ (forall j, occ (concat (deps_of recs')) j = occ (concat (deps_of recs1)) j + (if Nat.eqb id j then hits last l else 0))
      /\ c' = ((c1 + N.of_nat (hits last l)) mod 256)%N /\ h' = (h1 && Nat.eqb (hits last l) 0)%bool
      /\ forall q', alookup last' q' = if memN q' (q :: l) then Some id else alookup last q').
    { intros recs1 c1 h1 Ln F1 Hc1. assert (Hl1 : forall q' k, In q' l -> alookup ((q, id) :: last) q' = Some k -> k < length recs1).
      { intros q' k Hq Hk. rewrite Lk in Hk by auto. rewrite Ln. apply (Hl q'); [now right|exact Hk]. }
      destruct (IH recs1 c1 h1 _ _ _ _ _ Nd' Hl1 F1 Hc1) as (A1 & A2 & A3 & A4 & A5 & A6 & A7).
      { rewrite Hh in *. split; [exact A1|]. split; [exact A2|]. split; [|split; [exact A4|split; [exact A5|split; [exact A6|]]]].
        + intros k d. rewrite A3. split; (intros [?|[-> (q' & Hq & Hk)]]; [auto|right; split; [reflexivity|]; exists q'; split; [exact Hq|]]).
          * rewrite Lk in Hk; auto. * rewrite Lk; auto.
        + intros q'. rewrite A7. unfold memN. cbn [existsb]. destruct (existsb (N.eqb q') l); [rewrite orb_true_r; reflexivity|]. rewrite orb_false_r. cbn [alookup].
          destruct (N.eqb q' q); reflexivity. } }
    unfold note_patch at 2 in F. destruct (alookup last q) as [k|] eqn:Lq.
    + assert (Kl : k < length recs) by (apply (Hl q); [now left|exact Lq]).
      destruct (nth_error recs k) as [[x ds]|] eqn:Rk; [|apply nth_error_None in Rk; lia].
      assert (Dk : nth_error (deps_of recs) k = Some ds) by (apply deps_nth; eauto).
      destruct (Tail _ _ _ (put_at_length (x, ds ++ [id]) k recs Kl) F) as (A1 & A2 & A3 & A4 & A5 & A6 & A7); [apply N.mod_lt; lia|].
      rewrite (fst_put _ _ _ _ _ Rk) in A1. change (put_at k) with (@put (instr * list nat) k) in A2.
      split; [exact A1|]. split; [rewrite A2, put_is; apply put_at_length; exact Kl|].
      assert (Hq : hits last (q :: l) = S (hits last l)) by (unfold hits; cbn [filter]; rewrite Lq; reflexivity). rewrite Hq.
      split; [|split; [|split; [|split; [|exact A7]]]].
      * intros i d. rewrite A3, (deps_put _ _ _ _ Rk), (edge_put _ _ _ _ Dk). split.
        -- intros [[?|[-> ->]]|[-> (q' & ? & ?)]]; [auto|right; split; [reflexivity|]; exists q; split; [now left|exact Lq]|].
           right. split; [reflexivity|]. exists q'. split; [now right|auto].
        -- intros [?|[-> (q' & [<-|?] & Hk)]]; [auto|left; right; split; congruence|]. right. split; [reflexivity|]. eauto.
      * intros j. rewrite A4, (deps_put _ _ _ _ Rk), (occ_concat_put _ _ _ _ _ Dk). destruct (Nat.eqb id j); lia.
      * rewrite A5, N.add_mod_idemp_l by lia. f_equal. lia.
      * rewrite A6. cbn. rewrite andb_false_r. reflexivity.
    + destruct (Tail _ _ _ eq_refl F Hc) as (A1 & A2 & A3 & A4 & A5 & A6 & A7).
      assert (Hq : hits last (q :: l) = hits last l) by (unfold hits; cbn [filter]; rewrite Lq; reflexivity). rewrite Hq.
      split; [exact A1|]. split; [exact A2|]. split; [|split; [exact A4|split; [exact A5|split; [exact A6|exact A7]]]].
      intros i d. rewrite A3. split; (intros [?|[-> (q' & Hq' & Hk)]]; [auto|]).
      * right. split; [reflexivity|]. exists q'. split; [now right|exact Hk].
      * destruct Hq' as [<-|Hq']; [congruence|]. right. split; [reflexivity|]. eauto.
Qed.

Lemma deps_In : forall i q, In q (patch_dependencies i) <-> In q (operating_patches i).
Proof.
  intros i q. unfold patch_dependencies, set_union.
  assert (G : forall b a, (forall x, In x b -> In x a) -> In q (fold_left (fun l x => oset_insert x l) b a) <-> In q a).
  { induction b as [|x b IH]; intros a H; [reflexivity|]. cbn [fold_left]. rewrite IH.
    - rewrite oset_insert_In. split; [|auto]. intros [->|?]; [apply H; now left|auto].
    - intros y Hy. rewrite oset_insert_In. right. apply H. now right. }
  apply G. intros x Hx. unfold operating_patches.
  assert (J : forall (l : list N) a, In x a -> In x (fold_left (fun l x => oset_insert x l) l a)).
  { induction l as [|y l IH]; intros a Ha; cbn [fold_left]; [auto|]. apply IH, oset_insert_In. auto. }
  destruct (op i); rewrite ?oset_insert_In; auto.
  assert (K : forall (l : list spatch) a, In x a -> In x (fold_left (fun acc p => match p_id (sp_patch p) with Some x => oset_insert x acc | None => acc end) l a)).
  { induction l as [|y l IH]; intros a Ha; cbn [fold_left]; [auto|]. apply IH. destruct (p_id (sp_patch y)); [apply oset_insert_In; auto|auto]. }
  apply K, Hx.
Qed.
Lemma deps_NoDup : forall i, NoDup (clients i) -> NoDup (patch_dependencies i).
Proof.
  intros i H. unfold patch_dependencies, set_union.
  assert (G : forall (b a : list N), NoDup a -> NoDup (fold_left (fun l x => oset_insert x l) b a)).
  { induction b as [|x b IH]; intros a Ha; cbn [fold_left]; [auto|]. apply IH, oset_insert_NoDup, Ha. }
  apply G. unfold operating_patches.
  assert (K : forall (l : list spatch) a, NoDup a -> NoDup (fold_left (fun acc p => match p_id (sp_patch p) with Some x => oset_insert x acc | None => acc end) l a)).
  { induction l as [|y l IH]; intros a Ha; cbn [fold_left]; [auto|]. apply IH. destruct (p_id (sp_patch y)); [apply oset_insert_NoDup; auto|auto]. }
  destruct (op i); repeat apply oset_insert_NoDup; auto.
Qed.
Lemma clash_deps : forall u v, clash u v = true <-> exists q, In q (patch_dependencies u) /\ In q (patch_dependencies v).
Proof.
  intros u v. unfold clash, can_commute, set_intersection. split.
  - destruct (filter (fun x => memN x (operating_patches v)) (operating_patches u)) as [|q l] eqn:F; [discriminate|]. intros _.
    assert (In q (q :: l)) by now left. rewrite <- F in H. apply filter_In in H. destruct H as [H1 H2]. exists q. rewrite !deps_In. split; [auto|]. now apply memN_In.
  - intros (q & H1 & H2). rewrite deps_In in H1, H2.
    assert (In q (filter (fun x => memN x (operating_patches v)) (operating_patches u))) by (apply filter_In; split; [auto|now apply memN_In]).
    destruct (filter (fun x => memN x (operating_patches v)) (operating_patches u)); [destruct H|reflexivity].
Qed.

Record sets (prog : list instr) (u : setup) : Prop := {
  se_prog : map fst (u_recs u) = prog;
  se_len : length (u_counts u) = length prog;
  se_count : forall j c, nth_error (u_counts u) j = Some c -> c = N.of_nat (occ (concat (deps_of (u_recs u))) j) /\ (c <= 255)%N;
  se_nd : NoDup (u_heads u);
  se_heads : forall j, In j (u_heads u) <-> j < length prog /\ ~ In j (concat (deps_of (u_recs u)));
  se_edge : forall k d, edge (deps_of (u_recs u)) k d -> k < d < length prog /\
    exists x y, nth_error prog k = Some x /\ nth_error prog d = Some y /\ clash x y = true;
  se_lt : forall q k, alookup (u_last u) q = Some k -> exists x, nth_error prog k = Some x /\ In q (patch_dependencies x);
  se_last : forall q i x, nth_error prog i = Some x -> In q (patch_dependencies x) ->
    exists k, alookup (u_last u) q = Some k /\ (i = k \/ reach (deps_of (u_recs u)) i k);
  se_reach : forall i j x y, i < j -> nth_error prog i = Some x -> nth_error prog j = Some y -> clash x y = true -> reach (deps_of (u_recs u)) i j
}.

Lemma in_concat_edge : forall dl j, In j (concat dl) <-> exists k, edge dl k j.
Proof.
  intros dl j. rewrite in_concat. unfold edge. split.
  - intros (ds & H1 & H2). apply In_nth_error in H1. destruct H1 as (k & H1). eauto.
  - intros (k & ds & H1 & H2). exists ds. split; [eapply nth_error_In; eauto|auto].
Qed.
Lemma edge_snoc : forall dl k d, edge (dl ++ [[]]) k d <-> edge dl k d.
Proof.
  intros dl k d. unfold edge. split; intros (ds & H1 & H2).
  - destruct (Nat.lt_ge_cases k (length dl)) as [L|G]; [rewrite nth_error_app1 in H1 by auto; eauto|].
    rewrite nth_error_app2 in H1 by auto. destruct (k - length dl) as [|[|?]]; cbn in H1; try discriminate. injection H1 as <-. destruct H2.
  - exists ds. split; [|auto]. rewrite nth_error_app1; [auto|eapply nth_short; eauto].
Qed.

Lemma sets_all : forall prog, Forall few_patches prog -> sets prog (setup_of prog).
Proof.
  intros prog. unfold setup_of. induction prog as [|i prog IH] using rev_ind; intros Al.
  - constructor; cbn; try (intros; exfalso; eauto; fail); auto.
    + intros [|j] c H; discriminate. + constructor. + intros j. split; [intros []|lia].
    + intros k d (ds & H & _). destruct k; discriminate. + discriminate. + intros q [|i] x H; discriminate. + intros [|i] j x y _ H; discriminate.
  - apply Forall_app in Al. destruct Al as [Al Fi]. specialize (IH Al). inversion Fi as [|? ? [Ci Di] _]; subst. rewrite fold_left_app. cbn [fold_left].
    set (u := fold_left note_instr prog (mkSetup [] [] [] [])) in *. destruct IH as [Pr Ln Ct Nd Hd Ed Lt La Re].
    unfold note_instr. set (id := length (u_recs u)).
    assert (Id : id = length prog) by (unfold id; rewrite <- Pr at 1; rewrite map_length; reflexivity).
    destruct (fold_left (note_patch id) (patch_dependencies i) (u_recs u ++ [(i, [])], 0%N, true, u_last u)) as [[[recs' c'] h'] last'] eqn:F.
    apply note_patches in F; [|apply deps_NoDup; exact Ci| |lia].
    2: { intros q k _ Hk. apply Lt in Hk. destruct Hk as (x & Hx & _). apply nth_short in Hx. rewrite app_length. fold id. lia. }
    destruct F as (A1 & A2 & A3 & A4 & A5 & A6 & A7).
    assert (D0 : deps_of (u_recs u ++ [(i, [])]) = deps_of (u_recs u) ++ [[]]) by (unfold deps_of; rewrite map_app; reflexivity). rewrite D0 in *.
    assert (C0 : concat (deps_of (u_recs u) ++ [[]]) = concat (deps_of (u_recs u))) by (rewrite concat_app; cbn; apply app_nil_r). rewrite C0 in *.
    assert (Hits : hits (u_last u) (patch_dependencies i) <= 255).
    { unfold hits. etransitivity; [|exact Di]. clear. induction (patch_dependencies i) as [|q l IH]; [auto|]. cbn [filter]. destruct (alookup (u_last u) q); cbn [length]; lia. }
    assert (No : occ (concat (deps_of (u_recs u))) id = 0).
    { apply occ_zero. rewrite in_concat_edge. intros (k & Hk). apply Ed in Hk. lia. }
    assert (E3 : forall k d, edge (deps_of recs') k d <-> edge (deps_of (u_recs u)) k d \/ d = id /\ (exists q, In q (patch_dependencies i) /\ alookup (u_last u) q = Some k)).
    { intros k d. rewrite A3, edge_snoc. reflexivity. }
    assert (Hz : hits (u_last u) (patch_dependencies i) = 0 <-> forall q, In q (patch_dependencies i) -> alookup (u_last u) q = None).
    { unfold hits. clear. induction (patch_dependencies i) as [|q l IH]; cbn [filter length]; [split; [intros _ q []|auto]|].
      destruct (alookup (u_last u) q) eqn:L; cbn [length]; [split; [lia|intros H; specialize (H q (or_introl eq_refl)); congruence]|].
      rewrite IH. split; intros H q' Hq; [destruct Hq as [<-|Hq]; auto|apply H; now right]. }
    assert (Pn : forall j, j < length prog -> nth_error (prog ++ [i]) j = nth_error prog j) by (intros; apply nth_error_app1; auto).
    assert (Pi : nth_error (prog ++ [i]) (length prog) = Some i) by (rewrite nth_error_app2, Nat.sub_diag by auto; reflexivity).
    assert (Up : forall a b, reach (deps_of (u_recs u)) a b -> reach (deps_of recs') a b) by (intros; eapply reach_incl; [|eauto]; intros; apply E3; auto).
    constructor; cbn [u_recs u_counts u_heads u_last].
    + rewrite A1, map_app, Pr. reflexivity.
    + rewrite !app_length. cbn [length]. lia.
    + intros j c Hj. rewrite A4. destruct (Nat.lt_ge_cases j (length prog)) as [L|G].
      * rewrite nth_error_app1 in Hj by lia. rewrite (proj2 (Nat.eqb_neq id j)) by lia. rewrite Nat.add_0_r. apply Ct. exact Hj.
      * rewrite nth_error_app2 in Hj by lia. destruct (j - length (u_counts u)) as [|[|?]] eqn:Ej; cbn in Hj; try discriminate. injection Hj as <-.
        assert (j = id) by lia. subst j. rewrite Nat.eqb_refl, No, A5, N.mod_small by lia. lia.
    + destruct h'; [|exact Nd]. apply NoDup_app_intro; auto; [repeat constructor; intros []|]. intros j Hj [<-|[]]. apply Hd in Hj. lia.
    + intros j. assert (In j (if h' then u_heads u ++ [id] else u_heads u) <-> In j (u_heads u) \/ (j = id /\ h' = true)).
      { destruct h'; [rewrite in_app_iff; cbn; intuition congruence|]. intuition congruence. }
      rewrite H, Hd, app_length, !in_concat_edge. cbn [length]. setoid_rewrite E3. rewrite A6. cbn [andb]. rewrite Nat.eqb_eq, Hz. split.
      * intros [[L G]|[-> G]].
        -- split; [lia|]. intros (k & [E|[-> _]]); [eauto|lia].
        -- split; [lia|]. intros (k & [E|[_ (q & Hq & Hk)]]); [apply Ed in E; lia|]. rewrite (G q Hq) in Hk. discriminate.
      * intros [L G]. destruct (Nat.eq_dec j id) as [->|D].
        -- right. split; [reflexivity|]. intros q Hq. destruct (alookup (u_last u) q) as [k|] eqn:Lk; [|reflexivity]. exfalso. apply G. exists k. right. eauto.
        -- left. split; [lia|]. intros (k & E). apply G. eauto.
    + intros k d E. rewrite app_length. cbn [length]. apply E3 in E. destruct E as [E|[-> (q & Hq & Hk)]].
      * apply Ed in E. destruct E as (L & x & y & Hx & Hy & C). split; [lia|]. exists x, y. rewrite !Pn by lia. auto.
      * apply Lt in Hk. destruct Hk as (x & Hx & Hi). pose proof (nth_short _ _ _ Hx). split; [lia|]. exists x, i. rewrite Pn by lia. rewrite Id. split; [exact Hx|]. split; [exact Pi|].
        apply clash_deps. eauto.
    + intros q k. rewrite A7. destruct (memN q (patch_dependencies i)) eqn:M.
      * intros E. injection E as <-. exists i. rewrite Id. split; [exact Pi|now apply memN_In].
      * intros E. apply Lt in E. destruct E as (x & Hx & Hi). exists x. rewrite Pn by (eapply nth_short; eauto). auto.
    + intros q j x Hj Hq. rewrite A7. destruct (Nat.lt_ge_cases j (length prog)) as [L|G].
      * rewrite Pn in Hj by auto. destruct (La q j x Hj Hq) as (k & Hk & C). destruct (memN q (patch_dependencies i)) eqn:M.
        -- exists id. split; [reflexivity|]. right.
           assert (E : edge (deps_of recs') k id) by (apply E3; right; split; [reflexivity|]; exists q; split; [now apply memN_In|exact Hk]).
           destruct C as [->|C]; [now apply re_one|]. eapply re_more; [apply Up; exact C|exact E].
        -- exists k. split; [exact Hk|]. destruct C as [->|C]; auto.
      * assert (j = length prog). { apply nth_short in Hj. rewrite app_length in Hj. cbn in Hj. lia. } subst j. assert (x = i) by congruence. subst x.
        rewrite (proj2 (memN_In q _) Hq). exists id. split; [reflexivity|left; lia].
    + intros a b x y Lab Ha Hb C. destruct (Nat.lt_ge_cases b (length prog)) as [L|G].
      * rewrite Pn in Ha, Hb by lia. apply Up. eapply Re; eauto.
      * assert (b = length prog). { apply nth_short in Hb. rewrite app_length in Hb. cbn in Hb. lia. } subst b. assert (y = i) by congruence. subst y.
        rewrite Pn in Ha by lia. apply clash_deps in C. destruct C as (q & Q1 & Q2). destruct (La q a x Ha Q1) as (k & Hk & C).
        assert (E : edge (deps_of recs') k (length prog)) by (apply E3; right; split; [lia|]; exists q; auto).
        destruct C as [->|C]; [now apply re_one|]. eapply re_more; [apply Up; exact C|exact E].
Qed.

(** ** The queues *)

(** The dependents of all instructions of which something is left *)
Fixpoint owing (dl : list (list nat)) (p : list (option instr)) : list nat :=
  match dl, p with
  | ds :: dl', o :: p' => (match o with Some _ => ds | None => [] end) ++ owing dl' p'
  | _, _ => []
  end.
Lemma owing_edge : forall dl p j, In j (owing dl p) <-> exists k x, nth_error p k = Some (Some x) /\ edge dl k j.
Proof.
  induction dl as [|ds dl IH]; intros p j.
  - cbn. split; [intros []|]. intros (k & x & _ & l & H & _). destruct k; discriminate.
  - destruct p as [|o p]; cbn [owing].
    { split; [intros []|]. intros (k & x & H & _). destruct k; discriminate. }
    rewrite in_app_iff, IH. split.
    + intros [H|(k & x & H & l & E & Hi)]; [destruct o as [x|]; [|destruct H]; exists 0, x; split; [reflexivity|]; exists ds; auto|].
      exists (S k), x. split; [exact H|]. exists l. auto.
    + intros (k & x & H & l & E & Hi). destruct k as [|k]; cbn in H, E; [injection H as ->; injection E as ->; auto|]. right. exists k, x. split; [exact H|]. exists l. auto.
Qed.
Lemma owing_none : forall dl p k x ds, nth_error p k = Some (Some x) -> nth_error dl k = Some ds ->
  forall j, occ (owing dl p) j = occ ds j + occ (owing dl (put_at k None p)) j.
Proof.
  induction dl as [|d dl IH]; intros p k x ds Hp Hd j; [destruct k; discriminate|]. destruct p as [|o p]; [destruct k; discriminate|].
  destruct k as [|k]; cbn in Hp, Hd.
  - injection Hp as ->. injection Hd as ->. change (put_at 0 None (Some x :: p)) with (@None instr :: p). cbn [owing app]. rewrite occ_app. reflexivity.
  - change (put_at (S k) None (o :: p)) with (o :: put_at k None p). cbn [owing]. rewrite !occ_app, (IH _ _ _ _ Hp Hd). lia.
Qed.
Lemma owing_some : forall dl p k x y, nth_error p k = Some (Some x) -> owing dl (put_at k (Some y) p) = owing dl p.
Proof.
  induction dl as [|d dl IH]; intros p k x y Hp; [reflexivity|]. destruct p as [|o p]; [destruct k; discriminate|].
  destruct k as [|k]; cbn in Hp.
  - injection Hp as ->. reflexivity.
  - change (put_at (S k) (Some y) (o :: p)) with (o :: put_at k (Some y) p). cbn [owing]. rewrite (IH _ _ _ _ Hp). reflexivity.
Qed.
Lemma owing_start : forall (prog : list instr) dl, length dl = length prog -> owing dl (map Some prog) = concat dl.
Proof. induction prog as [|x prog IH]; intros [|d dl] H; try discriminate; [reflexivity|]. cbn. rewrite IH by (cbn in H; lia). reflexivity. Qed.

Definition accepted (j : nat) (acts : list act) : Prop := exists y b, In (y, b) (tries j acts) /\ a_error b = false.
Lemma accepted_app : forall j a b, accepted j a -> accepted j (a ++ b).
Proof. intros j a b (y & c & H & E). exists y, c. split; [rewrite tries_app; apply in_app_iff; auto|auto]. Qed.

Section Loop.
Variables (e : env) (late : nat -> bool) (grow : nat -> bool) (prog : list instr) (w0 : world).
Hypothesis whole : uncut e prog.
Hypothesis few : Forall few_patches prog.
Notation n := (length prog).
Notation dl := (deps_of (u_recs (setup_of prog))).
Notation wave_left := (wave_left e late grow prog w0).
Notation sched := (scheduled e clash less_again prog w0).
Notation home org := (fun r : nat => nth r org 0).

Definition moved_fact (acts : list act) : Prop :=
  (exists j x a o, In (Try j x a o) acts /\ a_error a = false /\ a_follow a <> []) /\ exists m, n <= m /\ grow m = true.
Lemma moved_app : forall a b, moved_fact a -> moved_fact (a ++ b).
Proof. intros a b [(j & x & c & o & H & E) M]. split; [|exact M]. exists j, x, c, o. split; [apply in_app_iff; auto|exact E]. Qed.

Notation lost := (lost e).
Notation moves := (moves e).

(** [Q]: the records that are in some queue; [D]: the dependents that are still to be told;
    [H]: the instructions in hand. *)
Record wave_at (s : wave_st) (acts : list act) (p : list (option instr)) (org Q D H : list nat) : Prop := {
  wa_org : length org = length (v_recs s);
  wa_cl : length (v_counts s) = length (v_recs s);
  wa_first : forall j, j < n -> nth_error org j = Some j;
  wa_rec : forall r x ds, nth_error (v_recs s) r = Some (x, ds) -> exists j, nth_error org r = Some j /\ nth_error dl j = Some ds;
  wa_queue : forall r, In r Q -> exists j x ds, nth_error org r = Some j /\ nth_error (v_recs s) r = Some (x, ds) /\
    nth_error p j = Some (Some x) /\ ~ In j (D ++ owing dl p);
  wa_held : forall j, In j H -> (exists x, nth_error p j = Some (Some x)) /\ ~ In j (D ++ owing dl p);
  wa_once : NoDup (map (home org) Q ++ H);
  wa_rest : forall j x0, nth_error prog j = Some x0 -> In j (map (home org) Q ++ H) \/
    (nth_error p j = Some None /\ ~ In j (D ++ owing dl p)) \/
    (nth_error p j = Some (Some x0) /\ In j (D ++ owing dl p) /\ (exists ds, nth_error (v_recs s) j = Some (x0, ds)) /\ tries j acts = []) \/
    (lost p acts j /\ ~ In j (D ++ owing dl p));
  wa_count : forall j c, j < n -> nth_error (v_counts s) j = Some c -> c = N.of_nat (occ (D ++ owing dl p) j);
  wa_small : forall j, occ (D ++ owing dl p) j <= 255;
  wa_D : forall d, In d D -> d < n;
  wa_defer : (e_edpc e = false -> v_defer s = []) /\
    forall r, In r (v_defer s) -> In r Q /\ exists j x, nth_error org r = Some j /\ nth_error p j = Some (Some x) /\ found x;
  wa_prox : forall r, In r (v_nprox s) -> exists j, nth_error org r = Some j /\ accepted j acts;
  wa_limit : e_edpc e = false -> forall j x0 x, nth_error prog j = Some x0 -> nth_error p j = Some (Some x) ->
    (forall y b, In (y, b) (tries j acts) -> a_error b = true) -> (N.of_nat (length (tries j acts)) + wait x <= wait x0 + 1)%N;
  wa_sched : sched acts (v_world s) p;
  wa_events : t_events (v_tally s) = seen acts;
  wa_instrs : N.of_nat (length (seen acts)) = (t_instrs (v_tally s) + N.of_nat (length (emitted (seen acts))))%N;
  wa_slices : t_slices (v_tally s) = (1 + N.of_nat (length (emitted (seen acts))))%N;
  wa_moved : v_moved s <> 0 -> moved_fact acts
}.

Lemma wave_perm : forall s acts p org Q D H Q', wave_at s acts p org Q D H -> Permutation Q Q' -> wave_at s acts p org Q' D H.
Proof.
  intros s acts p org Q D H Q' [? ? ? ? Qu ? On Re ? ? ? De ? ? ? ? ? ? ?] P. constructor; auto.
  - intros r Hr. apply Qu. eapply Permutation_in; [apply Permutation_sym; exact P|exact Hr].
  - eapply Permutation_NoDup; [|exact On]. apply Permutation_app_tail, Permutation_map, P.
  - intros j x0 Hj. destruct (Re j x0 Hj) as [Hi|Hi]; [left|auto]. eapply Permutation_in; [|exact Hi]. apply Permutation_app_tail, Permutation_map, P.
  - split; [apply De|]. intros r Hr. destruct (proj2 De r Hr) as [A B]. split; [eapply Permutation_in; eauto|exact B].
Qed.

(** What is before an instruction that waits for nothing is over. *)
Lemma none_before : forall s acts p org Q D H, wave_at s acts p org Q D H -> forall i j, reach dl i j -> ~ In j (D ++ owing dl p) -> nth_error p i = Some None.
Proof.
  intros s acts p org Q D H W i j R. pose proof (sets_all prog few) as S.
  assert (One : forall k j, edge dl k j -> ~ In j (D ++ owing dl p) -> nth_error p k = Some None).
  { intros k j' E Nj. pose proof (se_edge _ _ S _ _ E) as [L _]. destruct (nth_error p k) as [[x|]|] eqn:Pk; [|reflexivity|].
    - exfalso. apply Nj, in_app_iff. right. apply owing_edge. eauto.
    - apply nth_error_None in Pk. rewrite (sched_length _ _ _ _ _ _ _ _ (wa_sched _ _ _ _ _ _ _ W)) in Pk. lia. }
  induction R as [j E|k j R IH E]; intros Nj; [eauto|].
  pose proof (One _ _ E Nj) as Pk. apply IH. pose proof (se_edge _ _ S _ _ E) as (L & x & _ & Hx & _).
  destruct (wa_rest _ _ _ _ _ _ _ W _ _ Hx) as [Hi|[[_ X]|[[X _]|((_ & (y & X & _) & _) & _)]]]; [|exact X|congruence|congruence].
  exfalso. apply in_app_iff in Hi. destruct Hi as [Hi|Hi].
  - apply in_map_iff in Hi. destruct Hi as (r & <- & Hr). destruct (wa_queue _ _ _ _ _ _ _ W _ Hr) as (j' & y & ds & Hj & _ & Py & _).
    rewrite (nth_error_nth _ _ 0 Hj) in Pk. congruence.
  - destruct (wa_held _ _ _ _ _ _ _ W _ Hi) as [(y & Py) _]. congruence.
Qed.
Lemma is_ready : forall s acts p org Q D H j x, wave_at s acts p org Q D H -> nth_error p j = Some (Some x) -> ~ In j (D ++ owing dl p) -> ready clash prog p j.
Proof.
  intros s acts p org Q D H j x W Pj Nj. split; [eauto|]. intros i u v L Hi Hj C. eapply none_before; eauto. eapply (se_reach _ _ (sets_all prog few)); eauto.
Qed.

Lemma NoDup_front {B} (a : B) l m : NoDup (a :: l ++ m) -> NoDup (l ++ a :: m).
Proof. intros H. eapply Permutation_NoDup; [apply Permutation_middle|exact H]. Qed.

Lemma attempt_held : forall s acts p org id Q D H, wave_at s acts p org (id :: Q) D H ->
  exists j x ds, nth_error org id = Some j /\ nth_error (v_recs s) id = Some (x, ds) /\ nth_error dl j = Some ds /\ nth_error p j = Some (Some x) /\
  ready clash prog p j /\
  match attempt e s id with
  | Halt t r => wave_left t r
  | Go (x', a, s') => x' = tried x a /\ try_apply e (v_world s) x = Ok a /\ s' = with_recs (with_world s (a_world a)) (put id (tried x a, ds) (v_recs s)) /\
      (~ In id (v_defer s) -> forall o, leaves less_again x a o ->
        (e_edpc e = false -> forall y, a_error a = true -> o = Some y -> (wait y + 1 <= wait x)%N \/ (wait y = wait x /\ (tries j acts = [] \/ accepted j acts))) ->
        wave_at (if a_error a then s' else report s' (tried x a)) (acts ++ [Try j x a o]) (put_at j o p) org Q
          ((match o with None => ds | Some _ => [] end) ++ D) ((match o with Some _ => [j] | None => [] end) ++ H))
  end.
Proof.
  intros s acts p org id Q D H W. destruct (wa_queue _ _ _ _ _ _ _ W id (or_introl eq_refl)) as (j & x & ds & Oj & Rx & Pj & Nj).
  exists j, x, ds. pose proof (is_ready _ _ _ _ _ _ _ _ _ W Pj Nj) as Rd.
  destruct (wa_rec _ _ _ _ _ _ _ W _ _ _ Rx) as (j' & Oj' & Dj). assert (j' = j) by congruence. subst j'.
  split; [exact Oj|]. split; [exact Rx|]. split; [exact Dj|]. split; [exact Pj|]. split; [exact Rd|].
  unfold attempt, elem. rewrite Rx. cbn [pbind].
  destruct (try_apply e (v_world s) x) as [a|y|u|] eqn:A; cbn [lift pbind].
  2-4: (eapply wl_attempt; [apply (wa_sched _ _ _ _ _ _ _ W)|apply (wa_events _ _ _ _ _ _ _ W)|exact Rd|exact Pj|rewrite A; reflexivity]).
  split; [reflexivity|]. split; [reflexivity|]. split; [reflexivity|]. intros Nid o Lv Wt.
  pose proof W as [Or Cl Fi Rc Qu He On Re Co Sm DD De Px Li Sc Ev Ins Sl Mo].
  pose proof (sc_try e clash less_again _ _ _ _ _ _ _ _ _ Sc Pj (proj2 Rd) A Lv) as Sc'.
  pose proof (nth_short _ _ _ Pj) as Jl. pose proof (nth_short _ _ _ Rx) as Il.
  assert (Hj0 : nth id org 0 = j) by (eapply nth_error_nth; eauto).
  assert (Ow : forall k, occ ((match o with None => ds | Some _ => [] end ++ D) ++ owing dl (put_at j o p)) k = occ (D ++ owing dl p) k).
  { intros k. rewrite !occ_app. destruct o as [y|].
    - rewrite (owing_some _ _ _ _ _ Pj). reflexivity.
    - pose proof (owing_none _ _ _ _ _ Pj Dj k). lia. }
  assert (Ow' : forall k, In k ((match o with None => ds | Some _ => [] end ++ D) ++ owing dl (put_at j o p)) <-> In k (D ++ owing dl p)) by (intros k; rewrite !occ_In, Ow; reflexivity).
  assert (Rr : v_recs (if a_error a then with_recs (with_world s (a_world a)) (put id (tried x a, ds) (v_recs s)) else report (with_recs (with_world s (a_world a)) (put id (tried x a, ds) (v_recs s))) (tried x a)) = put_at id (tried x a, ds) (v_recs s)) by (destruct (a_error a); reflexivity).
  assert (Rc' : v_counts (if a_error a then with_recs (with_world s (a_world a)) (put id (tried x a, ds) (v_recs s)) else report (with_recs (with_world s (a_world a)) (put id (tried x a, ds) (v_recs s))) (tried x a)) = v_counts s) by (destruct (a_error a); reflexivity).
  cbn [map app] in On. rewrite Hj0 in On. inversion On as [|? ? Nin On']; subst.
  assert (NinQ : forall r, In r Q -> r <> id /\ forall k, nth_error org r = Some k -> k <> nth id org 0).
  { intros r Hr. assert (X : nth r org 0 <> nth id org 0). { intros X. apply Nin. rewrite <- X. apply in_app_iff. left. apply in_map_iff. eauto. }
    split; [congruence|]. intros k Hk. rewrite (nth_error_nth _ _ 0 Hk) in X. exact X. }
  set (j := nth id org 0) in *.
  assert (Tj : tries j (acts ++ [Try j x a o]) = tries j acts ++ [(x, a)]) by (rewrite tries_app, tries_one, Nat.eqb_refl; reflexivity).
  assert (To : forall i, i <> j -> tries i (acts ++ [Try j x a o]) = tries i acts).
  { intros i Hi. rewrite tries_app, tries_one. rewrite (proj2 (Nat.eqb_neq j i)) by auto. apply app_nil_r. }
  assert (Po : forall i, i <> j -> nth_error (put_at j o p) i = nth_error p i) by (intros; apply put_at_other; auto).
  assert (Pjo : nth_error (put_at j o p) j = Some o) by (apply put_at_same; auto).
  assert (Se : seen (acts ++ [Try j x a o]) = seen acts ++ (if a_error a then [] else [Applied (tried x a)])) by (rewrite seen_app; cbn; rewrite app_nil_r; reflexivity).
  constructor; rewrite ?Rr, ?Rc'.
  - rewrite put_at_length by auto. exact Or.
  - rewrite put_at_length by auto. exact Cl.
  - exact Fi.
  - intros r y l Hr. destruct (Nat.eq_dec id r) as [<-|Dr]; [rewrite put_at_same in Hr by auto; injection Hr as <- <-; eauto|]. rewrite put_at_other in Hr by auto. eauto.
  - intros r Hr. destruct (Qu r (or_intror Hr)) as (k & y & l & A1 & A2 & A3 & A4). destruct (NinQ r Hr) as [N1 N2]. specialize (N2 k A1).
    exists k, y, l. split; [exact A1|]. rewrite put_at_other by auto. split; [exact A2|]. rewrite Po by auto. split; [exact A3|]. rewrite Ow'. exact A4.
  - intros k Hk. apply in_app_iff in Hk. rewrite Ow'. destruct Hk as [Hk|Hk].
    + destruct o as [y|]; [|destruct Hk]. destruct Hk as [<-|[]]. split; [exists y; exact Pjo|exact Nj].
    + destruct (He k Hk) as [(y & Hy) Nk]. split; [|exact Nk]. exists y. rewrite Po; [exact Hy|]. intros ->. apply Nin, in_app_iff. auto.
  - destruct o as [y|]; cbn [app]; [|exact On']. apply NoDup_front. constructor; auto.
  - intros k x0 Hk. rewrite Ow'. destruct (Nat.eq_dec k j) as [->|Dk].
    + destruct o as [y|]; [left; rewrite !in_app_iff; cbn; auto|]. right. left. rewrite Pjo. split; [reflexivity|exact Nj].
    + rewrite Po, To by auto. destruct (Re k x0 Hk) as [Hi|[Hi|[(R1 & R2 & R3 & R4)|[(L1 & L2 & L3) L4]]]]; [|auto| |].
      * left. cbn [map app] in Hi. destruct Hi as [Hi|Hi]; [exfalso; apply Dk; symmetry; exact Hi|]. apply in_app_iff in Hi. rewrite !in_app_iff. tauto.
      * right. right. left. split; [exact R1|]. split; [exact R2|]. split; [|exact R4]. destruct R3 as (l & R3). exists l. rewrite put_at_other; auto. intros <-.
        apply Dk. unfold j. rewrite (nth_error_nth _ _ 0 (Fi id (nth_short _ _ _ Hk))). reflexivity.
      * right. right. right. split; [|exact L4]. unfold WaveSpec.lost. rewrite Po, To by auto. auto.
  - intros k c Hk Hc. rewrite Ow. eauto.
  - intros k. rewrite Ow. apply Sm.
  - intros d Hd. apply in_app_iff in Hd. destruct Hd as [Hd|Hd]; [|auto]. destruct o as [y|]; [destruct Hd|]. apply (se_edge _ _ (sets_all prog few) j d). exists ds. auto.
  - assert (Ed : v_defer (if a_error a then with_recs (with_world s (a_world a)) (put id (tried x a, ds) (v_recs s)) else report (with_recs (with_world s (a_world a)) (put id (tried x a, ds) (v_recs s))) (tried x a)) = v_defer s) by (destruct (a_error a); reflexivity).
    rewrite Ed. split; [apply De|]. intros r Hr. destruct (proj2 De r Hr) as [[<-|Hq] (k & y & K1 & K2 & K3)]; [contradiction|]. split; [exact Hq|]. exists k, y. split; [exact K1|].
    rewrite Po; [auto|]. apply (proj2 (NinQ r Hq)). exact K1.
  - intros r Hr. destruct (Px r) as (k & K1 & K2); [destruct (a_error a); exact Hr|]. exists k. split; [exact K1|]. now apply accepted_app.
  - intros Ef k x0 z Hk Hz Al. specialize (Li Ef). specialize (Wt Ef). destruct (Nat.eq_dec k j) as [->|Dk].
    + rewrite Tj in *. rewrite Pjo in Hz. injection Hz as ->.
      assert (Er : a_error a = true) by (apply (Al x a), in_app_iff; right; now left).
      assert (Al' : forall y b, In (y, b) (tries j acts) -> a_error b = true) by (intros y b Hy; apply (Al y b), in_app_iff; auto).
      pose proof (Li j x0 x Hk Pj Al') as L1. rewrite app_length. cbn [length].
      destruct (Wt z Er eq_refl) as [Wz|[Wz [Tz|(y & b & Hy & Eb)]]]; [lia| |rewrite (Al' y b Hy) in Eb; discriminate].
      destruct (sched_life _ _ _ _ _ _ _ _ Sc _ _ Hk) as (o1 & O1 & O2). rewrite Tz in *. cbn [length].
      assert (x = x0). { inversion O2 as [E1|? ? ? ? ? ? ? E1|? ? ? ? ? E1]; [congruence| |]; destruct l; discriminate. } subst. lia.
    + rewrite To in * by auto. rewrite Po in Hz by auto. eauto.
  - destruct (a_error a); exact Sc'.
  - rewrite Se. destruct (a_error a); cbn; rewrite Ev; [rewrite app_nil_r|]; reflexivity.
  - rewrite Se, emitted_app, !app_length. destruct (a_error a); cbn [report v_tally with_tally with_recs with_world saw more_instrs t_instrs emitted flat_map length app]; lia.
  - rewrite Se, emitted_app, !app_length. destruct (a_error a); cbn [report v_tally with_tally with_recs with_world saw more_instrs t_slices emitted flat_map length app]; lia.
  - intros Hm. apply moved_app, Mo. destruct (a_error a); exact Hm.
Qed.

Lemma requeue : forall s acts p org Q D H id j y ds, wave_at s acts p org Q D (j :: H) -> nth_error org id = Some j ->
  nth_error (v_recs s) id = Some (y, ds) -> nth_error p j = Some (Some y) -> wave_at s acts p org (id :: Q) D H.
Proof.
  intros s acts p org Q D H id j y ds [Or Cl Fi Rc Qu He On Re Co Sm DD De Px Li Sc Ev Ins Sl Mo] Oj Ri Pj.
  pose proof (nth_error_nth _ _ 0 Oj) as Hj. constructor; auto.
  - intros r [<-|Hr]; [|auto]. exists j, y, ds. destruct (He j (or_introl eq_refl)) as [_ Nj]. auto.
  - intros k Hk. apply He. now right.
  - cbn [map app]. rewrite Hj. eapply Permutation_NoDup; [apply Permutation_sym, Permutation_middle|exact On].
  - intros k x0 Hk. destruct (Re k x0 Hk) as [Hi|Hi]; [left|auto]. cbn [map app]. rewrite Hj. eapply Permutation_in; [apply Permutation_sym, Permutation_middle|exact Hi].
  - split; [apply De|]. intros r Hr. destruct (proj2 De r Hr) as [A B]. split; [now right|exact B].
Qed.

(** An instruction is dropped. *)
Lemma lose : forall s acts p org Q D H j, wave_at s acts p org Q D (j :: H) -> lost p acts j -> wave_at s acts p org Q D H.
Proof.
  intros s acts p org Q D H j [Or Cl Fi Rc Qu He On Re Co Sm DD De Px Li Sc Ev Ins Sl Mo] L. constructor; auto.
  - intros k Hk. apply He. now right.
  - eapply NoDup_remove_1. exact On.
  - intros k x0 Hk. destruct (Re k x0 Hk) as [Hi|Hi]; [|auto]. apply in_app_iff in Hi. destruct Hi as [Hi|[<-|Hi]]; [left; apply in_app_iff; auto| |left; apply in_app_iff; auto].
    right. right. right. split; [exact L|]. apply (He j). now left.
Qed.


Lemma apart_lists {B} (a b : list B) x : NoDup (a ++ b) -> In x a -> In x b -> False.
Proof.
  induction a as [|y a IH]; intros Nd Ha Hb; [destruct Ha|]. inversion Nd as [|? ? Ny Nd']; subst. destruct Ha as [->|Ha]; [|auto].
  apply Ny, in_app_iff. auto.
Qed.

Lemma rewrite_rec : forall s acts p org Q D H id j x y ds, wave_at s acts p org Q D H -> nth_error org id = Some j -> In j H ->
  nth_error (v_recs s) id = Some (x, ds) -> wave_at (with_recs s (put id (y, ds) (v_recs s))) acts p org Q D H.
Proof.
  intros s acts p org Q D H id j x y ds [Or Cl Fi Rc Qu He On Re Co Sm DD De Px Li Sc Ev Ins Sl Mo] Oj Hj Ri.
  pose proof (nth_short _ _ _ Ri) as Il. rewrite put_is.
  constructor; cbn [with_recs v_recs v_counts v_defer v_nprox v_world v_tally v_moved]; auto.
  - rewrite put_at_length; auto.
  - rewrite put_at_length; auto.
  - intros r z l Hr. destruct (Nat.eq_dec id r) as [<-|Dr]; [rewrite put_at_same in Hr by auto; injection Hr as <- <-; eauto|]. rewrite put_at_other in Hr by auto. eauto.
  - intros r Hr. destruct (Qu r Hr) as (k & z & l & A1 & A2 & A3 & A4). exists k, z, l. rewrite put_at_other; auto. intros <-.
    assert (k = j) by congruence. subst k. apply (apart_lists _ _ j On); [|exact Hj]. apply in_map_iff. exists id. split; [now apply nth_error_nth|exact Hr].
  - intros k x0 Hk. destruct (Re k x0 Hk) as [Hi|[Hi|[(R1 & R2 & (l & R3) & R4)|Hi]]]; [auto|auto| |auto]. destruct (Nat.eq_dec k j) as [->|Dk]; [left; apply in_app_iff; auto|].
    right. right. left. split; [exact R1|]. split; [exact R2|]. split; [|exact R4]. exists l. rewrite put_at_other; auto. intros <-. apply Dk. pose proof (Fi id (nth_short _ _ _ Hk)). congruence.
Qed.

(** Only the queues differ. *)
Lemma wave_same : forall s s' acts p org Q D H, wave_at s acts p org Q D H ->
  v_recs s' = v_recs s -> v_counts s' = v_counts s -> v_defer s' = v_defer s -> v_world s' = v_world s -> v_tally s' = v_tally s -> v_moved s' = v_moved s ->
  (forall r, In r (v_nprox s') -> In r (v_nprox s) \/ exists j, nth_error org r = Some j /\ accepted j acts) -> wave_at s' acts p org Q D H.
Proof.
  intros s s' acts p org Q D H [Or Cl Fi Rc Qu He On Re Co Sm DD De Px Li Sc Ev Ins Sl Mo] E1 E2 E3 E4 E5 E6 E7.
  constructor; rewrite ?E1, ?E2, ?E3, ?E4, ?E5, ?E6; auto. intros r Hr. destruct (E7 r Hr); auto.
Qed.

Lemma wave_record : forall s acts p org Q D H j f ds, wave_at s acts p org Q D (j :: H) -> nth_error p j = Some (Some f) -> nth_error dl j = Some ds ->
  (exists j x a o, In (Try j x a o) acts /\ a_error a = false /\ a_follow a <> []) ->
  wave_at (push_record grow s f ds) acts p (org ++ [j]) (length (v_recs s) :: Q) D H.
Proof.
  intros s acts p org Q D H j f ds [Or Cl Fi Rc Qu He On Re Co Sm DD De Px Li Sc Ev Ins Sl Mo] Pj Dj Fw.
  assert (Hold : forall r k, nth_error org r = Some k -> nth_error (org ++ [j]) r = Some k) by (intros; rewrite nth_error_app1; [auto|eapply nth_short; eauto]).
  assert (Hnew : nth_error (org ++ [j]) (length (v_recs s)) = Some j) by (rewrite <- Or, nth_error_app2, Nat.sub_diag by auto; reflexivity).
  assert (Hmap : forall r, In r Q -> nth r (org ++ [j]) 0 = nth r org 0).
  { intros r Hr. destruct (Qu r Hr) as (k & _ & _ & Hk & _). rewrite (nth_error_nth _ _ 0 (Hold _ _ Hk)), (nth_error_nth _ _ 0 Hk). reflexivity. }
  assert (Em : map (home (org ++ [j])) (length (v_recs s) :: Q) = j :: map (home org) Q).
  { cbn [map]. f_equal; [now apply nth_error_nth|]. apply map_ext_in. exact Hmap. }
  assert (Nle : n <= length org). { destruct n as [|m] eqn:En; [lia|]. pose proof (nth_short _ _ _ (Fi m (Nat.lt_succ_diag_r m))). lia. }
  assert (Perm : Permutation (map (home org) Q ++ j :: H) (j :: map (home org) Q ++ H)) by (apply Permutation_sym, Permutation_middle).
  constructor; cbn [push_record v_recs v_counts v_defer v_nprox v_world v_tally v_moved].
  - rewrite !app_length, Or. reflexivity.
  - rewrite !app_length, Cl. reflexivity.
  - intros k Hk. auto.
  - intros r x l Hr. destruct (Nat.lt_ge_cases r (length (v_recs s))) as [L|G].
    + rewrite nth_error_app1 in Hr by auto. destruct (Rc _ _ _ Hr) as (k & K1 & K2). eauto.
    + rewrite nth_error_app2 in Hr by auto. destruct (r - length (v_recs s)) as [|[|?]] eqn:Er; cbn in Hr; try discriminate. injection Hr as <- <-.
      assert (r = length (v_recs s)) by lia. subst r. eauto.
  - intros r [<-|Hr].
    + exists j, f, ds. split; [exact Hnew|]. rewrite nth_error_app2, Nat.sub_diag by auto. split; [reflexivity|]. split; [exact Pj|]. apply He. now left.
    + destruct (Qu r Hr) as (k & x & l & A1 & A2 & A3 & A4). exists k, x, l. split; [auto|]. rewrite nth_error_app1 by (eapply nth_short; eauto). auto.
  - intros k Hk. apply He. now right.
  - rewrite Em. cbn [app]. eapply Permutation_NoDup; [exact Perm|exact On].
  - intros k x0 Hk. rewrite Em. destruct (Re k x0 Hk) as [Hi|[Hi|[(R1 & R2 & (l & R3) & R4)|Hi]]]; [left; eapply Permutation_in; [exact Perm|exact Hi]|auto| |auto].
    right. right. left. split; [auto|]. split; [auto|]. split; [|auto]. exists l. rewrite nth_error_app1; [auto|eapply nth_short; eauto].
  - intros k c Hk Hc. rewrite nth_error_app1 in Hc by lia. eauto.
  - exact Sm.
  - exact DD.
  - split; [apply De|]. intros r Hr. destruct (proj2 De r Hr) as [A (k & x & K1 & K2)]. split; [now right|]. exists k, x. auto.
  - intros r Hr. destruct (Px r Hr) as (k & K1 & K2). eauto.
  - exact Li. - exact Sc. - exact Ev. - exact Ins. - exact Sl.
  - destruct (grow (length (v_recs s))) eqn:G; [|exact Mo]. intros _. split; [exact Fw|]. exists (length (v_recs s)). split; [lia|exact G].
Qed.

(** One dependent is told. *)
Lemma tell : forall s acts p org Q D H d, wave_at s acts p org Q (d :: D) H ->
  exists c, nth_error (v_counts s) d = Some c /\
  let c' := ((c + 255) mod 256)%N in let s1 := with_counts s (put d c' (v_counts s)) in
  (c' <> 0%N -> wave_at s1 acts p org Q D H) /\
  (c' = 0%N -> exists x ds, nth_error (v_recs s) d = Some (x, ds) /\ nth_error p d = Some (Some x) /\ nth_error org d = Some d /\ tries d acts = [] /\
     ~ In d (D ++ owing dl p) /\ wave_at s1 acts p org (d :: Q) D H).
Proof.
  intros s acts p org Q D H d W. pose proof W as [Or Cl Fi Rc Qu He On Re Co Sm DD De Px Li Sc Ev Ins Sl Mo].
  assert (Dn : d < n) by (apply DD; now left). pose proof (nth_short _ _ _ (Fi d Dn)) as Dl.
  destruct (nth_error (v_counts s) d) as [c|] eqn:Cd; [|apply nth_error_None in Cd; lia]. exists c. split; [reflexivity|]. cbv zeta.
  assert (Oc : forall k, occ ((d :: D) ++ owing dl p) k = occ (D ++ owing dl p) k + (if Nat.eqb d k then 1 else 0)).
  { intros k. cbn [app]. unfold occ. cbn [count_occ]. destruct (Nat.eq_dec d k) as [->|Dk]; [rewrite Nat.eqb_refl|rewrite (proj2 (Nat.eqb_neq d k)) by auto]; lia. }
  pose proof (Co d c Dn Cd) as Cc. pose proof (Sm d) as Sd. pose proof (Oc d) as Od. rewrite Nat.eqb_refl in Od.
  assert (Cm : ((c + 255) mod 256 = N.of_nat (occ (D ++ owing dl p) d))%N).
  { replace (c + 255)%N with (N.of_nat (occ (D ++ owing dl p) d) + 1 * 256)%N by lia. rewrite N.mod_add by lia. apply N.mod_small. lia. }
  rewrite Cm. set (s1 := with_counts s (put d (N.of_nat (occ (D ++ owing dl p) d)) (v_counts s))).
  assert (Inc : forall k, In k (D ++ owing dl p) -> In k ((d :: D) ++ owing dl p)) by (intros; now right).
  assert (Oth : forall k, k <> d -> In k ((d :: D) ++ owing dl p) -> In k (D ++ owing dl p)) by (intros k Hk [->|Hi]; [congruence|exact Hi]).
  assert (Cnt : forall k c0, k < n -> nth_error (put d (N.of_nat (occ (D ++ owing dl p) d)) (v_counts s)) k = Some c0 -> c0 = N.of_nat (occ (D ++ owing dl p) k)).
  { intros k c0 Hk Hc. rewrite put_is in Hc. destruct (Nat.eq_dec d k) as [<-|Dk]; [rewrite put_at_same in Hc by lia; congruence|].
    rewrite put_at_other in Hc by lia. rewrite (Co k c0 Hk Hc), Oc, (proj2 (Nat.eqb_neq d k)) by auto. lia. }
  assert (Wait : exists x0, nth_error prog d = Some x0 /\ nth_error p d = Some (Some x0) /\ (exists ds, nth_error (v_recs s) d = Some (x0, ds)) /\ tries d acts = [] /\ ~ In d (map (home org) Q ++ H)).
  { destruct (nth_error prog d) as [x0|] eqn:Hx; [|apply nth_error_None in Hx; lia]. exists x0. split; [reflexivity|].
    assert (NQ : ~ In d (map (home org) Q ++ H)).
    { intros Hi. apply in_app_iff in Hi. destruct Hi as [Hi|Hi]; [|apply (proj2 (He d Hi)); now left].
      apply in_map_iff in Hi. destruct Hi as (r & Hr & Hi). destruct (Qu r Hi) as (k & _ & _ & K1 & _ & _ & K2). rewrite (nth_error_nth _ _ 0 K1) in Hr. subst k. apply K2. now left. }
    destruct (Re d x0 Hx) as [Hi|[[_ Hi]|[(R1 & R2 & R3 & R4)|[_ Hi]]]]; [contradiction|exfalso; apply Hi; now left|auto|exfalso; apply Hi; now left]. }
  destruct Wait as (x0 & Hx & Pd & (ds & Rd) & Td & NQ).
  split.
  - intros Nz. assert (Still : In d (D ++ owing dl p)) by (apply occ_In; lia).
    assert (All : forall k, In k ((d :: D) ++ owing dl p) <-> In k (D ++ owing dl p)).
    { intros k. split; [|apply Inc]. destruct (Nat.eq_dec k d) as [->|Dk]; [auto|apply Oth; auto]. }
    constructor; cbn [s1 with_counts v_recs v_counts v_defer v_nprox v_world v_tally v_moved]; auto.
    + rewrite put_is, put_at_length by lia. exact Cl.
    + intros r Hr. destruct (Qu r Hr) as (k & x & l & A1 & A2 & A3 & A4). exists k, x, l. rewrite <- All. auto.
    + intros k Hk. rewrite <- All. auto.
    + intros k y Hk. rewrite <- All. auto.
    + intros k. pose proof (Sm k). rewrite Oc in H0. lia.
    + intros k Hk. apply DD. now right.
  - intros Z. assert (Gone : ~ In d (D ++ owing dl p)) by (apply occ_zero; lia).
    exists x0, ds. split; [exact Rd|]. split; [exact Pd|]. split; [auto|]. split; [exact Td|]. split; [exact Gone|].
    eapply requeue with (j := d) (y := x0) (ds := ds); auto.
    constructor; cbn [s1 with_counts v_recs v_counts v_defer v_nprox v_world v_tally v_moved]; auto.
    + rewrite put_is, put_at_length by lia. exact Cl.
    + intros r Hr. destruct (Qu r Hr) as (k & x & l & A1 & A2 & A3 & A4). exists k, x, l. split; [auto|]. split; [auto|]. split; [auto|]. intros X. apply A4. auto.
    + intros k [<-|Hk]; [split; [eauto|exact Gone]|]. destruct (He k Hk) as [B1 B2]. split; [exact B1|]. auto.
    + apply NoDup_front. constructor; auto.
    + intros k y Hk. destruct (Nat.eq_dec k d) as [->|Dk]; [left; apply in_app_iff; right; now left|].
      destruct (Re k y Hk) as [Hi|[[R1 R2]|[(R1 & R2 & R3 & R4)|[R1 R2]]]].
      * left. apply in_app_iff in Hi. rewrite in_app_iff. cbn. tauto.
      * right. left. split; auto.
      * right. right. left. split; auto.
      * right. right. right. split; auto.
    + intros k. pose proof (Sm k). rewrite Oc in H0. lia.
    + intros k Hk. apply DD. now right.
Qed.

(** The queues that grow while [proximate] instructions, or others, are carried out *)
Definition pending (prox : bool) (s : wave_st) : list nat := v_defer s ++ (if prox then v_heads s else []) ++ v_nprox s ++ v_nheads s.

(** [s] came about from a state at [acts], [org]. *)
Definition gets (prox : bool) (acts : list act) (org X D H : list nat) (s : wave_st) : Prop :=
  exists new p more, wave_at s (acts ++ new) p (org ++ more) (X ++ pending prox s) D H.

Lemma gets_trans : forall prox acts new org more X D H s, gets prox (acts ++ new) (org ++ more) X D H s -> gets prox acts org X D H s.
Proof.
  intros prox acts new org more X D H s (new2 & p & more2 & W). exists (new ++ new2), p, (more ++ more2). rewrite !app_assoc. exact W.
Qed.
Lemma gets_after : forall prox acts new org X D H s, gets prox (acts ++ new) org X D H s -> gets prox acts org X D H s.
Proof. intros prox acts new org X D H s G. eapply gets_trans with (new := new) (more := []). rewrite app_nil_r. exact G. Qed.
Lemma gets_refl : forall prox acts p org X D H s, wave_at s acts p org (X ++ pending prox s) D H -> gets prox acts org X D H s.
Proof. intros. exists [], p, []. rewrite !app_nil_r. exact H0. Qed.
Lemma org_more : forall (org more : list nat) r j, nth_error org r = Some j -> nth_error (org ++ more) r = Some j.
Proof. intros. rewrite nth_error_app1; [auto|eapply nth_short; eauto]. Qed.

(** All that is left to do is in order. *)
Lemma all_orderly : forall acts w p, sched acts w p -> e_edpc e = true -> forall j x, nth_error p j = Some (Some x) -> orderly x.
Proof.
  intros acts w p S Ed. induction S as [|acts w p j x a o S IH Pj C A Lv|acts w p s S IH Ad|acts w p s S IH Ed' Gb]; intros k y Hk; eauto.
  - rewrite nth_error_map in Hk. destruct (nth_error prog k) as [z|] eqn:Hz; [|discriminate]. injection Hk as <-.
    apply (proj1 (Forall_forall _ _) (whole Ed)). eapply nth_error_In; eauto.
  - destruct (Nat.eq_dec j k) as [<-|Dk].
    + rewrite put_at_same in Hk by (eapply nth_short; eauto). injection Hk as ->. destruct (orderly_kept _ _ _ _ Ed (IH _ _ Pj) A) as [O1 O2].
      unfold leaves in Lv. destruct (a_error a).
      * destruct Lv as (z & E & [->|[_ ->]]); injection E as ->; [exact O1|]. exact O1.
      * destruct (a_follow a) as [|g l]; cbn in Lv; [discriminate|]. injection Lv as ->. now inversion O2.
    + rewrite put_at_other in Hk by (auto; eapply nth_short; eauto). eauto.
Qed.
Lemma self_again : forall i, reschedules [i] i = true.
Proof. intros i. cbn. destruct (instr_eq_dec i i); congruence. Qed.
(** What a refused instruction comes back with *)
Lemma refused_shape : forall acts w p j x a, sched acts w p -> nth_error p j = Some (Some x) -> try_apply e w x = Ok a -> a_error a = true ->
  reschedules (a_follow a) (tried x a) = false \/ (reschedules (a_follow a) (tried x a) = true /\ e_edpc e = true /\ found (tried x a)).
Proof.
  intros acts w p j x a S Pj A Er. destruct (follow_shape e w x a A) as [F|(f & F & R & _)].
  - left. rewrite F. reflexivity.
  - right. destruct (R Er) as [Ed ->]. rewrite F. split; [apply self_again|]. split; [exact Ed|].
    eapply refused_follow; eauto; [eapply all_orderly; eauto|]. rewrite F. discriminate.
Qed.
Lemma tame : forall f i, reschedules [f] i = false -> f <> i.
Proof. intros f i R ->. cbn in R. destruct (instr_eq_dec i i); congruence. Qed.
Lemma same_self : forall f i, reschedules f i = true -> f = [i].
Proof. intros [|g [|h r]] i R; try discriminate. cbn in R. destruct (instr_eq_dec g i); congruence. Qed.

Definition is_z (i : instr) : Prop := exists t b, op i = SingleOp t SqZ b.
Definition is_busy (i : instr) : Prop := exists r m p, op i = Busy r m p.
Lemma z_ends : forall w i a, is_z i -> try_apply e w i = Ok a -> a_follow a = [].
Proof.
  intros w i a (t & b & Z) A. unfold try_apply in A. rewrite Z in A. unfold apply_single in A.
  destruct (get_cell_by_id (w_slice w) t); [|apply failed_inv in A; tauto]. destruct (get_patch_by_id (w_slice w) t) as [p|]; [|apply failed_inv in A; tauto].
  destruct (dp_is_active p); [apply failed_inv in A|apply done_inv in A]; tauto.
Qed.

Lemma immediate_kind : forall i, match is_immediate i with Ok _ => True | Throw y => y = Unreachable /\ odd_kind i | _ => False end.
Proof. intros [o w c]. unfold is_immediate, odd_kind. cbn. destruct o; auto. destruct op; auto. Qed.

(** The first of the records in the queues is not put off. *)
Lemma not_deferred : forall prox s acts p org id X D H, wave_at s acts p org (id :: X ++ pending prox s) D H -> ~ In id (v_defer s).
Proof.
  intros prox s acts p org id X D H W Hi. pose proof (wa_once _ _ _ _ _ _ _ W) as On. cbn [map app] in On. inversion On as [|? ? Nin _]; subst.
  apply Nin, in_app_iff. left. apply in_map_iff. exists id. split; [reflexivity|]. unfold pending. apply in_app_iff. right. apply in_app_iff. now left.
Qed.
Lemma put_off : forall prox s acts p org id X D H j x, wave_at s acts p org (id :: X ++ pending prox s) D H -> e_edpc e = true ->
  nth_error org id = Some j -> nth_error p j = Some (Some x) -> found x -> wave_at (push_defer s id) acts p org (X ++ pending prox (push_defer s id)) D H.
Proof.
  intros prox s acts p org id X D H j x W Ed Oj Pj F. apply wave_perm with (Q := id :: X ++ pending prox s).
  2: { unfold pending. cbn [push_defer v_heads v_nprox v_nheads v_defer]. etransitivity; [apply Permutation_middle|]. apply Permutation_app_head.
       rewrite <- app_assoc. apply Permutation_middle. }
  destruct W as [Or Cl Fi Rc Qu He On Re Co Sm DD De Px Li Sc Ev Ins Sl Mo]. constructor; auto.
  cbn [push_defer v_defer]. split; [congruence|]. intros r Hr. apply in_app_iff in Hr. destruct Hr as [Hr|[<-|[]]]; [exact (proj2 De r Hr)|]. split; [now left|eauto].
Qed.

(** A follow-up is on the way. *)
Definition begun (acts : list act) : Prop := exists j x a o, In (Try j x a o) acts /\ a_error a = false /\ a_follow a <> [].

Lemma push_perm : forall (a : nat) X d h p q, Permutation (a :: X ++ d ++ h ++ p ++ q) (X ++ d ++ h ++ p ++ q ++ [a]).
Proof.
  intros. replace (X ++ d ++ h ++ p ++ q ++ [a]) with ((X ++ d ++ h ++ p ++ q) ++ [a]) by (rewrite <- !app_assoc; reflexivity). apply Permutation_cons_append.
Qed.
Lemma push_perm_one : forall (a : nat) X h q, Permutation (a :: X ++ h ++ q) (X ++ (h ++ [a]) ++ q).
Proof. intros. etransitivity; [apply Permutation_middle|]. apply Permutation_app_head. rewrite <- app_assoc. apply Permutation_middle. Qed.
Lemma push_perm_head : forall (a : nat) X d h q, Permutation (a :: X ++ d ++ h ++ q) (X ++ d ++ (h ++ [a]) ++ q).
Proof. intros. etransitivity; [apply Permutation_middle|]. apply Permutation_app_head. apply push_perm_one. Qed.
Lemma push_perm_prox : forall (a : nat) X d h p q, Permutation (a :: X ++ d ++ h ++ p ++ q) (X ++ d ++ h ++ (p ++ [a]) ++ q).
Proof. intros. etransitivity; [apply Permutation_middle|]. apply Permutation_app_head. apply push_perm_head. Qed.

Section Fuel.
Variables (f : nat) (prox : bool).
Notation deps := (dependents e grow f prox).
(** What is known of the recursive calls *)
Hypothesis empty_ok : forall s acts p org X D H id j x ds, nth_error org id = Some j -> nth_error (v_recs s) id = Some (x, ds) ->
  wave_at s acts p org (X ++ pending prox s) (ds ++ D) H -> 2 * (n - j) + 1 <= f ->
  match deps s id [] with Halt t r => wave_left t r | Go s' => gets prox acts org X D H s' end.
Hypothesis follow_ok : forall s acts p org X D H id j g x ds, nth_error org id = Some j -> nth_error (v_recs s) id = Some (x, ds) ->
  wave_at s acts p org (X ++ pending prox s) D (j :: H) -> nth_error p j = Some (Some g) -> is_z g \/ is_busy g -> accepted j acts -> begun acts -> 2 * (n - j) + 2 <= f ->
  match deps s id [g] with Halt t r => wave_left t r | Go s' => gets prox acts org X D H s' end.

Lemma immediately_ok : forall s acts p org X D H id j x ds, wave_at s acts p org (id :: X ++ pending prox s) D H -> nth_error org id = Some j ->
  nth_error (v_recs s) id = Some (x, ds) -> (tries j acts = [] \/ accepted j acts) ->
  (2 * (n - j) + 2 <= f \/ (is_z x /\ 2 * (n - j) + 1 <= f) \/ is_busy x) ->
  match immediately e deps s id with
  | Halt t r => wave_left t r
  | Go (ok, s') => if ok then gets prox acts org X D H s' else
      exists new p more, wave_at s' (acts ++ new) p (org ++ more) (id :: X ++ pending prox s') D H
  end.
Proof.
  intros s acts p org X D H id j x ds W Oj Rx Fresh Fu. unfold immediately. unfold elem at 1. rewrite Rx. cbn [pbind].
  destruct (attempt_held _ _ _ _ _ _ _ _ W) as (j' & x' & ds' & Oj' & Rx' & Dj & Pj & Rd & At).
  assert (j' = j) by congruence. subst j'. assert (x' = x /\ ds' = ds) by (split; congruence). destruct H0 as [-> ->].
  pose proof (immediate_kind x) as K. destruct (is_immediate x) as [imm|y|u|] eqn:Im; cbn [lift pbind]; try contradiction.
  2: { destruct K as [-> K]. eapply wl_kind; [apply (wa_sched _ _ _ _ _ _ _ W)|apply (wa_events _ _ _ _ _ _ _ W)|exact Rd|exact Pj|exact K]. }
  destruct imm; cbn [negb].
  2: { exists [], p, []. rewrite !app_nil_r. exact W. }
  assert (NB : ~ is_busy x). { intros (r & m & q & B). unfold is_immediate in Im. rewrite B in Im. discriminate. }
  destruct (attempt e s id) as [[[x' a] s']|t r]; cbn [pbind]; [|exact At]. destruct At as (-> & A & -> & Next). specialize (Next (not_deferred _ _ _ _ _ _ _ _ _ W)).
  set (s' := with_recs (with_world s (a_world a)) (put id (tried x a, ds) (v_recs s))) in *.
  assert (Rs : nth_error (v_recs s') id = Some (tried x a, ds)) by (cbn; rewrite put_is; apply put_at_same; eapply nth_short; eauto).
  assert (Jp : j < length p) by (eapply nth_short; eauto).
  destruct (a_error a) eqn:Er.
  - assert (Lv : leaves less_again x a (Some (tried x a))) by (unfold leaves; rewrite Er; eexists; split; [reflexivity|now left]).
    assert (W1 := Next _ Lv). cbv beta iota in W1. specialize (W1 ltac:(intros _ y _ E; injection E as <-; right; split; [reflexivity|exact Fresh])).
    destruct (refused_shape _ _ _ _ _ _ (wa_sched _ _ _ _ _ _ _ W) Pj A Er) as [-> | (-> & Ed & Fd)].
    2: { eapply gets_after, gets_refl with (p := put_at j (Some (tried x a)) p). eapply put_off with (x := tried x a); [|exact Ed|exact Oj|now apply put_at_same|exact Fd].
         eapply requeue; [exact W1|exact Oj|exact Rs|]. now apply put_at_same. }
    exists [Try j x a (Some (tried x a))], (put_at j (Some (tried x a)) p), []. rewrite app_nil_r.
    eapply requeue; [exact W1|exact Oj|exact Rs|]. now apply put_at_same.
  - assert (Lv : leaves less_again x a (hd_error (a_follow a))) by (unfold leaves; rewrite Er; reflexivity).
    assert (W1 := Next _ Lv). cbv beta iota in W1. specialize (W1 ltac:(intros _ y X0; discriminate)).
    set (r := report s' (tried x a)) in *.
    assert (Acc : accepted j (acts ++ [Try j x a (hd_error (a_follow a))])).
    { exists x, a. split; [|exact Er]. rewrite tries_app, tries_one, Nat.eqb_refl. apply in_app_iff. right. now left. }
    destruct (follow_shape e (v_world s) x a A) as [Fo|(g & Fo & _ & Sh)]; rewrite Fo in *; cbn [hd_error] in *.
    + cbn [reschedules]. pose proof (empty_ok r _ _ org X D H id j (tried x a) ds Oj Rs W1) as Y.
      assert (2 * (n - j) + 1 <= f) by (destruct Fu as [?|[[_ ?]|?]]; [lia|lia|contradiction]). specialize (Y H0).
      destruct (deps r id []) as [s2|t r2]; cbn [pbind]; [|exact Y]. eapply gets_after. exact Y.
    + destruct (reschedules [g] (tried x a)) eqn:Rsch.
      * apply same_self in Rsch. injection Rsch as ->.
        eapply gets_after, gets_refl.
        apply wave_perm with (Q := id :: X ++ pending prox s).
        2: { unfold pending. cbn [push_nprox v_defer v_heads v_nprox v_nheads report with_tally r s' with_recs with_world]. apply push_perm_prox. }
        eapply wave_same with (s := r); try reflexivity.
        -- eapply requeue; [exact W1|exact Oj|exact Rs|now apply put_at_same].
        -- cbn [push_nprox v_nprox]. intros q Hq. apply in_app_iff in Hq. destruct Hq as [Hq|[<-|[]]]; [auto|right; eauto].
      * apply tame in Rsch. assert (Kind : is_z g \/ is_busy g).
        { destruct Sh as [->|[(t & ->)|(q & m & q' & ->)]]; [congruence|left; exists t, false; reflexivity|right; exists q, m, q'; reflexivity]. }
        assert (Fu' : 2 * (n - j) + 2 <= f).
        { destruct Fu as [?|[[Z _]|?]]; [auto| |contradiction]. rewrite (z_ends _ _ _ Z A) in Fo. discriminate. }
        assert (Bg : begun (acts ++ [Try j x a (Some g)])).
        { exists j, x, a, (Some g). split; [apply in_app_iff; right; now left|]. split; [exact Er|]. rewrite Fo. discriminate. }
        pose proof (follow_ok r _ _ org X D H id j g (tried x a) ds Oj Rs W1 (put_at_same _ _ _ Jp) Kind Acc Bg Fu') as Y.
        destruct (deps r id [g]) as [s2|t r2]; cbn [pbind]; [|exact Y]. eapply gets_after. exact Y.
Qed.

Lemma to_nheads : forall s acts p org id X D H, wave_at s acts p org (id :: X ++ pending prox s) D H ->
  wave_at (push_nhead s id) acts p org (X ++ pending prox (push_nhead s id)) D H.
Proof.
  intros s acts p org id X D H W. apply wave_perm with (Q := id :: X ++ pending prox s).
  - eapply wave_same; [exact W|reflexivity..|auto].
  - unfold pending. cbn [push_nhead v_defer v_heads v_nprox v_nheads]. apply push_perm.
Qed.

Lemma release_ok : forall m r s acts p org X D H j, wave_at s acts p org (X ++ pending prox s) (r ++ D) H ->
  (forall d, In d r -> j < d) -> (m <> 0 -> moved_fact acts) -> 2 * (n - j) <= f ->
  match release (immediately e deps) prox m r s with Halt t q => wave_left t q | Go s' => gets prox acts org X D H s' end.
Proof.
  intros m r. induction r as [|d r IH]; intros s acts p org X D H j W Hd Hm Fu; cbn [release].
  - eapply gets_refl. exact W.
  - destruct (Nat.eqb_spec (v_moved s) m) as [Em|Em]; cbn [negb].
    2: { destruct (Nat.eq_dec m 0) as [->|Dm].
         - destruct (wa_moved _ _ _ _ _ _ _ W Em) as [M1 M2]. eapply wl_moved; eauto; [apply (wa_sched _ _ _ _ _ _ _ W)|apply (wa_events _ _ _ _ _ _ _ W)].
         - destruct (Hm Dm) as [M1 M2]. eapply wl_moved; eauto; [apply (wa_sched _ _ _ _ _ _ _ W)|apply (wa_events _ _ _ _ _ _ _ W)]. }
    destruct (tell _ _ _ _ _ _ _ _ W) as (c & Cd & T). unfold elem at 1. rewrite Cd. cbn [pbind]. cbv zeta in T. destruct T as [T1 T2].
    set (c' := ((c + 255) mod 256)%N) in *. set (s1 := with_counts s (put d c' (v_counts s))) in *.
    assert (Hd' : forall d', In d' r -> j < d') by (intros; apply Hd; now right).
    assert (Dj : j < d) by (apply Hd; now left).
    assert (Dn : d < n) by (apply (wa_D _ _ _ _ _ _ _ W); now left).
    destruct (N.eqb_spec c' 0) as [Z|Nz]; cbn [negb].
    2: { cbn [pbind]. eapply (IH s1); eauto. }
    destruct (T2 Z) as (x & ds & Rd & Pd & Od & Td & Gone & W1). change (pending prox s) with (pending prox s1) in W1.
    match goal with |- context[if prox then ?A else ?B] =>
      assert (Br : (prox = true /\ (if prox then A else B) = A) \/ (prox = false /\ (if prox then A else B) = B)) by (destruct prox; auto) end.
    destruct Br as [[Epx ->]|[Epx ->]].
    + unfold elem. change (v_recs s1) with (v_recs s). rewrite Rd. cbn [pbind].
      pose proof (immediate_kind x) as K. destruct (is_immediate x) as [imm|y|u|] eqn:Im; cbn [lift pbind]; try contradiction.
      2: { destruct K as [-> K]. pose proof (is_ready _ _ _ _ _ _ _ _ _ W1 Pd Gone) as Rdy.
           eapply wl_kind; [apply (wa_sched _ _ _ _ _ _ _ W1)|apply (wa_events _ _ _ _ _ _ _ W1)|exact Rdy|exact Pd|exact K]. }
      destruct imm.
      * eapply (IH (push_head s1 d)); eauto. apply wave_perm with (Q := d :: X ++ pending prox s1).
        -- eapply wave_same; [exact W1|reflexivity..|auto].
        -- unfold pending. cbn [push_head v_defer v_heads v_nprox v_nheads]. rewrite Epx. apply push_perm_head.
      * eapply (IH (push_nhead s1 d)); eauto. apply to_nheads. exact W1.
    + pose proof (immediately_ok s1 acts p org X (r ++ D) H d d x ds W1 Od Rd (or_introl Td)) as I.
      assert (2 * (n - d) + 2 <= f) by lia. specialize (I (or_introl H0)).
      destruct (immediately e deps s1 d) as [[ok s2]|t q]; cbn [pbind]; [|exact I]. destruct ok.
      * destruct I as (new & p2 & more & W2). pose proof (IH s2 _ _ _ _ _ _ j W2 Hd' (fun Hm0 => moved_app _ new (Hm Hm0)) Fu) as Y.
        destruct (release (immediately e deps) prox m r s2); [eapply gets_trans|]; exact Y.
      * destruct I as (new & p2 & more & W2). pose proof (IH (push_nhead s2 d) _ _ _ _ _ _ j (to_nheads _ _ _ _ _ _ _ _ W2) Hd' (fun Hm0 => moved_app _ new (Hm Hm0)) Fu) as Y.
        destruct (release (immediately e deps) prox m r (push_nhead s2 d)); [eapply gets_trans|]; exact Y.
Qed.
End Fuel.

Lemma dependents_ok : forall f prox,
  (forall s acts p org X D H id j x ds, nth_error org id = Some j -> nth_error (v_recs s) id = Some (x, ds) ->
    wave_at s acts p org (X ++ pending prox s) (ds ++ D) H -> 2 * (n - j) + 1 <= f ->
    match dependents e grow f prox s id [] with Halt t r => wave_left t r | Go s' => gets prox acts org X D H s' end) /\
  (forall s acts p org X D H id j g x ds, nth_error org id = Some j -> nth_error (v_recs s) id = Some (x, ds) ->
    wave_at s acts p org (X ++ pending prox s) D (j :: H) -> nth_error p j = Some (Some g) -> is_z g \/ is_busy g -> accepted j acts -> begun acts -> 2 * (n - j) + 2 <= f ->
    match dependents e grow f prox s id [g] with Halt t r => wave_left t r | Go s' => gets prox acts org X D H s' end).
Proof.
  induction f as [|f IH]; intros prox; [split; intros; lia|]. destruct (IH prox) as [IH1 IH2]. split.
  - intros s acts p org X D H id j x ds Oj Rx W Fu. cbn [dependents]. unfold elem. rewrite Rx. cbn [pbind].
    eapply release_ok with (j := j); eauto; [|intros Hm; apply (wa_moved _ _ _ _ _ _ _ W); exact Hm|lia].
    intros d Hd. destruct (wa_rec _ _ _ _ _ _ _ W _ _ _ Rx) as (j' & Oj' & Dj). assert (j' = j) by congruence. subst j'.
    apply (se_edge _ _ (sets_all prog few) j d). exists ds. auto.
  - intros s acts p org X D H id j g x ds Oj Rx W Pj K Acc Bg Fu. cbn [dependents]. unfold elem at 1. rewrite Rx. cbn [pbind].
    destruct (wa_rec _ _ _ _ _ _ _ W _ _ _ Rx) as (j' & Oj' & Dj). assert (j' = j) by congruence. subst j'. clear Oj'.
    cbn [length Nat.sub N.of_nat].
    assert (Same : forall l s1, (forall d, In d l -> exists c, nth_error (v_counts s1) d = Some c /\ (c < 256)%N) ->
      pfold (fun s d => let! c := elem (v_tally s) (v_counts s) d in Go (with_counts s (put d ((c + 0) mod 256)%N (v_counts s)))) l s1 = Go s1).
    { clear. induction l as [|d l IH]; intros s1 Hl; [reflexivity|]. cbn [pfold]. destruct (Hl d (or_introl eq_refl)) as (c & Hc & Cs).
      unfold elem at 1. rewrite Hc. cbn [pbind]. rewrite N.add_0_r, N.mod_small by exact Cs.
      replace (with_counts s1 (put d c (v_counts s1))) with s1; [apply IH; intros; apply Hl; now right|].
      assert (E : put d c (v_counts s1) = v_counts s1).
      { clear - Hc. revert d Hc. induction (v_counts s1) as [|a l IH]; intros [|d] Hc; cbn in *; try discriminate; [congruence|]. f_equal. apply IH. exact Hc. }
      rewrite E. destruct s1. reflexivity. }
    assert (Ds : forall d, In d ds -> exists c, nth_error (v_counts s) d = Some c /\ (c < 256)%N).
    { intros d Hd. assert (Ed : j < d < n) by (apply (se_edge _ _ (sets_all prog few) j d); exists ds; auto).
      pose proof (nth_short _ _ _ (wa_first _ _ _ _ _ _ _ W d (proj2 Ed))) as L. rewrite (wa_org _ _ _ _ _ _ _ W), <- (wa_cl _ _ _ _ _ _ _ W) in L.
      destruct (nth_error (v_counts s) d) as [c|] eqn:Cd; [|apply nth_error_None in Cd; lia]. exists c. split; [reflexivity|].
      rewrite (wa_count _ _ _ _ _ _ _ W d c (proj2 Ed) Cd). pose proof (wa_small _ _ _ _ _ _ _ W d). lia. }
    change (N.of_nat (1 - 1)) with 0%N. rewrite (Same ds s Ds). cbn [pbind pfold]. rewrite Nat.eqb_refl. cbn [negb].
    pose proof (wave_record _ _ _ _ _ _ _ _ _ _ W Pj Dj Bg) as W1. change (pending prox s) with (pending prox (push_record grow s g ds)) in W1.
    set (s1 := push_record grow s g ds) in *. set (fid := length (v_recs s)) in *.
    assert (Of : nth_error (org ++ [j]) fid = Some j).
    { unfold fid. rewrite <- (wa_org _ _ _ _ _ _ _ W), nth_error_app2, Nat.sub_diag by auto. reflexivity. }
    assert (Rf : nth_error (v_recs s1) fid = Some (g, ds)) by (cbn; unfold fid; rewrite nth_error_app2, Nat.sub_diag by auto; reflexivity).
    pose proof (immediately_ok f prox IH1 IH2 s1 acts p (org ++ [j]) X D H fid j g ds W1 Of Rf (or_intror Acc)) as I.
    assert (Fu' : 2 * (n - j) + 2 <= f \/ (is_z g /\ 2 * (n - j) + 1 <= f) \/ is_busy g) by (destruct K; [right; left; split; [auto|lia]|auto]).
    specialize (I Fu'). destruct (immediately e (dependents e grow f prox) s1 fid) as [[ok s2]|t q]; cbn [pbind]; [|exact I]. destruct ok.
    + destruct I as (new & p2 & more & W2). exists new, p2, ([j] ++ more). rewrite app_assoc. exact W2.
    + destruct I as (new & p2 & more & W2). exists new, p2, ([j] ++ more). rewrite app_assoc.
      apply wave_perm with (Q := fid :: X ++ pending prox s2).
      * eapply wave_same; [exact W2|reflexivity..|]. cbn [push_nprox v_nprox]. intros q Hq. apply in_app_iff in Hq. destruct Hq as [Hq|[<-|[]]]; [auto|].
        right. exists j. split; [apply org_more; exact Of|now apply accepted_app].
      * unfold pending. cbn [push_nprox v_defer v_heads v_nprox v_nheads]. apply push_perm_prox.
Qed.

Lemma schedule_one_ok : forall prox s acts p org X id j, wave_at s acts p org (id :: X ++ pending prox s) [] [] -> nth_error org id = Some j ->
  (prox = true -> accepted j acts) ->
  match schedule_one e grow prox false s id with
  | Halt t r => wave_left t r
  | Go s' => exists x a o new p' more, wave_at s' (acts ++ Try j x a o :: new) p' (org ++ more) (X ++ pending prox s') [] [] /\ moves x a o
  end.
Proof.
  intros prox s acts p org X id j W Oj Px. unfold schedule_one.
  destruct (attempt_held _ _ _ _ _ _ _ _ W) as (j' & x & ds & Oj' & Rx & Dj & Pj & Rd & At). assert (j' = j) by congruence. subst j'. clear Oj'.
  destruct (attempt e s id) as [[[x' a] s']|t r]; cbn [pbind]; [|exact At]. destruct At as (-> & A & -> & Next). specialize (Next (not_deferred _ _ _ _ _ _ _ _ _ W)).
  set (s' := with_recs (with_world s (a_world a)) (put id (tried x a, ds) (v_recs s))) in *.
  assert (Rs : nth_error (v_recs s') id = Some (tried x a, ds)) by (cbn; rewrite put_is; apply put_at_same; eapply nth_short; eauto).
  assert (Jp : j < length p) by (eapply nth_short; eauto).
  assert (Fin : forall o s2, moves x a o -> gets prox (acts ++ [Try j x a o]) org X [] [] s2 ->
    exists x a o new p' more, wave_at s2 (acts ++ Try j x a o :: new) p' (org ++ more) (X ++ pending prox s2) [] [] /\ moves x a o).
  { intros o s2 M (new & p2 & more & W2). rewrite <- app_assoc in W2. exists x, a, o, new, p2, more. split; [exact W2|exact M]. }
  assert (Jn : j < n). { rewrite <- (sched_length _ _ _ _ _ _ _ _ (wa_sched _ _ _ _ _ _ _ W)). exact Jp. }
  destruct (a_error a) eqn:Er; cbn [negb].
  - destruct (refused_shape _ _ _ _ _ _ (wa_sched _ _ _ _ _ _ _ W) Pj A Er) as [-> | (-> & Ed & Fd)].
    2: { assert (Lv : leaves less_again x a (Some (tried x a))) by (unfold leaves; rewrite Er; eexists; split; [reflexivity|now left]).
         assert (W1 := Next _ Lv). cbv beta iota in W1. specialize (W1 ltac:(intros; congruence)). apply (Fin (Some (tried x a))); [right; right; split; [exact Ed|eexists; split; [reflexivity|apply found_route; left; exact Fd]]|]; apply gets_refl with (p := put_at j (Some (tried x a)) p).
         eapply put_off with (x := tried x a); [|exact Ed|exact Oj|now apply put_at_same|exact Fd]. eapply requeue; [exact W1|exact Oj|exact Rs|]. now apply put_at_same. }
    destruct prox.
    + specialize (Px eq_refl). eapply wl_followup; [| |exact Er|exact Px]; [|exact (wa_events _ _ _ _ _ _ _ W)].
      eapply (sc_try e clash less_again) with (o := Some (tried x a)); [apply (wa_sched _ _ _ _ _ _ _ W)|exact Pj|exact (proj2 Rd)|exact A|].
      unfold leaves. rewrite Er. eexists. split; [reflexivity|now left].
    + destruct (N.eqb_spec (wait (tried x a)) 0) as [Wz|Wz].
      * eapply wl_used_up with (x := x); [|exact (wa_events _ _ _ _ _ _ _ W)|exact Er|exact Wz].
        eapply (sc_try e clash less_again) with (o := Some (tried x a)); [apply (wa_sched _ _ _ _ _ _ _ W)|exact Pj|exact (proj2 Rd)|exact A|].
        unfold leaves. rewrite Er. eexists. split; [reflexivity|now left].
      * unfold elem. rewrite Rs. cbn [pbind].
        set (y := mkI (op (tried x a)) (wait (tried x a) - 1) (clients (tried x a))).
        assert (Lv : leaves less_again x a (Some y)) by (unfold leaves; rewrite Er; exists y; split; [reflexivity|right; split; [exact Wz|reflexivity]]).
        assert (W1 := Next _ Lv). cbv beta iota in W1.
        assert (Wt : e_edpc e = false -> forall y0, true = true -> Some y = Some y0 -> (wait y0 + 1 <= wait x)%N \/ (wait y0 = wait x /\ (tries j acts = [] \/ accepted j acts))).
        { intros _ y0 _ E. injection E as <-. left. cbn in *. lia. }
        specialize (W1 Wt). apply (Fin (Some y)); [right; left; exists y; split; [reflexivity|cbn in *; lia]|]. eapply gets_refl. apply to_nheads.
        eapply requeue with (j := j) (y := y) (ds := ds) (p := put_at j (Some y) p); [|exact Oj| |now apply put_at_same].
        -- eapply rewrite_rec; [exact W1|exact Oj|now left|exact Rs].
        -- cbn [with_recs v_recs]. rewrite put_is. apply put_at_same. eapply nth_short; eauto.
  - assert (Lv : leaves less_again x a (hd_error (a_follow a))) by (unfold leaves; rewrite Er; reflexivity).
    assert (W1 := Next _ Lv). cbv beta iota in W1. specialize (W1 ltac:(intros _ y X0; discriminate)).
    set (r := report s' (tried x a)) in *.
    assert (Acc : accepted j (acts ++ [Try j x a (hd_error (a_follow a))])).
    { exists x, a. split; [|exact Er]. rewrite tries_app, tries_one, Nat.eqb_refl. apply in_app_iff. right. now left. }
    assert (Dep : 2 * n + 3 <= depth r).
    { unfold depth. pose proof (nth_short _ _ _ Rs). rewrite <- (wa_org _ _ _ _ _ _ _ W1).
      pose proof (nth_short _ _ _ (wa_first _ _ _ _ _ _ _ W1 (n - 1) ltac:(lia))). lia. }
    destruct (dependents_ok (depth r) prox) as [D1 D2].
    destruct (follow_shape e (v_world s) x a A) as [Fo|(g & Fo & _ & Sh)]; rewrite Fo in *; cbn [hd_error] in *.
    + cbn [reschedules]. pose proof (D1 r _ _ org X [] [] id j (tried x a) ds Oj Rs W1 ltac:(lia)) as Y.
      destruct (dependents e grow (depth r) prox r id []) as [s2|t r2]; [|exact Y]. apply (Fin None); [now left|exact Y].
    + destruct (reschedules [g] (tried x a)) eqn:Rsch.
      * apply same_self in Rsch. injection Rsch as ->. apply (Fin (Some (tried x a))); [now left|]. eapply gets_refl.
        apply wave_perm with (Q := id :: X ++ pending prox s).
        2: { unfold pending. cbn [push_nprox v_defer v_heads v_nprox v_nheads report with_tally r s' with_recs with_world]. apply push_perm_prox. }
        eapply wave_same with (s := r); try reflexivity.
        -- eapply requeue; [exact W1|exact Oj|exact Rs|now apply put_at_same].
        -- cbn [push_nprox v_nprox]. intros q Hq. apply in_app_iff in Hq. destruct Hq as [Hq|[<-|[]]]; [auto|right; eauto].
      * apply tame in Rsch. assert (Kind : is_z g \/ is_busy g).
        { destruct Sh as [->|[(t & ->)|(q & m & q' & ->)]]; [congruence|left; exists t, false; reflexivity|right; exists q, m, q'; reflexivity]. }
        assert (Bg : begun (acts ++ [Try j x a (Some g)])).
        { exists j, x, a, (Some g). split; [apply in_app_iff; right; now left|]. split; [exact Er|]. rewrite Fo. discriminate. }
        pose proof (D2 r _ _ org X [] [] id j g (tried x a) ds Oj Rs W1 (put_at_same _ _ _ Jp) Kind Acc Bg ltac:(lia)) as Y.
        destruct (dependents e grow (depth r) prox r id [g]) as [s2|t r2]; [|exact Y]. apply (Fin (Some g)); [now left|exact Y].
Qed.

Lemma fold_ok : forall prox ids s acts p org, wave_at s acts p org (ids ++ pending prox s) [] [] ->
  (prox = true -> forall id, In id ids -> exists j, nth_error org id = Some j /\ accepted j acts) ->
  match pfold (schedule_one e grow prox false) ids s with
  | Halt t r => wave_left t r
  | Go s' => exists new p' more, wave_at s' (acts ++ new) p' (org ++ more) (pending prox s') [] [] /\
      forall id j, In id ids -> nth_error org id = Some j -> exists x a o, In (Try j x a o) new /\ moves x a o
  end.
Proof.
  intros prox ids. induction ids as [|id ids IH]; intros s acts p org W Px; cbn [pfold].
  - exists [], p, []. rewrite !app_nil_r. split; [exact W|]. intros id j [].
  - destruct (wa_queue _ _ _ _ _ _ _ W id (or_introl eq_refl)) as (j & _ & _ & Oj & _).
    assert (Pj : prox = true -> accepted j acts). { intros E. destruct (Px E id (or_introl eq_refl)) as (j' & Oj' & Acc). assert (j' = j) by congruence. subst. exact Acc. }
    pose proof (schedule_one_ok prox s acts p org ids id j W Oj Pj) as S.
    destruct (schedule_one e grow prox false s id) as [s1|t r]; cbn [pbind]; [|exact S].
    destruct S as (x & a & o & new & p1 & more & W1 & Mv).
    assert (Px2 : prox = true -> forall id, In id ids -> exists j0, nth_error (org ++ more) id = Some j0 /\ accepted j0 (acts ++ Try j x a o :: new)).
    { intros E i Hi. destruct (Px E i (or_intror Hi)) as (k & K1 & K2). exists k. split; [now apply org_more|now apply accepted_app]. }
    specialize (IH s1 _ _ _ W1 Px2). destruct (pfold (schedule_one e grow prox false) ids s1) as [s2|t r]; [|exact IH].
    destruct IH as (new2 & p2 & more2 & W2 & T). exists (Try j x a o :: new ++ new2), p2, (more ++ more2). rewrite <- !app_assoc in W2. cbn [app] in W2.
    split; [exact W2|]. intros i k Hi Hk. destruct Hi as [<-|Hi].
    + assert (k = j) by congruence. subst. exists x, a, o. split; [now left|exact Mv].
    + destruct (T i k Hi ltac:(now apply org_more)) as (x' & a' & o' & I' & M'). exists x', a', o'. split; [|exact M']. right. apply in_app_iff. now right.
Qed.

(** ** What was put off *)

Definition clear (s : wave_st) : wave_st :=
  mkWS (v_world s) (v_recs s) (v_counts s) (v_prox s) (v_heads s) [] (v_nprox s) (v_nheads s) (v_moved s) (v_tally s).
Lemma wave_cleared : forall s acts p org Q D H, wave_at s acts p org Q D H -> wave_at (clear s) acts p org Q D H.
Proof. intros s acts p org Q D H [Or Cl Fi Rc Qu He On Re Co Sm DD De Px Li Sc Ev Ins Sl Mo]. constructor; auto. split; [reflexivity|intros r []]. Qed.
Lemma attempt_clear : forall s id, attempt e (clear s) id = match attempt e s id with Go (x, a, s') => Go (x, a, clear s') | Halt t r => Halt t r end.
Proof.
  intros s id. unfold attempt, elem. cbn [clear v_recs v_tally v_world]. destruct (nth_error (v_recs s) id) as [[x ds]|]; cbn [pbind]; [|reflexivity].
  destruct (try_apply e (v_world s) x); reflexivity.
Qed.

(** Before the first and before the second attempt at what was put off *)
Definition has_route (acts : list act) (p : list (option instr)) (org : list nat) (id : nat) : Prop :=
  exists j x, nth_error org id = Some j /\ nth_error p j = Some (Some x) /\ found x.
Definition has_parts (acts : list act) (p : list (option instr)) (org : list nat) (id : nat) : Prop :=
  exists j x, nth_error org id = Some j /\ nth_error p j = Some (Some x) /\ (found x \/ cut_up x).

Lemma other_homes : forall s acts p org id Q, wave_at s acts p org (id :: Q) [] [] -> forall r j k, In r Q -> nth_error org id = Some j -> nth_error org r = Some k -> k <> j.
Proof.
  intros s acts p org id Q W r j k Hr Hj Hk ->. pose proof (wa_once _ _ _ _ _ _ _ W) as On. cbn [map app] in On. inversion On as [|? ? Nin _]; subst.
  apply Nin. rewrite app_nil_r. apply in_map_iff. exists r. split; [|exact Hr]. rewrite (nth_error_nth _ _ 0 Hj), (nth_error_nth _ _ 0 Hk). reflexivity.
Qed.

Lemma first_one : forall s acts p org id Q, wave_at (clear s) acts p org (id :: Q) [] [] -> e_edpc e = true -> has_route acts p org id ->
  match schedule_one e grow false true s id with
  | Halt t r => wave_left t r
  | Go s' => exists c p', wave_at (clear s') (acts ++ [c]) p' org (id :: Q) [] [] /\ has_parts (acts ++ [c]) p' org id /\
      (forall j, nth_error org id = Some j -> forall k, k <> j -> nth_error p' k = nth_error p k) /\
      v_defer s' = v_defer s /\ v_nprox s' = v_nprox s /\ v_nheads s' = v_nheads s
  end.
Proof.
  intros s acts p org id Q W Ed (j & y & Oj & Py & F). unfold schedule_one.
  destruct (attempt_held _ _ _ _ _ _ _ _ W) as (j' & x & ds & Oj' & Rx & Dj & Pj & Rd & At). assert (j' = j) by congruence. subst j'. assert (y = x) by congruence. subst y.
  rewrite attempt_clear in At. unfold attempt, elem in *. cbn [clear v_recs v_tally v_world] in *. rewrite Rx in *. cbn [pbind] in *.
  destruct (try_apply e (v_world s) x) as [a|?|?|] eqn:A; cbn [lift pbind] in *; try exact At.
  destruct At as (_ & _ & _ & Next). destruct (found_again _ _ _ _ Ed F A) as (Er & Fo & Fc). rewrite Er, Fo in *. cbn [negb reschedules].
  specialize (Next (fun z => z) (Some (tried x a))).
  assert (Jp : j < length p) by (eapply nth_short; eauto).
  exists (Try j x a (Some (tried x a))), (put_at j (Some (tried x a)) p). split; [|split; [|split; [|repeat split]]].
  - eapply requeue with (j := j) (y := tried x a) (ds := ds); [apply Next|exact Oj| |now apply put_at_same].
    + unfold leaves. rewrite Er. eexists. split; [reflexivity|now left].
    + congruence.
    + cbn. rewrite put_is. apply put_at_same. eapply nth_short; eauto.
  - exists j, (tried x a). split; [exact Oj|]. split; [now apply put_at_same|exact Fc].
  - intros j' Hj' k Hk. apply put_at_other; [exact Jp|congruence].
Qed.

Lemma first_round : forall ids done rest s acts p org, wave_at (clear s) acts p org (ids ++ done ++ rest) [] [] -> e_edpc e = true ->
  Forall (has_route acts p org) ids -> Forall (has_parts acts p org) done ->
  match pfold (schedule_one e grow false true) ids s with
  | Halt t r => wave_left t r
  | Go s' => exists new p', wave_at (clear s') (acts ++ new) p' org (ids ++ done ++ rest) [] [] /\ Forall (has_parts (acts ++ new) p' org) (ids ++ done) /\
      v_defer s' = v_defer s /\ v_nprox s' = v_nprox s /\ v_nheads s' = v_nheads s
  end.
Proof.
  induction ids as [|id ids IH]; intros done rest s acts p org W Ed R P; cbn [pfold].
  - exists [], p. rewrite app_nil_r. auto.
  - apply Forall_cons_iff in R. destruct R as [R1 R2]. cbn [app] in W. pose proof (first_one s acts p org id _ W Ed R1) as S.
    destruct (schedule_one e grow false true s id) as [s1|t r]; cbn [pbind]; [|exact S]. destruct S as (c & p1 & W1 & H1 & Ot & E1 & E2 & E3).
    assert (Keep : forall r, In r (ids ++ done) -> forall j, nth_error org r = Some j -> nth_error p1 j = nth_error p j).
    { intros r Hr k Hk. destruct R1 as (j & _ & Oj & _). apply (Ot j Oj). eapply (other_homes _ _ _ _ _ _ W r j k); eauto. apply in_app_iff in Hr. rewrite !in_app_iff. tauto. }
    assert (W2 : wave_at (clear s1) (acts ++ [c]) p1 org (ids ++ (id :: done) ++ rest) [] []).
    { eapply wave_perm; [exact W1|]. cbn [app]. apply Permutation_middle. }
    specialize (IH (id :: done) rest s1 (acts ++ [c]) p1 org W2 Ed).
    assert (R2' : Forall (has_route (acts ++ [c]) p1 org) ids).
    { apply Forall_forall. intros r Hr. destruct (proj1 (Forall_forall _ _) R2 r Hr) as (j & x & A & B & C). exists j, x. rewrite (Keep r); auto. apply in_app_iff. auto. }
    assert (P' : Forall (has_parts (acts ++ [c]) p1 org) (id :: done)).
    { constructor; [exact H1|]. apply Forall_forall. intros r Hr. destruct (proj1 (Forall_forall _ _) P r Hr) as (j & x & A & B & C). exists j, x. rewrite (Keep r); auto. apply in_app_iff. auto. }
    specialize (IH R2' P'). destruct (pfold (schedule_one e grow false true) ids s1) as [s2|t r]; [|exact IH].
    destruct IH as (new & p2 & W3 & F3 & D3 & N3 & M3). exists (c :: new), p2. rewrite <- app_assoc in W3, F3. cbn [app] in W3, F3.
    split; [eapply wave_perm; [exact W3|]; cbn [app]; apply Permutation_sym, Permutation_middle|].
    split; [eapply Permutation_Forall; [|exact F3]; apply Permutation_sym, Permutation_middle|]. split; [|split]; congruence.
Qed.

Lemma second_one : forall s acts p org id Q, wave_at (clear s) acts p org (id :: Q ++ pending false (clear s)) [] [] -> e_edpc e = true -> has_parts acts p org id ->
  match schedule_one e grow false true s id with
  | Halt t r => wave_left t r
  | Go s' => exists c p', wave_at (clear s') (acts ++ [c]) p' org (Q ++ pending false (clear s')) [] [] /\
      (forall j, nth_error org id = Some j -> forall k, k <> j -> nth_error p' k = nth_error p k)
  end.
Proof.
  intros s acts p org id Q W Ed (j & y & Oj & Py & F). unfold schedule_one.
  destruct (attempt_held _ _ _ _ _ _ _ _ W) as (j' & x & ds & Oj' & Rx & Dj & Pj & Rd & At). assert (j' = j) by congruence. subst j'. assert (y = x) by congruence. subst y.
  rewrite attempt_clear in At. unfold attempt, elem in *. cbn [clear v_recs v_tally v_world] in *. rewrite Rx in *. cbn [pbind] in *.
  destruct (try_apply e (v_world s) x) as [a|?|?|] eqn:A; cbn [lift pbind] in *; try exact At.
  destruct At as (_ & _ & _ & Next).
  assert (Jp : j < length p) by (eapply nth_short; eauto).
  assert (Cases : (a_error a = true /\ a_follow a = [] /\ on_route (tried x a)) \/ (a_error a = false /\ a_follow a = [tried x a])).
  { destruct F as [F|F].
    - destruct (found_again _ _ _ _ Ed F A) as (Er & Fo & Fc). left. split; [exact Er|]. split; [exact Fo|]. now apply found_route.
    - pose proof (cut_again _ _ _ _ Ed F A) as C. destruct (a_error a); [left; split; [reflexivity|]; split; [apply C|]; apply found_route; right; apply C|right; auto]. }
  specialize (Next (fun z => z) (Some (tried x a))).
  destruct Cases as [(Er & Fo & Rt)|(Er & Fo)]; rewrite Er, Fo in *; cbn [negb].
  - cbn [reschedules]. exists (Try j x a (Some (tried x a))), (put_at j (Some (tried x a)) p). split; [|intros j' Hj' k Hk; apply put_at_other; [exact Jp|congruence]].
    eapply lose with (j := j).
    + apply Next; [|congruence]. unfold leaves. rewrite Er. eexists. split; [reflexivity|now left].
    + split; [exact Ed|]. split; [exists (tried x a); split; [now apply put_at_same|exact Rt]|]. exists (tries j acts), x, a. rewrite tries_app, tries_one, Nat.eqb_refl. auto.
  - rewrite self_again.
    exists (Try j x a (Some (tried x a))), (put_at j (Some (tried x a)) p). split; [|intros j' Hj' k Hk; apply put_at_other; [exact Jp|congruence]].
    apply wave_perm with (Q := id :: Q ++ pending false (clear s)).
    2: { unfold pending. cbn [clear push_nprox v_defer v_heads v_nprox v_nheads report with_tally with_recs with_world app]. apply push_perm_one. }
    eapply wave_same with (s := clear (report (with_recs (with_world s (a_world a)) (put id (tried x a, ds) (v_recs s))) (tried x a))); try reflexivity.
    + eapply requeue with (j := j) (y := tried x a) (ds := ds); [|exact Oj| |now apply put_at_same].
      * apply Next; [|congruence]. unfold leaves. rewrite Er, Fo. reflexivity.
      * cbn. rewrite put_is. apply put_at_same. eapply nth_short; eauto.
    + cbn [clear push_nprox v_nprox]. intros q Hq. apply in_app_iff in Hq. destruct Hq as [Hq|[<-|[]]]; [auto|]. right. exists j. split; [exact Oj|].
      exists x, a. split; [|exact Er]. rewrite tries_app, tries_one, Nat.eqb_refl. apply in_app_iff. right. now left.
Qed.

Lemma second_round : forall ids s acts p org, wave_at (clear s) acts p org (ids ++ pending false (clear s)) [] [] -> e_edpc e = true ->
  Forall (has_parts acts p org) ids ->
  match pfold (schedule_one e grow false true) ids s with
  | Halt t r => wave_left t r
  | Go s' => exists new p', wave_at (clear s') (acts ++ new) p' org (pending false (clear s')) [] []
  end.
Proof.
  induction ids as [|id ids IH]; intros s acts p org W Ed P; cbn [pfold].
  - exists [], p. rewrite app_nil_r. exact W.
  - apply Forall_cons_iff in P. destruct P as [P1 P2]. cbn [app] in W. pose proof (second_one s acts p org id _ W Ed P1) as S.
    destruct (schedule_one e grow false true s id) as [s1|t r]; cbn [pbind]; [|exact S]. destruct S as (c & p1 & W1 & Ot).
    assert (P' : Forall (has_parts (acts ++ [c]) p1 org) ids).
    { apply Forall_forall. intros r Hr. destruct (proj1 (Forall_forall _ _) P2 r Hr) as (j & x & A & B & C). exists j, x. split; [exact A|]. split; [|exact C].
      destruct P1 as (i & _ & Oi & _). rewrite (Ot i Oi); [exact B|]. eapply (other_homes _ _ _ _ _ _ W r i j); eauto. apply in_app_iff. auto. }
    specialize (IH s1 _ _ _ W1 Ed P'). destruct (pfold (schedule_one e grow false true) ids s1) as [s2|t r]; [|exact IH].
    destruct IH as (new & p2 & W2). exists (c :: new), p2. rewrite <- app_assoc in W2. exact W2.
Qed.

(** Something happens between the attempts. *)
Lemma between : forall s acts p org Q c t w, wave_at s acts p org Q [] [] -> (forall j, tries j [c] = []) ->
  sched (acts ++ [c]) w p -> t_events t = seen (acts ++ [c]) ->
  N.of_nat (length (seen (acts ++ [c]))) = (t_instrs t + N.of_nat (length (emitted (seen (acts ++ [c])))))%N ->
  t_slices t = (1 + N.of_nat (length (emitted (seen (acts ++ [c])))))%N ->
  wave_at (with_tally (with_world s w) t) (acts ++ [c]) p org Q [] [].
Proof.
  intros s acts p org Q c t w [Or Cl Fi Rc Qu He On Re Co Sm DD De Px Li Sc Ev Ins Sl Mo] Tc Sc' Ev' Ins' Sl'.
  assert (Ts : forall j, tries j (acts ++ [c]) = tries j acts) by (intros j; rewrite tries_app, Tc; apply app_nil_r).
  constructor; cbn [with_tally with_world v_recs v_counts v_defer v_nprox v_world v_tally v_moved]; auto.
  - intros j x0 Hj. unfold WaveSpec.lost. rewrite Ts. apply Re. exact Hj.
  - intros r Hr. destruct (Px r Hr) as (j & A & B). exists j. split; [exact A|]. now apply accepted_app.
  - intros Ef j x0 x Hj Hx. rewrite Ts. eauto.
  - intros Hm. apply moved_app, Mo, Hm.
Qed.

Lemma deferred_ok : forall s acts p org, wave_at s acts p org (pending false s) [] [] ->
  match (if e_edpc e then let! s := pfold (schedule_one e grow false true) (v_defer s) s in let! s := unmark s in pfold (schedule_one e grow false true) (v_defer s) s else Go s) with
  | Halt t r => wave_left t r
  | Go s' => exists new p', wave_at (clear s') (acts ++ new) p' org (v_nprox s' ++ v_nheads s') [] []
  end.
Proof.
  intros s acts p org W. assert (Cs : e_edpc e = true \/ e_edpc e = false) by (destruct (e_edpc e); auto).
  destruct Cs as [Ed|Ed]; rewrite Ed.
  2: { exists [], p. rewrite app_nil_r. pose proof (proj1 (wa_defer _ _ _ _ _ _ _ W) Ed) as Nd. apply wave_cleared in W. unfold pending in W. rewrite Nd in W. exact W. }
  assert (R : Forall (has_route acts p org) (v_defer s)).
  { apply Forall_forall. intros r Hr. destruct (proj2 (wa_defer _ _ _ _ _ _ _ W) r Hr) as (_ & j & x & H). exists j, x. exact H. }
  pose proof (first_round (v_defer s) [] (v_nprox s ++ v_nheads s) s acts p org (wave_cleared _ _ _ _ _ _ _ W) Ed R ltac:(constructor)) as F.
  destruct (pfold (schedule_one e grow false true) (v_defer s) s) as [s1|t r]; cbn [pbind]; [|exact F]. destruct F as (new & p1 & W1 & P1 & D1 & N1 & H1).
  cbn [app] in W1. rewrite app_nil_r in P1. unfold unmark. pose proof (wa_sched _ _ _ _ _ _ _ W1) as Sc. pose proof (wa_events _ _ _ _ _ _ _ W1) as Ev. cbn [clear v_world v_tally] in Sc, Ev.
  destruct (give_back (w_slice (v_world s1))) as [sl|y|u|] eqn:G; cbn [lift pbind].
  2-4: (eapply wl_mend; [exact Sc|exact Ev|exact Ed|rewrite G; reflexivity]).
  pose proof (sc_mend e clash less_again _ _ _ _ _ _ Sc Ed G) as Sc2. cbn [with_world v_defer]. rewrite D1, <- N1, <- H1 in *.
  assert (Se : seen ((acts ++ new) ++ [Mend]) = seen (acts ++ new)) by (rewrite seen_app; apply app_nil_r).
  pose proof (between _ _ _ _ _ Mend (v_tally s1) _ W1 (fun _ => eq_refl) Sc2 ltac:(rewrite Se; exact Ev)
    ltac:(rewrite Se; exact (wa_instrs _ _ _ _ _ _ _ W1)) ltac:(rewrite Se; exact (wa_slices _ _ _ _ _ _ _ W1))) as W2.
  pose proof (second_round (v_defer s) (with_world s1 (with_slice (v_world s1) sl)) ((acts ++ new) ++ [Mend]) p1 org) as Y.
  assert (W3 : wave_at (clear (with_world s1 (with_slice (v_world s1) sl))) ((acts ++ new) ++ [Mend]) p1 org (v_defer s ++ pending false (clear (with_world s1 (with_slice (v_world s1) sl)))) [] []).
  { exact W2. }
  specialize (Y W3 Ed P1). destruct (pfold (schedule_one e grow false true) (v_defer s) (with_world s1 (with_slice (v_world s1) sl))) as [s2|t r]; [|exact Y].
  destruct Y as (new2 & p2 & W4). exists (new ++ Mend :: new2), p2. rewrite <- !app_assoc in W4. exact W4.
Qed.

(** No queue of heads loses an element while a wave is carried out. *)
Definition keeps (s : wave_st) (x : progress wave_st) : Prop := match x with Go s' => incl (v_heads s) (v_heads s') | Halt _ _ => True end.
Lemma keeps_bind : forall {B} s (m : progress B) k (h : B -> wave_st), (match m with Go b => incl (v_heads s) (v_heads (h b)) | Halt _ _ => True end) ->
  (forall b, keeps (h b) (k b)) -> keeps s (pbind m k).
Proof.
  intros B s m k h M K. destruct m as [b|t r]; cbn [pbind keeps]; [|exact I]. specialize (K b). unfold keeps in *. destruct (k b); [|exact I]. intros z Hz. apply K, M, Hz.
Qed.
Lemma keeps_fold : forall {B} (f : wave_st -> B -> progress wave_st) l s, (forall s b, keeps s (f s b)) -> keeps s (pfold f l s).
Proof.
  intros B f l. induction l as [|b l IH]; intros s K; [intros z Hz; exact Hz|]. cbn [pfold]. apply keeps_bind with (h := fun s => s); [exact (K s b)|]. intros; apply IH, K.
Qed.
Lemma keeps_attempt : forall s id, match attempt e s id with Go (_, _, s') => v_heads s' = v_heads s | Halt _ _ => True end.
Proof.
  intros. unfold attempt, elem. destruct (nth_error (v_recs s) id) as [[x ds]|]; cbn [pbind]; [|exact I].
  destruct (try_apply e (v_world s) x); cbn [lift pbind]; auto.
Qed.
Lemma keeps_self : forall s s', v_heads s' = v_heads s -> keeps s (Go s').
Proof. intros s s' E. cbn. rewrite E. apply incl_refl. Qed.
Lemma keeps_eq : forall s s' x, v_heads s' = v_heads s -> keeps s' x -> keeps s x.
Proof. intros s s' x E K. unfold keeps in *. destruct x; [rewrite <- E; exact K|exact I]. Qed.

Lemma keeps_immediately : forall deps s id, (forall s id f, keeps s (deps s id f)) ->
  match immediately e deps s id with Go (_, s') => incl (v_heads s) (v_heads s') | Halt _ _ => True end.
Proof.
  intros deps s id K. unfold immediately, elem. destruct (nth_error (v_recs s) id) as [[x ds]|]; cbn [pbind]; [|exact I].
  destruct (is_immediate x) as [[|]|?|?|]; cbn [lift pbind negb]; auto; [|apply incl_refl].
  pose proof (keeps_attempt s id) as A. destruct (attempt e s id) as [[[y a] s1]|t r]; cbn [pbind]; [|exact I].
  destruct (a_error a); [destruct (reschedules (a_follow a) y); cbn; rewrite A; apply incl_refl|].
  destruct (reschedules (a_follow a) y); [cbn; rewrite A; apply incl_refl|].
  pose proof (K (report s1 y) id (a_follow a)) as D. destruct (deps (report s1 y) id (a_follow a)); cbn [pbind]; [|exact I]. cbn in D. rewrite A in D. exact D.
Qed.
Lemma keeps_release : forall imm prox m r s, (forall s id, match imm s id with Go (_, s') => incl (v_heads s) (v_heads s') | Halt _ _ => True end) ->
  keeps s (release imm prox m r s).
Proof.
  intros imm prox m r. induction r as [|d r IH]; intros s K; cbn [release]; [apply incl_refl|].
  destruct (negb (v_moved s =? m)); [exact I|]. unfold elem at 1. destruct (nth_error (v_counts s) d) as [c|]; cbn [pbind]; [|exact I].
  set (s1 := with_counts s _). apply keeps_eq with (s' := s1); [reflexivity|]. apply keeps_bind with (h := fun s => s); [|intros; apply IH, K].
  destruct (negb ((c + 255) mod 256 =? 0)%N); [apply incl_refl|]. destruct prox.
  - unfold elem. destruct (nth_error (v_recs s1) d) as [[x ds]|]; cbn [pbind]; [|exact I]. destruct (is_immediate x) as [[|]|?|?|]; cbn [lift pbind]; auto.
    + cbn. apply incl_appl, incl_refl. + cbn. apply incl_refl.
  - specialize (K s1 d). destruct (imm s1 d) as [[[|] s2]|t q]; cbn [pbind]; auto.
Qed.
Lemma keeps_dependents : forall f prox s id follow, keeps s (dependents e grow f prox s id follow).
Proof.
  induction f as [|f IH]; intros prox s id follow; [exact I|]. cbn [dependents]. unfold elem at 1. destruct (nth_error (v_recs s) id) as [[x ds]|]; cbn [pbind]; [|exact I].
  assert (Im : forall s id, match immediately e (dependents e grow f prox) s id with Go (_, s') => incl (v_heads s) (v_heads s') | Halt _ _ => True end) by (intros; apply keeps_immediately; intros; apply IH).
  destruct follow as [|g gs]; [now apply keeps_release|].
  apply keeps_bind with (h := fun s => s).
  - change (keeps s (pfold (fun s0 d => let! c := elem (v_tally s0) (v_counts s0) d in Go (with_counts s0 (put d ((c + N.of_nat (length (g :: gs) - 1)) mod 256)%N (v_counts s0)))) ds s)).
    apply keeps_fold. intros s1 d. unfold elem. destruct (nth_error (v_counts s1) d); cbn [pbind]; [apply keeps_self; reflexivity|exact I].
  - intros s1. apply keeps_fold. intros s2 j. destruct (negb (v_moved s2 =? v_moved s)); [exact I|].
    specialize (Im (push_record grow s2 j ds) (length (v_recs s2))). destruct (immediately e (dependents e grow f prox) (push_record grow s2 j ds) (length (v_recs s2))) as [[[|] s3]|t q]; cbn [pbind]; auto; exact Im.
Qed.
Lemma keeps_one : forall prox d s id, keeps s (schedule_one e grow prox d s id).
Proof.
  intros prox d s id. unfold schedule_one. pose proof (keeps_attempt s id) as A. destruct (attempt e s id) as [[[y a] s1]|t r]; cbn [pbind]; [|exact I].
  destruct (a_error a); cbn [negb].
  - destruct (reschedules (a_follow a) y); [apply keeps_self; exact A|]. destruct d; [apply keeps_self; exact A|]. destruct prox; [exact I|].
    destruct (wait y =? 0)%N; [exact I|]. unfold elem. destruct (nth_error (v_recs s1) id) as [[z ds]|]; cbn [pbind]; [apply keeps_self; exact A|exact I].
  - destruct (reschedules (a_follow a) y); [apply keeps_self; exact A|]. apply keeps_eq with (s' := report s1 y); [exact A|]. apply keeps_dependents.
Qed.

(** ** Slice by slice *)

(** Between two slices *)
Definition wave_point (s : wave_st) (acts : list act) (p : list (option instr)) (org : list nat) : Prop :=
  wave_at s acts p org (v_prox s ++ v_heads s) [] [] /\ v_nprox s = [] /\ v_nheads s = [] /\
  (forall r, In r (v_prox s) -> exists j, nth_error org r = Some j /\ accepted j acts) /\ v_defer s = [].

Lemma ready_queued : forall s acts p org Q j, wave_at s acts p org Q [] [] -> ready clash prog p j -> (exists r, In r Q /\ nth_error org r = Some j) \/ lost p acts j.
Proof.
  intros s acts p org Q j W [[x Px] C]. pose proof (nth_short _ _ _ Px) as L. rewrite (sched_length _ _ _ _ _ _ _ _ (wa_sched _ _ _ _ _ _ _ W)) in L.
  destruct (nth_error prog j) as [x0|] eqn:Hx; [|apply nth_error_None in Hx; lia].
  destruct (wa_rest _ _ _ _ _ _ _ W _ _ Hx) as [Hi|[[Hi _]|[(_ & Hi & _)|[Hi _]]]].
  - rewrite app_nil_r in Hi. apply in_map_iff in Hi. destruct Hi as (r & <- & Hr). left. exists r. split; [exact Hr|].
    destruct (wa_queue _ _ _ _ _ _ _ W _ Hr) as (k & _ & _ & Hk & _). rewrite Hk. f_equal. symmetry. now apply nth_error_nth.
  - congruence.
  - exfalso. cbn [app] in Hi. apply owing_edge in Hi. destruct Hi as (k & y & Hk & E). pose proof (se_edge _ _ (sets_all prog few) _ _ E) as (L2 & u & v & Hu & Hv & Cl).
    rewrite (C k u v) in Hk; [discriminate|lia|exact Hu|congruence|exact Cl].
  - now right.
Qed.

Lemma least_left : forall p : list (option instr),
  (exists j x, nth_error p j = Some (Some x) /\ forall i, i < j -> nth_error p i = Some None) \/ Forall (fun o => o = None) p.
Proof.
  induction p as [|[x|] p IH]; [right; constructor| |].
  - left. exists 0, x. split; [reflexivity|]. intros i Hi. lia.
  - destruct IH as [(j & x & Hj & Hi)|F]; [left|right; now constructor]. exists (S j), x. split; [exact Hj|]. intros [|i] L; [reflexivity|]. apply Hi. lia.
Qed.

Lemma step_ok : forall s acts p org, wave_point s acts p org ->
  match wave_step e late grow s with
  | Halt t r => wave_left t r
  | Go s' => exists new p' more, wave_point s' (acts ++ new) p' (org ++ more) /\ (exists j x a o, In (Try j x a o) new /\ moves x a o) /\ forall j, ready clash prog p j -> (exists x a o, In (Try j x a o) new /\ moves x a o) \/ lost p acts j
  end.
Proof.
  intros s acts p org (W & Np & Nh & Px & Nd). unfold wave_step.
  assert (Dn : v_prox s = [] -> v_heads s = [] -> wave_left (v_tally s) Finished).
  { intros E1 E2. rewrite E1, E2 in W. cbn [app] in W. pose proof (wa_sched _ _ _ _ _ _ _ W) as Sc.
    destruct (least_left p) as [(j & x & Pj & Lt)|F].
    - assert (Rd : ready clash prog p j) by (split; [eauto|]; intros i u v Hi _ _ _; auto).
      destruct (ready_queued _ _ _ _ _ j W Rd) as [(r & [] & _)|Lo].
      eapply wl_lost; [exact Sc|apply (wa_events _ _ _ _ _ _ _ W)|exact Rd|exact Lo|apply (wa_slices _ _ _ _ _ _ _ W)|apply (wa_instrs _ _ _ _ _ _ _ W)].
    - eapply wl_done; [exact Sc|apply (wa_events _ _ _ _ _ _ _ W)|exact F|apply (wa_slices _ _ _ _ _ _ _ W)|apply (wa_instrs _ _ _ _ _ _ _ W)]. }
  assert (Go_on : v_prox s ++ v_heads s <> [] -> match (let! s1 := schedule_wave e grow s in let! t := visit late (v_tally s1) (w_slice (v_world s1)) in let! w := advance e t (v_world s1) in Go (with_tally (with_world s1 w) (more_slices t))) with
    | Halt t r => wave_left t r
    | Go s' => exists new p' more, wave_point s' (acts ++ new) p' (org ++ more) /\ (exists j x a o, In (Try j x a o) new /\ moves x a o) /\ forall j, ready clash prog p j -> (exists x a o, In (Try j x a o) new /\ moves x a o) \/ lost p acts j end).
  2: { destruct (v_prox s); [destruct (v_heads s); [auto|apply Go_on; discriminate]|apply Go_on; discriminate]. }
  clear Dn. intros Ne. unfold schedule_wave.
  assert (W0 : wave_at s acts p org (v_prox s ++ pending true s) [] []) by (unfold pending; rewrite Np, Nh, Nd, !app_nil_r; exact W).
  pose proof (fold_ok true (v_prox s) s acts p org W0 (fun _ => Px)) as F1.
  pose proof (keeps_fold (schedule_one e grow true false) (v_prox s) s (fun s b => keeps_one true false s b)) as K1.
  destruct (pfold (schedule_one e grow true false) (v_prox s) s) as [s1|t r]; cbn [pbind]; [|exact F1]. destruct F1 as (new1 & p1 & more1 & W1 & T1). cbn in K1.
  assert (W1' : wave_at s1 (acts ++ new1) p1 (org ++ more1) (v_heads s1 ++ pending false s1) [] []).
  { eapply wave_perm; [exact W1|]. unfold pending. cbn [app]. rewrite !app_assoc. do 2 apply Permutation_app_tail. apply Permutation_app_comm. }
  pose proof (fold_ok false (v_heads s1) s1 _ p1 _ W1' ltac:(discriminate)) as F2.
  destruct (pfold (schedule_one e grow false false) (v_heads s1) s1) as [s2|t r]; cbn [pbind]; [|exact F2]. destruct F2 as (new2 & p2 & more2 & W2 & T2).
  pose proof (deferred_ok s2 _ _ _ W2) as F3.
  match goal with |- context[pbind (if e_edpc e then ?A else ?B) _] => destruct (if e_edpc e then A else B) as [s3|t r]; cbn [pbind]; [|exact F3] end.
  destruct F3 as (new3 & p3 & W3). cbn [v_tally v_world].
  pose proof (wa_sched _ _ _ _ _ _ _ W3) as Sc. pose proof (wa_events _ _ _ _ _ _ _ W3) as Ev. cbn [clear v_world v_tally] in Sc, Ev.
  unfold visit. destruct (late (length (emitted (t_events (v_tally s3))))) eqn:La; cbn [pbind]; [eapply wl_late; [exact Sc|exact Ev|exact La]|].
  unfold advance. destruct (advance_slice (e_layout e) (w_slice (v_world s3))) as [sl|y|u|] eqn:Ad; cbn [lift pbind].
  2-4: (eapply wl_advance; [exact Sc|cbn [t_events saw]; rewrite Ev; reflexivity|rewrite Ad; reflexivity]).
  pose proof (sc_show e clash less_again _ _ _ _ _ _ Sc Ad) as Sc'.
  set (sh := Show (w_slice (v_world s3))) in *. set (all := ((acts ++ new1) ++ new2) ++ new3) in *.
  exists (((new1 ++ new2) ++ new3) ++ [sh]), p3, (more1 ++ more2).
  assert (Se : seen (all ++ [sh]) = seen all ++ [Emitted (w_slice (v_world s3))]) by (rewrite seen_app; reflexivity).
  replace (acts ++ ((new1 ++ new2) ++ new3) ++ [sh]) with (all ++ [sh]) by (unfold all; rewrite <- !app_assoc; reflexivity).
  replace (org ++ more1 ++ more2) with ((org ++ more1) ++ more2) by (rewrite <- app_assoc; reflexivity).
  split.
  - split; [|split; [reflexivity|split; [reflexivity|split; [|reflexivity]]]]; cbn [with_tally with_world v_prox v_heads v_nprox v_nheads].
    + pose proof (between _ _ _ _ _ sh (more_slices (saw (v_tally s3) (Emitted (w_slice (v_world s3))))) _ W3 (fun _ => eq_refl) Sc') as B.
      specialize (B ltac:(rewrite Se; cbn; rewrite Ev; reflexivity)).
      specialize (B ltac:(rewrite Se, em_slice, app_length; cbn [length more_slices saw t_instrs]; pose proof (wa_instrs _ _ _ _ _ _ _ W3); cbn [clear v_tally] in *; lia)).
      specialize (B ltac:(rewrite Se, em_slice; cbn [more_slices saw t_slices]; pose proof (wa_slices _ _ _ _ _ _ _ W3); cbn [clear v_tally] in *; lia)).
      eapply wave_same; [exact B|reflexivity..|]. intros r [].
    + intros r Hr. destruct (wa_prox _ _ _ _ _ _ _ W3 r Hr) as (j & J1 & J2). exists j. split; [exact J1|]. now apply accepted_app.
  - assert (Al : forall r j, In r (v_prox s ++ v_heads s) -> nth_error org r = Some j -> exists x a o, In (Try j x a o) (((new1 ++ new2) ++ new3) ++ [sh]) /\ moves x a o).
    { intros r j Hr Oj. apply in_app_iff in Hr. destruct Hr as [Hr|Hr].
      - destruct (T1 r j Hr Oj) as (x & a & o & I & M). exists x, a, o. split; [|exact M]. rewrite !in_app_iff. auto.
      - destruct (T2 r j (K1 _ Hr) ltac:(now apply org_more)) as (x & a & o & I & M). exists x, a, o. split; [|exact M]. rewrite !in_app_iff. auto. }
    split.
    + destruct (v_prox s ++ v_heads s) as [|r Q] eqn:Eq; [now destruct Ne|]. destruct (wa_queue _ _ _ _ _ _ _ W r ltac:(now left)) as (j & _ & _ & Oj & _).
      exists j. apply (Al r j); [now left|exact Oj].
    + intros j Rj. destruct (ready_queued _ _ _ _ _ j W Rj) as [(r & Hr & Oj)|L]; [left|right; exact L]. exact (Al r j Hr Oj).
Qed.

Lemma init_ok : wave_point (wave_init prog w0) [] (map Some prog) (seq 0 n).
Proof.
  pose proof (sets_all prog few) as [Pr Ln Ct Nd Hd Ed Lt La Re]. unfold wave_point, wave_init. cbn [v_prox v_heads v_nprox v_nheads app].
  split; [|split; [reflexivity|split; [reflexivity|split; [intros r []|reflexivity]]]].
  assert (Lr : length (u_recs (setup_of prog)) = n) by (rewrite <- Pr at 2; rewrite map_length; reflexivity).
  assert (Ld : length dl = n) by (unfold deps_of; rewrite map_length; exact Lr).
  assert (Ow : owing dl (map Some prog) = concat dl) by (now apply owing_start).
  assert (Sq : forall j, j < n -> nth_error (seq 0 n) j = Some j).
  { intros j Hj. rewrite (nth_error_nth' _ 0) by (rewrite seq_length; exact Hj). rewrite seq_nth by exact Hj. reflexivity. }
  assert (Rp : forall j x0, nth_error prog j = Some x0 -> exists ds, nth_error (u_recs (setup_of prog)) j = Some (x0, ds)).
  { intros j x0 Hj. rewrite <- Pr, nth_error_map in Hj. destruct (nth_error (u_recs (setup_of prog)) j) as [[x ds]|]; [|discriminate]. cbn in Hj. injection Hj as ->. eauto. }
  assert (Hh : forall r, In r (u_heads (setup_of prog)) -> nth r (seq 0 n) 0 = r) by (intros r Hr; apply Hd in Hr; now rewrite seq_nth).
  assert (Hm : map (home (seq 0 n)) (u_heads (setup_of prog)) = u_heads (setup_of prog)) by (rewrite <- (map_id (u_heads (setup_of prog))) at 2; apply map_ext_in; exact Hh).
  constructor; cbn [v_recs v_counts v_defer v_nprox v_world v_tally v_moved app tally0 t_events t_instrs t_slices]; rewrite ?Ow, ?app_nil_r, ?Hm; auto.
  - rewrite seq_length. lia.
  - lia.
  - intros r x ds Hr. exists r. pose proof (nth_short _ _ _ Hr). split; [apply Sq; lia|]. apply deps_nth. eauto.
  - intros r Hr. apply Hd in Hr. destruct Hr as [Hr Nr]. destruct (nth_error prog r) as [x|] eqn:Hx; [|apply nth_error_None in Hx; lia].
    destruct (Rp _ _ Hx) as (ds & Hds). exists r, x, ds. split; [auto|]. split; [exact Hds|]. split; [rewrite nth_error_map, Hx; reflexivity|exact Nr].
  - intros j [].
  - intros j x0 Hj. destruct (in_dec Nat.eq_dec j (concat dl)) as [Hi|Hi].
    + right. right. left. split; [rewrite nth_error_map, Hj; reflexivity|]. split; [exact Hi|]. split; [auto|reflexivity].
    + left. apply Hd. split; [eapply nth_short; eauto|exact Hi].
  - intros j c Hj Hc. apply (Ct j c Hc).
  - intros j. destruct (Nat.lt_ge_cases j n) as [L|G].
    + destruct (nth_error (u_counts (setup_of prog)) j) as [c|] eqn:Hc; [|apply nth_error_None in Hc; lia]. destruct (Ct j c Hc). lia.
    + replace (occ (concat dl) j) with 0; [lia|]. symmetry. apply occ_zero. rewrite in_concat_edge. intros (k & E). apply Ed in E. lia.
  - intros d [].
  - split; [reflexivity|intros r []].
  - intros r [].
  - intros _ j x0 x Hj Hx _. rewrite nth_error_map, Hj in Hx. injection Hx as <-. cbn. lia.
  - constructor.
  - intros Hm0. congruence.
Qed.

Lemma turns_ok : forall k s acts p org, wave_point s acts p org ->
  match turns (wave_step e late grow) k s with
  | Halt t r => wave_left t r
  | Go s' => exists new p' more, wave_point s' (acts ++ new) p' (org ++ more)
  end.
Proof.
  induction k as [|k IH]; intros s acts p org W; cbn [turns]; [exists [], p, []; rewrite !app_nil_r; exact W|].
  pose proof (step_ok s acts p org W) as S. destruct (wave_step e late grow s) as [s1|t r]; cbn [pbind]; [|exact S].
  destruct S as (new & p1 & more & W1 & _). pose proof (IH s1 _ _ _ W1) as S2. destruct (turns (wave_step e late grow) k s1) as [s2|t r]; [|exact S2].
  destruct S2 as (new2 & p2 & more2 & W2). exists (new ++ new2), p2, (more ++ more2). rewrite !app_assoc. exact W2.
Qed.
End Loop.
