(** Proofs about long-range Bell operations. *)
From Verif Require Import Base PatchesModel LayoutModel LayoutSpec InstrModel InstrSpec InstrProofs.
From Verif Require Import SliceModel SliceSpec SliceProofs RouterModel RouterSpec ApplyModel ApplySpec ApplyProofs ApplyBell BellSpec.
Open Scope nat_scope.

Lemma even_mod : forall k, Nat.even k = (k mod 2 =? 0).
Proof.
  intro k. destruct (Nat.even k) eqn:E; symmetry.
  - apply Nat.even_spec in E as [m ->]. apply Nat.eqb_eq. rewrite Nat.mul_comm. apply Nat.mod_mul. lia.
  - apply Nat.eqb_neq. assert (Ho : Nat.odd k = true) by (rewrite <- Nat.negb_even, E; auto).
    apply Nat.odd_spec in Ho as [m ->]. rewrite Nat.add_comm, Nat.mul_comm, Nat.mod_add by lia. discriminate.
Qed.
Lemma odd_mod : forall k, Nat.odd k = (k mod 2 =? 1).
Proof.
  intro k. rewrite <- Nat.negb_even, even_mod. pose proof (Nat.mod_upper_bound k 2 ltac:(lia)).
  destruct (Nat.eqb_spec (k mod 2) 0); destruct (Nat.eqb_spec (k mod 2) 1); cbn; auto; lia.
Qed.

Lemma two_step : forall P : nat -> Prop, P 0 -> P 1 -> (forall n, P n -> P (S (S n))) -> forall n, P n.
Proof. intros P H0 H1 H2 n. assert (H : P n /\ P (S n)) by (induction n; intuition). tauto. Qed.

Lemma by2_In : forall n j k, In k (by2 n j) <-> j <= k < j + n /\ (k - j) mod 2 = 0.
Proof.
  intro n. induction n as [| |n IH] using two_step; intros j k; cbn [by2 In].
  - lia.
  - split; [intros [<-|[]]; split; [lia|]; rewrite Nat.sub_diag; reflexivity|]. lia.
  - rewrite IH. lia.
Qed.
Lemma by2_NoDup : forall n j, NoDup (by2 n j).
Proof.
  intro n. induction n as [| |n IH] using two_step; intros j; cbn [by2].
  - constructor.
  - constructor; [intros []|constructor].
  - constructor; [|apply IH]. rewrite by2_In. lia.
Qed.


(** ** Collecting operations by link *)
Definition covers (does : nat -> local_instr -> Prop) (sel : nat -> Prop) (ops : list local_instr) : Prop :=
  exists links, Forall2 does links ops /\ NoDup links /\ forall k, In k links <-> sel k.

Lemma covers_nil : forall does, covers does (fun _ => False) [].
Proof. intro does. exists []. split; [constructor|]. split; [constructor|]. cbn. tauto. Qed.
Lemma covers_cons : forall (does : nat -> local_instr -> Prop) (sel : nat -> Prop) k x ops, does k x -> covers does sel ops -> ~ sel k ->
  covers does (fun j => j = k \/ sel j) (x :: ops).
Proof.
  intros does sel k x ops Hx (links & F & N & I) Hk. exists (k :: links). split; [constructor; auto|]. split.
  - constructor; auto. rewrite I. auto.
  - intro j. cbn [In]. rewrite I. intuition.
Qed.
Lemma covers_ext : forall does (sel sel' : nat -> Prop) ops, covers does sel ops -> (forall k, sel k <-> sel' k) ->
  covers does sel' ops.
Proof. intros does sel sel' ops (links & F & N & I) H. exists links. split; auto. split; auto. intro k. rewrite I. auto. Qed.
Lemma covers_by2 : forall (does : nat -> local_instr -> Prop) d a n f, d <= a ->
  (forall i, 2 * i < n -> does (a - d + 2 * i) (f (a + 2 * i))) ->
  covers does (fun k => a <= k + d < a + n /\ (k + d - a) mod 2 = 0) (map f (by2 n a)).
Proof.
  intros does d a n f Hd H. exists (map (fun j => j - d) (by2 n a)). split; [|split].
  - assert (F : forall l, (forall j, In j l -> does (j - d) (f j)) -> Forall2 does (map (fun j => j - d) l) (map f l)).
    { induction l as [|x l IH]; intros Hl; cbn; constructor; auto. - apply Hl. cbn. auto. - apply IH. intros. apply Hl. cbn. auto. }
    apply F. intros j Hj. apply by2_In in Hj. destruct Hj as [Hj Hm]. apply Nat.mod_divides in Hm as [i Hi]; [|lia].
    replace j with (a + 2 * i) by lia. replace (a + 2 * i - d) with (a - d + 2 * i) by lia. apply H. lia.
  - assert (F : forall l, NoDup l -> (forall j, In j l -> d <= j) -> NoDup (map (fun j => j - d) l)).
    { induction l as [|x l IH]; intros Hn Hl; cbn; constructor; inversion Hn; subst.
      - rewrite in_map_iff. intros (y & E & Hy). assert (y = x); [|subst; contradiction].
        pose proof (Hl x (or_introl eq_refl)). pose proof (Hl y (or_intror Hy)). lia.
      - apply IH; auto. intros. apply Hl. cbn. auto. }
    apply F; [apply by2_NoDup|]. intros j Hj. apply by2_In in Hj. lia.
  - intro k. rewrite in_map_iff. split.
    + intros (j & <- & Hj). apply by2_In in Hj. split; [lia|]. rewrite Nat.sub_add by lia. tauto.
    + intros H1. exists (k + d). rewrite by2_In. split; [lia|tauto].
Qed.

(** ** The loops *)
Lemma idx_nth : forall (route : list cell) i, i < length route -> idx route i = Ok (nth i route (mkCell 0 0)).
Proof.
  intros route i H. unfold idx. rewrite (nth_error_nth' route (mkCell 0 0)) by auto. reflexivity.
Qed.

Section Chain.
Variables (route : list cell) (t : lrb) (reverse even : bool) (off start stop : nat) (side1 side2 : option N).
Local Notation at' := (fun j => nth j route (mkCell 0 0)).
Definition pair_op (j : nat) : local_instr :=
  if is_prep_or_split t
  then LBellPrepare (if_eq j (start + off) side2)
                    (if_eq j (stop - 1 - (if negb even && reverse then 1 else 0)) side1) (at' j) (at' (j + 1))
  else LBellMeasure (at' j) (at' (j + 1)).
Definition link_op (j : nat) : local_instr :=
  if is_prep_or_split t then LBellMeasure (at' (j - 1)) (at' j)
  else if negb reverse then LBellPrepare (if_eq j (start + 2 + off) side2) None (at' (j - 1)) (at' j)
  else LBellPrepare None (if_eq j (stop - 1 - (if negb even then 1 else 0)) side1) (at' (j - 1)) (at' j).

Lemma pair_fold : forall J l, (forall j, In j J -> j + 1 < length route) ->
  foldM (bell_pair_at route t reverse even off start stop side1 side2) J l
  = Ok (if is_prep_or_split t then (fst l ++ map pair_op J, snd l) else (fst l, snd l ++ map pair_op J)).
Proof.
  induction J as [|j J IH]; intros l H; cbn [foldM map].
  - rewrite !app_nil_r. destruct l; destruct (is_prep_or_split t); reflexivity.
  - pose proof (H j (or_introl eq_refl)). unfold bell_pair_at at 1. rewrite !idx_nth by lia. cbn [bind].
    rewrite IH by (intros; apply H; cbn; auto). unfold pair_op.
    destruct (is_prep_or_split t); cbn [add1 add2 fst snd]; rewrite <- app_assoc; reflexivity.
Qed.
Lemma link_fold : forall J l, (forall j, In j J -> 1 <= j < length route) ->
  foldM (bell_link_at route t reverse even off start stop side1 side2) J l
  = Ok (if is_prep_or_split t then (fst l, snd l ++ map link_op J) else (fst l ++ map link_op J, snd l)).
Proof.
  induction J as [|j J IH]; intros l H; cbn [foldM map].
  - rewrite !app_nil_r. destruct l; destruct (is_prep_or_split t); reflexivity.
  - pose proof (H j (or_introl eq_refl)). unfold bell_link_at at 1. rewrite !idx_nth by lia. cbn [bind].
    rewrite IH by (intros; apply H; cbn; auto). unfold link_op.
    destruct (is_prep_or_split t); cbn [add1 add2 fst snd]; rewrite <- app_assoc; reflexivity.
Qed.
End Chain.

Lemma chain_eq : forall route t reverse even start stop side1 side2 l, stop < length route ->
  let off := if negb even && negb reverse then 1 else 0 in
  let P := map (pair_op route t reverse even off start stop side1 side2) (by2 (stop - (start + off)) (start + off)) in
  let K := map (link_op route t reverse even off start stop side1 side2)
               (by2 (stop - (start + 2 + off)) (start + 2 + off)) in
  bell_chain route t reverse even start stop side1 side2 l
  = Ok (if is_prep_or_split t then (fst l ++ P, snd l ++ K) else (fst l ++ K, snd l ++ P)).
Proof.
  intros route t reverse even start stop side1 side2 l Hl off P K. unfold bell_chain. fold off.
  rewrite pair_fold; [|intros j Hj; apply by2_In in Hj; lia]. cbn [bind].
  rewrite link_fold; [|intros j Hj; apply by2_In in Hj; lia].
  fold P. fold K. destruct (is_prep_or_split t); reflexivity.
Qed.

(** ** The shape of a compiled operation *)
Definition odd1 (n : nat) : nat := if Nat.odd n then 1 else 0.
Definition pos1 (t : lrb) (n : nat) (reverse : bool) : nat :=
  match t with
  | LRPrep => n - 2 - (if reverse then odd1 n else 0)
  | LRMeasure => n - 3 - odd1 n
  | LRMerge => if reverse then n - 3 - odd1 n else n - 3
  | LRSplit => if reverse then n - 2 - odd1 n else n - 4
  end.
Definition pos2 (t : lrb) (n : nat) (reverse : bool) : nat :=
  match t with
  | LRPrep => if reverse then 0 else odd1 n
  | LRMeasure => 1 + odd1 n
  | LRMerge => if reverse then 1 else 1 + odd1 n
  | LRSplit => if reverse then 2 else odd1 n
  end.

Section Links.
Variables (n : nat) (reverse : bool) (side1 side2 : option N) (k1 k2 : nat) (at_ : nat -> cell).

Lemma ld_move : forall t k x y, Nat.odd n = true -> k = (if reverse then n - 2 else 0) ->
  (if producing t then x = at_ (if reverse then k else k + 1) /\ y = at_ (if reverse then k + 1 else k)
   else y = at_ (if reverse then k else k + 1) /\ x = at_ (if reverse then k + 1 else k)) ->
  link_does t n reverse side1 side2 k1 k2 at_ k (LMove x y None).
Proof.
  intros t k x y Ho Hk H. unfold link_does, move_link. rewrite Ho. rewrite <- Hk, Nat.eqb_refl.
  destruct (producing t); destruct H as [-> ->]; reflexivity.
Qed.

Definition not_move (k : nat) : Prop := Nat.odd n = true -> k <> (if reverse then n - 2 else 0).
Lemma not_move_eqb : forall k, not_move k ->
  match move_link n reverse with Some m => k =? m | None => false end = false.
Proof.
  intros k H. unfold move_link, not_move in *. destruct (Nat.odd n); auto. apply Nat.eqb_neq. auto.
Qed.

Lemma ld_merge : forall k x y, not_move k -> k = far_link n reverse ->
  x = at_ (if reverse then k else k + 1) -> y = at_ (if reverse then k + 1 else k) ->
  link_does LRMerge n reverse side1 side2 k1 k2 at_ k (LMergeContract x y).
Proof.
  intros k x y H Hk -> ->. unfold link_does. rewrite not_move_eqb by auto. rewrite <- Hk, Nat.eqb_refl. reflexivity.
Qed.
Lemma ld_split : forall k x y, not_move k -> k = far_link n reverse ->
  x = at_ (if reverse then k else k + 1) -> y = at_ (if reverse then k + 1 else k) ->
  link_does LRSplit n reverse side1 side2 k1 k2 at_ k (LExtendSplit None x y).
Proof.
  intros k x y H Hk -> ->. unfold link_does. rewrite not_move_eqb by auto. rewrite <- Hk, Nat.eqb_refl. reflexivity.
Qed.

Definition not_far (t : lrb) (k : nat) : Prop := t = LRMerge \/ t = LRSplit -> k <> far_link n reverse.
Lemma ld_prep : forall t k i j x y, not_move k -> not_far t k -> in_first t n reverse k = true ->
  either (at_ k) (at_ (k + 1)) x y -> ids_at side1 side2 k1 k2 k i j ->
  (t = LRPrep -> x = at_ k /\ prep_ids n reverse side1 side2 k i j) ->
  link_does t n reverse side1 side2 k1 k2 at_ k (LBellPrepare i j x y).
Proof.
  intros t k i j x y H F I E D P. unfold link_does. rewrite not_move_eqb, I by auto.
  assert (G : exists x' y', either (at_ k) (at_ (k + 1)) x' y'
    /\ exists i' j', LBellPrepare i j x y = LBellPrepare i' j' x' y' /\ ids_at side1 side2 k1 k2 k i' j'
         /\ (t = LRPrep -> x' = at_ k /\ prep_ids n reverse side1 side2 k i' j')).
  { exists x, y. split; auto. exists i, j. auto. }
  destruct t; auto; destruct (Nat.eqb_spec k (far_link n reverse)); auto; exfalso; apply F; auto.
Qed.
Lemma ld_meas : forall t k x y, not_move k -> not_far t k -> in_first t n reverse k = false ->
  either (at_ k) (at_ (k + 1)) x y -> link_does t n reverse side1 side2 k1 k2 at_ k (LBellMeasure x y).
Proof.
  intros t k x y H F I E. unfold link_does. rewrite not_move_eqb, I by auto.
  assert (G : exists x' y', either (at_ k) (at_ (k + 1)) x' y' /\ LBellMeasure x y = LBellMeasure x' y') by eauto.
  destruct t; auto; destruct (Nat.eqb_spec k (far_link n reverse)); auto; exfalso; apply F; auto.
Qed.
End Links.

Lemma parity : forall k, (exists m, k = 2 * m /\ Nat.odd k = false) \/ (exists m, k = 2 * m + 1 /\ Nat.odd k = true).
Proof.
  intro k. destruct (Nat.odd k) eqn:E.
  - right. apply Nat.odd_spec in E as [m Hm]. eauto.
  - left. assert (E' : Nat.even k = true) by (rewrite <- Nat.negb_odd, E; auto). apply Nat.even_spec in E' as [m Hm]. eauto.
Qed.
Lemma even_odd : forall k, Nat.even k = negb (Nat.odd k).
Proof. intro k. symmetry. apply Nat.negb_odd. Qed.

(** [sel] for all links. *)
Lemma set_even : forall (sel : nat -> Prop) P, (forall m, sel (2 * m) <-> P (2 * m) false) ->
  (forall m, sel (2 * m + 1) <-> P (2 * m + 1) true) -> forall k, sel k <-> P k (Nat.odd k).
Proof.
  intros sel P H1 H2 k. destruct (parity k) as [(m & -> & E)|(m & -> & E)]; rewrite E; auto.
Qed.

Ltac par := unfold in_first, producing; cbv iota; rewrite ?even_odd; repeat match goal with
  | H : Nat.odd _ = _ |- _ => rewrite H end;
  repeat match goal with |- context [Nat.odd ?k] =>
    let m := fresh "m" in destruct (parity k) as [(m & ? & ->)|(m & ? & ->)] end; cbn [negb andb];
  try reflexivity; exfalso; lia.
Ltac ideq := unfold if_eq; repeat match goal with
  | |- context [Nat.eqb ?a ?b] => destruct (Nat.eqb_spec a b); try (exfalso; lia) end.
Ltac half := first [left; reflexivity | right; split; [reflexivity|lia]].
Ltac at_eq := unfold seg; f_equal; lia.
Ltac setq := let k := fresh "k" in intro k; unfold in_first, producing; cbv iota; rewrite ?even_odd;
  repeat match goal with H : Nat.odd _ = _ |- _ => rewrite H end; cbn [negb andb];
  destruct (parity k) as [(? & ? & ->)|(? & ? & ->)]; cbn [negb]; lia.

Ltac kind := match goal with
  | |- link_does _ _ _ _ _ _ _ _ _ (LMove _ _ _) =>
      apply ld_move; [auto|cbn; lia|cbn [producing]; split; at_eq]
  | |- link_does _ _ _ _ _ _ _ _ _ (LMergeContract _ _) =>
      apply ld_merge; [unfold not_move; intro; first [congruence|lia]|unfold far_link; lia|at_eq|at_eq]
  | |- link_does _ _ _ _ _ _ _ _ _ (LExtendSplit _ _ _) =>
      apply ld_split; [unfold not_move; intro; first [congruence|lia]|unfold far_link; lia|at_eq|at_eq]
  | |- link_does _ _ _ _ _ _ _ _ _ (LBellMeasure _ _) =>
      apply ld_meas; [unfold not_move; intro; first [congruence|lia]
        |unfold not_far, far_link; intros [?|?]; first [discriminate|lia]|par
        |first [left; split; at_eq|right; split; at_eq]]
  | |- link_does _ _ _ _ _ _ _ _ _ (LBellPrepare _ _ _ _) =>
      apply ld_prep; [unfold not_move; intro; first [congruence|lia]
        |unfold not_far, far_link; intros [?|?]; first [discriminate|lia]|par
        |first [left; split; at_eq|right; split; at_eq]
        |unfold ids_at, pos1, pos2, odd1;
         repeat match goal with H : Nat.odd _ = _ |- _ => rewrite H end; cbn [negb andb]; ideq;
         first [left; split; half | right; split; [reflexivity|split; [lia|reflexivity]]]
        |intro; first [discriminate|split; [at_eq|unfold prep_ids;
           repeat match goal with H : Nat.odd _ = _ |- _ => rewrite H end; cbn [negb andb]; ideq; split; reflexivity]]]
  end.
Ltac cov n start := lazymatch goal with
  | |- covers _ _ [] => apply covers_nil
  | |- covers _ _ (map (pair_op _ _ _ _ _ _ _ _ _) (by2 _ _)) =>
      eapply (covers_by2 _ start); [lia|intros; unfold pair_op; cbn [is_prep_or_split negb andb]; kind]
  | |- covers _ _ (map (link_op _ _ _ _ _ _ _ _ _) (by2 _ _)) =>
      eapply (covers_by2 _ (start + 1)); [lia|intros; unfold link_op; cbn [is_prep_or_split negb andb]; kind]
  | |- covers _ _ (_ :: _) =>
      let at' k := (eapply (covers_cons _ _ k); [solve [kind]|cov n start|cbv beta; lia]) in
      first [at' 0 | at' 1 | at' (n - 2) | at' (n - 3)]
  end.

Lemma compile_shape : forall t l route start stop reverse side1 side2, start < stop < length route ->
  let n := stop - start + 1 in
  let does := link_does t n reverse side1 side2 (pos1 t n reverse) (pos2 t n reverse) (seg route start) in
  exists la lb, compile_bell t l route start stop reverse side1 side2 = Ok (fst l ++ la, snd l ++ lb)
    /\ on_links (in_first t n reverse) does n la
    /\ on_links (fun k => negb (in_first t n reverse k)) does n lb.
Proof.
  intros t l route start stop reverse side1 side2 H n does. unfold compile_bell.
  destruct (Nat.leb_spec stop start); [lia|]. destruct (Nat.ltb_spec (length route) stop); [lia|]. cbn [orb].
  fold n. rewrite even_odd. assert (Hn : n = stop - start + 1) by reflexivity. clearbody n.
  unfold does; clear does.
  assert (G : forall la lb la' lb' R Q, R = Ok (la', lb') -> la' = fst l ++ la -> lb' = snd l ++ lb ->
    on_links (in_first t n reverse) Q n la -> on_links (fun k => negb (in_first t n reverse k)) Q n lb ->
    exists la lb, R = Ok (fst l ++ la, snd l ++ lb) /\ on_links (in_first t n reverse) Q n la
       /\ on_links (fun k => negb (in_first t n reverse k)) Q n lb).
  { intros la lb la' lb' R Q -> -> -> H2 H3. exists la, lb. auto. }
  destruct (parity n) as [(h & Hh & Ho)|(h & Hh & Ho)]; rewrite Ho; destruct reverse; destruct t;
    cbn [is_prep_or_split andb negb bind]; rewrite ?idx_nth by lia; cbn [bind];
    try match goal with |- context [(n =? 2) || (n =? 3)] =>
      destruct (Nat.eqb_spec n 2) as [N2|N2]; [try (exfalso; lia)|destruct (Nat.eqb_spec n 3) as [N3|N3]; try (exfalso; lia)];
      cbn [orb bind]; rewrite ?idx_nth by lia; cbn [bind] end;
    try (rewrite chain_eq by lia; cbn [is_prep_or_split andb negb add1 add2 fst snd]).
  all: (eapply G; [reflexivity|cbn [add1 add2 fst snd app]; rewrite <- ?app_assoc; cbn [app];
          first [reflexivity|symmetry; apply app_nil_r]
         |cbn [add1 add2 fst snd]; rewrite <- ?app_assoc; cbn [app];
          first [reflexivity|symmetry; apply app_nil_r]
         |change (on_links ?a ?b ?c ?d) with (covers b (fun k => k + 1 < c /\ a k = true) d)
         |change (on_links ?a ?b ?c ?d) with (covers b (fun k => k + 1 < c /\ a k = true) d)]).
  all: eapply covers_ext; [cov n start|setq].
Qed.
