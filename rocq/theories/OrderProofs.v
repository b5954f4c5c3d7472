(** Runs of the pipelines account for their programs; and what that implies. *)
From Coq Require Import Permutation.
From Verif Require Import Base PatchesModel LayoutModel InstrModel InstrSpec InstrProofs GraphSpec SliceModel SliceSpec SliceProofs MarksModel ApplyModel ApplyProofs BellProps ApplyProps
  DagModel DagSpec DagSim RunModel RunSpec RunProofs RunProps SchedSpec SchedProofs DagLoop DagLoopProps WaveModel WaveSpec WaveProofs WaveProps RunInv IdsProps GraphProps OrderSpec.
Open Scope nat_scope.

(** ** What an attempt and its follow-ups work on *)
Lemma plan_bare : forall o, plan o = bare o.
Proof. destruct o; reflexivity. Qed.
Lemma works_plan : forall x y p, plan (op x) = plan (op y) -> clients x = clients y -> works_on x p -> works_on y p.
Proof.
  intros [ox wx cx] [oy wy cy] p E C H. cbn [op clients] in E, C. subst cy.
  assert (G : forall o w, works_on (mkI o w cx) p = works_on (mkI (plan o) w cx) p) by (destruct o; reflexivity).
  rewrite G, <- E. rewrite G in H. exact H.
Qed.
Lemma enum_In : forall A (l : list A) k j x, In (j, x) (enum_from k l) -> exists n, j = (k + Z.of_nat n)%Z /\ nth_error l n = Some x.
Proof.
  intros A. induction l as [|y l IH]; intros k j x H; [destruct H|]. destruct H as [H|H].
  - injection H as <- <-. exists 0. split; [lia|reflexivity].
  - apply IH in H. destruct H as (n & -> & H). exists (S n). split; [lia|exact H].
Qed.
Lemma at_z_nth : forall A (l : list A) n x, nth_error l n = Some x -> at_z l (Z.of_nat n) = Ok x.
Proof. intros A l n x H. unfold at_z. destruct (Z.of_nat n <? 0)%Z eqn:E; [apply Z.ltb_lt in E; lia|]. rewrite Nat2Z.id. unfold at_. now rewrite H. Qed.
Lemma found_id : forall s t c p, get_cell_by_id s t = Some c -> patch_at s c = Ok (Some p) -> p_id (dp p) = Some t.
Proof.
  intros s t c p H P. unfold get_cell_by_id in H. destruct (fold_last_cell t (tiles s) None) as [[H1 _]|[[c' t'] [H1 [H2 [H3 _]]]]]; [congruence|].
  rewrite H3 in H. cbn [fst snd] in *. injection H as ->. unfold tiles in H1. apply in_flat_map in H1. destruct H1 as ([i r] & Hr & H1).
  apply in_map_iff in H1. destruct H1 as ([j x] & E & Hx). cbn [fst snd] in *. injection E as <- <-.
  apply enum_In in Hr. destruct Hr as (n & -> & Hr). apply enum_In in Hx. destruct Hx as (m & -> & Hx).
  unfold patch_at in P. cbn [row col] in P. rewrite !Z.add_0_l in P. rewrite (at_z_nth _ _ _ _ Hr) in P. cbn [bind] in P. rewrite (at_z_nth _ _ _ _ Hx) in P.
  injection P as ->. cbn in H2. destruct (p_id (dp p)) as [y|]; [|discriminate]. apply N.eqb_eq in H2. now subst.
Qed.

(** [y] works on nothing that [x] does not work on *)
Definition tame (x y : instr) : Prop := forall p, works_on y p -> works_on x p.
Lemma tame_refl : forall x, tame x x. Proof. intros x p H. exact H. Qed.
Lemma tame_trans : forall x y z, tame x y -> tame y z -> tame x z. Proof. intros x y z A B p H. auto. Qed.
Lemma tried_plan : forall e w x a, try_apply e w x = Ok a -> plan (op (tried x a)) = plan (op x) /\ clients (tried x a) = clients x.
Proof. intros e w x a H. split; [|reflexivity]. rewrite !plan_bare. cbn [tried op]. exact (tried_bare e w x a H). Qed.
Lemma plan_tame : forall x y, plan (op y) = plan (op x) -> clients y = clients x -> tame x y.
Proof. intros x y E C p. apply works_plan; auto. Qed.

Ltac same_follow := cbn [a_follow]; repeat match goal with |- context[if ?b then _ else _] => destruct b end;
  first [apply Forall_nil | apply Forall_cons; [apply plan_tame; reflexivity|apply Forall_nil]].
Lemma try_follow : forall e w x a, try_apply e w x = Ok a -> Forall (tame x) (a_follow a).
Proof.
  intros e w [o wt cl] a H.
  assert (F : forall w' o', failed w' o' = Ok a -> Forall (tame (mkI o wt cl)) (a_follow a)) by (intros w' o' X; apply failed_inv in X; destruct X as (_ & _ & _ & ->); constructor).
  assert (D : forall w' o', done_ w' o' = Ok a -> Forall (tame (mkI o wt cl)) (a_follow a)) by (intros w' o' X; apply done_inv in X; destruct X as (_ & _ & _ & ->); constructor).
  assert (X : forall w' o' er, Ok (mkA w' o' er []) = Ok a -> Forall (tame (mkI o wt cl)) (a_follow a)) by (intros w' o' er X; injection X as <-; constructor).
  destruct o; cbn [try_apply InstrModel.op wait clients] in H; try discriminate.
  - unfold apply_measure in H. destruct (get_cell_by_id (w_slice w) target); [bstep H|]; eauto.
  - unfold apply_multi in H. destruct observable as [|[x px] [|[y py] [|? ?]]]; try discriminate.
    repeat (match type of H with context[if ?b then _ else _] => destruct b end; cbn [negb] in H; eauto; try discriminate).
    + crawl H. destruct b; cbn [negb] in H; eauto.
    + crawl H. eauto.
  - unfold apply_init in H. bstep H. destruct x; eauto. bstep H. bstep H. eauto.
  - unfold apply_bell_init in H.
    repeat (match type of H with (if ?b then _ else _) = _ => destruct b end; try discriminate; eauto).
    destruct counter as [[f s]|].
    + crawl H. injection H as <-. same_follow.
    + bstep H. destruct x as [r cache]. destruct r; eauto. destruct (Nat.ltb (length (rg_cells r)) 2); eauto.
      crawl H. injection H as <-. same_follow.
  - unfold apply_magic in H. destruct (l_times (e_layout e)); try discriminate. destruct (s_magic (w_slice w)); eauto.
    repeat bstep H. eauto.
  - unfold apply_y in H. destruct (get_cell_by_id (w_slice w) target); [bstep H; eauto|].
    destruct (negb (e_local e && e_twists e) && negb (N.eqb (s_yavail (w_slice w)) 0)).
    + bstep H. destruct x as [[z c]|]; [bstep H; eauto|]. eauto.
    + destruct (e_twists e); [|eauto]. bstep H. bstep H. destruct x0; eauto. bstep H. destruct x0. eauto.
  - unfold apply_single in H. destruct (get_cell_by_id (w_slice w) target), (get_patch_by_id (w_slice w) target); eauto.
    destruct op; try (match type of H with (if dp_is_active _ then _ else _) = _ => destruct (dp_is_active d); [eauto|try (bstep H); eauto] end).
    destruct (e_edpc e); try discriminate. bstep H. destruct x as [w' ok]. destruct ok; cbn [negb] in H; eauto.
    injection H as <-. apply Forall_cons; [|apply Forall_nil]. intros p [[]| ->]. right. reflexivity.
  - unfold apply_rotate in H. destruct (get_cell_by_id (w_slice w) target) as [c|] eqn:Ec; eauto. bstep H. destruct x; eauto.
    bstep H. match goal with K : patch_at _ _ = Ok ?z |- _ => destruct z as [q|]; [|discriminate H]; pose proof (found_id _ _ _ _ Ec K) as Id end.
    repeat bstep H.
    match goal with K : litinski_rotation _ _ = Ok ?z |- _ => destruct z; try discriminate H; unfold litinski_rotation in K; cbn [sp_cells to_sparse_patch] in K; bstep K; injection K as <- <- <- end.
    repeat bstep H. match type of H with (let (_, _) := ?z in _) = _ => destruct z | _ => idtac end. injection H as <-. apply Forall_cons; [|apply Forall_nil]. intros p [[]|(sp & [ <- | [] ] & Es)]. right. cbn.
    match goal with K : deref (Some q) = Ok ?z |- _ => injection K as <- end. destruct (act_eqb (p_act (dp q)) AUnitary); cbn in Es; congruence.
  - unfold apply_busy in H. destruct (N.eqb steps_to_clear 0) eqn:E0.
    + repeat bstep H. destruct x0 as [s2 all]. destruct all; eauto.
    + repeat bstep H. injection H as <-. apply Forall_cons; [|apply Forall_nil]. intros p [[]|P]. right. exact P.
  - unfold apply_cnot in H.
    destruct (e_local e); cbn [negb] in H; try discriminate.
    destruct (get_patch_by_id (w_slice w) control); eauto. destruct (get_patch_by_id (w_slice w) target); eauto.
    destruct (dp_is_active d); eauto. destruct (dp_is_active d0); eauto.
    assert (L : forall w' cs se, cnot_locals e control target side1 side2 wt cl w' route cs se phase = Ok a -> Forall (tame (mkI (BellCNOT control target side1 side2 route counters local_sets phase) wt cl)) (a_follow a)).
    { intros w' cs se Y. unfold cnot_locals in Y. crawl Y. injection Y as <-. same_follow. }
    destruct (e_edpc e).
    + destruct route as [reg|]; [destruct counters as [cs|]|].
      * unfold cnot_phase in H. crawl H. destruct b; cbn [negb] in H.
        -- bstep H. match type of H with (if ?b then _ else _) = _ => destruct b end; injection H as <-; same_follow.
        -- injection H as <-. same_follow.
      * unfold cnot_decompose in H. bstep H. destruct x as [p1 p2]. eauto.
      * unfold cnot_find_route in H. bstep H. destruct x as [r cache]. destruct r; eauto.
        destruct (Nat.ltb (length (rg_cells r)) 2); try discriminate.
        bstep H. bstep H. bstep H. destruct x1. bstep H. injection H as <-. same_follow.
    + unfold cnot_plain in H. destruct counters; [eapply L; eauto|].
      bstep H. destruct x as [r cache]. destruct r; eauto.
      destruct (Nat.ltb (length (rg_cells r)) 2); try discriminate.
      bstep H. bstep H. bstep H. destruct x1. eapply L; eauto.
  - eauto.
Qed.

(** ** Schedules account for their programs *)
Definition log_of (acts : list act) : list entry :=
  flat_map (fun c => match c with
                     | Try j x a o => if a_error a then [] else [mkEn j (tried x a) (match o with None => true | Some _ => false end)]
                     | _ => []
                     end) acts.
Lemma log_app : forall a b, log_of (a ++ b) = log_of a ++ log_of b.
Proof. intros a b. apply flat_map_app. Qed.
Lemma told_app : forall a b, told (a ++ b) = told a ++ told b.
Proof. intros a b. apply flat_map_app. Qed.
Lemma log_told : forall acts, map step (log_of acts) = told (seen acts).
Proof.
  induction acts as [|c acts IH]; [reflexivity|]. change (c :: acts) with ([c] ++ acts). rewrite log_app, seen_app, told_app, map_app, IH. f_equal.
  destruct c; [|reflexivity..]. cbn. destruct (a_error a); reflexivity.
Qed.
Lemma of_job_app : forall j a b, of_job j (a ++ b) = of_job j a ++ of_job j b.
Proof. intros j a b. apply filter_app. Qed.
Lemma log_tries : forall i acts, tries i acts = [] -> of_job i (log_of acts) = [].
Proof.
  intros i. induction acts as [|c acts IH]; intros H; [reflexivity|]. change (c :: acts) with ([c] ++ acts) in *. rewrite tries_app in H. apply app_eq_nil in H.
  destruct H as [H1 H2]. rewrite log_app, of_job_app, (IH H2), app_nil_r. destruct c; [|reflexivity..]. cbn in *. destruct (a_error a); [reflexivity|]. cbn.
  destruct (Nat.eqb j i); [discriminate|reflexivity].
Qed.

(** How far an instruction [v] got with the steps [l], when [o] is left of it *)
Definition stage (v : instr) (l : list entry) (o : option instr) : Prop :=
  Forall (fun x => tame v (step x)) l
  /\ match l with
     | [] => match o with Some x => plan (op x) = plan (op v) /\ clients x = clients v | None => False end
     | x :: _ => plan (op (step x)) = plan (op v) /\ clients (step x) = clients v
     end
  /\ match o with
     | Some x => tame v x /\ Forall (fun x => final x = false) l
     | None => exists l' x, l = l' ++ [x] /\ Forall (fun x => final x = false) l' /\ final x = true
     end.
Lemma stage_start : forall v, stage v [] (Some v).
Proof. intros v. repeat split; auto. apply tame_refl. Qed.
Lemma stage_refused : forall e w v l x a y, stage v l (Some x) -> try_apply e w x = Ok a -> op y = a_op a -> clients y = clients x -> stage v l (Some y).
Proof.
  intros e w v l x a y (S1 & S2 & S3 & S4) H Eo Ec. destruct (tried_plan e w x a H) as [P1 P2]. cbn [tried op clients] in P1. split; [exact S1|]. split.
  - destruct l; [|exact S2]. rewrite Eo, Ec, P1. exact S2.
  - split; [|exact S4]. eapply tame_trans; [exact S3|]. apply plan_tame; [now rewrite Eo|exact Ec].
Qed.
Lemma stage_accepted : forall e w v l x a j, stage v l (Some x) -> try_apply e w x = Ok a ->
  stage v (l ++ [mkEn j (tried x a) (match hd_error (a_follow a) with None => true | Some _ => false end)]) (hd_error (a_follow a)).
Proof.
  intros e w v l x a j (S1 & S2 & S3 & S4) H. destruct (tried_plan e w x a H) as [P1 P2]. split; [|split].
  - apply Forall_app. split; [exact S1|]. constructor; [|constructor]. cbn [step]. eapply tame_trans; [exact S3|]. now apply plan_tame.
  - destruct l as [|z l]; [|exact S2]. cbn [app step]. rewrite P1, P2. exact S2.
  - pose proof (try_follow e w x a H) as F. destruct (a_follow a) as [|y r]; cbn [hd_error] in *.
    + exists l. eexists. split; [reflexivity|]. auto.
    + inversion F; subst. split; [eapply tame_trans; eauto|]. apply Forall_app. split; [exact S4|]. constructor; [reflexivity|constructor].
Qed.

Lemma sched_stage : forall e conflict (again : instr -> applied -> instr -> Prop) prog w0 acts w p,
  (forall x a y, again x a y -> op y = a_op a /\ clients y = clients x) -> scheduled e conflict again prog w0 acts w p ->
  Forall (fun x => job x < length prog) (log_of acts)
  /\ forall j v, nth_error prog j = Some v -> exists o, nth_error p j = Some o /\ stage v (of_job j (log_of acts)) o.
Proof.
  intros e conflict again prog w0 acts w p Ag S. induction S as [|acts w p k x a o' S IH N G A Lv|acts w p s S IH Ad|acts w p s S IH Ed Ad].
  - split; [constructor|]. intros j v P. exists (Some v). split; [rewrite nth_error_map, P; reflexivity|apply stage_start].
  - destruct IH as [IH1 IH]. pose proof (nth_short _ _ _ N) as K. assert (Lp : length p = length prog) by (eapply sched_length; eauto). split.
    + rewrite log_app. apply Forall_app. split; [exact IH1|]. cbn. destruct (a_error a); [constructor|]. constructor; [cbn; lia|constructor].
    + intros j v P. destruct (IH j v P) as (o & O1 & O2). rewrite log_app, of_job_app. destruct (Nat.eq_dec k j) as [->|D].
      * rewrite N in O1. injection O1 as <-. eexists. split; [apply put_at_same; exact K|]. unfold leaves in Lv. cbn. destruct (a_error a) eqn:Er.
        -- destruct Lv as (y & -> & Y). destruct (Ag _ _ _ Y) as [Y1 Y2]. cbn. rewrite app_nil_r. eapply stage_refused; eauto.
        -- subst o'. cbn. rewrite Nat.eqb_refl. eapply stage_accepted; eauto.
      * exists o. split; [rewrite put_at_other; auto|]. cbn. destruct (a_error a); cbn; [now rewrite app_nil_r|].
        destruct (Nat.eqb_spec k j) as [X|_]; [contradiction|]. now rewrite app_nil_r.
  - rewrite log_app, app_nil_r. exact IH.
  - rewrite log_app, app_nil_r. exact IH.
Qed.

Lemma stage_done : forall v l, stage v l None -> carries_out v l.
Proof.
  intros v l (S1 & S2 & l' & x & -> & F & L). destruct (l' ++ [x]) as [|z r] eqn:E; [destruct l'; discriminate|]. exists z, l', x.
  split; [reflexivity|]. split; [now symmetry|]. destruct S2 as [S2 S3]. auto.
Qed.
Lemma waits_clash : forall prog i j, waits prog i j -> exists u v, i < j /\ nth_error prog i = Some u /\ nth_error prog j = Some v /\ clash u v = true.
Proof.
  intros prog i j (L & u & v & p & Hu & Hv & Wu & Wv). exists u, v. repeat split; auto. apply clash_deps. exists p.
  split; apply deps_In, operating_works; assumption.
Qed.
Lemma sched_accounts : forall e (again : instr -> applied -> instr -> Prop) prog w0 acts w p,
  (forall x a y, again x a y -> op y = a_op a /\ clients y = clients x) -> scheduled e clash again prog w0 acts w p ->
  (forall j v, nth_error prog j = Some v -> nth_error p j = Some None) -> accounts prog (log_of acts).
Proof.
  intros e again prog w0 acts w p Ag S Dn. destruct (sched_stage e clash again prog w0 acts w p Ag S) as [J G]. constructor.
  - exact J.
  - intros j v P. destruct (G j v P) as (o & O1 & O2). rewrite (Dn j v P) in O1. injection O1 as <-. now apply stage_done.
  - intros i j l1 x l2 W E Jx. destruct (waits_clash prog i j W) as (u & v & L & Pu & Pv & C).
    assert (Cut : forall acts l1, log_of acts = l1 ++ x :: l2 -> exists t1 y a o t2, acts = t1 ++ Try j y a o :: t2 /\ log_of t2 = l2).
    { clear - Jx. induction acts as [|c acts IH]; intros l1 E; [destruct l1; discriminate|]. change (c :: acts) with ([c] ++ acts) in E. rewrite log_app in E.
      assert (K : forall l1', log_of acts = l1' ++ x :: l2 -> exists t1 y a o t2, c :: acts = t1 ++ Try j y a o :: t2 /\ log_of t2 = l2).
      { intros l1' E'. destruct (IH l1' E') as (t1 & y & a & o & t2 & -> & E2). exists (c :: t1), y, a, o, t2. auto. }
      destruct c as [k y a o|s|]; [|exact (K l1 E)..]. cbn in E. destruct (a_error a); [exact (K l1 E)|]. cbn in E. destruct l1 as [|z l1].
      - injection E as E1 E2. exists [], y, a, o, acts. split; [|exact E2]. rewrite <- E1 in Jx. cbn in Jx. now subst k.
      - injection E as _ E2. exact (K l1 E2). }
    destruct (Cut acts l1 E) as (t1 & y & a & o & t2 & Et & El). subst l2. apply log_tries.
    exact (proj1 (sched_order _ _ _ _ _ _ _ _ S i j u v L Pu Pv C t1 y a o t2 Et)).
Qed.

(** ** One instruction after the other *)
Definition numbered (j : nat) (flags : list (instr * bool)) : list entry := map (fun s => mkEn j (fst s) (snd s)) flags.
Lemma numbered_job : forall j i l, of_job i (numbered j l) = if Nat.eqb j i then numbered j l else [].
Proof.
  intros j i l. induction l as [|s l IH]; [destruct (Nat.eqb j i); reflexivity|]. change (numbered j (s :: l)) with ([mkEn j (fst s) (snd s)] ++ numbered j l).
  rewrite of_job_app, IH. cbn. destruct (Nat.eqb j i); reflexivity.
Qed.
Lemma underway_stage : forall e w0 v es k w x j, underway e w0 v es k w x ->
  exists l, map fst l = told es /\ stage v (numbered j l) (Some x).
Proof.
  intros e w0 v es k w x j U. induction U as [|es k w i a y s U IH H Er Fo Ad|es k w i a s U IH H Er Fo Wt Ad].
  - exists []. split; [reflexivity|apply stage_start].
  - destruct IH as (l & El & St). exists (l ++ [(tried i a, false)]). rewrite told_app, map_app, El. split; [reflexivity|].
    unfold numbered in *. rewrite map_app. pose proof (stage_accepted e w v _ i a j St H) as X. rewrite Fo in X. exact X.
  - destruct IH as (l & El & St). exists l. rewrite told_app, app_nil_r. split; [exact El|]. eapply stage_refused; eauto; reflexivity.
Qed.
Lemma in_order_accounts : forall e w0 prog es k w, in_order e w0 prog es k w -> exists log, map step log = told es /\ accounts prog log
  /\ forall l1 x l2, log = l1 ++ x :: l2 -> Forall (fun y => job x <= job y) l2.
Proof.
  intros e w0 prog es k w O. induction O as [|prog es k w v es' k' w' O IH C].
  - exists []. split; [reflexivity|]. split; [|intros [|? ?]; discriminate]. constructor; [constructor|intros [|?]; discriminate|intros i j [|? ?] x l2 _ E; discriminate].
  - destruct IH as (log & El & [Jb Dn Or] & So). destruct C as (es1 & w1 & i & a & U & H & Er & Fo & -> & ->).
    destruct (underway_stage e _ v _ _ _ _ (length prog) U) as (l & E1 & St).
    set (new := numbered (length prog) (l ++ [(tried i a, true)])). exists (log ++ new).
    assert (Sn : stage v new None). { unfold new, numbered in *. rewrite map_app. pose proof (stage_accepted e w1 v _ i a (length prog) St H) as X. rewrite Fo in X. exact X. }
    assert (Nj : Forall (fun x => job x = length prog) new). { unfold new, numbered. apply Forall_forall. intros x Hx. apply in_map_iff in Hx. destruct Hx as (z & <- & _). reflexivity. }
    assert (Old : of_job (length prog) log = []).
    { unfold of_job. clear - Jb. induction Jb as [|x log Hx Jb IH]; [reflexivity|]. cbn. rewrite (proj2 (Nat.eqb_neq _ _)) by lia. exact IH. }
    assert (Sorted : forall l1 x l2, log ++ new = l1 ++ x :: l2 -> Forall (fun y => job x <= job y) l2).
    { intros l1 x l2 E. assert (X : (exists l2', log = l1 ++ x :: l2' /\ l2 = l2' ++ new) \/ exists l1', l1 = log ++ l1' /\ new = l1' ++ x :: l2).
      { clear - E. revert l1 E. induction log as [|z log IH]; intros l1 E; [right; exists l1; auto|]. destruct l1 as [|y l1].
        - injection E as <- <-. left. exists log. auto.
        - injection E as <- E. destruct (IH l1 E) as [(l2' & -> & ->)|(l1' & -> & E')]; [left; exists l2'; auto|right; exists l1'; auto]. }
      destruct X as [(l2' & -> & ->)|(l1' & -> & E')].
      - apply Forall_app. split; [eapply So; eauto|]. apply Forall_app in Jb. destruct Jb as [_ Jb]. inversion Jb; subst.
        eapply Forall_impl; [|exact Nj]. cbn. intros y ->. lia.
      - rewrite E' in Nj. apply Forall_app in Nj. destruct Nj as [_ Nj]. inversion Nj; subst. eapply Forall_impl; [|eassumption]. cbn. intros y ->. lia. }
    split; [rewrite map_app, told_app, El; f_equal; unfold new, numbered; rewrite map_map, (map_ext _ fst) by reflexivity; rewrite map_app, told_app, E1; reflexivity|].
    split; [|exact Sorted]. constructor.
    + rewrite app_length. apply Forall_app. split; [eapply Forall_impl; [|exact Jb]; cbn; intros; lia|eapply Forall_impl; [|exact Nj]; cbn; intros y ->; lia].
    + intros j u P. rewrite of_job_app. unfold new at 1. rewrite numbered_job. fold new. destruct (Nat.eqb_spec (length prog) j) as [<-|D].
      * rewrite nth_error_app2, Nat.sub_diag in P by lia. injection P as <-. rewrite Old. now apply stage_done.
      * rewrite app_nil_r. apply Dn. rewrite nth_error_app1 in P; [exact P|]. assert (X : j < length (prog ++ [v])) by (apply nth_error_Some; congruence).
        rewrite app_length in X. cbn in X. lia.
    + intros i0 j l1 x l2 (L & _) E <-. pose proof (Sorted l1 x l2 E) as G. unfold of_job. clear - G L. induction G as [|y l2 Hy G IH]; [reflexivity|].
      cbn. rewrite (proj2 (Nat.eqb_neq _ _)) by lia. exact IH.
Qed.

(** ** Exchanging steps *)
Section Exchange.
Context {D : Type}.
Variable R : D -> D -> Prop.
Variable act : entry -> D -> D.
Hypothesis Rsym : forall d d', R d d' -> R d' d.
Hypothesis Rtrans : forall d d' d'', R d d' -> R d' d'' -> R d d''.
Hypothesis Ract : forall x d d', R d d' -> R (act x d) (act x d').
Definition runs_log (l : list entry) (d : D) : D := fold_left (fun d x => act x d) l d.
Lemma runs_log_app : forall a b d, runs_log (a ++ b) d = runs_log b (runs_log a d).
Proof. intros a b d. apply fold_left_app. Qed.
Lemma Rrefl : forall d d', R d d' -> R d d.
Proof. intros d d' H. eapply Rtrans; [exact H|]. now apply Rsym. Qed.
Lemma runs_log_same : forall l d d', R d d' -> R (runs_log l d) (runs_log l d').
Proof. induction l as [|x l IH]; intros d d' H; [exact H|]. apply (IH (act x d) (act x d')). now apply Ract. Qed.
Definition swap (x y : entry) : Prop := forall d, R d d -> R (act x (act y d)) (act y (act x d)).
Lemma swap_past : forall x l d, R d d -> Forall (swap x) l -> R (runs_log l (act x d)) (act x (runs_log l d)).
Proof.
  intros x l d Hd H. revert d Hd. induction H as [|y l Hy H IH]; intros d Hd; [now apply Ract|].
  change (R (runs_log l (act y (act x d))) (act x (runs_log l (act y d)))). eapply Rtrans; [|apply IH; now apply Ract]. apply runs_log_same. apply Rsym. now apply Hy.
Qed.
(** Everything that belongs to [i] may be done first. *)
Lemma done_first : forall i log d, R d d -> (forall l1 x l2 y, log = l1 ++ x :: l2 -> In y l2 -> job y = i -> job x <> i -> swap x y) ->
  R (runs_log log d) (runs_log (of_job i log ++ filter (fun x => negb (Nat.eqb (job x) i)) log) d).
Proof.
  intros i. induction log as [|x log IH]; intros d Hd H; [exact Hd|].
  assert (H' : forall l1 z l2 y, log = l1 ++ z :: l2 -> In y l2 -> job y = i -> job z <> i -> swap z y).
  { intros l1 z l2 y -> Hy J1 J2. apply (H (x :: l1) z l2 y); auto. }
  change (runs_log (x :: log) d) with (runs_log log (act x d)). eapply Rtrans; [apply (IH (act x d) (Ract x d d Hd) H')|]. unfold of_job. cbn [filter].
  destruct (Nat.eqb_spec (job x) i) as [E|E]; cbn [negb app]; [apply (runs_log_same (_ ++ _) (act x d) (act x d)); now apply Ract|]. rewrite !runs_log_app.
  match goal with |- R _ (runs_log (x :: ?l) ?z) => change (runs_log (x :: l) z) with (runs_log l (act x z)) end.
  apply runs_log_same. apply swap_past; [exact Hd|]. apply Forall_forall. intros y Hy. apply filter_In in Hy. destruct Hy as [Hy J]. apply Nat.eqb_eq in J. apply (H [] x log y); auto.
Qed.
Lemma of_job_rest : forall i j log, i <> j -> of_job j (filter (fun x => negb (Nat.eqb (job x) i)) log) = of_job j log.
Proof.
  intros i j log N. unfold of_job. induction log as [|x log IH]; [reflexivity|]. cbn. destruct (Nat.eqb_spec (job x) i) as [E|E]; cbn.
  - rewrite IH. destruct (Nat.eqb_spec (job x) j); [congruence|reflexivity].
  - rewrite IH. reflexivity.
Qed.
Lemma filter_order : forall (f : entry -> bool) log l1 x l2, filter f log = l1 ++ x :: l2 -> exists m1 m2, log = m1 ++ x :: m2 /\ filter f m2 = l2.
Proof.
  intros f. induction log as [|y log IH]; intros l1 x l2 E; [destruct l1; discriminate|]. cbn in E. destruct (f y).
  - destruct l1 as [|z l1].
    + injection E as <- E. exists [], log. auto.
    + injection E as <- E. destruct (IH l1 x l2 E) as (m1 & m2 & -> & E2). exists (y :: m1), m2. auto.
  - destruct (IH l1 x l2 E) as (m1 & m2 & -> & E2). exists (y :: m1), m2. auto.
Qed.
Lemma in_turn : forall n k log d, R d d -> Forall (fun x => k <= job x < k + n) log ->
  (forall l1 x l2 y, log = l1 ++ x :: l2 -> In y l2 -> job y < job x -> swap x y) ->
  R (runs_log log d) (runs_log (flat_map (fun j => of_job j log) (seq k n)) d).
Proof.
  induction n as [|n IH]; intros k log d Hd B H.
  - destruct log as [|x log]; [exact Hd|]. inversion B; subst. lia.
  - eapply Rtrans; [apply (done_first k log d Hd)|].
    + intros l1 x l2 y E Hy J1 J2. apply (H l1 x l2 y E Hy). subst log. rewrite Forall_forall in B. pose proof (B x ltac:(apply in_or_app; right; now left)). lia.
    + rewrite runs_log_app. eapply Rtrans; [apply (IH (S k))|].
      * now apply runs_log_same.
      * apply Forall_forall. intros x Hx. apply filter_In in Hx. destruct Hx as [Hx E]. rewrite Forall_forall in B. specialize (B x Hx). apply negb_true_iff, Nat.eqb_neq in E. lia.
      * intros l1 x l2 y E Hy L. destruct (filter_order _ _ _ _ _ E) as (m1 & m2 & -> & E2). apply (H m1 x m2 y); auto. subst l2. apply filter_In in Hy. tauto.
      * cbn [seq flat_map]. rewrite runs_log_app.
        replace (flat_map (fun j => of_job j (filter (fun x => negb (job x =? k)) log)) (seq (S k) n)) with (flat_map (fun j => of_job j log) (seq (S k) n)).
        { apply runs_log_same. now apply runs_log_same. }
        rewrite !flat_map_concat_map. f_equal. apply map_ext_in. intros j Hj. apply in_seq in Hj. symmetry. apply of_job_rest. lia.
Qed.
End Exchange.

Section Accounted.
Variables (prog : list instr) (log : list entry).
Hypothesis A : accounts prog log.
Lemma later_free : forall l1 x l2 y, log = l1 ++ x :: l2 -> In y l2 -> job y < job x ->
  exists u v, nth_error prog (job x) = Some u /\ nth_error prog (job y) = Some v /\ (forall p, works_on u p -> ~ works_on v p)
    /\ (forall p, works_on (step x) p -> ~ works_on (step y) p).
Proof.
  intros l1 x l2 y E Hy L. pose proof (ac_jobs _ _ A) as Jb. rewrite Forall_forall in Jb.
  assert (Hx : In x log) by (rewrite E; apply in_or_app; right; now left). assert (Hy' : In y log) by (rewrite E; apply in_or_app; right; now right).
  destruct (nth_error prog (job x)) as [u|] eqn:Pu; [|apply nth_error_None in Pu; specialize (Jb x Hx); lia].
  destruct (nth_error prog (job y)) as [v|] eqn:Pv; [|apply nth_error_None in Pv; specialize (Jb y Hy'); lia].
  assert (Fr : forall p, works_on u p -> ~ works_on v p).
  { intros p Wu Wv. assert (X : In y (of_job (job y) l2)) by (apply filter_In; split; [exact Hy|apply Nat.eqb_refl]).
    rewrite (ac_order _ _ A (job y) (job x) l1 x l2) in X; auto. split; [exact L|]. exists v, u, p. auto. }
  exists u, v. split; [reflexivity|]. split; [reflexivity|]. split; [exact Fr|]. intros p Wx Wy.
  assert (T : forall z c, In z log -> nth_error prog (job z) = Some c -> works_on (step z) p -> works_on c p).
  { intros z c Hz Pc W. destruct (ac_done _ _ A (job z) c Pc) as (f & l' & la & _ & _ & _ & _ & T & _). rewrite Forall_forall in T. apply (T z); [|exact W].
    apply filter_In. split; [exact Hz|apply Nat.eqb_refl]. }
  apply (Fr p); eauto.
Qed.
Lemma jobs_below : Forall (fun x => 0 <= job x < 0 + length prog) log.
Proof. eapply Forall_impl; [|exact (ac_jobs _ _ A)]. cbn. intros. lia. Qed.

Lemma effect_runs : forall D (mean : instr -> D -> D) l d, effect_of mean (map step l) d = runs_log (fun x => mean (step x)) l d.
Proof. intros D mean. induction l as [|x l IH]; intros d; [reflexivity|]. cbn. apply IH. Qed.
Lemma steps_in_turn : forall D R (mean : instr -> D -> D) d, lawful R mean -> R d d ->
  R (effect_of mean (map step log) d) (effect_of mean (flat_map (fun j => map step (of_job j log)) (seq 0 (length prog))) d).
Proof.
  intros D R mean d Lw Hd. rewrite effect_runs.
  replace (flat_map (fun j => map step (of_job j log)) (seq 0 (length prog))) with (map step (flat_map (fun j => of_job j log) (seq 0 (length prog))))
    by (rewrite !flat_map_concat_map, concat_map, map_map; reflexivity).
  rewrite effect_runs. apply in_turn; [apply (law_sym _ _ Lw)|apply (law_trans _ _ Lw)|intros x; apply (law_same _ _ Lw)|exact Hd|exact jobs_below|].
  intros l1 x l2 y E Hy L. destruct (later_free l1 x l2 y E Hy L) as (u & v & _ & _ & _ & Fr). intros d' Hd'. now apply (law_swap _ _ Lw).
Qed.

Definition finishing {D} (mean : instr -> D -> D) (x : entry) (d : D) : D :=
  if final x then match nth_error prog (job x) with Some v => mean v d | None => d end else d.
Lemma effect_finishing : forall D (mean : instr -> D -> D) l d, effect_of mean (pick prog (completed l)) d = runs_log (finishing mean) l d.
Proof.
  intros D mean. induction l as [|x l IH]; intros d; [reflexivity|]. unfold completed, pick. cbn [flat_map]. fold (completed l). rewrite flat_map_app. fold (pick prog (completed l)).
  change (runs_log (finishing mean) (x :: l) d) with (runs_log (finishing mean) l (finishing mean x d)). rewrite <- IH. unfold effect_of. rewrite fold_left_app. f_equal. unfold finishing.
  destruct (final x); [|reflexivity]. cbn. destruct (nth_error prog (job x)); reflexivity.
Qed.
Lemma finishing_one : forall D (mean : instr -> D -> D) j v d, nth_error prog j = Some v -> runs_log (finishing mean) (of_job j log) d = mean v d.
Proof.
  intros D mean j v d P. destruct (ac_done _ _ A j v P) as (f & l' & la & _ & E & _ & _ & _ & F & L). rewrite E, runs_log_app.
  assert (Jl : job la = j). { assert (X : In la (of_job j log)) by (rewrite E; apply in_or_app; right; now left). apply filter_In in X. now apply Nat.eqb_eq. }
  assert (G : forall d', runs_log (finishing mean) l' d' = d').
  { clear - F. induction F as [|x l Hx F IH]; intros d'; [reflexivity|].
    change (runs_log (finishing mean) (x :: l) d') with (runs_log (finishing mean) l (finishing mean x d')). rewrite IH. unfold finishing. now rewrite Hx. }
  rewrite G. cbn. unfold finishing. now rewrite L, Jl, P.
Qed.
Lemma completed_same : forall D R (mean : instr -> D -> D) d, lawful R mean -> R d d -> R (effect_of mean (pick prog (completed log)) d) (effect_of mean prog d).
Proof.
  intros D R mean d Lw Hd. rewrite effect_finishing.
  assert (Fs : forall x d d', R d d' -> R (finishing mean x d) (finishing mean x d')).
  { intros x d1 d2 H. unfold finishing. destruct (final x); [|exact H]. destruct (nth_error prog (job x)); [|exact H]. now apply (law_same _ _ Lw). }
  assert (G : forall n k d', (forall j, k <= j < k + n -> j < length prog) -> runs_log (finishing mean) (flat_map (fun j => of_job j log) (seq k n)) d' = effect_of mean (pick prog (seq k n)) d').
  { induction n as [|n IH]; intros k d' B; [reflexivity|]. cbn [seq flat_map]. rewrite runs_log_app, IH by (intros j Hj; apply B; lia). unfold pick. cbn [flat_map]. fold (pick prog (seq (S k) n)).
    destruct (nth_error prog k) as [v|] eqn:P; [|apply nth_error_None in P; specialize (B k); lia]. rewrite (finishing_one D mean k v d' P). reflexivity. }
  assert (Ep : pick prog (seq 0 (length prog)) = prog).
  { clear. induction prog as [|v l IH]; [reflexivity|]. cbn [length seq]. unfold pick. cbn [flat_map nth_error app]. f_equal.
    rewrite <- seq_shift. rewrite flat_map_concat_map, map_map. unfold pick in IH. rewrite flat_map_concat_map in IH. exact IH. }
  replace (effect_of mean prog d) with (effect_of mean (pick prog (seq 0 (length prog))) d) by now rewrite Ep. rewrite <- (G (length prog) 0 d) by (intros; lia).
  apply in_turn; [apply (law_sym _ _ Lw)|apply (law_trans _ _ Lw)|exact Fs|exact Hd|exact jobs_below|].
  intros l1 x l2 y E Hy L. destruct (later_free l1 x l2 y E Hy L) as (u & v & Pu & Pv & Fr & _). intros d' Hd'. unfold finishing. rewrite Pu, Pv.
  destruct (final x), (final y); try (now apply (law_swap _ _ Lw)); try (now apply (law_same _ _ Lw)); exact Hd'.
Qed.
Lemma completed_once : Permutation (completed log) (seq 0 (length prog)).
Proof.
  assert (C : forall j, count_occ Nat.eq_dec (completed log) j = length (filter final (of_job j log))).
  { intros j. clear A. induction log as [|x l IH]; [reflexivity|]. unfold completed, of_job. cbn [flat_map filter]. fold (completed l). fold (of_job j l).
    rewrite count_occ_app, IH. destruct (Nat.eqb_spec (job x) j) as [E|E]; cbn [filter]; destruct (final x); cbn; try reflexivity.
    - destruct (Nat.eq_dec (job x) j); [reflexivity|contradiction].
    - destruct (Nat.eq_dec (job x) j); [contradiction|reflexivity]. }
  apply (Permutation_count_occ Nat.eq_dec). intros j. rewrite C.
  destruct (nth_error prog j) as [v|] eqn:P.
  - assert (L : j < length prog) by (apply nth_error_Some; congruence). destruct (ac_done _ _ A j v P) as (f & l' & la & _ & E & _ & _ & _ & F & La).
    rewrite E, filter_app, app_length. assert (G : filter final l' = []) by (clear - F; induction F as [|x l Hx F IH]; [reflexivity|]; cbn; now rewrite Hx).
    rewrite G. cbn. rewrite La. cbn. symmetry. apply NoDup_count_occ'; [apply seq_NoDup|]. apply in_seq. lia.
  - apply nth_error_None in P. assert (E : of_job j log = []).
    { pose proof (ac_jobs _ _ A) as Jb. unfold of_job. clear - Jb P. induction Jb as [|x l Hx Jb IH]; [reflexivity|]. cbn. rewrite (proj2 (Nat.eqb_neq _ _)) by lia. exact IH. }
    rewrite E. cbn. symmetry. apply count_occ_not_In. rewrite in_seq. lia.
Qed.
End Accounted.
