(** Every attempt at an instruction gets it nearer to its end. *)
From Verif Require Import Base PatchesModel LayoutModel InstrModel SliceModel SliceSpec SliceProofs MarksModel ApplyModel ApplySpec ApplyProofs ApplyBell ApplyEnds BellProps ApplyProps
  RouterModel RouterSpec RouterProofs RouterProps DagModel DagSpec DagSim RunModel RunProofs SchedSpec SchedProofs DagLoop DagLoopProps WaveModel WaveSpec WaveDefer WaveProofs WaveProps RunInv EndSpec.
Open Scope nat_scope.

(** What an attempt leaves of [i] *)
Definition wears (i : instr) (a : applied) : Prop :=
  toil (tried i a) = toil i /\ ~ link (tried i a) /\
  if a_error a then a_follow a = []
  else a_follow a = [] \/ exists j, a_follow a = [j] /\ (toil j < toil i)%N /\ ~ link j /\ (wait j <= SIZE_MAX)%N.

Lemma toil_pos : forall i, (1 <= toil i)%N.
Proof. intros i. unfold toil. destruct (op i); try lia. destruct op; lia. Qed.

Lemma litinski_three : forall p n r k l, litinski_rotation p n = Ok (Busy r k l) -> k = 3%N.
Proof.
  intros p n r k l H. unfold litinski_rotation in H. destruct (sp_cells p); [|discriminate]. bstep H. now injection H as <- <- <-.
Qed.

Lemma try_wears : forall e w i a, try_apply e w i = Ok a -> (e_local e = true -> ~ link i) -> wears i a.
Proof.
  intros e w [o wt cl] a H NL.
  assert (F : forall w' o', failed w' o' = Ok a -> toil (instr_of o') = toil (instr_of o) -> ~ link (instr_of o') -> wears (mkI o wt cl) a).
  { intros w' o' X T L. apply failed_inv in X. destruct X as (_ & Eo & Er & Fo). unfold wears, tried. rewrite Eo, Er. auto. }
  assert (D : forall w' o', done_ w' o' = Ok a -> toil (instr_of o') = toil (instr_of o) -> ~ link (instr_of o') -> wears (mkI o wt cl) a).
  { intros w' o' X T L. apply done_inv in X. destruct X as (_ & Eo & Er & Fo). unfold wears, tried. rewrite Eo, Er. auto. }
  assert (X : forall w' o' er, Ok (mkA w' o' er []) = Ok a -> toil (instr_of o') = toil (instr_of o) -> ~ link (instr_of o') -> wears (mkI o wt cl) a).
  { intros w' o' er X T L. injection X as <-. unfold wears, tried. cbn. split; [exact T|]. split; [exact L|]. destruct er; auto. }
  destruct o; cbn [try_apply InstrModel.op wait clients] in H; try discriminate.
  - unfold apply_measure in H. destruct (get_cell_by_id (w_slice w) target); [bstep H|]; eauto.
  - unfold apply_multi in H. destruct observable as [|[x px] [|[y py] [|? ?]]]; try discriminate.
    repeat (match type of H with context[if ?b then _ else _] => destruct b end; cbn [negb] in H; eauto; try discriminate).
    + crawl H. destruct b; cbn [negb] in H; eauto.
    + crawl H. eauto.
  - unfold apply_init in H. bstep H. destruct x; eauto. bstep H. bstep H. eauto.
  - unfold apply_bell_init in H. destruct (e_local e); [exfalso; now apply NL|discriminate].
  - unfold apply_magic in H. destruct (l_times (e_layout e)); try discriminate. destruct (s_magic (w_slice w)); eauto.
    repeat bstep H. eauto.
  - unfold apply_y in H. destruct (get_cell_by_id (w_slice w) target); [bstep H; eauto|].
    destruct (negb (e_local e && e_twists e) && negb (N.eqb (s_yavail (w_slice w)) 0)).
    + bstep H. destruct x as [[z c]|]; [bstep H; eauto|]. eauto.
    + destruct (e_twists e); [|eauto]. bstep H. bstep H. destruct x0; eauto. bstep H. destruct x0. eauto.
  - unfold apply_single in H. destruct (get_cell_by_id (w_slice w) target), (get_patch_by_id (w_slice w) target); eauto.
    destruct op; try (match type of H with (if dp_is_active _ then _ else _) = _ => destruct (dp_is_active d); [eauto|try (bstep H); eauto] end).
    destruct (e_edpc e); try discriminate. bstep H. destruct x as [w' ok]. destruct ok; cbn [negb] in H; eauto.
    injection H as <-. split; [reflexivity|]. split; [now intros L|]. right. eexists. split; [reflexivity|]. cbn. repeat split; try lia; try (now intros L).
  - unfold apply_rotate in H. destruct (get_cell_by_id (w_slice w) target); eauto. bstep H. destruct x; eauto.
    repeat bstep H. destruct x1; try discriminate. match goal with K : litinski_rotation _ _ = Ok _ |- _ => apply litinski_three in K; subst end. bstep H. destruct x1. injection H as <-.
    split; [reflexivity|]. split; [now intros L|]. right. eexists. split; [reflexivity|]. cbn. repeat split; try lia; try (now intros L).
  - unfold apply_busy in H. destruct (N.eqb steps_to_clear 0) eqn:E0.
    + repeat bstep H. destruct x0 as [s2 all]. destruct all; eauto.
    + repeat bstep H. apply N.eqb_neq in E0. injection H as <-. split; [reflexivity|]. split; [now intros L|]. right. eexists. split; [reflexivity|]. cbn. repeat split; try lia; try (now intros L).
  - unfold apply_cnot in H. destruct (e_local e); [exfalso; now apply NL|discriminate].
  - eauto.
Qed.

(** ** What is left of a program *)
Definition weight (i : instr) : N := toil i * (SIZE_MAX + 1) + wait i.
Definition heft (o : option instr) : N := match o with Some i => weight i | None => 0 end.
Definition all_heft (p : list (option instr)) : N := fold_right (fun o n => heft o + n)%N 0%N p.
Definition work (o : option instr) : N := match o with Some i => toil i | None => 0 end.
Definition all_work (p : list (option instr)) : N := fold_right (fun o n => work o + n)%N 0%N p.

Lemma put_sum : forall (f : option instr -> N) p j o o', nth_error p j = Some o ->
  (fold_right (fun o n => f o + n) 0 (put_at j o' p) + f o = fold_right (fun o n => f o + n) 0 p + f o')%N.
Proof.
  intros f p. induction p as [|x p IH]; intros [|j] o o' H; cbn in H; try discriminate.
  - injection H as ->. unfold put_at. cbn. lia.
  - specialize (IH _ _ o' H). unfold put_at in *. cbn [firstn app skipn fold_right] in *. lia.
Qed.
Lemma Forall_put : forall {B} (P : B -> Prop) v l n, Forall P l -> P v -> Forall P (put_at n v l).
Proof.
  intros B P v l. induction l as [|x l IH]; intros n F Pv; [destruct n; cbn; auto|]. inversion F; subst. destruct n; [cbn; auto|].
  constructor; [assumption|]. now apply IH.
Qed.
Lemma work_some : forall prog, all_work (map Some prog) = all_toil prog.
Proof. induction prog as [|i l IH]; [reflexivity|]. unfold all_work, all_toil in *. cbn [map fold_right work]. now rewrite IH. Qed.
Lemma work_none : forall p, all_work p = 0%N -> Forall (fun o => o = None) p.
Proof.
  induction p as [|[i|] p IH]; intros H; unfold all_work in *; cbn [fold_right work] in H; [constructor|pose proof (toil_pos i); lia|]. constructor; [reflexivity|apply IH; lia].
Qed.

Definition fine (e : env) (o : option instr) : Prop := forall i, o = Some i -> (e_local e = true -> ~ link i) /\ (wait i <= SIZE_MAX)%N.

Definition accepting (c : act) : bool := match c with Try _ _ a _ => negb (a_error a) | _ => false end.
Definition moving (c : act) : bool :=
  match c with Try _ x a o => negb (a_error a) || match o with Some y => (wait y <? wait x)%N | None => false end | _ => false end.
Definition count (f : act -> bool) (l : list act) : N := N.of_nat (length (filter f l)).
Lemma count_app : forall f l m, count f (l ++ m) = (count f l + count f m)%N.
Proof. intros. unfold count. rewrite filter_app, app_length. lia. Qed.
Lemma count_in : forall f l c, In c l -> f c = true -> (1 <= count f l)%N.
Proof.
  intros f l c H F. unfold count. destruct (filter f l) eqn:E; [|cbn; lia]. exfalso.
  assert (X : In c (filter f l)) by (apply filter_In; auto). rewrite E in X. destruct X.
Qed.
Lemma count_one : forall f c, count f [c] = if f c then 1%N else 0%N.
Proof. intros. unfold count. cbn. now destruct (f c). Qed.

Section Worn.
Variables (e : env) (conflict : instr -> instr -> bool) (again : instr -> applied -> instr -> Prop) (prog : list instr) (w0 : world).
Hypothesis again_less : forall x a y, again x a y -> op y = a_op a /\ (wait y <= wait x)%N.
Hypothesis nolinks : no_links e prog.
Hypothesis waits : Forall (fun i => (wait i <= SIZE_MAX)%N) prog.
Lemma again_toil : forall x a y, again x a y -> toil y = toil (tried x a) /\ (link y <-> link (tried x a)).
Proof. intros x a y H. destruct (again_less _ _ _ H) as [E _]. unfold toil, link, tried. cbn. rewrite E. tauto. Qed.

Lemma try_left : forall w x a o, try_apply e w x = Ok a -> leaves again x a o -> fine e (Some x) ->
  fine e o /\ (work o + (if negb (a_error a) then 1 else 0) <= toil x)%N
  /\ (heft o + (if negb (a_error a) || match o with Some y => (wait y <? wait x)%N | None => false end then 1 else 0) <= weight x)%N
  /\ (forall y, o = Some y -> a_error a = true -> ~ link y).
Proof.
  intros w x a o A L F. destruct (F x eq_refl) as [NL Wx]. destruct (try_wears e w x a A NL) as (T & NK & Fo).
  pose proof (toil_pos x) as P. unfold leaves in L. destruct (a_error a); cbn [negb orb].
  - destruct L as (y & -> & Ay). destruct (again_less _ _ _ Ay) as [_ Wy]. destruct (again_toil _ _ _ Ay) as [Ty Ly].
    split; [intros i Ei; injection Ei as <-; split; [tauto|lia]|]. split; [cbn; lia|]. split; [|intros i Ei _; injection Ei as <-; tauto].
    cbn [heft]. unfold weight. rewrite Ty, T. destruct (wait y <? wait x)%N eqn:Lt; [apply N.ltb_lt in Lt|]; lia.
  - rewrite L. destruct Fo as [->|(j & -> & Tj & Lj & Wj)]; cbn [hd_error].
    + split; [intros i Ei; discriminate|]. split; [cbn; lia|]. split; [|intros; discriminate]. cbn [heft]. unfold weight. unfold SIZE_MAX in *. lia.
    + split; [intros i Ei; injection Ei as <-; split; [tauto|lia]|]. split; [cbn; lia|]. split; [|intros; discriminate]. cbn [heft]. unfold weight. nia.
Qed.

Lemma sched_worn : forall acts w p, scheduled e conflict again prog w0 acts w p ->
  Forall (fine e) p /\ (all_work p + count accepting acts <= all_toil prog)%N /\ (all_heft p + count moving acts <= all_heft (map Some prog))%N
  /\ forall j x a o y, In (Try j x a o) acts -> o = Some y -> a_error a = true -> ~ link y.
Proof.
  intros acts w p S. induction S as [|acts w p j x a o S (IF & IW & IH & IL) Hp Hr Ha Hl|acts w p s S (IF & IW & IH & IL) Ad|acts w p s S (IF & IW & IH & IL) Ed Gb].
  - split; [|split; [rewrite work_some; unfold count; cbn; lia|split; [unfold count; cbn; lia|intros ? ? ? ? ? []]]].
    apply Forall_forall. intros o Ho. apply in_map_iff in Ho. destruct Ho as (i & <- & Hi). intros i' E. injection E as <-.
    split; [intros El; exact (proj1 (Forall_forall _ _) (nolinks El) i Hi)|exact (proj1 (Forall_forall _ _) waits i Hi)].
  - assert (Fx : fine e (Some x)) by (apply (proj1 (Forall_forall _ _) IF), (nth_error_In _ _ Hp)).
    destruct (try_left w x a o Ha Hl Fx) as (Fo & Wo & Ho & Lo). rewrite !count_app, !count_one. cbn [accepting moving].
    pose proof (put_sum work p j (Some x) o Hp) as P1. pose proof (put_sum heft p j (Some x) o Hp) as P2. fold (all_work (put_at j o p)) in P1. fold (all_work p) in P1.
    fold (all_heft (put_at j o p)) in P2. fold (all_heft p) in P2. cbn [work heft] in P1, P2. split; [|split; [|split]].
    + now apply Forall_put.
    + lia.
    + lia.
    + intros j' x' a' o' y Hi Ey Er. apply in_app_iff in Hi. destruct Hi as [Hi|[Hi|[]]]; [eapply IL; eauto|]. injection Hi as <- <- <- <-. eapply Lo; eauto.
  - rewrite !count_app, !count_one. cbn. repeat split; auto; try lia. intros j' x' a' o' y Hi Ey Er. apply in_app_iff in Hi. destruct Hi as [Hi|[Hi|[]]]; [eapply IL; eauto|discriminate].
  - rewrite !count_app, !count_one. cbn. repeat split; auto; try lia. intros j' x' a' o' y Hi Ey Er. apply in_app_iff in Hi. destruct Hi as [Hi|[Hi|[]]]; [eapply IL; eauto|discriminate].
Qed.
End Worn.

Lemma same_less : forall x a y, same_again x a y -> op y = a_op a /\ (wait y <= wait x)%N.
Proof. intros x a y ->. split; [reflexivity|]. cbn. lia. Qed.
Lemma less_less : forall x a y, less_again x a y -> op y = a_op a /\ (wait y <= wait x)%N.
Proof. intros x a y [->|[_ ->]]; cbn; (split; [reflexivity|lia]). Qed.

(** ** The DAG pipeline *)
Section DagEnds.
Variables (e : env) (late : nat -> bool) (prog : list instr) (w0 : world).
Hypothesis nolinks : no_links e prog.
Hypothesis waits : Forall (fun i => (wait i <= SIZE_MAX)%N) prog.
Notation at_dag := (dag_at_point e prog w0).

Lemma idle_halts : forall st acts p L, at_dag st acts p L -> Forall (fun o => o = None) p -> dag_step e late st = Halt (ds_tally st) Finished.
Proof.
  intros st acts p L D F. unfold dag_step. assert (Em : dag_is_empty (ds_dag st) = true).
  { apply (empty_finished instr lli_can prog _ _ L (da_sim _ _ _ _ _ _ _ D)). intros l Hl. apply in_map_iff in Hl. destruct Hl as (o & <- & Ho).
    rewrite (proj1 (Forall_forall _ _) F o Ho). reflexivity. }
  now rewrite Em.
Qed.

Lemma round_accepts : forall st st' acts p L, at_dag st acts p L -> turns (dag_step e late) 101 st = Go st' ->
  exists new p' L', at_dag st' (acts ++ new) p' L' /\ (1 <= count accepting new)%N.
Proof.
  intros st st' acts p L D T.
  destruct (least_left late late p) as [(j & x & Pj & Lt)|F].
  2:{ cbn [turns] in T. rewrite (idle_halts _ _ _ _ D F) in T. discriminate. }
  assert (Rd : ready clash prog p j) by (split; [eauto|]; intros i u v Hi _ _ _; auto).
  destruct (dag_rounds e late prog w0 101 st st' acts p L D T) as (new & p' & L' & D' & R). exists new, p', L'. split; [exact D'|].
  destruct (R j Rd) as [(y & a & Hin & Er)|[Le Al]].
  - unfold tries in Hin. apply in_flat_map in Hin. destruct Hin as (c & Hc & Hy). eapply count_in; [exact Hc|].
    destruct c as [i y' a' o'| |]; cbn in Hy; try tauto. destruct (Nat.eqb i j); [|destruct Hy]. destruct Hy as [Hy|[]]. injection Hy as -> ->. cbn. now rewrite Er.
  - exfalso. pose proof (da_bound _ _ _ _ _ _ _ D' j) as B. rewrite tries_app, refusals_all in B by exact Al. lia.
Qed.

Lemma rounds_accept : forall k st st' acts p L, at_dag st acts p L -> turns (dag_step e late) (k * 101) st = Go st' ->
  exists new p' L', at_dag st' (acts ++ new) p' L' /\ (N.of_nat k <= count accepting new)%N.
Proof.
  induction k as [|k IH]; intros st st' acts p L D T.
  - injection T as <-. exists [], p, L. rewrite app_nil_r. split; [exact D|]. cbn. lia.
  - change (S k * 101) with (101 + k * 101) in T. rewrite turns_plus in T. destruct (turns (dag_step e late) 101 st) as [st1|t r] eqn:T1; cbn [pbind] in T; [|discriminate].
    destruct (round_accepts _ _ _ _ _ D T1) as (n1 & p1 & L1 & D1 & C1). destruct (IH _ _ _ _ _ D1 T) as (n2 & p2 & L2 & D2 & C2).
    exists (n1 ++ n2), p2, L2. rewrite app_assoc, count_app. split; [exact D2|lia].
Qed.

Lemma dag_ends : forall st0, dag_init prog w0 = Go st0 ->
  exists t r, turns (dag_step e late) (N.to_nat (all_toil prog) * 101 + 1) st0 = Halt t r.
Proof.
  intros st0 I. destruct (start_dag e late prog w0) as (st1 & L & I' & D0). assert (st1 = st0) by congruence. subst st1.
  rewrite turns_plus. destruct (turns (dag_step e late) (N.to_nat (all_toil prog) * 101) st0) as [st|t r] eqn:T; cbn [pbind]; [|eauto].
  destruct (rounds_accept _ _ _ _ _ _ D0 T) as (new & p & L' & D & C). cbn [app] in D.
  destruct (sched_worn e clash same_again prog w0 same_less nolinks waits _ _ _ (da_sched _ _ _ _ _ _ _ D)) as (_ & Wk & _).
  cbn [turns]. rewrite (idle_halts _ _ _ _ D); [cbn; eauto|]. apply work_none. lia.
Qed.
End DagEnds.

(** ** The wave pipeline *)
Section WaveEnds.
Variables (e : env) (late grow : nat -> bool) (prog : list instr) (w0 : world).
Hypothesis nolinks : no_links e prog.
Hypothesis waits : Forall (fun i => (wait i <= SIZE_MAX)%N) prog.
Hypothesis whole : uncut e prog.
Hypothesis few : Forall few_patches prog.

Lemma wave_moves : forall n st st' acts p org, wave_point e grow prog w0 st acts p org -> turns (wave_step e late grow) n st = Go st' ->
  exists new p' org', wave_point e grow prog w0 st' (acts ++ new) p' org' /\ (N.of_nat n <= count moving new)%N.
Proof.
  induction n as [|n IH]; intros st st' acts p org W T.
  - injection T as <-. exists [], p, org. rewrite app_nil_r. split; [exact W|]. cbn. lia.
  - cbn [turns] in T. pose proof (step_ok e late grow prog w0 whole few _ _ _ _ W) as S1. destruct (wave_step e late grow st) as [st1|t r]; cbn [pbind] in T; [|discriminate].
    destruct S1 as (n1 & p1 & more & W1 & (j & x & a & o & Hin & Mv) & _). destruct (IH _ _ _ _ _ W1 T) as (n2 & p2 & org2 & W2 & C2).
    exists (n1 ++ n2), p2, org2. rewrite app_assoc, count_app. split; [exact W2|].
    assert (C1 : (1 <= count moving n1)%N); [|lia]. eapply count_in; [exact Hin|]. cbn. destruct (a_error a) eqn:Er; [|reflexivity]. cbn [negb orb].
    destruct Mv as [Mv|[(y & -> & Lt)|(Ed & y & -> & Ry)]]; [congruence|now apply N.ltb_lt|].
    exfalso. destruct W1 as [W1 _]. destruct (sched_worn e clash less_again prog w0 less_less nolinks waits _ _ _ (wa_sched _ _ _ _ _ _ _ _ _ _ _ W1)) as (_ & _ & _ & NL).
    apply (NL j x a (Some y) y); [apply in_app_iff; auto|reflexivity|exact Er|]. unfold on_route in Ry. unfold link. now destruct (op y).
Qed.

Lemma wave_ends : exists n t r, turns (wave_step e late grow) n (wave_init prog w0) = Halt t r.
Proof.
  exists (S (N.to_nat (all_heft (map Some prog)))). destruct (turns (wave_step e late grow) (S (N.to_nat (all_heft (map Some prog)))) (wave_init prog w0)) as [st|t r] eqn:T; [|eauto].
  exfalso. destruct (wave_moves _ _ _ _ _ _ (init_ok e late grow prog w0 few) T) as (new & p & org & [W _] & C). cbn [app] in W.
  destruct (sched_worn e clash less_again prog w0 less_less nolinks waits _ _ _ (wa_sched _ _ _ _ _ _ _ _ _ _ _ W)) as (_ & _ & Wk & _). lia.
Qed.
End WaveEnds.

(** ** The stream pipeline *)
Section StreamEnds.
Variables (e : env) (late : nat -> bool).
Let step := stream_step e late.
Definition queue (st : stream_st) : list instr := ss_future st ++ ss_rest st.
Definition burden (l : list instr) : N := all_heft (map Some l).
Lemma burden_cons : forall i l, burden (i :: l) = (weight i + burden l)%N.
Proof. reflexivity. Qed.
Lemma burden_app : forall l m, burden (l ++ m) = (burden l + burden m)%N.
Proof. induction l as [|i l IH]; intros m; [reflexivity|]. cbn [app]. rewrite !burden_cons, IH. lia. Qed.
Lemma weight_pos : forall i, (1 <= weight i)%N.
Proof. intros i. unfold weight. pose proof (toil_pos i). unfold SIZE_MAX. lia. Qed.

Lemma stream_lighter : forall st st', stream_step e late st = Go st' -> Forall (fun i => fine e (Some i)) (queue st) ->
  Forall (fun i => fine e (Some i)) (queue st') /\ (burden (queue st') < burden (queue st))%N.
Proof.
  intros st st' H F. unfold stream_step in H. destruct (take_next st) as [[i st1]|] eqn:Tn; [|unfold visit in H; destruct (late _); discriminate].
  assert (Q : queue st = i :: queue st1).
  { unfold take_next in Tn. unfold queue. destruct (ss_future st); [destruct (ss_rest st); [discriminate|]|]; injection Tn as <- <-; reflexivity. }
  rewrite Q in *. inversion F as [|? ? Fi Fq]; subst. destruct (try_apply e (ss_world st1) i) as [a| | |] eqn:A; cbn [lift pbind] in H; try discriminate.
  destruct (Fi i eq_refl) as [NL Wi]. pose proof (try_wears e _ i a A NL) as (T & NK & Fo). unfold queue in *. apply Forall_app in Fq. destruct Fq as [F1 F2].
  pose proof (weight_pos i) as Wp. rewrite burden_cons.
  destruct (a_follow a) as [|j r] eqn:Ef.
  - destruct (a_error a) eqn:Er; cbn [negb] in H.
    + unfold visit in H. destruct (late _); [discriminate|]. cbn [pbind] in H. destruct (wait i =? 0)%N eqn:W0; [discriminate|]. apply N.eqb_neq in W0.
      unfold advance in H. destruct (advance_slice _ _); cbn [lift pbind] in H; try discriminate. injection H as <-. cbn [ss_future ss_rest app].
      split.
      * constructor; [|apply Forall_app; auto]. intros y Ey. injection Ey as <-. split; [intros El; exact NK|cbn [wait]; lia].
      * rewrite burden_cons. assert (X : (weight (mkI (a_op a) (wait i - 1) (clients i)) < weight i)%N); [|lia].
        unfold weight. change (toil (mkI (a_op a) (wait i - 1) (clients i))) with (toil (tried i a)). rewrite T. cbn [wait].
        generalize (toil i * (SIZE_MAX + 1))%N. intros; lia.
    + injection H as <-. cbn [ss_future ss_rest]. split; [apply Forall_app; auto|]. lia.
  - destruct (a_error a); [discriminate|]. destruct Fo as [Fo|(j' & Fo & Tj & Lj & Wj)]; [discriminate|]. injection Fo as -> ->.
    unfold visit in H. destruct (late _); [discriminate|]. cbn [pbind] in H. unfold advance in H. destruct (advance_slice _ _); cbn [lift pbind] in H; try discriminate.
    injection H as <-. cbn [ss_future ss_rest]. split.
    + rewrite <- app_assoc. apply Forall_app. split; [exact F1|]. constructor; [|exact F2]. intros y Ey. injection Ey as <-. split; auto.
    + rewrite !burden_app. change (burden [j']) with (weight j' + 0)%N. assert (X : (weight j' < weight i)%N); [|lia]. unfold weight. nia.
Qed.

Lemma stream_ends : forall st, Forall (fun i => fine e (Some i)) (queue st) -> exists n t r, turns (stream_step e late) n st = Halt t r.
Proof.
  intros st. remember (burden (queue st)) as m eqn:Em. revert st Em. induction m as [m IH] using (well_founded_induction N.lt_wf_0). intros st Em F.
  destruct (stream_step e late st) as [st'|t r] eqn:Es; [|exists 1, t, r; cbn [turns]; rewrite Es; reflexivity].
  destruct (stream_lighter _ _ Es F) as [F' Lt]. destruct (IH (burden (queue st'))) with (st := st') as (n & t & r & H); [lia|reflexivity|exact F'|].
  exists (S n), t, r. cbn [turns]. rewrite Es. exact H.
Qed.
End StreamEnds.

(** ** No attempt is cut short *)
Lemma give_back_ends : forall s, ends (give_back s).
Proof. start give_back. Qed.

(** A start in good order stays in good order, and nothing the loops call runs out of fuel. *)
Section NoFuel.
Variables (e : env) (late grow : nat -> bool) (prog : list instr) (w0 : world).
Hypothesis calm : settles e.
Hypothesis wf : layout_wf (e_layout e).
Hypothesis start0 : timed (e_layout e) (w_slice w0).

Lemma timed_try : forall w i a, timed (e_layout e) (w_slice w) -> try_apply e w i = Ok a -> timed (e_layout e) (w_slice (a_world a)).
Proof. intros w1 i a T1 A. destruct (C33_timers e w1 i a (proj1 T1) A) as [S2 Tm]. split; [exact S2|]. rewrite Tm. apply T1. Qed.
Lemma timed_advance : forall s s', timed (e_layout e) s -> advance_slice (e_layout e) s = Ok s' -> timed (e_layout e) s'.
Proof. intros s s' T1 A. destruct (advance_timed _ s wf T1) as (s2 & A2 & T2). assert (s2 = s') by congruence. now subst s2. Qed.
Lemma sched_timed : forall conflict again acts w p, scheduled e conflict again prog w0 acts w p -> timed (e_layout e) (w_slice w).
Proof.
  intros conflict again acts w p S. eapply (sched_inv e (timed (e_layout e)) timed_try timed_advance); eauto. intros s s' _. apply give_back_timed.
Qed.
Lemma no_fuel_dag : forall t r, dag_left e late prog w0 t r -> r <> Unended.
Proof.
  intros t r H. destruct H as [acts w p S Ev _ _ _|acts w p j x r S Ev _ X|acts w p j x a o S Ev _ _|acts w p j x a o S Ev _ _|acts w p S Ev _|acts w p r S Ev X]; try discriminate.
  - pose proof (try_apply_ends e w x calm (proj1 (sched_timed _ _ _ _ _ S))) as K. unfold ends in K. destruct (try_apply e w x); [contradiction|subst; discriminate..|congruence].
  - pose proof (advance_ends (e_layout e) (w_slice w)) as K. unfold ends in K. destruct (advance_slice _ _); [contradiction|subst; discriminate..|congruence].
Qed.
Lemma no_fuel_wave : forall t r, wave_left e late grow prog w0 t r -> r <> Unended.
Proof.
  intros t r H. destruct H as [acts w p S Ev _ _ _|acts w p j x r S Ev _ _ X|acts w p j x S Ev _ _ _|acts w p j x a o S Ev _ _|acts w p j x a o S Ev _ _|acts w p S Ev _|acts w p r S Ev X|acts w p S Ev _ _|acts w p r S Ev _ X|acts w p j S Ev _ _ _ _]; try discriminate.
  - pose proof (try_apply_ends e w x calm (proj1 (sched_timed _ _ _ _ _ S))) as K. unfold ends in K. destruct (try_apply e w x); [contradiction|subst; discriminate..|congruence].
  - pose proof (advance_ends (e_layout e) (w_slice w)) as K. unfold ends in K. destruct (advance_slice _ _); [contradiction|subst; discriminate..|congruence].
  - pose proof (give_back_ends (w_slice w)) as K. unfold ends in K. destruct (give_back _); [contradiction|subst; discriminate..|congruence].
Qed.
Lemma no_fuel_stream : forall n st t r, timed (e_layout e) (w_slice (ss_world st)) -> turns (stream_step e late) n st = Halt t r -> r <> Unended.
Proof.
  induction n as [|n IH]; intros st t r T H; [discriminate|]. cbn [turns] in H.
  assert (S1 : match stream_step e late st with Go st' => timed (e_layout e) (w_slice (ss_world st')) | Halt _ r => r <> Unended end).
  { assert (Ad : forall t w, timed (e_layout e) (w_slice w) -> match advance e t w with Go w' => timed (e_layout e) (w_slice w') | Halt _ r => r <> Unended end).
    { intros t1 w1 T1. unfold advance. pose proof (advance_ends (e_layout e) (w_slice w1)) as K. unfold ends in K.
      destruct (advance_slice _ _) as [s'| | |] eqn:A; cbn [lift pbind]; try discriminate; [|congruence]. cbn. eapply timed_advance; eauto. }
    unfold stream_step. destruct (take_next st) as [[i st1]|] eqn:Tn; [|unfold visit; destruct (late _); cbn; discriminate].
    assert (Ew : ss_world st1 = ss_world st) by (unfold take_next in Tn; destruct (ss_future st); [destruct (ss_rest st); [discriminate|]|]; injection Tn as <- <-; reflexivity).
    rewrite Ew. pose proof (try_apply_ends e (ss_world st) i calm (proj1 T)) as K. unfold ends in K.
    destruct (try_apply e (ss_world st) i) as [a| | |] eqn:A; cbn [lift pbind]; try discriminate; [|congruence]. pose proof (timed_try _ _ _ T A) as T1.
    destruct (a_follow a).
    - destruct (a_error a); cbn [negb]; [|exact T1]. unfold visit. destruct (late _); cbn [pbind]; [discriminate|]. destruct (wait i =? 0)%N; [discriminate|].
      match goal with |- context [advance _ ?t _] => specialize (Ad t _ T1) end. destruct (advance _ _ _); exact Ad.
    - unfold visit. destruct (late _); cbn [pbind]; [discriminate|].
      match goal with |- context [advance _ ?t _] => specialize (Ad t _ T1) end. destruct (advance _ _ _); exact Ad. }
  destruct (stream_step e late st) as [st'|t' r']; cbn [pbind] in H; [eauto|]. now injection H as <- <-.
Qed.
End NoFuel.

(** The routers of the compiler *)
Lemma find_route_ends : forall L edpc pick stop s a pa b pb, valid_pick pick -> sized (l_furthest L) s -> ends (find_route L edpc pick stop s a pa b pb).
Proof.
  intros L edpc pick stop s a pa b pb V S. pose proof (C29_outcome L edpc pick stop s a pa b pb S V) as H. unfold ends. destruct (find_route _ _ _ _ _ _ _ _ _); try discriminate. destruct H.
Qed.
Lemma cached_ends : forall (route : slice -> N -> pauli -> N -> pauli -> outcome (option region)) cache s a pa b pb,
  ends (route s a pa b pb) -> ends (cached_route route cache s a pa b pb).
Proof.
  intros route cache s a pa b pb H. unfold cached_route, ends in *. destruct (get_cell_by_id s a); cbn [value_ bind]; [|discriminate]. destruct (get_cell_by_id s b); cbn [value_ bind]; [|discriminate].
  destruct (cache_lookup _ _); [discriminate|]. destruct (route s a pa b pb); cbn; congruence.
Qed.
