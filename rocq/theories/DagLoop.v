(** Proofs about the DAG pipeline. *)
From Verif Require Import Base InstrProofs PatchesModel LayoutModel InstrModel LoweringModel DagModel DagSpec DagProofs DagSim SliceModel ApplyModel ApplyProofs
  RunModel RunProofs SchedSpec SchedProofs.
Open Scope nat_scope.

Definition head {A} (d : dag A) (l : N) : Prop := V (d_graph d) l /\ forall a, ~ E (d_graph d) a l.
Definition opt_list {A} (o : option A) : list A := match o with Some x => [x] | None => [] end.

Section Steps.
Variable A : Type.
Variable can : A -> A -> outcome bool.
Notation sim := (sim A can).

Lemma pop_exact : forall prog d p L j l lr x rest, sim prog d p L -> nth_error L j = Some (l :: lr) -> nth_error p j = Some (x :: rest) ->
  head d l -> d_deps d = [] ->
  exists d', pop_head d l = Ok d' /\ sim prog d' (set_nth j rest p) (set_nth j lr L) /\ d_deps d' = [] /\
    d_pheads d' = serase (d_pheads d) l /\ d_next d' = d_next d /\ forall k, k <> l -> head d k -> head d' k.
Proof.
  intros prog d p L j l lr x rest S Hj Hp [Vl Hn] Hd. pose proof S as [I L1 L2 HI ND HV Hfr Hcan HE].
  destruct (remove_node_spec _ _ I Vl) as (g' & Hg & I' & V' & E').
  pose proof (HI _ _ _ Hj Hp) as F. inversion F as [|? ? ? ? Hx _]; subst.
  unfold pop_head. unfold at_map at 1. rewrite Hx. cbn [bind].
  assert (Hpr : predecessors (d_graph d) l = Ok []).
  { unfold predecessors. pose proof Vl as Vl'. unfold V in Vl'. rewrite Vl'. cbn [negb]. rewrite (inv_same _ I) in Vl'. destruct (at_map_has _ _ Vl') as (v & -> & Lv).
    destruct v as [|q v]; [reflexivity|]. exfalso. apply (Hn q), (inv_edges _ I). rewrite (get_has _ _ _ Lv). now left. }
  rewrite Hpr. cbn [bind fold_left]. rewrite Hg. cbn [bind].
  eexists. split; [reflexivity|]. cbn [d_deps d_pheads d_next]. split; [|split; [exact Hd|split; [reflexivity|split; [reflexivity|]]]].
  - change rest with ([] ++ rest). change lr with ([] ++ lr). eapply (sim_replace A can prog d p L j l lr x rest [] []); eauto.
    + constructor. + intros y []. + lia.
    + intros y _ D. rewrite alookup_merase. now rewrite (proj2 (N.eqb_neq y l)) by auto.
    + intros y. rewrite V'. cbn. tauto.
    + intros a b. rewrite E'. cbn [follows]. split; [tauto|]. intros [?|[[]|[[q Hq] _]]]; [auto|destruct q; discriminate].
  - intros k D [Vk Hk]. split; cbn [d_graph]; [apply V'; auto|]. intros a Ha. apply E' in Ha. apply (Hk a). tauto.
Qed.

Lemma expand_exact : forall prog d p L j l lr x rest f, sim prog d p L -> nth_error L j = Some (l :: lr) -> nth_error p j = Some (x :: rest) ->
  head d l -> d_deps d = [] ->
  exists d', dag_expand d l [f] true = Ok (d_next d, d') /\ sim prog d' (set_nth j (f :: rest) p) (set_nth j (d_next d :: lr) L) /\ d_deps d' = [] /\
    d_pheads d' = (if memN l (d_pheads d) then oset_insert (d_next d) (serase (d_pheads d) l) else d_pheads d) /\
    d_next d' = (d_next d + 1)%N /\ (forall k, k <> l -> head d k -> head d' k) /\ head d' (d_next d).
Proof.
  intros prog d p L j l lr x rest f S Hj Hp [Vl Hn] Hd. pose proof S as [I L1 L2 HI ND HV Hfr Hcan HE].
  assert (Fr : forall y, V (d_graph d) y -> y <> d_next d) by (intros y Vy ->; apply HV, Hfr in Vy; lia).
  destruct (expand_spec (d_graph d) l (d_next d) [] I Vl) as (g' & Hg & I' & V' & E').
  { cbn [existsb]. destruct (has (g_out (d_graph d)) (d_next d)) eqn:X; [|reflexivity]. exfalso. now apply (Fr (d_next d)). }
  cbn [last follows] in E'.
  unfold dag_expand, labels_from. cbn [length seq map consecutive fold_left]. rewrite N.add_0_r, Hg. cbn [bind]. rewrite Hd. cbn [existsb].
  eexists. split; [reflexivity|]. cbn [d_deps d_pheads d_next combine].
  split; [|split; [reflexivity|split; [reflexivity|split; [reflexivity|split]]]].
  - change (f :: rest) with ([f] ++ rest). change (d_next d :: lr) with ([d_next d] ++ lr).
    eapply (sim_replace A can prog d p L j l lr x rest [d_next d] [f]); eauto.
    + constructor; [intros []|constructor].
    + intros y [<-|[]]. lia.
    + lia.
    + constructor; [|constructor]. rewrite alookup_app. rewrite (alookup_filter A (d_ins d) (fun k => negb (memN k [d_next d]))).
      unfold memN. cbn [existsb alookup]. rewrite !N.eqb_refl. reflexivity.
    + intros y Hy D. rewrite alookup_app. rewrite (alookup_filter A (d_ins d) (fun k => negb (memN k [d_next d]))).
      assert (Hny : y <> d_next d) by (apply Fr, HV, Hy). unfold memN. cbn [existsb alookup].
      assert (X : N.eqb y (d_next d) = false) by (now apply N.eqb_neq). rewrite ?(N.eqb_sym (d_next d) y), !X. cbn [orb negb].
      now destruct (alookup (d_ins d) y).
    + intros a b. rewrite E'. split.
      * intros [?|[[]|[(-> & ? & ?)|[(_ & _ & X)|(_ & _ & X)]]]]; auto; [|exfalso; eapply Hn; eauto..].
        right; right. split; [exists []; reflexivity|auto].
      * intros [?|[?|[[q Hq] X]]]; auto. right; right; left. destruct q as [|? [|? ?]]; try discriminate. injection Hq as <-. split; [reflexivity|]. split; [|exact X]. intros ->. eapply Hn; eauto.
  - intros k D [Vk Hk]. split; cbn [d_graph]; [apply V'; auto|]. intros a Ha. apply E' in Ha.
    destruct Ha as [(? & _)|[[]|[(-> & _ & X)|[(-> & _ & X)|(_ & -> & X)]]]]; [eapply Hk; eauto|eapply Hk; eauto| |]; now apply (Fr (d_next d)).
  - split; cbn [d_graph]; [apply V'; cbn; auto|]. intros a Ha. apply E' in Ha.
    destruct Ha as [(X & _)|[[]|[(-> & _ & X)|[(_ & _ & X)|(_ & _ & X)]]]]; [| |eapply Hn; eauto..].
    + apply (E_V2 _ _ _ I) in X. now apply (Fr (d_next d)).
    + apply (E_V2 _ _ _ I) in X. now apply (Fr (d_next d)).
Qed.
End Steps.

Lemma put_sim : forall can prog d p L j l lr x rest x', DagSim.sim instr can prog d p L -> nth_error L j = Some (l :: lr) -> nth_error p j = Some (x :: rest) ->
  DagSim.sim instr can prog (dag_put d l x') (set_nth j (x' :: rest) p) L.
Proof.
  intros can prog d p L j l lr x rest x' S Hj Hp. pose proof S as [I L1 L2 HI ND HV Hfr Hcan HE].
  assert (Lk : forall y, alookup (d_ins (dag_put d l x')) y = if N.eqb y l then (match alookup (d_ins d) y with Some _ => Some x' | None => None end) else alookup (d_ins d) y).
  { intros y. clear. cbn [dag_put d_ins]. induction (d_ins d) as [|[k v] m IH]; cbn [map alookup fst snd]; [now destruct (N.eqb y l)|].
    destruct (N.eqb_spec k l) as [->|D]; cbn [alookup fst snd].
    - destruct (N.eqb_spec y l) as [->|D']; [reflexivity|exact IH].
    - destruct (N.eqb_spec y k) as [->|D']; [|exact IH]. destruct (N.eqb_spec k l); [contradiction|reflexivity]. }
  constructor; cbn [dag_put d_graph d_next]; auto.
  - now rewrite set_nth_length.
  - intros i ls xs Hi Hxs. destruct (Nat.eq_dec j i) as [<-|D].
    + rewrite set_nth_same in Hxs by (eapply nth_lt; eauto). injection Hxs as <-. rewrite Hj in Hi. injection Hi as <-.
      pose proof (HI _ _ _ Hj Hp) as F. inversion F as [|? ? ? ? Hx F']; subst. constructor.
      * change (alookup (d_ins (dag_put d l x')) l = Some x'). rewrite Lk, N.eqb_refl, Hx. reflexivity.
      * assert (NDj : NoDup (l :: lr)) by (eapply concat_inner; eauto). inversion NDj as [|? ? Nl _]; subst.
        clear - F' Nl Lk. induction F' as [|u v us vs Huv _ IH]; [constructor|]. constructor.
        -- change (alookup (d_ins (dag_put d l x')) u = Some v). rewrite Lk. rewrite (proj2 (N.eqb_neq u l)); [exact Huv|]. intros ->. apply Nl. now left.
        -- apply IH. intros ?; apply Nl. now right.
    + rewrite set_nth_other in Hxs by auto. pose proof (HI _ _ _ Hi Hxs) as F.
      assert (Nl : ~ In l ls). { intros Hin. apply D. symmetry. eapply (concat_unique L ND i j ls (l :: lr) l); eauto. now left. }
      clear - F Nl Lk. induction F as [|u v us vs Huv _ IH]; [constructor|]. constructor.
      * change (alookup (d_ins (dag_put d l x')) u = Some v). rewrite Lk. rewrite (proj2 (N.eqb_neq u l)); [exact Huv|]. intros ->. apply Nl. now left.
      * apply IH. intros ?; apply Nl. now right.
Qed.

Section Loop.
Variables (e : env) (late : nat -> bool) (prog : list instr) (w0 : world).

Notation dag_left := (dag_left e late prog w0).
Notation ready := (ready clash prog).
Notation sched := (scheduled e clash same_again prog w0).

Record dag_at_point (st : dag_st) (acts : list act) (p : list (option instr)) (L : list (list N)) : Prop := {
  da_sim : DagSim.sim instr lli_can prog (ds_dag st) (map opt_list p) L;
  da_deps : d_deps (ds_dag st) = [];
  da_ph : forall l, In l (d_pheads (ds_dag st)) -> head (ds_dag st) l;
  da_nd : NoDup (d_pheads (ds_dag st));
  da_follow : forall j l lr, nth_error L j = Some (l :: lr) -> In l (d_pheads (ds_dag st)) ->
    exists y b, In (y, b) (tries j acts) /\ a_error b = false;
  da_sched : sched acts (ds_world st) p;
  da_events : t_events (ds_tally st) = seen acts;
  da_instrs : N.of_nat (length (seen acts)) = (t_instrs (ds_tally st) + N.of_nat (length (emitted (seen acts))))%N;
  da_slices : t_slices (ds_tally st) = (1 + N.of_nat (length (emitted (seen acts))))%N;
  da_fresh : forall l, (d_next (ds_dag st) <= l)%N -> alookup (ds_attempts st) l = None;
  da_attempts : forall j l lr, nth_error L j = Some (l :: lr) -> attempts st l = N.of_nat (refusals (tries j acts));
  da_bound : forall j, refusals (tries j acts) <= 100
}.


Lemma opt_put : forall (p : list (option instr)) j o, j < length p -> map opt_list (put_at j o p) = set_nth j (opt_list o) (map opt_list p).
Proof. induction p as [|x p IH]; intros [|j] o H; cbn in *; try lia; [reflexivity|]. f_equal. apply IH. lia. Qed.

Lemma head_found : forall st acts p L l, dag_at_point st acts p L -> head (ds_dag st) l ->
  exists j x, nth_error L j = Some [l] /\ nth_error p j = Some (Some x) /\ dag_at (ds_dag st) l = Ok x /\
    forall i u v, i < j -> nth_error prog i = Some u -> nth_error prog j = Some v -> clash u v = true -> nth_error p i = Some None.
Proof.
  intros st acts p L l D H. pose proof (da_sim _ _ _ _ D) as S.
  destruct (proj1 (heads_enabled instr lli_can prog _ _ L l S) H) as (j & x & rest & lr & Hj & Hx & Hp & He).
  rewrite nth_error_map in Hp. destruct (nth_error p j) as [[y|]|] eqn:Pj; cbn in Hp; try discriminate. injection Hp as -> <-.
  exists j, x. split; [|split; [exact Pj|split; [now apply at_map_ok|]]].
  - assert (Pj' : nth_error (map opt_list p) j = Some [x]) by (rewrite nth_error_map, Pj; reflexivity).
    pose proof (s_ins _ _ _ _ _ _ S _ _ _ Hj Pj') as F. inversion F as [|? ? ? ? _ F']; subst. inversion F'; subst. exact Hj.
  - intros i u v Hij Pu Pv Hc. destruct (nth_ex p i) as [o Ho].
    { rewrite (sched_length _ _ _ _ _ _ _ _ (da_sched _ _ _ _ D)). eapply nth_lt; eauto. }
    destruct o as [z|]; [|exact Ho]. exfalso.
    assert (X : lli_can u v = Ok true) by (apply (He i u v [z]); auto; [rewrite nth_error_map, Ho; reflexivity|discriminate]).
    unfold lli_can in X. injection X as X. unfold clash in Hc. rewrite X in Hc. discriminate.
Qed.

Lemma set_nth_id {B} (v : B) : forall l n, nth_error l n = Some v -> set_nth n v l = l.
Proof. induction l as [|x l IH]; intros [|n] H; cbn in *; try discriminate; [congruence|]. f_equal. apply IH. exact H. Qed.
Lemma set_nth_twice {B} (u v : B) : forall l n, set_nth n v (set_nth n u l) = set_nth n v l.
Proof. induction l as [|x l IH]; intros [|n]; cbn; try reflexivity. f_equal. apply IH. Qed.

Lemma apart : forall st acts p L, dag_at_point st acts p L -> forall i j l m lr mr, nth_error L i = Some (l :: lr) -> nth_error L j = Some (m :: mr) -> i <> j -> l <> m.
Proof.
  intros st acts p L D i j l m lr mr Hi Hj Dij ->. apply Dij.
  eapply (concat_unique L (s_nd _ _ _ _ _ _ (da_sim _ _ _ _ D)) i j); eauto; now left.
Qed.

Lemma attempt_dag : forall prox st acts p L l, dag_at_point st acts p L -> head (ds_dag st) l -> (prox = true -> In l (d_pheads (ds_dag st))) ->
  match dag_attempt e prox st l with
  | Halt t r => dag_left t r
  | Go st' => exists j x a o p' L', nth_error L j = Some [l] /\ dag_at_point st' (acts ++ [Try j x a o]) p' L' /\
     (forall k, k <> l -> head (ds_dag st) k -> head (ds_dag st') k) /\
     (forall k, k <> l -> In k (d_pheads (ds_dag st)) -> In k (d_pheads (ds_dag st'))) /\
     (forall i m, m <> l -> nth_error L i = Some [m] -> nth_error L' i = Some [m])
  end.
Proof.
  intros prox st acts p L l D Hl Hprox. destruct (head_found _ _ _ _ _ D Hl) as (j & x & Lj & Pj & At & Cl).
  pose proof D as [Sm Dp Ph Nd Fw Sc Ev In_ Sl Fr Atp Bd]. pose proof (nth_short _ _ _ Pj) as Jl.
  unfold dag_attempt. rewrite At. cbn [lift pbind].
  destruct (try_apply e (ds_world st) x) as [a|y|u|] eqn:A; cbn [lift pbind].
  2-4: (eapply dl_attempt; eauto; rewrite A; reflexivity).
  set (o := if a_error a then Some (tried x a) else hd_error (a_follow a)).
  assert (Lv : leaves same_again x a o) by (unfold leaves, o; destruct (a_error a); [eexists; split; reflexivity|reflexivity]).
  pose proof (sc_try e clash same_again _ _ _ _ _ _ _ _ _ Sc Pj Cl A Lv) as Sc'. assert (Eo : o = if a_error a then Some (tried x a) else hd_error (a_follow a)) by reflexivity. clearbody o.
  assert (Vl : (l < d_next (ds_dag st))%N). { apply (s_fresh _ _ _ _ _ _ Sm), (s_V _ _ _ _ _ _ Sm), Hl. }
  assert (Pj' : nth_error (map opt_list p) j = Some [x]) by (rewrite nth_error_map, Pj; reflexivity).
  pose proof (put_sim lli_can prog _ _ _ _ _ _ _ _ (tried x a) Sm Lj Pj') as Sp.
  assert (Hput : forall k, head (ds_dag st) k -> head (dag_put (ds_dag st) l (tried x a)) k) by (intros k Hk; exact Hk).
  assert (Tj : tries j (acts ++ [Try j x a o]) = tries j acts ++ [(x, a)]) by (rewrite tries_app, tries_one, Nat.eqb_refl; reflexivity).
  assert (To : forall i, i <> j -> tries i (acts ++ [Try j x a o]) = tries i acts).
  { intros i Hi. rewrite tries_app, tries_one. rewrite (proj2 (Nat.eqb_neq j i)) by auto. apply app_nil_r. }
  assert (Tin : forall i y b, In (y, b) (tries i acts) -> In (y, b) (tries i (acts ++ [Try j x a o]))) by (intros; rewrite tries_app; apply in_app_iff; auto).
  rewrite Eo in Sc' at 2. clear Eo Lv.
  destruct (a_error a) eqn:Er.
  - assert (Se : seen (acts ++ [Try j x a o]) = seen acts) by (rewrite seen_app; cbn; rewrite Er; apply app_nil_r).
    destruct prox.
    + eapply dl_followup; [exact Sc'|exact Ev|exact Er|]. eapply Fw; eauto.
    + set (st1 := mkDS (a_world a) (dag_put (ds_dag st) l (tried x a)) (ds_attempts st) (ds_tally st)).
      assert (A1 : attempts (more_attempts st1 l) l = N.of_nat (refusals (tries j (acts ++ [Try j x a o])))).
      { unfold attempts at 1, more_attempts. cbn [ds_attempts alookup]. rewrite N.eqb_refl.
        change (attempts st1 l) with (attempts st l). rewrite (Atp _ _ _ Lj), Tj, refusals_snoc, Er. lia. }
      rewrite A1. destruct (N.ltb_spec 100 (N.of_nat (refusals (tries j (acts ++ [Try j x a o]))))) as [Big|Small].
      * eapply dl_given_up; [exact Sc'|exact Ev|exact Er|]. rewrite Tj, refusals_snoc, Er in *. specialize (Bd j). lia.
      * exists j, x, a, o, (put_at j (Some (tried x a)) p), L. split; [exact Lj|]. split; [|split; [intros k _; exact (Hput k)|split; auto]].
        constructor; cbn [more_attempts st1 ds_dag ds_world ds_attempts ds_tally]; rewrite ?Se; auto.
        -- rewrite opt_put by auto. exact Sp.
        -- intros i m mr Hm Hin. destruct (Fw _ _ _ Hm Hin) as (y & b & ? & ?). eauto.
        -- intros m Hm. cbn [alookup]. cbn [dag_put d_next] in Hm. rewrite (proj2 (N.eqb_neq m l)) by lia. apply Fr. exact Hm.
        -- intros i m mr Hm. destruct (Nat.eq_dec i j) as [->|Dij].
           ++ rewrite Lj in Hm. injection Hm as <- <-. exact A1.
           ++ rewrite To by auto. rewrite <- (Atp _ _ _ Hm). unfold attempts. unfold more_attempts at 1. cbn [ds_attempts alookup st1].
              rewrite (proj2 (N.eqb_neq m l)); [reflexivity|]. eapply apart; eauto.
        -- intros i. destruct (Nat.eq_dec i j) as [->|Dij]; [lia|]. rewrite To by auto. apply Bd.
  - assert (Se : seen (acts ++ [Try j x a o]) = seen acts ++ [Applied (tried x a)]) by (rewrite seen_app; cbn; rewrite Er; reflexivity).
    assert (Pj2 : nth_error (set_nth j [tried x a] (map opt_list p)) j = Some [tried x a]) by (apply set_nth_same; rewrite map_length; exact Jl).
    assert (Ref : refusals (tries j (acts ++ [Try j x a o])) = 0) by (rewrite Tj, refusals_snoc, Er; reflexivity).
    assert (Bd' : forall i, refusals (tries i (acts ++ [Try j x a o])) <= 100).
    { intros i. destruct (Nat.eq_dec i j) as [->|Dij]; [rewrite Ref; lia|]. rewrite To by auto. apply Bd. }
    assert (Acc : exists y b, In (y, b) (tries j (acts ++ [Try j x a o])) /\ a_error b = false).
    { exists x, a. split; [|exact Er]. rewrite Tj. apply in_app_iff. right. now left. }
    destruct (follow_shape e (ds_world st) x a A) as [Fo|(f & Fo & _ & _)]; rewrite Fo in *; unfold handle_followups; cbn [hd_error] in Sc'.
    + destruct (pop_exact instr lli_can prog _ _ _ _ _ _ _ _ Sp Lj Pj2 (Hput l Hl) Dp) as (d' & -> & S' & Dp' & Ph' & Nx' & Hd'). cbn [lift pbind].
      rewrite set_nth_twice in S'. cbn [dag_put d_pheads d_next] in Ph', Nx'.
      exists j, x, a, o, (put_at j None p), (set_nth j [] L). split; [exact Lj|].
      assert (LjL : j < length L) by (eapply nth_lt; eauto).
      split; [|split; [|split]].
      * constructor; cbn [ds_dag ds_world ds_attempts ds_tally]; rewrite ?Se, ?emitted_app, ?app_length; cbn [emitted flat_map length app more_instrs saw t_events t_instrs t_slices]; auto; try lia.
        -- rewrite opt_put by auto. exact S'.
        -- intros k Hk. rewrite Ph' in Hk. apply serase_In in Hk. destruct Hk as [Hk Dk]. apply Hd'; [exact Dk|]. apply Hput, Ph, Hk.
        -- rewrite Ph'. apply serase_NoDup, Nd.
        -- intros i m mr Hm Hin. destruct (Nat.eq_dec j i) as [<-|Dij]; [rewrite set_nth_same in Hm by auto; discriminate|].
           rewrite set_nth_other in Hm by auto. rewrite Ph' in Hin. apply serase_In in Hin. destruct (Fw _ _ _ Hm (proj1 Hin)) as (y & b & ? & ?). eauto.
        -- rewrite Ev. reflexivity.
        -- intros m Hm. apply Fr. rewrite Nx' in Hm. exact Hm.
        -- intros i m mr Hm. destruct (Nat.eq_dec j i) as [<-|Dij]; [rewrite set_nth_same in Hm by auto; discriminate|].
           rewrite set_nth_other in Hm by auto. rewrite To by auto. apply (Atp _ _ _ Hm).
      * intros k Dk Hk. apply Hd'; auto.
      * intros k Dk Hk. cbn [ds_dag]. rewrite Ph'. apply serase_In. auto.
      * intros i m Dm Hm. destruct (Nat.eq_dec j i) as [<-|Dij]; [congruence|]. rewrite set_nth_other by auto. exact Hm.
    + destruct (expand_exact instr lli_can prog _ _ _ _ _ _ _ _ f Sp Lj Pj2 (Hput l Hl) Dp) as (d' & -> & S' & Dp' & Ph' & Nx' & Hd' & Hh'). cbn [lift pbind].
      rewrite set_nth_twice in S'. cbn [dag_put d_pheads d_next] in Ph', Nx', Hh', S'. cbn [d_next dag_put].
      set (next := d_next (ds_dag st)) in *.
      assert (LjL : j < length L) by (eapply nth_lt; eauto).
      assert (Nph : forall k, In k (oset_insert next (d_pheads d')) -> k = next \/ (In k (d_pheads (ds_dag st)) /\ k <> l)).
      { intros k Hk. apply oset_insert_In in Hk. destruct Hk as [Hk|Hk]; [auto|]. rewrite Ph' in Hk. destruct (memN l (d_pheads (ds_dag st))) eqn:M.
        - apply oset_insert_In in Hk. destruct Hk as [Hk|Hk]; [auto|]. apply serase_In in Hk. auto.
        - right. split; [exact Hk|]. intros ->. apply memN_notIn in M. auto. }
      exists j, x, a, o, (put_at j (Some f) p), (set_nth j [next] L). split; [exact Lj|].
      split; [|split; [|split]].
      * constructor; cbn [ds_dag ds_world ds_attempts ds_tally make_proximate d_deps d_pheads d_next]; rewrite ?Se, ?emitted_app, ?app_length; cbn [emitted flat_map length app more_instrs saw t_events t_instrs t_slices]; auto; try lia.
        -- apply (sim_mark instr lli_can). rewrite opt_put by auto. exact S'.
        -- intros k Hk. apply Nph in Hk. destruct Hk as [->|[Hk Dk]]; [exact Hh'|]. apply (Hd' k); [exact Dk|]. apply Hput, Ph, Hk.
        -- apply oset_insert_NoDup. rewrite Ph'. destruct (memN l (d_pheads (ds_dag st))); [|exact Nd]. apply oset_insert_NoDup, serase_NoDup, Nd.
        -- intros i m mr Hm Hin. destruct (Nat.eq_dec j i) as [<-|Dij]; [exact Acc|].
           rewrite set_nth_other in Hm by auto. apply Nph in Hin. destruct Hin as [->|[Hin _]].
           { exfalso. assert (X : (next < next)%N); [|lia]. apply (s_fresh _ _ _ _ _ _ Sm), concat_nth. exists i, (next :: mr). split; [exact Hm|now left]. }
           destruct (Fw _ _ _ Hm Hin) as (y & b & ? & ?). eauto.
        -- rewrite Ev. reflexivity.
        -- intros m Hm. apply Fr. fold next. lia.
        -- intros i m mr Hm. destruct (Nat.eq_dec j i) as [<-|Dij].
           ++ rewrite set_nth_same in Hm by auto. injection Hm as <- <-. rewrite Ref. unfold attempts. cbn [ds_attempts]. rewrite Fr; [reflexivity|fold next; lia].
           ++ rewrite set_nth_other in Hm by auto. rewrite To by auto. apply (Atp _ _ _ Hm).
      * intros k Dk Hk. apply (Hd' k); auto.
      * intros k Dk Hk. cbn [ds_dag make_proximate d_pheads]. apply oset_insert_In. right. rewrite Ph'. destruct (memN l (d_pheads (ds_dag st))); [|exact Hk].
        apply oset_insert_In. right. apply serase_In. auto.
      * intros i m Dm Hm. destruct (Nat.eq_dec j i) as [<-|Dij]; [congruence|]. rewrite set_nth_other by auto. exact Hm.
Qed.

Lemma fold_dag : forall prox ls st acts p L, dag_at_point st acts p L -> NoDup ls -> (forall l, In l ls -> head (ds_dag st) l) ->
  (prox = true -> forall l, In l ls -> In l (d_pheads (ds_dag st))) ->
  match pfold (dag_attempt e prox) ls st with
  | Halt t r => dag_left t r
  | Go st' => exists new p' L', dag_at_point st' (acts ++ new) p' L' /\
      (forall i m, ~ In m ls -> nth_error L i = Some [m] -> nth_error L' i = Some [m]) /\
      (forall i m, In m ls -> nth_error L i = Some [m] -> tries i new <> []) /\
      (forall k, ~ In k ls -> head (ds_dag st) k -> head (ds_dag st') k)
  end.
Proof.
  intros prox ls. induction ls as [|l ls IH]; intros st acts p L D Nd Hd Hp; cbn [pfold].
  - exists [], p, L. rewrite app_nil_r. split; [exact D|]. split; [auto|split; [intros i m []|auto]].
  - inversion Nd as [|? ? Nl Nd']; subst.
    pose proof (attempt_dag prox st acts p L l D (Hd l (or_introl eq_refl)) (fun X => Hp X l (or_introl eq_refl))) as W.
    destruct (dag_attempt e prox st l) as [st1|t r]; cbn [pbind]; [|exact W].
    destruct W as (j & x & a & o & p1 & L1 & Lj & D1 & Hh & Hph & HL).
    assert (Dl : forall k, In k ls -> k <> l) by (intros k Hk ->; contradiction).
    specialize (IH st1 _ p1 L1 D1 Nd'). 
    destruct (pfold (dag_attempt e prox) ls st1) as [st2|t r]; [|apply IH; intros; [apply Hh; auto; apply Hd; now right|apply Hph; auto; apply Hp; auto; now right]].
    destruct IH as (new & p2 & L2 & D2 & K1 & K2 & K3); [intros; apply Hh; auto; apply Hd; now right|intros; apply Hph; auto; apply Hp; auto; now right|].
    exists (Try j x a o :: new), p2, L2. rewrite <- app_assoc in D2. split; [exact D2|]. split; [|split].
    + intros i m Hm Hi. apply K1; [intros X; apply Hm; now right|]. apply HL; [intros ->; apply Hm; now left|exact Hi].
    + intros i m Hm Hi. destruct Hm as [->|Hm].
      * destruct (Nat.eq_dec i j) as [->|Dij]; [|exfalso; eapply (apart st acts p L D i j m m); eauto].
        change (Try j x a o :: new) with ([Try j x a o] ++ new). rewrite tries_app, tries_one, Nat.eqb_refl. discriminate.
      * change (Try j x a o :: new) with ([Try j x a o] ++ new). rewrite tries_app. intros X. apply app_eq_nil in X. destruct X as [_ X].
        apply (K2 i m Hm); [apply HL; auto|exact X].
    + intros k Hk Hh'. apply K3; [intros X; apply Hk; now right|]. apply Hh; [intros ->; apply Hk; now left|exact Hh'].
Qed.

Lemma ready_head : forall st acts p L j, dag_at_point st acts p L -> ready p j -> exists l, nth_error L j = Some [l] /\ head (ds_dag st) l.
Proof.
  intros st acts p L j D [[x Px] Cl]. pose proof (da_sim _ _ _ _ D) as S.
  assert (Px' : nth_error (map opt_list p) j = Some [x]) by (rewrite nth_error_map, Px; reflexivity).
  destruct (enabled_head instr lli_can prog _ _ L j x [] S) as (l & hs & Ha & Hl & Hx & lr & Lj).
  { split; [exact Px'|]. intros i u v l Hij Pu Pv Hi Hne. unfold lli_can. f_equal. destruct (can_commute u v) eqn:C; [reflexivity|]. exfalso. apply Hne.
    assert (X : nth_error p i = Some None) by (eapply Cl; eauto; unfold clash; rewrite C; reflexivity).
    rewrite nth_error_map, X in Hi. injection Hi as <-. reflexivity. }
  pose proof (s_ins _ _ _ _ _ _ S _ _ _ Lj Px') as F. inversion F as [|? ? ? ? _ F']; subst. inversion F'; subst.
  exists l. split; [exact Lj|]. destruct (heads_spec _ (s_inv _ _ _ _ _ _ S)) as (hs' & Hh & _ & Hhs). unfold applicable in Ha.
  assert (hs' = hs) by congruence. subst. apply Hhs. exact Hl.
Qed.

Lemma tries_show : forall j s, tries j [Show s] = [].
Proof. reflexivity. Qed.

Lemma step_dag : forall st acts p L, dag_at_point st acts p L ->
  match RunModel.dag_step e late st with
  | Halt t r => dag_left t r
  | Go st' => exists new p' L', dag_at_point st' (acts ++ new) p' L' /\ forall j, ready p j -> tries j new <> []
  end.
Proof.
  intros st acts p L D. unfold RunModel.dag_step. destruct (dag_is_empty (ds_dag st)) eqn:Em.
  { eapply dl_done; [apply (da_sched _ _ _ _ D)|apply (da_events _ _ _ _ D)| |apply (da_slices _ _ _ _ D)|apply (da_instrs _ _ _ _ D)].
    apply (empty_finished instr lli_can prog _ _ L (da_sim _ _ _ _ D)) in Em. apply Forall_forall. intros o Ho.
    specialize (Em (opt_list o) (in_map _ _ _ Ho)). destruct o; [discriminate|reflexivity]. }
  pose proof (fold_dag true (proximate (ds_dag st)) st acts p L D (da_nd _ _ _ _ D) (da_ph _ _ _ _ D) (fun _ l H => H)) as W1.
  destruct (pfold (dag_attempt e true) (proximate (ds_dag st)) st) as [st1|t r]; cbn [pbind]; [|exact W1].
  destruct W1 as (new1 & p1 & L1 & D1 & A1 & B1 & C1).
  destruct (heads_spec _ (s_inv _ _ _ _ _ _ (da_sim _ _ _ _ D1))) as (hs & Hh & Ndh & Hhs).
  unfold applicable. rewrite Hh. cbn [lift pbind].
  assert (Hd : forall l, In l hs -> head (ds_dag st1) l) by (intros l Hl; apply Hhs; exact Hl).
  assert (Hf : false = true -> forall l, In l hs -> In l (d_pheads (ds_dag st1))) by discriminate.
  pose proof (fold_dag false hs st1 _ p1 L1 D1 Ndh Hd Hf) as W2.
  destruct (pfold (dag_attempt e false) hs st1) as [st2|t r]; cbn [pbind]; [|exact W2].
  destruct W2 as (new2 & p2 & L2 & D2 & A2 & B2 & C2).
  pose proof D2 as [Sm Dp Ph Nd Fw Sc Ev In_ Sl Fr Atp Bd].
  unfold visit. destruct (late (length (emitted (t_events (ds_tally st2))))) eqn:La; cbn [pbind]; [eapply dl_late; [exact Sc|exact Ev|exact La]|].
  unfold advance. destruct (advance_slice (e_layout e) (w_slice (ds_world st2))) as [s|y|u|] eqn:Ad; cbn [lift pbind].
  2-4: (eapply dl_advance; [exact Sc|cbn [t_events saw]; rewrite Ev; reflexivity|rewrite Ad; reflexivity]).
  exists ((new1 ++ new2) ++ [Show (w_slice (ds_world st2))]), p2, L2. split.
  - pose proof (sc_show e clash same_again _ _ _ _ _ _ Sc Ad) as Sc'.
    assert (Se : seen (((acts ++ new1) ++ new2) ++ [Show (w_slice (ds_world st2))]) = seen ((acts ++ new1) ++ new2) ++ [Emitted (w_slice (ds_world st2))]) by (rewrite seen_app; reflexivity).
    assert (Ts : forall j, tries j (((acts ++ new1) ++ new2) ++ [Show (w_slice (ds_world st2))]) = tries j ((acts ++ new1) ++ new2)) by (intros j; rewrite tries_app; apply app_nil_r).
    replace (acts ++ (new1 ++ new2) ++ [Show (w_slice (ds_world st2))]) with (((acts ++ new1) ++ new2) ++ [Show (w_slice (ds_world st2))]) by (rewrite <- !app_assoc; reflexivity).
    constructor; cbn [ds_dag ds_world ds_attempts ds_tally more_slices saw t_events t_instrs t_slices]; try exact Sm; try exact Dp; try exact Ph; try exact Nd; try exact Sc'; try exact Fr.
    + intros j l lr Hj Hin. rewrite Ts. eapply Fw; eauto.
    + rewrite Se, Ev. reflexivity.
    + rewrite Se, em_slice, app_length. cbn [length]. lia.
    + rewrite Se, em_slice. lia.
    + intros j l lr Hj. rewrite Ts. exact (Atp j l lr Hj).
    + intros j. rewrite Ts. apply Bd.
  - intros j Rj. destruct (ready_head _ _ _ _ j D Rj) as (l & Lj & Hl). rewrite !tries_app, tries_show, app_nil_r. intros X. apply app_eq_nil in X. destruct X as [X1 X2].
    destruct (in_dec N.eq_dec l (proximate (ds_dag st))) as [Hi|Hi]; [now apply (B1 j l Hi Lj)|].
    apply (B2 j l); [apply Hhs, C1; auto|apply A1; auto|exact X2].
Qed.

Lemma start_dag : exists st L, dag_init prog w0 = Go st /\ dag_at_point st [] (map Some prog) L.
Proof.
  destruct (dag_of_built instr lli_can prog) as (d & Hd & _).
  { intros i j x y _ _ _. unfold lli_can. eauto. }
  pose proof (dag_of_inv instr lli_can prog d Hd) as [S _].
  assert (Q : forall l d d', d_deps d = [] /\ d_pheads d = [] -> foldM (push lli_can) l d = Ok d' -> d_deps d' = [] /\ d_pheads d' = []).
  { clear. induction l as [|i l IH]; intros d d' H F; [injection F as <-; exact H|]. cbn [foldM] in F. apply bind_ok in F. destruct F as (d1 & P & F). apply (IH d1 d'); [|exact F].
    unfold push in P. apply bind_ok in P. destruct P as (o & _ & P). apply bind_ok in P. destruct P as (g & _ & P). injection P as <-. exact H. }
  destruct (Q prog dag_empty d (conj eq_refl eq_refl) Hd) as [Q1 Q2].
  exists (mkDS w0 d [] tally0). eexists. split; [unfold dag_init; rewrite Hd; reflexivity|]. constructor; cbn [ds_dag ds_world ds_attempts ds_tally]; eauto.
  - replace (map opt_list (map Some prog)) with (start prog); [exact S|]. unfold start. rewrite map_map. reflexivity.
  - rewrite Q2. intros l [].
  - rewrite Q2. constructor.
  - rewrite Q2. intros j l lr _ [].
  - constructor.
  - intros j. cbn. lia.
Qed.

Lemma turns_dag : forall n st acts p L, dag_at_point st acts p L ->
  match turns (RunModel.dag_step e late) n st with
  | Halt t r => dag_left t r
  | Go st' => exists new p' L', dag_at_point st' (acts ++ new) p' L'
  end.
Proof.
  induction n as [|n IH]; intros st acts p L D; cbn [turns]; [exists [], p, L; rewrite app_nil_r; exact D|].
  pose proof (step_dag st acts p L D) as W. destruct (RunModel.dag_step e late st) as [st1|t r]; cbn [pbind]; [|exact W].
  destruct W as (new & p1 & L1 & D1 & _). pose proof (IH st1 _ p1 L1 D1) as W2. destruct (turns (RunModel.dag_step e late) n st1) as [st2|t r]; [|exact W2].
  destruct W2 as (new2 & p2 & L2 & D2). exists (new ++ new2), p2, L2. rewrite app_assoc. exact D2.
Qed.
End Loop.
