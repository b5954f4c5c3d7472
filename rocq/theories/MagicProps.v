(** C35 over whole runs, and C60: operations under way are not disturbed. *)
From Verif Require Import Base TextModel PatchesModel LayoutModel LayoutSpec LayoutProofs InstrModel InstrSpec InstrProofs.
From Verif Require Import SliceModel SliceSpec SliceProofs SliceProps RouterModel RouterSpec RouterProofs RouterProps.
From Verif Require Import ApplyModel ApplySpec ApplyProofs ApplyEffect ApplyBell ApplyIds BellSpec BellProofs BellRun BellCnot BellIds BellProps ApplyProps StepProps.
From Verif Require Import RunModel RunSpec RunProofs RunProps StreamProps SchedSpec SchedProofs DagLoop DagLoopProps WaveModel WaveSpec WaveProofs WaveProps RunInv IdsProps Claims ClaimsRun.
Open Scope nat_scope.

(** ** What a program may contain *)

(** Operations as programs contain them: nothing of them was carried out yet.  Patches are rotated only where no tiles are
    reserved for magic states, and Y states are asked for only where local operations cannot put patches on their tiles. *)
Definition startable (e : env) (o : operation) : Prop :=
  match o with
  | Busy _ _ _ => False
  | Rotate _ => l_reserved (e_layout e) = []
  | YRequest _ _ _ => e_local e = false \/ e_twists e = true \/ l_ystates (e_layout e) = []
  | BellInit _ _ _ _ _ k => k = None
  | BellCNOT _ _ _ _ _ k _ _ => k = None
  | _ => True
  end.
Lemma start_fits : forall e s i, startable e (op i) -> fits e (operating_patches i) s (op i) /\ needs_of (op i) = [].
Proof.
  intros e s i St. assert (O : forall y, names (op i) y -> match op i with Init t _ _ => y = t | MagicRequest t _ => y = t | YRequest t _ _ => y = t | _ => True end -> In y (operating_patches i)).
  { intros y N M. apply operating_In. auto. }
  destruct i as [o wt cl]. cbn [op] in *. unfold fits. destruct o; cbn [startable acts_on needs_of] in *; try (destruct St; fail); subst; (split; [|reflexivity]); (split; [|auto]);
    try (intros y [<-|[]]; apply O; cbn; auto; fail); try (intros y []; fail).
  - intros y Hy. apply O; [|exact I]. cbn. exact Hy.
  - split; [|split; [intros []; reflexivity|exact I]]. intros y Hy. apply O; [|exact I]. cbn. destruct Hy as [<-|[<-|[]]]; auto.
  - intros y Hy. apply O; [|exact I]. cbn. destruct Hy as [<-|[<-|[]]]; auto.
  - split; [|split; [intros []; reflexivity|exact I]]. intros y Hy. apply O; [|exact I]. cbn. destruct Hy as [<-|[<-|[]]]; auto 6.
Qed.

(** The built-in searches find simple routes. *)
Lemma plain_simple : forall e pick stop, e_route e = plain_router (e_layout e) false pick stop -> valid_pick pick -> simple_routes e.
Proof.
  intros e pick stop Er Vp cache s a pa b pb reg cache' Hs R. rewrite Er in R. unfold plain_router in R. bstep R. injection R as -> _.
  destruct (C29_free_and_ends _ _ _ _ _ _ _ _ _ Hs Vp H) as (_ & _ & _ & _ & Fr & _).
  destruct (C29_route _ _ _ _ _ _ _ _ _ _ Hs Vp H) as (a0 & b0 & _ & _ & _ & _ & _ & I).
  split.
  - destruct I as (_ & Nd & _). apply NoDup_rev in Nd. now rewrite rev_involutive in Nd.
  - intros c id (p & T & _) _ Hi. apply in_map_iff in Hi as (sc & <- & Hsc). destruct (Fr sc Hsc) as [_ X]. congruence.
Qed.

(** An operation under way is never refused. *)
Lemma busy_never_refused : forall e w x a ids r n l, sized (l_furthest (e_layout e)) (w_slice w) -> try_apply e w x = Ok a -> fits e ids (w_slice w) (op x) ->
  op x = Busy r n l -> a_error a = false.
Proof.
  intros e w x a ids r n l Hs H F E. destruct (N.eq_dec n 0) as [->|N].
  - eapply busy_goes_on; eauto.
  - destruct x as [o wt cl]. cbn [op] in E. subst o. cbn [try_apply op] in H. unfold apply_busy in H. destruct (N.eqb_spec n 0); [contradiction|].
    bstep H. injection H as <-. reflexivity.
Qed.

(** ** Runs of the DAG and wave pipelines *)

Record claims (e : env) (prog : list instr) (w : world) (p : list (option instr)) : Prop := {
  cl_sound : sound e (w_slice w);
  cl_each : forall j x v, nth_error p j = Some (Some x) -> nth_error prog j = Some v -> fits e (operating_patches v) (w_slice w) (op x);
  cl_pairs : forall i j x y, i <> j -> nth_error p i = Some (Some x) -> nth_error p j = Some (Some y) -> forall c, In c (needs_of (op x)) -> ~ In c (needs_of (op y));
  cl_order : forall i j x y u v, i < j -> nth_error p i = Some (Some x) -> nth_error p j = Some (Some y) -> nth_error prog i = Some u -> nth_error prog j = Some v ->
    clash u v = true -> needs_of (op y) = [] }.

Section Sched.
Variables (e : env) (again : instr -> applied -> instr -> Prop) (prog : list instr).
Hypothesis Ed : e_edpc e = false.
Hypothesis Sr : simple_routes e.
Hypothesis W : layout_wf (e_layout e).
Hypothesis Again : forall x a y, again x a y -> op y = a_op a.

Lemma left_self : forall x a y, leaves again x a (Some y) -> if a_error a then op y = a_op a else hd_error (a_follow a) = Some y.
Proof. intros x a y L. unfold leaves in L. destruct (a_error a); [|auto]. destruct L as (z & X & Y). injection X as <-. eauto. Qed.

Lemma claims_start : forall w, sound e (w_slice w) -> Forall (fun i => startable e (op i)) prog -> claims e prog w (map Some prog).
Proof.
  intros w So St. rewrite Forall_forall in St.
  assert (M : forall j x, nth_error (map Some prog) j = Some (Some x) -> nth_error prog j = Some x).
  { intros j x H. rewrite nth_error_map in H. destruct (nth_error prog j); cbn in H; congruence. }
  assert (N : forall j x, nth_error (map Some prog) j = Some (Some x) -> needs_of (op x) = []).
  { intros j x H. apply (start_fits e (w_slice w)), St. eapply nth_error_In, M; eauto. }
  split; auto.
  - intros j x v Hx Hv. apply M in Hx. assert (x = v) by congruence. subst x. apply start_fits, St. eapply nth_error_In; eauto.
  - intros i j x y _ Hx _ c Hc. rewrite (N i x Hx) in Hc. destruct Hc.
  - eauto.
Qed.

(** Another instruction is not attempted as long as they clash, or has not been attempted yet. *)
Lemma no_clash : forall w p j x k z u v, claims e prog w p -> k <> j -> nth_error p j = Some (Some x) -> nth_error p k = Some (Some z) ->
  nth_error prog j = Some v -> nth_error prog k = Some u ->
  (forall i u v, i < j -> nth_error prog i = Some u -> nth_error prog j = Some v -> clash u v = true -> nth_error p i = Some None) ->
  needs_of (op z) <> [] -> forall id, In id (operating_patches v) -> ~ In id (operating_patches u).
Proof.
  intros w p j x k z u v C Nk Hx Hz Hv Hu Rdy Ne id I1 I2.
  assert (Cl : clash u v = true /\ clash v u = true).
  { unfold clash. rewrite (can_commute_sym v u). assert (can_commute u v = true -> False); [|destruct (can_commute u v); auto; tauto].
    rewrite can_commute_iff. intros X. apply (X id). auto. }
  destruct (Nat.lt_total k j) as [Hk|[Hk|Hk]]; [|contradiction|].
  - rewrite (Rdy k u v Hk Hu Hv (proj1 Cl)) in Hz. discriminate.
  - apply Ne. exact (cl_order _ _ _ _ C j k x z v u Hk Hx Hz Hv Hu (proj2 Cl)).
Qed.

Lemma claims_try : forall w p j x a o, length p = length prog -> claims e prog w p -> nth_error p j = Some (Some x) ->
  (forall i u v, i < j -> nth_error prog i = Some u -> nth_error prog j = Some v -> clash u v = true -> nth_error p i = Some None) ->
  try_apply e w x = Ok a -> leaves again x a o ->
  claims e prog (a_world a) (put_at j o p)
  /\ forall k z, k <> j -> nth_error p k = Some (Some z) -> forall c, In c (needs_of (op z)) -> tile_at (w_slice (a_world a)) c = tile_at (w_slice w) c.
Proof.
  intros w p j x a o Len C Hx Rdy H L. assert (Lj : j < length p) by (apply nth_error_Some; congruence).
  destruct (nth_error prog j) as [v|] eqn:Hv; [|apply nth_error_None in Hv; lia].
  pose proof (cl_each _ _ _ _ C j x v Hx Hv) as F. pose proof (cl_sound _ _ _ _ C) as So.
  destruct (sound_try e w x a _ Ed Sr So F H) as [_ So'].
  assert (K : forall k z, k <> j -> nth_error p k = Some (Some z) -> forall c, In c (needs_of (op z)) ->
     tile_at (w_slice (a_world a)) c = tile_at (w_slice w) c /\ (forall id, In id (acts_on (op x)) -> ~ carries (w_slice w) c id)).
  { intros k z Nk Hz. assert (Lk : k < length prog) by (rewrite <- Len; apply nth_error_Some; congruence).
    destruct (nth_error prog k) as [u|] eqn:Hu; [|apply nth_error_None in Hu; lia].
    apply (others_kept e w x a (operating_patches v) (op z) (operating_patches u) Ed Sr So F H (cl_each _ _ _ _ C k z u Hz Hu)).
    - exact (cl_pairs _ _ _ _ C j k x z (not_eq_sym Nk) Hx Hz).
    - intro Ne. eapply no_clash; eauto. rewrite Hv. exact Rdy. }
  assert (Slf : forall y, o = Some y -> fits e (operating_patches v) (w_slice (a_world a)) (op y)
     /\ forall c, In c (needs_of (op y)) -> In c (needs_of (op x)) \/ tile_at (w_slice w) c = None \/ exists id, In id (acts_on (op x)) /\ carries (w_slice w) c id).
  { intros y ->. apply (self_fits e Ed Sr w x a _ (proj1 (so_timed _ _ So)) H F (so_typed _ _ So)). apply (left_self x a y L). }
  assert (Ap : forall k y z, k <> j -> o = Some y -> nth_error p k = Some (Some z) -> forall c, In c (needs_of (op y)) -> In c (needs_of (op z)) -> False).
  { intros k y z Nk Ho Hz c H1 H2. destruct (Slf y Ho) as [_ S2]. destruct (K k z Nk Hz c H2) as [_ K2].
    destruct (S2 c H1) as [X|[X|(id & X & Y)]].
    - apply (cl_pairs _ _ _ _ C j k x z (not_eq_sym Nk) Hx Hz c X H2).
    - assert (Lk : k < length prog) by (rewrite <- Len; apply nth_error_Some; congruence).
      destruct (nth_error prog k) as [u|] eqn:Hu; [|apply nth_error_None in Hu; lia].
      destruct (there _ _ _ _ _ (cl_each _ _ _ _ C k z u Hz Hu) H2) as (q & Q & _). congruence.
    - exact (K2 id X Y). }
  split; [|intros k z Nk Hz c Hc; apply (K k z Nk Hz c Hc)]. split; [exact So'|..].
  - intros k y u Hy Hu. rewrite (nth_put_at) in Hy by exact Lj. destruct (Nat.eqb_spec k j) as [->|Nk].
    + injection Hy as ->. assert (u = v) by congruence. subst u. apply (Slf y eq_refl).
    + eapply fits_same; [exact (cl_each _ _ _ _ C k y u Hy Hu)|]. intros c Hc. apply (K k y Nk Hy c Hc).
  - intros i k y z Nik Hy Hz c H1 H2. rewrite (nth_put_at) in Hy, Hz by exact Lj.
    destruct (Nat.eqb_spec i j) as [->|Ni]; destruct (Nat.eqb_spec k j) as [->|Nk]; try congruence.
    + injection Hy as ->. exact (Ap k y z Nk eq_refl Hz c H1 H2).
    + injection Hz as ->. exact (Ap i z y Ni eq_refl Hy c H2 H1).
    + exact (cl_pairs _ _ _ _ C i k y z Nik Hy Hz c H1 H2).
  - intros i k y z u t Hik Hy Hz Hu Ht Cl. rewrite (nth_put_at) in Hy, Hz by exact Lj.
    destruct (Nat.eqb_spec i j) as [->|Ni]; destruct (Nat.eqb_spec k j) as [->|Nk]; try lia.
    + exact (cl_order _ _ _ _ C j k x z u t Hik Hx Hz Hu Ht Cl).
    + assert (t = v) by congruence. subst t. rewrite (Rdy i u v Hik Hu eq_refl Cl) in Hy. discriminate.
    + exact (cl_order _ _ _ _ C i k y z u t Hik Hy Hz Hu Ht Cl).
Qed.

Lemma claims_show : forall w p s, claims e prog w p -> advance_slice (e_layout e) (w_slice w) = Ok s -> claims e prog (with_slice w s) p.
Proof.
  intros w p s C Ad. destruct (sound_advance e _ s W (cl_sound _ _ _ _ C) Ad) as [S F].
  split; cbn [w_slice with_slice]; [exact S|..|apply (cl_pairs _ _ _ _ C)|apply (cl_order _ _ _ _ C)].
  intros j x v Hx Hv. apply F. exact (cl_each _ _ _ _ C j x v Hx Hv).
Qed.

Lemma sched_claims : forall w0 acts w p, scheduled e clash again prog w0 acts w p -> claims e prog w0 (map Some prog) ->
  length p = length prog /\ claims e prog w p /\ Forall (sound e) (emitted (seen acts))
  /\ forall j x a o, In (Try j x a o) acts -> forall r n l, op x = Busy r n l -> a_error a = false.
Proof.
  intros w0 acts w p S A0. induction S as [|acts w p j x a o S IH Hp Hr Ha Hl|acts w p s S IH Ad|acts w p s S IH Em Mn].
  - split; [apply map_length|]. split; [exact A0|]. split; [constructor|]. intros j x a o [].
  - destruct IH as (L & A & B & D). split; [|split; [eapply claims_try; eauto|split; [now rewrite emitted_seen, app_nil_r|]]].
    + assert (j < length p) by (apply nth_error_Some; congruence). unfold put_at. rewrite app_length, firstn_length_le by lia. cbn [length]. rewrite skipn_length. lia.
    + intros j' x' a' o' Hin r n l Eo. apply in_app_iff in Hin as [Hin|[Hin|[]]]; [eauto|]. injection Hin as <- <- <- <-.
      assert (Lj : j < length prog) by (rewrite <- L; apply nth_error_Some; congruence).
      destruct (nth_error prog j) as [v|] eqn:Hv; [|apply nth_error_None in Hv; lia].
      pose proof (cl_each _ _ _ _ A j x v Hp Hv) as F. eapply busy_never_refused; eauto. apply (so_timed _ _ (cl_sound _ _ _ _ A)).
  - destruct IH as (L & A & B & D). split; [exact L|]. split; [now apply claims_show|]. split.
    + rewrite emitted_seen. apply Forall_app. split; [exact B|]. constructor; [apply (cl_sound _ _ _ _ A)|constructor].
    + intros j x a o Hin. apply in_app_iff in Hin as [Hin|[Hin|[]]]; [eauto|discriminate].
  - congruence.
Qed.
End Sched.

(** ** Runs of the stream pipeline *)

(** The first instruction may be under way, the others have not been started. *)
Definition head_under_way (e : env) (w : world) (l : list instr) : Prop := sound e (w_slice w)
  /\ match l with [] => True | i :: r => (exists ids, fits e ids (w_slice w) (op i)) /\ Forall (fun i => startable e (op i)) r end.

Lemma stream_claims : forall e late prog w n, e_edpc e = false -> simple_routes e -> layout_wf (e_layout e) -> sound e (w_slice w) ->
  Forall (fun i => startable e (op i)) prog ->
  match turns (stream_step e late) n (stream_init prog w) with
  | Go st => Forall (sound e) (emitted (t_events (ss_tally st))) /\ head_under_way e (ss_world st) (ss_future st ++ ss_rest st)
  | Halt t _ => Forall (sound e) (emitted (t_events t))
  end.
Proof.
  intros e late prog w n Ed Sr W So St.
  assert (Start : forall w l, sound e (w_slice w) -> Forall (fun i => startable e (op i)) l -> head_under_way e w l).
  { intros w1 l S1 F1. split; [exact S1|]. destruct l as [|i r]; [exact I|]. inversion F1; subst. split; [|assumption]. exists (operating_patches i). now apply start_fits. }
  apply (kept_run e late Ed (head_under_way e) (sound e)); auto.
  - intros w1 i l a (S1 & (ids & F1) & R1) A. destruct (sound_try e w1 i a ids Ed Sr S1 F1 A) as [_ S2].
    assert (Nx : forall s y, (if a_error a then op y = a_op a else hd_error (a_follow a) = Some y) -> advance_slice (e_layout e) (w_slice (a_world a)) = Ok s ->
      head_under_way e (with_slice (a_world a) s) (y :: l)).
    { intros s y Hy Ad. destruct (sound_advance e _ s W S2 Ad) as [S3 F3]. split; [exact S3|]. split; [|exact R1]. exists ids. apply F3.
      apply (self_fits e Ed Sr w1 i a ids (proj1 (so_timed _ _ S1)) A F1 (so_typed _ _ S1) y Hy). }
    split; [exact S2|]. split; [|split].
    + intros _ _. apply Start; auto.
    + intros j s Er Fo Ad. apply Nx; auto. now rewrite Er, Fo.
    + intros s Er _ _ Ad. apply Nx; auto. now rewrite Er.
  - intros w1 [S1 _]. exact S1.
Qed.

(** ** The first slice *)

Lemma start_sound : forall e ids s, layout_wf (e_layout e) -> (length ids <= length (core_cells (e_layout e)))%nat -> new_slice (e_layout e) ids = Ok s -> sound e s.
Proof.
  intros e ids s W Hl E. destruct (C35_start _ _ _ W Hl E) as [M M0]. destruct (new_slice_ok _ _ W Hl) as (s' & E' & I). assert (s' = s) by congruence. subst s'.
  split; [split; [apply (in_sized _ _ _ I)|now rewrite (in_timers _ _ _ I)]|exact M|intros c Hc; rewrite M0 in Hc; destruct Hc|].
  intros c p T Hp. left. left. set (L := e_layout e) in *.
  assert (D : In c (taken L) \/ ~ In c (taken L)) by (destruct (in_dec cell_eq_dec c (taken L)); auto).
  destruct D as [D|D]; [|rewrite (in_open _ _ _ I c D) in T; discriminate].
  assert (Yc : In c (l_ystates L) -> p = square None None) by (intro Y; rewrite (in_ystates _ _ _ I c Y) in T; congruence).
  unfold taken in D. rewrite !in_app_iff in D. destruct D as [D|[D|D]].
  - apply In_nth_error in D as (k & Hk). destruct (nth_error ids k) as [id|] eqn:Ek.
    + destruct (in_core _ _ _ I k id Ek) as (c' & C1 & C2). rewrite Hk in C1. injection C1 as <-. rewrite T in C2. injection C2 as ->. reflexivity.
    + rewrite (in_spare _ _ _ I k c Hk) in T by (now apply nth_error_None). discriminate.
  - rewrite (Yc D). reflexivity.
  - assert (X : ~ In c (l_ystates L) /\ p_id (dp p) = None).
    { split.
      - intro Y. pose proof (lw_disjoint L W) as N. unfold taken in N. apply prefix_nodup in N as (_ & N & _). apply prefix_nodup in N as (_ & _ & N). apply (N c Y). rewrite !in_app_iff. tauto.
      - destruct D as [D|[D|D]].
        + unfold region_cells in D. apply in_map_iff in D as (sc & <- & D). rewrite (in_regions _ _ _ I sc D) in T. injection T as <-. reflexivity.
        + rewrite (in_reserved _ _ _ I c D) in T. injection T as <-. reflexivity.
        + rewrite (in_dead _ _ _ I c D) in T. injection T as <-. reflexivity. }
    destruct X as [X1 X2]. destruct Hp as [Hp|Hp]; contradiction.
Qed.

(** ** C35: whole runs *)

(** In every slice that any of the three pipelines emits, every tile that is listed as holding a magic state holds one that
    is idle and not bound to a patch id, whatever is refused and when, and however the run ends. *)
Theorem C35_run : forall pl e late grow prog w t r, e_edpc e = false -> simple_routes e -> layout_wf (e_layout e) -> (pl = Wave -> Forall few_patches prog) ->
  sound e (w_slice w) -> Forall (fun i => startable e (op i)) prog ->
  halts pl e late grow prog w t r -> Forall magic_listed (emitted (t_events t)).
Proof.
  intros pl e late grow prog w t r Ed Sr W Few So St (n & H).
  apply (Forall_impl _ (fun s (X : sound e s) => so_magic e s X)). pose proof (claims_start e prog w So St) as A. destruct pl.
  - pose proof (stream_claims e late prog w n Ed Sr W So St) as X. rewrite H in X. exact X.
  - destruct (C40_runs e late prog w) as (st0 & E0 & R). rewrite E0 in H. cbn [pbind] in H. specialize (R n). rewrite H in R.
    assert (Ag : forall x a y, same_again x a y -> op y = a_op a) by (intros x a y ->; reflexivity).
    destruct R as [acts w' p S' Ev _ _ _|acts w' p j x r S' Ev _ _|acts w' p j x a o S' Ev _ _|acts w' p j x a o S' Ev _ _|acts w' p S' Ev _|acts w' p r S' Ev _];
    destruct (sched_claims e same_again prog Ed Sr W Ag _ _ _ _ S' A) as (_ & A' & B & _); rewrite Ev; auto.
    + now rewrite emitted_seen, app_nil_r in B.
    + now rewrite emitted_seen, app_nil_r in B.
    + rewrite emitted_app. apply Forall_app. split; [exact B|]. constructor; [apply (cl_sound _ _ _ _ A')|constructor].
  - pose proof (C41_runs e late grow prog w (plain_uncut e prog Ed) (Few eq_refl) n) as R. rewrite H in R.
    assert (Ag : forall x a y, less_again x a y -> op y = a_op a) by (intros x a y [->|[_ ->]]; reflexivity).
    destruct R as [acts w' p S' Ev _ _ _|acts w' p j x r S' Ev _ _ _|acts w' p j x S' Ev _ _ _|acts w' p j x a o S' Ev _ _|acts w' p j x a o S' Ev _ _|acts w' p S' Ev _|acts w' p r S' Ev _|acts w' p S' Ev _ _|acts w' p r S' Ev Em _|acts w' p j S' Ev _ _ _ _];
    destruct (sched_claims e less_again prog Ed Sr W Ag _ _ _ _ S' A) as (_ & A' & B & _); rewrite Ev; auto.
    + now rewrite emitted_seen, app_nil_r in B.
    + now rewrite emitted_seen, app_nil_r in B.
    + rewrite emitted_app. apply Forall_app. split; [exact B|]. constructor; [apply (cl_sound _ _ _ _ A')|constructor].
Qed.
Print Assumptions C35_run.

(** From the first slice of a layout on, with the built-in search for routes *)
Corollary C35_compiled : forall pl e late grow prog ids w t r pick stop, e_edpc e = false -> e_route e = plain_router (e_layout e) false pick stop -> valid_pick pick ->
  layout_wf (e_layout e) -> (pl = Wave -> Forall few_patches prog) -> (length ids <= length (core_cells (e_layout e)))%nat -> new_slice (e_layout e) ids = Ok (w_slice w) ->
  Forall (fun i => startable e (op i)) prog -> halts pl e late grow prog w t r -> Forall magic_listed (emitted (t_events t)).
Proof. intros pl e late grow prog ids w t r pick stop Ed Er Vp W Few Hl En St H. eapply C35_run; eauto; [eapply plain_simple; eauto|eapply start_sound; eauto]. Qed.
Print Assumptions C35_compiled.

(** A patch that sits on a tile reserved for magic states is lost when it is rotated: while it rotates, the tile is taken for
    an empty one and gets a new magic state, which is listed; when the rotation ends, the patch is put over it, on a tile
    that is still listed; and the next request takes the patch for a magic state and gives it another id. *)
Definition spin_start : layout * slice := Eval vm_compute in
  match (do L <- layout_from_spec (lit "Qrr
rMr") (mkDO true 2) ;; do s <- new_slice L [7]%N ;; Ok (L, s)) with
  | Ok x => x | _ => ex_start end.
Definition spin_env : env := mkEnv false false false false (fst spin_start) (plain_router (fst spin_start) false pick_min false).
Definition spin_world : world := mkW (snd spin_start) 0 [].
Theorem C35_rotation_refuted :
  (exists t s c p, turns (stream_step spin_env never) 9 (stream_init [instr_of (MagicRequest 100 7); instr_of (Rotate 100)] spin_world) = Halt t Finished
     /\ In s (emitted (t_events t)) /\ In c (s_magic s) /\ tile_at s c = Some p /\ p_id (dp p) = Some 100%N)
  /\ (exists t s, turns (stream_step spin_env never) 9 (stream_init [instr_of (MagicRequest 100 7); instr_of (Rotate 100); instr_of (MagicRequest 101 7)] spin_world) = Halt t Finished
     /\ s = last (emitted (t_events t)) (snd spin_start) /\ get_cell_by_id s 100 = None /\ get_cell_by_id s 101 = Some (mkCell 1 1)).
Proof.
  split.
  - do 2 eexists. exists (mkCell 1 1). eexists. split; [vm_compute; reflexivity|]. cbn [t_events emitted flat_map app]. split; [do 5 right; left; reflexivity|]. vm_compute. auto.
  - eexists. eexists. split; [vm_compute; reflexivity|]. split; [reflexivity|]. split; vm_compute; reflexivity.
Qed.
Print Assumptions C35_rotation_refuted.

(** ** Operations under way are left alone (C60) *)

(** The tiles are left as they are. *)
Definition same_tiles (s s' : slice) (cs : list cell) : Prop := forall c, In c cs -> tile_at s' c = tile_at s c.
(** Something that is not about to vanish is there. *)
Definition in_place (L : layout) (s : slice) (o : operation) : Prop := forall c, In c (needs_of o) -> exists p, tile_at s c = Some p /\ ~ consumed (p_act (dp p))
  /\ (match o with Busy _ _ _ => p_type (dp p) = TRouting /\ p_act (dp p) = ARotation /\ p_id (dp p) = None | _ => True end).
Lemma fits_in_place : forall e ids s o, fits e ids s o -> in_place (e_layout e) s o.
Proof.
  intros e ids s o [_ F] c Hc. destruct o as [| | | |s1 s2 l1 l2 lc k| | | | |reg n l|c0 t0 s1 s2 lc k st pr|]; cbn [needs_of] in *; try (destruct Hc; fail).
  - destruct k as [k|]; [|destruct Hc]. destruct F as (_ & _ & _ & _ & F). destruct (F c Hc) as (p & T & N & _). exists p. auto.
  - destruct F as [_ F]. destruct (F c Hc) as (p & T & Ty & A & Id & _). exists p. split; [exact T|]. split; [rewrite A; intros [X|X]; discriminate X|auto].
  - destruct k as [k|]; [|destruct Hc]. destruct F as (_ & _ & _ & _ & F). destruct (F c Hc) as (p & T & N & _). exists p. auto.
Qed.

(** Whatever was done, the tiles an operation under way relies on are as it left them, no two operations under way rely on
    the same tile, and neither an attempt at another instruction nor the next slice changes them. *)
Theorem C60_undisturbed : forall e again prog w0 acts w p k z, e_edpc e = false -> simple_routes e -> layout_wf (e_layout e) -> again = same_again \/ again = less_again ->
  sound e (w_slice w0) -> Forall (fun i => startable e (op i)) prog ->
  scheduled e clash again prog w0 acts w p -> nth_error p k = Some (Some z) ->
  in_place (e_layout e) (w_slice w) (op z)
  /\ (forall j x, j <> k -> nth_error p j = Some (Some x) ->
        (forall c, In c (needs_of (op z)) -> ~ In c (needs_of (op x)))
        /\ (ready clash prog p j -> forall a, try_apply e w x = Ok a -> same_tiles (w_slice w) (w_slice (a_world a)) (needs_of (op z))))
  /\ (forall s, advance_slice (e_layout e) (w_slice w) = Ok s -> in_place (e_layout e) s (op z)).
Proof.
  intros e again prog w0 acts w p k z Ed Sr W Ag So St S Hz.
  assert (Again : forall x a y, again x a y -> op y = a_op a) by (intros x a y H; destruct Ag; subst again; [now rewrite H|destruct H as [->|[_ ->]]; reflexivity]).
  destruct (sched_claims e again prog Ed Sr W Again _ _ _ _ S (claims_start e prog w0 So St)) as (L & C & _ & _).
  destruct (nth_error prog k) as [v|] eqn:Hv; [|apply nth_error_None in Hv; rewrite <- L in Hv; assert (k < length p) by (apply nth_error_Some; congruence); lia].
  split; [eapply fits_in_place, (cl_each _ _ _ _ C); eauto|]. split.
  - intros j x Nj Hx. split; [exact (cl_pairs _ _ _ _ C k j z x (not_eq_sym Nj) Hz Hx)|]. intros [_ R] a A c Hc.
    assert (X : exists o, leaves again x a o).
    { unfold leaves. destruct (a_error a); [|eauto]. exists (Some (tried x a)), (tried x a). split; [reflexivity|]. destruct Ag; subst again; [reflexivity|now left]. }
    destruct X as (o & Lv). exact (proj2 (claims_try e again prog Ed Sr Again w p j x a o L C Hx R A Lv) k z (not_eq_sym Nj) Hz c Hc).
  - intros s Ad. pose proof (claims_show e prog W w p s C Ad) as C'. eapply (fits_in_place e _ (w_slice (with_slice w s))), (cl_each _ _ _ _ C'); eauto.
Qed.
Print Assumptions C60_undisturbed.

(** The same for the stream pipeline, where only the first of the instructions left can be under way *)
Theorem C60_stream : forall e late prog w n st, e_edpc e = false -> simple_routes e -> layout_wf (e_layout e) -> sound e (w_slice w) -> Forall (fun i => startable e (op i)) prog ->
  turns (stream_step e late) n (stream_init prog w) = Go st ->
  match ss_future st ++ ss_rest st with [] => True | i :: r => in_place (e_layout e) (w_slice (ss_world st)) (op i) /\ Forall (fun z => needs_of (op z) = []) r end.
Proof.
  intros e late prog w n st Ed Sr W So St H. pose proof (stream_claims e late prog w n Ed Sr W So St) as X. rewrite H in X. destruct X as [_ [_ X]].
  destruct (ss_future st ++ ss_rest st) as [|i r]; [exact I|]. destruct X as [(ids & F) R]. split; [eapply fits_in_place; eauto|].
  apply (Forall_impl _ (fun z Hz => proj2 (start_fits e (w_slice w) z Hz)) R).
Qed.
Print Assumptions C60_stream.

(** A concrete case: a CNOT over a distance and a rotation are both under way, and a third qubit can be worked on. *)
Definition duo_start : layout * slice := Eval vm_compute in
  match (do L <- layout_from_spec (lit "rrrrrrr
rQrrQrQ
rrrrrrr
Qrrrrrr") (mkDO true 2) ;; do s <- new_slice L [7; 8; 9; 10]%N ;; Ok (L, s)) with
  | Ok x => x | _ => ex_start end.
Definition duo_env : env := mkEnv true false false false (fst duo_start) (plain_router (fst duo_start) false pick_min false).
Definition duo_world : world := mkW (snd duo_start) 0 [].
Definition duo_prog : list instr := [instr_of (BellCNOT 7 8 20 21 None None None None); instr_of (Rotate 9); instr_of (Measure 10 PZ false)].
Definition duo_try (w : world) (x : instr) : applied := match try_apply duo_env w x with Ok a => a | _ => mkA w (op x) true [] end.

Definition duo_a : applied := Eval vm_compute in duo_try duo_world (nth 0 duo_prog (instr_of (Rotate 0))).
Definition duo_b : applied := Eval vm_compute in duo_try (a_world duo_a) (nth 1 duo_prog (instr_of (Rotate 0))).
Definition duo_c : applied := Eval vm_compute in duo_try (a_world duo_b) (nth 2 duo_prog (instr_of (Rotate 0))).
Example C60_undisturbed_ex : exists acts w p x y z a, scheduled duo_env clash same_again duo_prog duo_world acts w p /\ p = [Some x; Some y; Some z]
  /\ needs_of (op x) = [mkCell 1 1; mkCell 0 1; mkCell 1 4; mkCell 1 3; mkCell 1 2; mkCell 0 2] /\ needs_of (op y) = [mkCell 1 6; mkCell 1 5]
  /\ ready clash duo_prog p 2 /\ try_apply duo_env w z = Ok a /\ a_error a = false
  /\ Forall (fun i => startable duo_env (op i)) duo_prog /\ simple_routes duo_env /\ sound duo_env (w_slice duo_world).
Proof.
  exists [Try 0 (nth 0 duo_prog (instr_of (Rotate 0))) duo_a (hd_error (a_follow duo_a)); Try 1 (nth 1 duo_prog (instr_of (Rotate 0))) duo_b (hd_error (a_follow duo_b))], (a_world duo_b),
    [hd_error (a_follow duo_a); hd_error (a_follow duo_b); Some (nth 2 duo_prog (instr_of (Rotate 0)))].
  do 3 eexists. exists duo_c.
  assert (Free : forall (p : list (option instr)) j i u v, i < j -> j < 3 -> nth_error duo_prog i = Some u -> nth_error duo_prog j = Some v -> clash u v = true -> nth_error p i = Some None).
  { intros p j i u v Hi Hj Hu Hv Cl. destruct j as [|[|[|j]]]; [lia| | |lia]; injection Hv as <-; destruct i as [|[|i]]; try lia; injection Hu as <-; discriminate Cl. }
  split; [|split; [reflexivity|split; [reflexivity|split; [reflexivity|split; [|split; [vm_compute; reflexivity|split; [reflexivity|]]]]]]].
  - apply (sc_try duo_env clash same_again duo_prog duo_world [Try 0 (nth 0 duo_prog (instr_of (Rotate 0))) duo_a (hd_error (a_follow duo_a))] (a_world duo_a)
      [hd_error (a_follow duo_a); Some (nth 1 duo_prog (instr_of (Rotate 0))); Some (nth 2 duo_prog (instr_of (Rotate 0)))] 1); [|reflexivity| |vm_compute; reflexivity|reflexivity].
    + apply (sc_try duo_env clash same_again duo_prog duo_world [] duo_world (map Some duo_prog) 0); [apply sc_start|reflexivity| |vm_compute; reflexivity|reflexivity].
      intros i u v Hi. lia.
    + intros i u v Hi. apply (Free _ 1); lia.
  - split; [eexists; reflexivity|]. intros i u v Hi. apply (Free _ 2); lia.
  - split; [unfold duo_prog; repeat (apply Forall_cons; [first [exact Logic.I | reflexivity]|]); constructor|]. split.
    + exact (plain_simple duo_env pick_min false eq_refl pick_min_valid).
    + apply (start_sound duo_env [7; 8; 9; 10]%N); [|vm_compute; repeat constructor|vm_compute; reflexivity].
      apply (text_layout_wf (lit "rrrrrrr
rQrrQrQ
rrrrrrr
Qrrrrrr") (mkDO true 2)). vm_compute. reflexivity.
Qed.

(** Requests, a rotation, a pair over a distance and a CNOT over a distance at once, with a factory *)
Definition busy_text : text := lit "rrrrrr
rQrrQr
rrrrrr
111rrr".
Definition busy_start : layout * slice := Eval vm_compute in
  match (do L <- layout_from_spec busy_text (mkDO true 2) ;; do s <- new_slice L [7; 8]%N ;; Ok (L, s)) with
  | Ok x => x | _ => ex_start end.
Definition busy_env : env := mkEnv true false false false (fst busy_start) (plain_router (fst busy_start) false pick_min false).
Definition busy_world : world := mkW (snd busy_start) 0 [].
Definition busy_prog : list instr :=
  [instr_of (BellCNOT 7 8 20 21 None None None None); instr_of (MagicRequest 30 7); instr_of (Rotate 8); instr_of (Measure 30 PZ false);
   instr_of (Rotate 8); instr_of (Rotate 8)].
Definition busy_tally : option tally := Eval vm_compute in
  match dag_run busy_env 20 busy_prog busy_world with Halt t Finished => Some t | _ => None end.
Lemma busy_runs : match busy_tally with Some t => halts Dag busy_env never never busy_prog busy_world t Finished | None => False end.
Proof. exists 20. vm_compute. reflexivity. Qed.
Lemma busy_layout : layout_from_spec busy_text (mkDO true 2) = Ok (fst busy_start).
Proof. vm_compute. reflexivity. Qed.
Lemma busy_slice : new_slice (fst busy_start) [7; 8]%N = Ok (snd busy_start).
Proof. vm_compute. reflexivity. Qed.
Lemma busy_seen : match busy_tally with Some t => map (fun s => length (s_magic s)) (emitted (t_events t)) = [0; 0; 0; 0; 1; 1; 2; 2] | None => False end.
Proof. vm_compute. reflexivity. Qed.
Example C35_run_ex : exists t, halts Dag busy_env never never busy_prog busy_world t Finished
  /\ map (fun s => length (s_magic s)) (emitted (t_events t)) = [0; 0; 0; 0; 1; 1; 2; 2] /\ Forall magic_listed (emitted (t_events t)).
Proof.
  pose proof busy_runs as R. pose proof busy_seen as B. destruct busy_tally as [t|]; [|contradiction]. exists t.
  split; [exact R|]. split; [exact B|].
  apply (C35_compiled Dag busy_env never never busy_prog [7; 8]%N busy_world t Finished pick_min false eq_refl eq_refl pick_min_valid (text_layout_wf _ _ _ busy_layout)
    (fun X => ltac:(discriminate X)) ltac:(vm_compute; repeat constructor) busy_slice); [|exact R].
  unfold busy_prog. repeat (apply Forall_cons; [first [exact Logic.I | reflexivity]|]). constructor.
Qed.

(** C60 fails where Y states are asked for among local operations (--local with --notwists): the tile of a Y state that was used up
    is free for the pairs over a distance, and the next request takes what a pair has put there for a Y state.  Here a Bell pair
    waits for a tile to become free; tile (0,2), which it relies on, is handed out as Y state 6 although there is a Y state on (0,9),
    and is then measured with the rest of the pair. *)
Definition stray_text : text := lit "QrYrrAQrrY".
Definition stray_start : layout * slice := Eval vm_compute in
  match (do L <- layout_from_spec stray_text (mkDO true 1) ;; do s <- new_slice L [7; 3]%N ;; Ok (L, s)) with
  | Ok x => x | _ => ex_start end.
Definition stray_env : env := mkEnv true false false false (fst stray_start) (plain_router (fst stray_start) false pick_min false).
Definition stray_world : world := mkW (snd stray_start) 0 [].
Definition stray_prog : list instr :=
  [instr_of (YRequest 5 7 None); instr_of (Measure 5 PZ false); instr_of (BellInit 20 21 (mkPNT 7 PX) (mkPNT 3 PX) None None);
   instr_of (Reset 40); instr_of (Reset 40); instr_of (Init 40 StZero None); instr_of (Reset 40); instr_of (Measure 40 PZ false);
   instr_of (Reset 6); instr_of (Reset 6); instr_of (Reset 6); instr_of (YRequest 6 7 None)].
Definition stray_tally : tally := Eval vm_compute in match dag_run stray_env 20 stray_prog stray_world with Halt t _ => t | Go _ => tally0 end.
Definition id_on (s : slice) (c : cell) : option (option N * activity) := match tile_at s c with Some p => Some (p_id (dp p), p_act (dp p)) | None => None end.
Theorem C60_ystate_refuted : exists e prog w t pair, e_edpc e = false /\ simple_routes e /\ layout_wf (e_layout e) /\ sound e (w_slice w)
  /\ Forall (fun i => match op i with YRequest _ _ _ => True | o => startable e o end) prog
  /\ halts Dag e never never prog w t Finished
  /\ In (mkCell 0 2) (needs_of (op pair)) /\ nth_error (t_events t) 12 = Some (Applied pair)
  /\ nth_error (t_events t) 14 = Some (Applied (instr_of (YRequest 6 7 None)))
  /\ map (fun s => (id_on s (mkCell 0 2), id_on s (mkCell 0 9))) (emitted (t_events t))
     = [(Some (Some 5%N, ANone), Some (None, ANone)); (Some (Some 5%N, AMeasurement), Some (None, ANone)); (Some (None, ANone), Some (None, ANone));
        (Some (Some 6%N, ANone), Some (None, ANone)); (Some (Some 6%N, ANone), Some (None, ANone)); (Some (Some 6%N, AMeasurement), Some (None, ANone))].
Proof.
  exists stray_env, stray_prog, stray_world, stray_tally.
  assert (R : halts Dag stray_env never never stray_prog stray_world stray_tally Finished) by (exists 20; vm_compute; reflexivity).
  assert (P : exists pair, In (mkCell 0 2) (needs_of (op pair)) /\ nth_error (t_events stray_tally) 12 = Some (Applied pair)).
  { eexists. split; [|vm_compute; reflexivity]. vm_compute. auto 10. }
  destruct P as (pair & P1 & P2). exists pair. split; [reflexivity|]. split; [exact (plain_simple stray_env pick_min false eq_refl pick_min_valid)|].
  assert (W : layout_wf (e_layout stray_env)) by (apply (text_layout_wf stray_text (mkDO true 1)); vm_compute; reflexivity).
  split; [exact W|]. split; [apply (start_sound stray_env [7; 3]%N); [exact W|vm_compute; repeat constructor|vm_compute; reflexivity]|].
  split; [unfold stray_prog; repeat (apply Forall_cons; [first [exact Logic.I | reflexivity]|]); constructor|].
  split; [exact R|]. split; [exact P1|]. split; [exact P2|]. split; vm_compute; reflexivity.
Qed.
Print Assumptions C60_ystate_refuted.
