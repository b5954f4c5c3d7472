(** C50 and C57: the command line, and what a run depends on. *)
From Verif Require Import Base TextModel PatchesModel LayoutModel EdpcModel InstrModel ReadModel GatesModel LoweringModel.
From Verif Require Import TextProofs SlicerModel SlicerSpec.
Open Scope Z_scope.

Lemma is_true : forall t s, is t s = true <-> t = lit s.
Proof. intros t s. unfold is. apply text_eqb_eq. Qed.
Lemma lit_inj : forall a b, lit a = lit b -> a = b.
Proof.
  induction a as [|c a IH]; intros [|d b] H; cbn in H; try discriminate; [reflexivity|].
  injection H as -> H. f_equal. now apply IH.
Qed.

Lemma choose_cases : forall A o k (table : text -> option A) d,
  (o k = None /\ choose o k table d = Ok (On d))
  \/ (exists v a, o k = Some v /\ table v = Some a /\ choose o k table d = Ok (On a))
  \/ (exists v, o k = Some v /\ table v = None /\ choose o k table d = Ok (Return (-1) Nothing)).
Proof.
  intros A o k table d. unfold choose. destruct (o k) as [v|]; [|auto]. right.
  destruct (table v) as [a|] eqn:E; [left; eauto|right; eauto].
Qed.
Lemma choose_on : forall A o k (table : text -> option A) d a, choose o k table d = Ok (On a) ->
  (o k = None /\ a = d) \/ exists v, o k = Some v /\ table v = Some a.
Proof.
  intros A o k table d a H. destruct (choose_cases A o k table d) as [[E C]|[(v & b & E & T & C)|(v & E & T & C)]]; rewrite C in H.
  - injection H as <-. auto.
  - injection H as <-. eauto.
  - discriminate.
Qed.
Lemma sbind_on : forall A B (x : outcome (stage A)) (f : A -> outcome (stage B)) b, sbind x f = Ok (On b) ->
  exists a, x = Ok (On a) /\ f a = Ok (On b).
Proof. intros A B x f b H. unfold sbind in H. destruct x as [[c s|a]| | |]; cbn in H; try discriminate. eauto. Qed.

Definition first_checks (m : machine) (o : options) : outcome (stage (layout_mode * input_format)) :=
  let? lm := choose_layout m o in let? f := choose o "input-format" format_of_name Lli in Ok (On (lm, f)).
Definition middle (fuel : nat) (d : placement) (m : machine) (o : options) lm f :=
  let? (om, dag, pl) := choose_modes o in
  let? input := choose_input m o in
  let? s := open_source fuel d m o f dag input in
  let? (L, s, valid) := make_layout m o lm pl s in
  Ok (On (om, dag, pl, L, s, valid)).

Section Slicer.
Variables (gridsynth : text -> outcome text) (use_gridsynth : bool).
Notation slicer := (slicer gridsynth use_gridsynth).
Notation last_checks := (last_checks gridsynth use_gridsynth).

(** The parts of a run that gets as far as slicing. *)
Lemma slicer_on : forall fuel bad m o p p' j, slicer fuel bad m o p = (p', Ok (On j)) ->
  exists lm f om dag pl L s valid, bad = false /\ has o "help" = false
  /\ first_checks m o = Ok (On (lm, f))
  /\ middle fuel (pr_default p) m o lm f = Ok (On (om, dag, pl, L, s, valid))
  /\ pr_default p' = match l_ancilla L with [] => NextToTarget | _ => pr_default p end
  /\ last_checks fuel (pr_default p') m o f om dag pl L s valid = Ok (On j).
Proof.
  intros fuel bad m o p p' j H. unfold SlicerModel.slicer in H. destruct bad; [discriminate|]. destruct (has o "help") eqn:Hh; [discriminate|].
  fold (first_checks m o) in H. destruct (first_checks m o) as [[c sh|[lm f]]| | |] eqn:F; try discriminate.
  cbn [pr_default] in H. fold (middle fuel (pr_default p) m o lm f) in H.
  destruct (middle fuel (pr_default p) m o lm f) as [[c sh|[[[[[om dag] pl] L] s] valid]]| | |] eqn:M; try discriminate.
  injection H as <- E. exists lm, f, om, dag, pl, L, s, valid. cbn [pr_default]. repeat split; auto.
Qed.
Lemma modes_on : forall o om dag pl, choose_modes o = Ok (On (om, dag, pl)) ->
  choose o "f" output_of_name (if has o "o" || has o "noslices" then Progress else NoProgress) = Ok (On om)
  /\ (has o "f" = true -> has o "o" = true \/ has o "noslices" = true)
  /\ choose o "printdag" dag_of_name NoDag = Ok (On dag) /\ choose o "pipeline" pipeline_of_name PStream = Ok (On pl).
Proof.
  intros o om dag pl H. unfold choose_modes in H. cbv zeta in H. apply sbind_on in H. destruct H as (f & F & H).
  destruct (has o "f" && negb (has o "o" || has o "noslices")) eqn:E; [discriminate|].
  apply sbind_on in H. destruct H as (d & D & H). apply sbind_on in H. destruct H as (q & P & H). injection H as <- <- <-.
  repeat split; auto. intros Hf. rewrite Hf in E. cbn in E. apply negb_false_iff, orb_true_iff in E. exact E.
Qed.
Lemma middle_on : forall fuel d m o lm f om dag pl L s valid, middle fuel d m o lm f = Ok (On (om, dag, pl, L, s, valid)) ->
  exists input s0, choose_modes o = Ok (On (om, dag, pl)) /\ choose_input m o = Ok (On input)
   /\ open_source fuel d m o f dag input = Ok (On s0) /\ make_layout m o lm pl s0 = Ok (On (L, s, valid)).
Proof.
  intros fuel d m o lm f om dag pl L s valid H. unfold middle in H.
  apply sbind_on in H. destruct H as ([[om1 dag1] pl1] & A & H). apply sbind_on in H. destruct H as (inp & B & H).
  apply sbind_on in H. destruct H as (s0 & C & H). apply sbind_on in H. destruct H as ([[L1 s1] v1] & D & H).
  injection H as <- <- <- <- <- <-. exists inp, s0. auto.
Qed.
Lemma last_on : forall fuel d m o f om dag pl L s valid j, last_checks fuel d m o f om dag pl L s valid = Ok (On j) ->
  valid = true /\ exists lli, choose o "printlli" lli_of_name NoLli = Ok (On lli) /\ lli <> LliBefore /\ dag <> ProcessedDag
  /\ choose o "r" router_of_name false = Ok (On (j_cached j)) /\ choose o "g" provider_of_name Djikstra = Ok (On (j_provider j))
  /\ j_layout j = L /\ j_stream j = s /\ j_pipeline j = pl /\ j_output j = om /\ j_lli j = lli
  /\ j_local j = has o "local" /\ j_twists j = negb (has o "notwists") /\ j_graceful j = has o "graceful" /\ j_file j = o "o"%string
  /\ (j_slices j = true <-> has o "noslices" = false /\ o "printlli"%string = None).
Proof.
  intros fuel d m o f om dag pl L s valid j H. unfold SlicerModel.last_checks in H. destruct valid; [|discriminate]. cbn [negb] in H. split; [reflexivity|].
  apply sbind_on in H. destruct H as (lli & A & H). exists lli. split; [exact A|].
  assert (B : lli <> LliBefore /\ dag <> ProcessedDag).
  { destruct lli, dag; try (split; discriminate); exfalso; destruct (instructions _ _ _ _ _) as [[]| | |] in H; discriminate. }
  split; [apply B|]. split; [apply B|].
  assert (H' : (let? cached := choose o "r" router_of_name false in
      let? pr := choose o "g" provider_of_name Djikstra in
      Ok (On (mkJob L s pl (has o "local") (negb (has o "notwists")) cached pr
        (if has o "t" then Some (mc_num m (get o "t")) else None) (has o "graceful")
        (has o "op-ids" || match f with Pandora => true | _ => false end)
        om (has o "o" || has o "noslices") (negb (has o "noslices") && match lli with NoLli => true | _ => false end) lli (o "o"%string)))) = Ok (On j)).
  { destruct B as [B1 B2]. destruct lli, dag; try contradiction; exact H. }
  clear H. apply sbind_on in H'. destruct H' as (c & C & H). apply sbind_on in H. destruct H as (q & D & H). injection H as <-. cbn.
  do 11 (split; [first [assumption|reflexivity]|]).
  apply choose_on in A. rewrite andb_true_iff, negb_true_iff. split; intros [X Y]; split; auto.
  - destruct lli; try discriminate. destruct A as [[A _]|(v & A & T)]; [exact A|]. unfold lli_of_name in T.
    destruct (is v "before" || is v ""); [discriminate|]. destruct (is v "sliced"); discriminate.
  - destruct A as [[_ ->]|(v & A & T)]; [reflexivity|]. congruence.
Qed.

Lemma last_rest : forall fuel d m o f om dag pl L s valid j, last_checks fuel d m o f om dag pl L s valid = Ok (On j) ->
  j_timeout j = match o "t"%string with Some t => Some (mc_num m t) | None => None end
  /\ j_opids j = (has o "op-ids" || match f with Pandora => true | _ => false end) /\ j_summary j = (has o "o" || has o "noslices").
Proof.
  intros fuel d m o f om dag pl L s valid j H. unfold SlicerModel.last_checks in H. destruct valid; [|discriminate]. cbn [negb] in H.
  apply sbind_on in H. destruct H as (lli & A & H).
  assert (R : (do (l, _) <- instructions gridsynth use_gridsynth fuel d s ;; Ok (Return 0 (LliText l))) <> Ok (On j)
    /\ (do (l, _) <- instructions gridsynth use_gridsynth fuel d s ;; Ok (Return 0 (LliGraph l))) <> Ok (On j))
    by (split; destruct (instructions _ _ _ _ _) as [[]| | |]; discriminate).
  destruct R as [R1 R2].
  destruct lli, dag; try contradiction; apply sbind_on in H; destruct H as (c & C & H); apply sbind_on in H; destruct H as (q & D & H); injection H as <-; cbn;
    unfold has, get; destruct (o "t"%string); auto.
Qed.

(** ** C50 *)

(** The texts a decision takes. *)
Ltac by_name Hs := 
  repeat match type of Hs with
  | context [is ?v ?s] => is_var v; let E := fresh "E" in destruct (is v s) eqn:E; [apply is_true in E; subst v|]
  end.
Definition reads_table {A} (k : string) (table : text -> option A) : Prop :=
  forall v, taken_values k v <-> table v <> None.
Ltac listed := cbn; repeat (first [left; reflexivity|right]).
Ltac is_taken := first
  [ left; split; [eexists; split; [|reflexivity]; solve [listed] | intros [? ?]; solve [discriminate]]
  | right; left; split; reflexivity
  | right; right; split; [tauto|reflexivity] ].
Ltac table_of f := intros v; split;
  [ intros [[(s & Hin & ->) Hno]|[[Hk ->]|[[Hk|[Hk|Hk]] ->]]]; try discriminate Hk;
    try (cbn in Hin; repeat (destruct Hin as [<-|Hin]); try contradiction); try (vm_compute; discriminate); exfalso; apply Hno; auto
  | intros Hs; unfold f in Hs; by_name Hs; try (exfalso; apply Hs; reflexivity); is_taken ].
Lemma layout_table : reads_table "layoutgenerator" layout_of_name.
Proof. table_of layout_of_name. Qed.
Lemma format_table : reads_table "input-format" format_of_name.
Proof. table_of format_of_name. Qed.
Lemma output_table : reads_table "f" output_of_name.
Proof. table_of output_of_name. Qed.
Lemma dag_table : reads_table "printdag" dag_of_name.
Proof. table_of dag_of_name. Qed.
Lemma pipeline_table : reads_table "pipeline" pipeline_of_name.
Proof. table_of pipeline_of_name. Qed.
Lemma corrections_table : reads_table "cnotcorrections" corrections_of_name.
Proof. table_of corrections_of_name. Qed.
Lemma lli_table : reads_table "printlli" lli_of_name.
Proof. table_of lli_of_name. Qed.
Lemma router_table : reads_table "r" router_of_name.
Proof. table_of router_of_name. Qed.
Lemma provider_table : reads_table "g" provider_of_name.
Proof. table_of provider_of_name. Qed.

Lemma chosen_taken : forall A k (table : text -> option A) o d a v, reads_table k table -> choose o k table d = Ok (On a) -> o k = Some v -> taken_values k v.
Proof.
  intros A k table o d a v T H E. apply T. apply choose_on in H. destruct H as [[H _]|(v' & H & X)]; [congruence|].
  assert (v' = v) by congruence. subst. congruence.
Qed.
Lemma unknown_returns : forall A k (table : text -> option A) o d v, reads_table k table -> o k = Some v -> ~ taken_values k v ->
  choose o k table d = Ok (Return (-1) Nothing).
Proof.
  intros A k table o d v T E N. unfold choose. rewrite E. destruct (table v) eqn:X; [|reflexivity]. exfalso. apply N, T. congruence.
Qed.
Lemma known_goes_on : forall A k (table : text -> option A) o d, reads_table k table -> (forall v, o k = Some v -> taken_values k v) ->
  exists a, choose o k table d = Ok (On a).
Proof.
  intros A k table o d T H. unfold choose. destruct (o k) as [v|] eqn:E; [|eauto]. specialize (H v eq_refl). apply T in H.
  destruct (table v); [eauto|contradiction].
Qed.

(** Slicing never starts with a value that is not taken: every option with a list of values has one of them.
    The CNOT corrections are looked at only for circuits of gates. *)
Theorem C50_only_known_values : forall fuel bad m o p p' j, slicer fuel bad m o p = (p', Ok (On j)) ->
  (forall k v, In k (early_options ++ late_options) -> o k = Some v -> taken_values k v)
  /\ ((forall f, st_source (j_stream j) <> LliSource f) -> forall v, o "cnotcorrections"%string = Some v -> taken_values "cnotcorrections" v).
Proof.
  intros fuel bad m o p p' j H. apply slicer_on in H. destruct H as (lm & f & om & dag & pl & L & s & valid & _ & _ & F & M & _ & La).
  apply middle_on in M. destruct M as (inp & s0 & Mo & _ & So & Ml). apply modes_on in Mo. destruct Mo as (Mf & _ & Md & Mp).
  apply last_on in La. destruct La as (_ & lli & Ll & _ & _ & Lr & Lg & _ & Ls & _).
  unfold first_checks in F. apply sbind_on in F. destruct F as (lm' & F1 & F). apply sbind_on in F. destruct F as (f' & F2 & F). injection F as -> ->.
  split.
  - intros k v Hk E. cbn in Hk. destruct Hk as [<-|[<-|[<-|[<-|[<-|[<-|[<-|[<-|[]]]]]]]]].
    + unfold choose_layout in F1. assert (X : has o "layoutgenerator" = true) by (unfold has; now rewrite E). rewrite X in F1.
      apply sbind_on in F1. destruct F1 as (a & F1 & _). eapply chosen_taken; eauto using layout_table.
    + eapply chosen_taken; eauto using format_table.
    + eapply chosen_taken; eauto using output_table.
    + eapply chosen_taken; eauto using dag_table.
    + eapply chosen_taken; eauto using pipeline_table.
    + eapply chosen_taken; eauto using lli_table.
    + eapply chosen_taken; eauto using router_table.
    + eapply chosen_taken; eauto using provider_table.
  - intros Ng v E. assert (Ss : st_source (j_stream j) = st_source s0).
    { rewrite Ls. clear -Ml. unfold make_layout in Ml. cbv zeta in Ml.
      destruct lm as [[| |]|L0].
      1,2: destruct (has o "notwists"); [discriminate|]; destruct (make_compact_layout _ _ _); try discriminate; cbn [bind] in Ml;
           destruct (exposed_core _ _); try discriminate; cbn [bind] in Ml; injection Ml as <- <- <-; reflexivity.
      - destruct (EdpcModel.make_edpc_layout _ _); try discriminate; cbn [bind] in Ml; injection Ml as <- <- <-; reflexivity.
      - destruct (_ && _); [discriminate|]. injection Ml as <- <- <-; reflexivity. }
    unfold open_source in So. cbv zeta in So. destruct f.
    + exfalso. destruct (open_stream _); try discriminate. cbn [bind] in So. destruct dag.
      * injection So as <-. eapply Ng. rewrite Ss. reflexivity.
      * destruct (ReadModel.drain fuel a); discriminate.
      * injection So as <-. eapply Ng. rewrite Ss. reflexivity.
    + destruct (open_gate_file _ _); try discriminate. cbn [bind] in So.
      destruct dag; [|destruct (drain_file fuel _ a) as [[]| | |]; discriminate|];
        apply sbind_on in So; destruct So as (c & C & _); eapply chosen_taken; eauto using corrections_table.
    + destruct (mc_pandora _ _) as [[gs q]| | |]; try discriminate. cbn [bind] in So.
      destruct dag; try discriminate; apply sbind_on in So; destruct So as (c & C & _); eapply chosen_taken; eauto using corrections_table.
Qed.

(** What slicing is then started with is what the values say. *)
Theorem C50_meaning : forall fuel bad m o p p' j, slicer fuel bad m o p = (p', Ok (On j)) ->
  means o "pipeline" (j_pipeline j) PStream pipelines
  /\ means o "g" (j_provider j) Djikstra providers
  /\ means o "r" (j_cached j) false routers
  /\ means o "f" (j_output j) (if has o "o" || has o "noslices" then Progress else NoProgress) outputs
  /\ (j_slices j = true <-> o "noslices"%string = None /\ o "printlli"%string = None)
  /\ j_local j = has o "local" /\ j_twists j = negb (has o "notwists") /\ j_graceful j = has o "graceful" /\ j_file j = o "o"%string.
Proof.
  intros fuel bad m o p p' j H. apply slicer_on in H. destruct H as (lm & f & om & dag & pl & L & s & valid & _ & _ & F & M & _ & La).
  apply middle_on in M. destruct M as (inp & s0 & Mo & _ & So & Ml). apply modes_on in Mo. destruct Mo as (Mf & _ & Md & Mp).
  apply last_on in La. destruct La as (_ & lli & Ll & _ & _ & Lr & Lg & _ & _ & <- & <- & _ & A & B & C & D & S).
  assert (K : forall A k (table : text -> option A) d a l, choose o k table d = Ok (On a) -> (forall v a, table v = Some a -> exists s, In (s, a) l /\ v = lit s) -> means o k a d l).
  { intros X k table d a l Hc Ht. apply choose_on in Hc. unfold means. destruct Hc as [[-> ->]|(v & -> & T)]; auto. }
  Ltac shown_by f := intros v a Hs; unfold f in Hs; by_name Hs; try discriminate; injection Hs as <-; eexists; (split; [|reflexivity]); listed.
  split; [eapply K; eauto; shown_by pipeline_of_name|]. split; [eapply K; eauto; shown_by provider_of_name|].
  split; [eapply K; eauto; shown_by router_of_name|]. split; [eapply K; eauto; shown_by output_of_name|].
  split; [|auto]. rewrite S. unfold has. destruct (o "noslices"%string); intuition congruence.
Qed.

Lemma absent_has : forall o k, absent o k = negb (has o k).
Proof. intros o k. unfold absent, has. now destruct (o k). Qed.
Lemma distilled_options : forall m o, distilled m o = distillation_options m o.
Proof. intros m o. unfold distilled, distillation_options. rewrite absent_has. unfold has, get. now destruct (o "disttime"%string). Qed.
Lemma layout_chosen : forall m o lm, choose_layout m o = Ok (On lm) ->
  match lm with
  | Auto a => asked o "layoutgenerator" [match a with ACompact => "compact" | ACompactNoClogging => "compact_no_clogging" | AEdpc => "edpc" end]%string
      \/ (a = ACompact /\ absent o "layoutgenerator" = true /\ absent o "l" = true)
  | Custom L => absent o "layoutgenerator" = true /\ exists name t, o "l"%string = Some name /\ mc_file m name = Some t /\ layout_from_spec t (distilled m o) = Ok L
  end.
Proof.
  intros m o lm H. unfold choose_layout in H. rewrite distilled_options. rewrite !absent_has. destruct (has o "layoutgenerator") eqn:G.
  - apply sbind_on in H. destruct H as (a & A & H). injection H as <-. apply choose_on in A. unfold has in G.
    destruct A as [[A _]|(v & A & T)]; [rewrite A in G; discriminate|]. left.
    unfold layout_of_name in T. by_name T; try discriminate; injection T as <-; eexists; (split; [left; reflexivity|exact A]).
  - unfold has, get in *. destruct (o "l"%string) as [name|] eqn:O; cbn in H.
    + destruct (mc_file m name) as [t|] eqn:F; [|discriminate]. destruct (layout_from_spec t _) as [L| | |] eqn:E; try discriminate.
      injection H as <-. split; [reflexivity|]. exists name, t. auto.
    + injection H as <-. right. auto.
Qed.

(** The layout slicing is started with, and the rewriting in front of it, are what the command line asks for. *)
Theorem C50_layout : forall fuel bad m o p p' j, slicer fuel bad m o p = (p', Ok (On j)) ->
  lays_out m o (st_core (j_stream j)) (j_layout j) (st_passes (j_stream j)).
Proof.
  intros fuel bad m o p p' j H. apply slicer_on in H. destruct H as (lm & f & om & dag & pl & L & s & valid & _ & _ & F & M & _ & La).
  apply middle_on in M. destruct M as (inp & s0 & Mo & _ & So & Ml).
  apply last_on in La. destruct La as (_ & lli & Ll & _ & _ & Lr & Lg & EL & Es & _). rewrite EL, Es. clear EL Es.
  assert (N0 : st_passes s0 = NoPasses).
  { unfold open_source in So. destruct f.
    - destruct (open_stream _); try discriminate. cbn [bind] in So. destruct dag; [injection So as <-; reflexivity| |injection So as <-; reflexivity].
      destruct (ReadModel.drain _ _); discriminate.
    - destruct (open_gate_file _ _); try discriminate. cbn [bind] in So.
      destruct dag; [|destruct (drain_file fuel _ a) as [[]| | |]; discriminate|];
        apply sbind_on in So; destruct So as (c & C & So); destruct (gf_qreg a); try discriminate; injection So as <-; reflexivity.
    - destruct (mc_pandora _ _) as [[gs q]| | |]; try discriminate. cbn [bind] in So.
      destruct dag; try discriminate; apply sbind_on in So; destruct So as (c & C & So); injection So as <-; reflexivity. }
  unfold first_checks in F. apply sbind_on in F. destruct F as (lm1 & F & F2). apply sbind_on in F2. destruct F2 as (f1 & F2 & E). injection E as <- <-.
  apply layout_chosen in F. unfold make_layout in Ml. rewrite <- distilled_options in Ml.
  assert (Co : forall b, (if has o "notwists" then Ok (Return (-1) Nothing) else
      do L <- make_compact_layout (length (st_core s0)) (distilled m o) b ;;
      do e <- exposed_core L (st_core s0) ;;
      Ok (On (L, with_passes s0 (CompactPasses e), match pl with PEdpc => false | _ => true end))) = Ok (On (L, s, valid)) ->
      absent o "notwists" = true /\ exists e, make_compact_layout (length (st_core s0)) (distilled m o) b = Ok L /\ exposed_core L (st_core s0) = Ok e
        /\ s = with_passes s0 (CompactPasses e)).
  { intros b E. rewrite absent_has. destruct (has o "notwists"); [discriminate|]. split; [reflexivity|].
    destruct (make_compact_layout _ _ b) as [L1| | |] eqn:E1; try discriminate. cbn [bind] in E.
    destruct (exposed_core L1 _) as [e| | |] eqn:E2; try discriminate. cbn [bind] in E. injection E as <- <- _. exists e. auto. }
  destruct lm1 as [[| |]|L0].
  - destruct (Co _ Ml) as (A & e & B & C & ->). cbn. eapply lays_compact; eauto. destruct F as [F|(_ & F)]; auto.
  - destruct (Co _ Ml) as (A & e & B & C & ->). cbn. eapply lays_unclogged; eauto. destruct F as [F|(F & _)]; [auto|discriminate].
  - destruct F as [F|(F & _)]; [|discriminate].
    destruct (make_edpc_layout _ _) as [L1| | |] eqn:E1; try discriminate. cbn [bind] in Ml. injection Ml as <- <- _. cbn.
    replace (if has o "notwists" then CatalyticPasses else EdpcPasses) with (if absent o "notwists" then EdpcPasses else CatalyticPasses)
      by (rewrite absent_has; now destruct (has o "notwists")).
    eapply lays_edpc; [exact F|reflexivity|reflexivity|]. rewrite <- E1, !absent_has, !negb_involutive. unfold has, get.
    destruct (o "numlanes"%string), (o "condensed"%string); reflexivity.
  - destruct F as (A & name & t & B & C & D).
    destruct (has o "notwists" && match l_ystates L0 with [] => true | _ :: _ => false end) eqn:G; [discriminate|]. injection Ml as <- <- _.
    rewrite N0. eapply lays_file; eauto. rewrite absent_has. intros T. apply negb_false_iff in T. rewrite T in G.
    intros X. rewrite X in G. discriminate.
Qed.

(** The circuit that is sliced is the one the command line gives, and so are the limit of time, the texts of operations and the summary. *)
Theorem C50_circuit : forall fuel bad m o p p' j, slicer fuel bad m o p = (p', Ok (On j)) ->
  gives m o (pr_default p) (st_source (j_stream j)) (st_core (j_stream j)) /\ st_local (j_stream j) = negb (absent o "local")
  /\ j_timeout j = match o "t"%string with Some t => Some (mc_num m t) | None => None end
  /\ (j_opids j = true <-> absent o "op-ids" = false \/ asked o "input-format" ["pandora"; "p"]%string)
  /\ j_summary j = negb (absent o "o" && absent o "noslices").
Proof.
  intros fuel bad m o p p' j H. apply slicer_on in H. destruct H as (lm & f & om & dag & pl & L & s & valid & _ & _ & F & M & _ & La).
  apply middle_on in M. destruct M as (inp & s0 & Mo & In & So & Ml).
  assert (La' := last_rest _ _ _ _ _ _ _ _ _ _ _ _ La). apply last_on in La. destruct La as (_ & lli & Ll & _ & _ & Lr & Lg & EL & Es & _).
  unfold first_checks in F. apply sbind_on in F. destruct F as (lm1 & F & F2). apply sbind_on in F2. destruct F2 as (f1 & F2 & E). injection E as <- <-.
  apply choose_on in F2.
  assert (Fo : match f1 with Lli => asked o "input-format" ["lli"; "l"]%string \/ absent o "input-format" = true
     | Qasm => asked o "input-format" ["qasm"; "q"]%string | Pandora => asked o "input-format" ["pandora"; "p"]%string end).
  { destruct F2 as [[A ->]|(v & A & T)]; [right; unfold absent; now rewrite A|]. unfold format_of_name in T.
    by_name T; cbn [orb] in T; try discriminate; injection T as <-; try left; eexists; (split; [|exact A]); listed. }
  assert (G : given m o inp).
  { unfold choose_input in In. unfold given. unfold has, get in In. destruct (o "i"%string) as [name|]; [|injection In as <-; reflexivity].
    destruct (mc_file m name); [injection In as <-; reflexivity|discriminate]. }
  assert (S : st_source s = st_source s0 /\ st_core s = st_core s0 /\ st_local s = st_local s0).
  { unfold make_layout in Ml. destruct lm1 as [[| |]|L0].
    1,2: destruct (has o "notwists"); [discriminate|]; destruct (make_compact_layout _ _ _); try discriminate; cbn [bind] in Ml;
      destruct (exposed_core _ _); try discriminate; injection Ml as _ <- _; cbn; auto.
    - destruct (make_edpc_layout _ _); try discriminate. injection Ml as _ <- _. cbn. auto.
    - destruct (has o "notwists" && _); [discriminate|]. injection Ml as _ <- _. auto. }
  rewrite Es. destruct S as (S1 & S2 & S3). rewrite S1, S2, S3.
  assert (Corr : forall c, choose o "cnotcorrections" corrections_of_name CorrNever = Ok (On c) ->
    means o "cnotcorrections" c CorrNever [("always", CorrAlways); ("never", CorrNever)]%string).
  { intros c C. apply choose_on in C. unfold means. destruct C as [[-> ->]|(v & -> & T)]; [reflexivity|]. unfold corrections_of_name in T.
    by_name T; try discriminate; injection T as <-; eexists; (split; [|reflexivity]); listed. }
  split; [|split; [|split; [|split]]].
  - unfold open_source in So. destruct f1.
    + destruct (open_stream _) as [fs| | |] eqn:O; try discriminate. cbn [bind] in So.
      destruct dag; [| |]; try (destruct (ReadModel.drain _ _); discriminate); injection So as <-; cbn; eapply gives_lli; eauto.
    + destruct (open_gate_file _ _) as [g| | |] eqn:O; try discriminate. cbn [bind] in So.
      destruct dag; [|destruct (drain_file fuel _ g) as [[]| | |]; discriminate|];
        (apply sbind_on in So; destruct So as (c & C & So); destruct (gf_qreg g) as [[name n]|] eqn:Q; [|discriminate]; injection So as <-; cbn;
         eapply gives_qasm; eauto).
    + destruct (mc_pandora _ _) as [[gs [name n]]| | |] eqn:O; try discriminate. cbn [bind] in So.
      destruct dag; try discriminate;
        (apply sbind_on in So; destruct So as (c & C & So); injection So as <-; cbn; eapply gives_pandora; eauto; rewrite <- O; unfold get;
         destruct (o "port"%string) as [[|]|]; reflexivity).
  - rewrite absent_has, negb_involutive. unfold open_source in So. destruct f1.
    + destruct (open_stream _) as [fs| | |]; try discriminate. cbn [bind] in So.
      destruct dag; [| |]; try (destruct (ReadModel.drain _ _); discriminate); injection So as <-; reflexivity.
    + destruct (open_gate_file _ _) as [g| | |] eqn:O; try discriminate. cbn [bind] in So.
      destruct dag; [|destruct (drain_file fuel _ g) as [[]| | |]; discriminate|];
        (apply sbind_on in So; destruct So as (c & C & So); destruct (gf_qreg g) as [[name n]|] eqn:Q; [|discriminate]; injection So as <-; reflexivity).
    + destruct (mc_pandora _ _) as [[gs [name n]]| | |] eqn:O; try discriminate. cbn [bind] in So.
      destruct dag; try discriminate; (apply sbind_on in So; destruct So as (c & C & So); injection So as <-; reflexivity).
  - apply La'.
  - destruct La' as (_ & -> & _). rewrite absent_has, negb_false_iff, orb_true_iff.
    assert (P : match f1 with Pandora => true | _ => false end = true <-> asked o "input-format" ["pandora"; "p"]%string); [|tauto].
    split; [destruct f1; try discriminate; intros _; exact Fo|]. intros (v & I & A).
    destruct F2 as [[B ->]|(v' & B & T)]; [congruence|]. rewrite A in B. injection B as <-. cbn in I.
    destruct I as [<-|[<-|[]]]; vm_compute in T; injection T as <-; reflexivity.
  - destruct La' as (_ & _ & ->). rewrite !absent_has. now destruct (has o "o"), (has o "noslices").
Qed.

(** A value that is not taken of one of the options that are looked at first: -1 is returned, nothing is shown and nothing is compiled. *)
Theorem C50_unknown_rejected : forall fuel m o p k v, has o "help" = false -> layout_readable m o ->
  In k early_options -> o k = Some v -> ~ taken_values k v ->
  snd (slicer fuel false m o p) = Ok (Return (-1) Nothing) /\ pr_default (fst (slicer fuel false m o p)) = pr_default p.
Proof.
  intros fuel m o p k v Hh Hl Hk E N. unfold SlicerModel.slicer. rewrite Hh. fold (first_checks m o).
  assert (Cl : k = "layoutgenerator"%string /\ choose_layout m o = Ok (Return (-1) Nothing) \/ k <> "layoutgenerator"%string /\
     (choose_layout m o = Ok (Return (-1) Nothing) \/ exists lm, choose_layout m o = Ok (On lm))).
  { destruct (String.eqb_spec k "layoutgenerator") as [->|Nk].
    - left. split; [reflexivity|]. unfold choose_layout. assert (X : has o "layoutgenerator" = true) by (unfold has; now rewrite E). rewrite X.
      now rewrite (unknown_returns _ _ _ _ ACompact v layout_table E N).
    - right. split; [exact Nk|]. unfold choose_layout. destruct (has o "layoutgenerator") eqn:X.
      + destruct (choose_cases _ o "layoutgenerator" layout_of_name ACompact) as [[_ C]|[(w & a & _ & _ & C)|(w & _ & _ & C)]]; rewrite C; cbn; eauto.
      + destruct (has o "l") eqn:Y; [|eauto]. unfold has in Y. destruct (o "l"%string) as [name|] eqn:Z; [|discriminate].
        destruct (Hl X name Z) as (t & L & G & P). unfold get. rewrite Z, G, P. cbn. eauto. }
  destruct Cl as [[-> C]|[Nk [C|[lm C]]]].
  1,2: unfold first_checks; rewrite C; cbn; auto.
  cbn in Hk. destruct Hk as [Hk|[<-|Hk]]; [congruence| |].
  - unfold first_checks. rewrite C. cbn [sbind bind]. rewrite (unknown_returns _ _ _ _ Lli v format_table E N). cbn. auto.
  - unfold first_checks. rewrite C. cbn [sbind bind].
    destruct (choose_cases _ o "input-format" format_of_name Lli) as [[_ C2]|[(w & a & _ & _ & C2)|(w & _ & _ & C2)]]; rewrite C2; cbn [sbind bind]; auto.
    all: cbn [pr_default pr_opened]; unfold choose_modes; cbv zeta.
    all: destruct Hk as [<-|Hk]; [rewrite (unknown_returns _ _ _ _ _ v output_table E N); cbn; auto|].
    all: destruct (choose_cases _ o "f" output_of_name (if has o "o" || has o "noslices" then Progress else NoProgress)) as [[_ C3]|[(w3 & a3 & _ & _ & C3)|(w3 & _ & _ & C3)]];
         rewrite C3; cbn [sbind bind]; auto.
    all: destruct (has o "f" && negb (has o "o" || has o "noslices")); [cbn; auto|].
    all: destruct Hk as [<-|Hk]; [rewrite (unknown_returns _ _ _ _ _ v dag_table E N); cbn; auto|].
    all: destruct (choose_cases _ o "printdag" dag_of_name NoDag) as [[_ C4]|[(w4 & a4 & _ & _ & C4)|(w4 & _ & _ & C4)]]; rewrite C4; cbn [sbind bind]; auto.
    all: destruct Hk as [<-|[]]; rewrite (unknown_returns _ _ _ _ _ v pipeline_table E N); cbn; auto.
Qed.

(** The options looked at last.  Unless the run was to print a graph or the program instead of slicing, it does not slice,
    and when it returns, it returns -1 and shows nothing. *)
Theorem C50_late_rejected : forall fuel m o p k v, has o "help" = false -> has o "printdag" = false ->
  In k late_options -> o k = Some v -> ~ taken_values k v ->
  (k = "printlli" \/ o "printlli" = None \/ o "printlli" = Some (lit "sliced"))%string ->
  match snd (slicer fuel false m o p) with
  | Ok (On _) => False
  | Ok (Return c sh) => c = -1 /\ sh = Nothing
  | _ => True
  end.
Proof.
  intros fuel m o p k v Hh Hd Hk E N Hp.
  destruct (slicer fuel false m o p) as [p' r] eqn:Sl. cbn [snd]. destruct r as [[c sh|j]| | |]; auto.
  2:{ destruct (C50_only_known_values _ _ _ _ _ _ _ Sl) as [K _]. apply N, K; auto. apply in_or_app. auto. }
  assert (Rc : forall A kk (table : text -> option A) d c sh, choose o kk table d = Ok (Return c sh) -> c = -1 /\ sh = Nothing).
  { intros A kk table d c1 sh1 H. destruct (choose_cases A o kk table d) as [[_ C]|[(w & a & _ & _ & C)|(w & _ & _ & C)]]; rewrite C in H; try discriminate.
    injection H as <- <-. auto. }
  assert (Rb : forall A B (x : outcome (stage A)) (f : A -> outcome (stage B)) c sh, sbind x f = Ok (Return c sh) ->
    x = Ok (Return c sh) \/ exists a, x = Ok (On a) /\ f a = Ok (Return c sh)).
  { intros A B x f c1 sh1 H. unfold sbind in H. destruct x as [[c2 s2|a]| | |]; cbn in H; try discriminate; [injection H as <- <-; auto|eauto]. }
  unfold SlicerModel.slicer in Sl. rewrite Hh in Sl. fold (first_checks m o) in Sl.
  destruct (first_checks m o) as [[c1 s1|[lm f]]| | |] eqn:F; try discriminate.
  { injection Sl as <- <- <-. unfold first_checks in F. apply Rb in F. destruct F as [F|(lm & F & G)].
    - unfold choose_layout in F. destruct (has o "layoutgenerator").
      + apply Rb in F. destruct F as [F|(a & F & G)]; [eauto|discriminate].
      + destruct (has o "l"); [|discriminate]. destruct (mc_file m (get o "l")); [|discriminate]. destruct (layout_from_spec _ _); discriminate.
    - apply Rb in G. destruct G as [G|(f & F2 & G)]; [eauto|discriminate]. }
  cbn [pr_default pr_opened] in Sl. fold (middle fuel (pr_default p) m o lm f) in Sl.
  destruct (middle fuel (pr_default p) m o lm f) as [[c1 s1|[[[[[om dag] pl] L] s] valid]]| | |] eqn:M; try discriminate.
  { injection Sl as <- <- <-. unfold middle in M. apply Rb in M. destruct M as [M|([[om dag] pl] & M1 & M)].
    { unfold choose_modes in M. cbv zeta in M. apply Rb in M. destruct M as [M|(x & _ & M)]; [eauto|].
      destruct (_ && _) in M; [injection M as <- <-; auto|]. apply Rb in M. destruct M as [M|(y & _ & M)]; [eauto|].
      apply Rb in M. destruct M as [M|(z & _ & M)]; [eauto|discriminate]. }
    apply modes_on in M1. destruct M1 as (_ & _ & D & _). assert (dag = NoDag) as ->.
    { apply choose_on in D. destruct D as [[_ D]|(w & D & _)]; [exact D|]. unfold has in Hd. rewrite D in Hd. discriminate. }
    apply Rb in M. destruct M as [M|(inp & _ & M)].
    { unfold choose_input in M. destruct (has o "i"); [|discriminate]. destruct (mc_file m (get o "i")); [discriminate|]. injection M as <- <-. auto. }
    apply Rb in M. destruct M as [M|(s0 & _ & M)].
    { unfold open_source in M. cbv zeta in M. destruct f.
      - destruct (open_stream _); discriminate.
      - destruct (open_gate_file _ _); try discriminate. cbn [bind] in M. apply Rb in M. destruct M as [M|(q & _ & M)]; [eauto|].
        destruct (value_ _); discriminate.
      - destruct (mc_pandora _ _) as [[gs q]| | |]; try discriminate. cbn [bind] in M. apply Rb in M. destruct M as [M|(q' & _ & M)]; [eauto|discriminate]. }
    apply Rb in M. destruct M as [M|([[L s] vd] & _ & M)]; [|discriminate].
    unfold make_layout in M. cbv zeta in M. destruct lm as [[| |]|L0].
    1,2: destruct (has o "notwists"); [injection M as <- <-; auto|]; destruct (make_compact_layout _ _ _); try discriminate; cbn [bind] in M;
           destruct (exposed_core _ _); discriminate.
    - destruct (EdpcModel.make_edpc_layout _ _); discriminate.
    - destruct (_ && _) in M; [injection M as <- <-; auto|discriminate]. }
  apply middle_on in M. destruct M as (inp & s0 & M1 & _). apply modes_on in M1. destruct M1 as (_ & _ & D & _). assert (dag = NoDag) as ->.
  { apply choose_on in D. destruct D as [[_ D]|(w & D & _)]; [exact D|]. unfold has in Hd. rewrite D in Hd. discriminate. }
  injection Sl as <- La. unfold SlicerModel.last_checks in La. destruct (negb valid); [discriminate|].
  apply Rb in La. destruct La as [La|(lli & Ll & La)]; [eauto|].
  assert (lli <> LliBefore).
  { apply choose_on in Ll. destruct Ll as [[_ ->]|(w & W & T)]; [discriminate|]. intros ->. destruct Hp as [->|[Hp|Hp]].
    - apply N. apply lli_table. assert (w = v) by congruence. subst. congruence.
    - congruence.
    - assert (w = lit "sliced") by congruence. subst w. vm_compute in T. discriminate. }
  assert (La' : (let? cached := choose o "r" router_of_name false in
      let? pr := choose o "g" provider_of_name Djikstra in
      Ok (On (mkJob L s pl (has o "local") (negb (has o "notwists")) cached pr
        (if has o "t" then Some (mc_num m (get o "t")) else None) (has o "graceful")
        (has o "op-ids" || match f with Pandora => true | _ => false end)
        om (has o "o" || has o "noslices") (negb (has o "noslices") && match lli with NoLli => true | _ => false end) lli (o "o"%string)))) = Ok (Return c sh)).
  { destruct lli; try contradiction; exact La. }
  clear La. apply Rb in La'. destruct La' as [La|(ca & _ & La)]; [eauto|]. apply Rb in La. destruct La as [La|(pp & _ & La)]; [eauto|discriminate].
Qed.

(** With values that are taken, a readable input and no conflict between -f, the outputs and --notwists, a run does not return -1. *)
Theorem C50_accepted : forall fuel m o p c sh,
  (forall k v, In k ("cnotcorrections"%string :: early_options ++ late_options) -> o k = Some v -> taken_values k v) ->
  (has o "f" = true -> has o "o" = true \/ has o "noslices" = true) ->
  (forall name, o "i"%string = Some name -> mc_file m name <> None) -> has o "notwists" = false ->
  snd (slicer fuel false m o p) = Ok (Return c sh) -> c = 0.
Proof.
  intros fuel m o p c sh Hv Hf Hi Ht Sl.
  assert (Kn : forall A k (table : text -> option A) d, reads_table k table -> In k ("cnotcorrections"%string :: early_options ++ late_options) ->
    exists a, choose o k table d = Ok (On a)).
  { intros A k table d T I. apply known_goes_on; auto. }
  unfold SlicerModel.slicer in Sl. destruct (has o "help"); [injection Sl as <- <-; reflexivity|]. fold (first_checks m o) in Sl.
  destruct (first_checks m o) as [[c1 s1|[lm f]]| | |] eqn:F; try discriminate.
  { exfalso. unfold first_checks, choose_layout in F. destruct (Kn _ _ _ ACompact layout_table ltac:(cbn; tauto)) as [a Ea].
    destruct (Kn _ _ _ Lli format_table ltac:(cbn; tauto)) as [b Eb]. destruct (has o "layoutgenerator").
    - rewrite Ea in F. cbn [sbind bind] in F. rewrite Eb in F. discriminate.
    - destruct (has o "l").
      + destruct (mc_file m (get o "l")); [|discriminate]. destruct (layout_from_spec _ _); try discriminate. cbn [sbind bind] in F. rewrite Eb in F. discriminate.
      + cbn [sbind bind] in F. rewrite Eb in F. discriminate. }
  cbn [pr_default pr_opened] in Sl. fold (middle fuel (pr_default p) m o lm f) in Sl.
  destruct (middle fuel (pr_default p) m o lm f) as [[c1 s1|[[[[[om dag] pl] L] s] valid]]| | |] eqn:M; try discriminate; cbn [snd] in Sl.
  { injection Sl as -> ->. unfold middle, choose_modes in M. cbv zeta in M.
    destruct (Kn _ _ _ (if has o "o" || has o "noslices" then Progress else NoProgress) output_table ltac:(cbn; tauto)) as [a1 E1].
    destruct (Kn _ _ _ NoDag dag_table ltac:(cbn; tauto)) as [a2 E2]. destruct (Kn _ _ _ PStream pipeline_table ltac:(cbn; tauto)) as [a3 E3].
    destruct (Kn _ _ _ CorrNever corrections_table ltac:(cbn; tauto)) as [a4 E4].
    rewrite E1 in M. cbn [sbind bind] in M. assert (X : has o "f" && negb (has o "o" || has o "noslices") = false).
    { destruct (has o "f"); [|reflexivity]. destruct (Hf eq_refl) as [->| ->]; [reflexivity|]. now rewrite orb_true_r. }
    rewrite X in M. rewrite E2 in M. cbn [sbind bind] in M. rewrite E3 in M. cbn [sbind bind] in M.
    assert (Ii : exists inp, choose_input m o = Ok (On inp)).
    { unfold choose_input, has, get. destruct (o "i"%string) as [name|] eqn:Ei; [|eauto]. specialize (Hi name eq_refl).
      destruct (mc_file m name); [eauto|contradiction]. }
    destruct Ii as [inp Ii]. rewrite Ii in M. cbn [sbind bind] in M.
    destruct (open_source fuel (pr_default p) m o f a2 inp) as [[c2 s2|st]| | |] eqn:So; try discriminate; cbn [sbind bind] in M.
    - injection M as -> ->. unfold open_source in So. cbv zeta in So. rewrite E4 in So. cbn [sbind bind] in So. destruct f.
      + destruct (open_stream _); try discriminate. cbn [bind] in So. destruct a2; try discriminate. destruct (ReadModel.drain _ _); try discriminate.
        injection So as <- _. reflexivity.
      + destruct (open_gate_file _ _); try discriminate. cbn [bind] in So. destruct a2.
        * destruct (value_ _); discriminate.
        * destruct (drain_file _ _ _) as [[]| | |]; try discriminate. injection So as <- _. reflexivity.
        * destruct (value_ _); discriminate.
      + destruct (mc_pandora _ _) as [[gs q]| | |]; try discriminate. cbn [bind] in So. destruct a2; try discriminate. injection So as <- _. reflexivity.
    - exfalso. destruct (make_layout m o lm a3 st) as [[c2 s2|[[L s] vd]]| | |] eqn:Ml; try discriminate.
      unfold make_layout in Ml. cbv zeta in Ml. rewrite Ht in Ml. destruct lm as [[| |]|L0].
      1,2: destruct (make_compact_layout _ _ _); try discriminate; cbn [bind] in Ml; destruct (exposed_core _ _); discriminate.
      + destruct (EdpcModel.make_edpc_layout _ _); discriminate.
      + discriminate. }
  unfold SlicerModel.last_checks in Sl. destruct (negb valid); [discriminate|].
  destruct (Kn _ _ _ NoLli lli_table ltac:(cbn; tauto)) as [a1 E1]. destruct (Kn _ _ _ false router_table ltac:(cbn; tauto)) as [a2 E2].
  destruct (Kn _ _ _ Djikstra provider_table ltac:(cbn; tauto)) as [a3 E3].
  rewrite E1 in Sl. cbn [sbind bind] in Sl. rewrite E2 in Sl. cbn [sbind bind] in Sl. rewrite E3 in Sl. cbn [sbind bind] in Sl.
  destruct a1, dag; try discriminate; destruct (instructions _ _ _ _ _) as [[l cc]| | |] in Sl; try discriminate; injection Sl as <- _; reflexivity.
Qed.

(** [-f noprogress], which the help text names, is always rejected, and [-f noprogres] is taken. *)
Theorem C50_noprogress_refuted : names "f" (lit "noprogress") /\ ~ names "f" (lit "noprogres")
  /\ (forall fuel m o p, has o "help" = false -> layout_readable m o -> o "f"%string = Some (lit "noprogress") ->
        snd (slicer fuel false m o p) = Ok (Return (-1) Nothing))
  /\ output_of_name (lit "noprogres") = Some NoProgress.
Proof.
  split; [exists "noprogress"%string; split; [listed|reflexivity]|]. split.
  { intros (s & Hs & E). apply lit_inj in E. subst s. cbn in Hs. intuition discriminate. }
  split; [|reflexivity]. intros fuel m o p Hh Hl E. apply (C50_unknown_rejected fuel m o p "f" (lit "noprogress")); auto; [cbn; tauto|].
  intros [[_ X]|[[_ X]|[[X|[X|X]] _]]]; try discriminate. now apply X.
Qed.

(** A rejection may come after the output file has been opened, and so emptied: whatever is wrong with -f, --printdag or the pipeline. *)
Theorem C50_file_emptied_refuted : forall fuel m o p k v, has o "help" = false -> layout_readable m o ->
  (forall k v, In k ["layoutgenerator"; "input-format"]%string -> o k = Some v -> taken_values k v) ->
  In k ["f"; "printdag"; "pipeline"]%string -> o k = Some v -> ~ taken_values k v -> has o "o" = true ->
  snd (slicer fuel false m o p) = Ok (Return (-1) Nothing) /\ pr_opened (fst (slicer fuel false m o p)) = o "o"%string.
Proof.
  intros fuel m o p k v Hh Hl Hg Hk E N Ho.
  split; [apply (C50_unknown_rejected fuel m o p k v); auto; cbn in *; tauto|].
  unfold SlicerModel.slicer. rewrite Hh. fold (first_checks m o).
  assert (F : exists lm f, first_checks m o = Ok (On (lm, f))).
  { unfold first_checks. destruct (known_goes_on _ "input-format" format_of_name o Lli format_table) as [f Ef]; [intros; apply Hg; cbn; auto|].
    unfold choose_layout. destruct (has o "layoutgenerator") eqn:X.
    - destruct (known_goes_on _ "layoutgenerator" layout_of_name o ACompact layout_table) as [a Ea]; [intros; apply Hg; cbn; auto|].
      rewrite Ea. cbn [sbind bind]. rewrite Ef. cbn. eauto.
    - destruct (has o "l") eqn:Y.
      + unfold has in Y. destruct (o "l"%string) as [name|] eqn:Z; [|discriminate]. destruct (Hl X name Z) as (t & L & G & P).
        unfold get. rewrite Z, G, P. cbn [sbind bind]. rewrite Ef. cbn. eauto.
      + cbn [sbind bind]. rewrite Ef. cbn. eauto. }
  destruct F as (lm & f & ->). cbn [pr_default pr_opened]. rewrite Ho. fold (middle fuel (pr_default p) m o lm f).
  destruct (middle fuel (pr_default p) m o lm f) as [[c1 s1|[[[[[om dag] pl] L] s] valid]]| | |]; reflexivity.
Qed.

(** The run as its three parts. *)
Definition finish fuel (m : machine) (o : options) (p : process) lm f : process * outcome (stage job) :=
  match middle fuel (pr_default p) m o lm f with
  | Ok (On (om, dag, pl, L, s, valid)) =>
      let d := match l_ancilla L with [] => NextToTarget | _ => pr_default p end in
      (mkProc d (pr_opened p), last_checks fuel d m o f om dag pl L s valid)
  | Ok (Return c sh) => (p, Ok (Return c sh))
  | Throw x => (p, Throw x) | UB u => (p, UB u) | Fuel => (p, Fuel)
  end.
Lemma slicer_parts : forall fuel m o p, slicer fuel false m o p =
  if has o "help" then (p, Ok (Return 0 Help)) else
  match first_checks m o with
  | Ok (On (lm, f)) => finish fuel m o (mkProc (pr_default p) (if has o "o" then o "o"%string else pr_opened p)) lm f
  | Ok (Return c sh) => (p, Ok (Return c sh))
  | Throw x => (p, Throw x) | UB u => (p, UB u) | Fuel => (p, Fuel)
  end.
Proof. reflexivity. Qed.
Lemma first_format : forall m o lm f, first_checks m o = Ok (On (lm, f)) -> choose o "input-format" format_of_name Lli = Ok (On f).
Proof.
  intros m o lm f H. unfold first_checks in H. apply sbind_on in H. destruct H as (x & _ & H). apply sbind_on in H. destruct H as (y & E & H).
  injection H as _ <-. exact E.
Qed.
(** A given option added to a command line. *)
Definition with_option (k : string) (v : text) (o : options) : options := fun k' => if String.eqb k' k then Some v else o k'.

(** For LLI input the CNOT corrections may be anything. *)
Theorem C50_corrections_refuted : forall fuel m o p v, o "input-format"%string = None ->
  slicer fuel false m (with_option "cnotcorrections" v o) p = slicer fuel false m (without "cnotcorrections" o) p.
Proof.
  intros fuel m o p v E. rewrite !slicer_parts. change (has (with_option "cnotcorrections" v o) "help") with (has (without "cnotcorrections" o) "help").
  destruct (has (without "cnotcorrections" o) "help"); [reflexivity|].
  change (first_checks m (with_option "cnotcorrections" v o)) with (first_checks m (without "cnotcorrections" o)).
  destruct (first_checks m (without "cnotcorrections" o)) as [[c sh|[lm f]]| | |] eqn:F; try reflexivity.
  apply first_format in F. unfold choose in F. change (without "cnotcorrections" o "input-format"%string) with (o "input-format"%string) in F. rewrite E in F.
  injection F as <-. reflexivity.
Qed.

(** --printdag input: neither the router nor the search nor --printlli is looked at. *)
Theorem C50_printdag_refuted : forall fuel m o p k v, In k late_options ->
  o "printdag"%string = Some (lit "input") -> slicer fuel false m (with_option k v o) p = slicer fuel false m (without k o) p.
Proof.
  intros fuel m o p k v Hk Hd. rewrite !slicer_parts.
  assert (X : forall k', ~ In k' late_options -> with_option k v o k' = without k o k').
  { intros k' N. unfold with_option, without. destruct (String.eqb_spec k' k); [subst; contradiction|reflexivity]. }
  assert (H1 : has (with_option k v o) "help" = has (without k o) "help").
  { unfold has. rewrite X; [reflexivity|]. cbn. intuition discriminate. }
  assert (H2 : forall x, ~ In x late_options -> has (with_option k v o) x = has (without k o) x) by (intros x N; unfold has; now rewrite X).
  rewrite H1. destruct (has (without k o) "help"); [reflexivity|].
  assert (F : first_checks m (with_option k v o) = first_checks m (without k o)).
  { cbn in Hk. destruct Hk as [<-|[<-|[<-|[]]]]; reflexivity. }
  rewrite F. destruct (first_checks m (without k o)) as [[c1 sh1|[lm f]]| | |]; try reflexivity.
  set (p1 := mkProc _ _). set (p2 := mkProc _ _). assert (p1 = p2) as ->.
  { unfold p1, p2. rewrite H2 by (cbn; intuition discriminate). now rewrite X by (cbn; intuition discriminate). }
  assert (M : middle fuel (pr_default p2) m (with_option k v o) lm f = middle fuel (pr_default p2) m (without k o) lm f).
  { cbn in Hk. destruct Hk as [<-|[<-|[<-|[]]]]; reflexivity. }
  unfold finish. rewrite M. destruct (middle fuel (pr_default p2) m (without k o) lm f) as [[c1 sh1|[[[[[om dag] pl] L] s] valid]]| | |] eqn:Mi; try reflexivity.
  exfalso. apply middle_on in Mi. destruct Mi as (inp & s0 & Mo & _ & So & _). apply modes_on in Mo. destruct Mo as (_ & _ & D & _).
  assert (D2 : without k o "printdag"%string = Some (lit "input")).
  { unfold without. cbn in Hk. destruct Hk as [<-|[<-|[<-|[]]]]; cbn; exact Hd. }
  unfold choose in D. rewrite D2 in D. vm_compute in D. injection D as <-.
  unfold open_source in So. cbv zeta in So. destruct f.
  - destruct (open_stream _); try discriminate. cbn [bind] in So. destruct (ReadModel.drain _ _); discriminate.
  - destruct (open_gate_file _ _); try discriminate. cbn [bind] in So. destruct (drain_file _ _ _) as [[]| | |]; discriminate.
  - destruct (mc_pandora _ _) as [[]| | |]; discriminate.
Qed.

(** -L makes -l go unnoticed, although they are said to be incompatible. *)
Theorem C50_layout_file_ignored_refuted : forall fuel m o p name, has o "layoutgenerator" = true ->
  slicer fuel false m (with_option "l" name o) p = slicer fuel false m (without "l" o) p.
Proof.
  intros fuel m o p name E. rewrite !slicer_parts. change (has (with_option "l" name o) "help") with (has (without "l" o) "help").
  destruct (has (without "l" o) "help"); [reflexivity|].
  assert (F : first_checks m (with_option "l" name o) = first_checks m (without "l" o)).
  { unfold first_checks, choose_layout. change (has (with_option "l" name o) "layoutgenerator") with (has o "layoutgenerator").
    change (has (without "l" o) "layoutgenerator") with (has o "layoutgenerator"). rewrite E. reflexivity. }
  rewrite F. destruct (first_checks m (without "l" o)) as [[c sh|[lm f]]| | |]; reflexivity.
Qed.

(** The EDPC pipeline without the EDPC layout is not reported with an error code: where the stream pipeline would run, an exception is thrown. *)
Theorem C50_edpc_throws_refuted : forall fuel m o p p' j, has o "layoutgenerator" = false ->
  slicer fuel false m (without "pipeline" o) p = (p', Ok (On j)) ->
  slicer fuel false m (with_option "pipeline" (lit "edpc") o) p = (p', Throw RuntimeError).
Proof.
  intros fuel m o p p' j Hl H. rewrite slicer_parts in *. change (has (with_option "pipeline" (lit "edpc") o) "help") with (has (without "pipeline" o) "help").
  destruct (has (without "pipeline" o) "help"); [discriminate|].
  change (first_checks m (with_option "pipeline" (lit "edpc") o)) with (first_checks m (without "pipeline" o)).
  destruct (first_checks m (without "pipeline" o)) as [[c sh|[lm f]]| | |] eqn:F; try discriminate.
  change (if has (with_option "pipeline" (lit "edpc") o) "o" then with_option "pipeline" (lit "edpc") o "o"%string else pr_opened p)
    with (if has (without "pipeline" o) "o" then without "pipeline" o "o"%string else pr_opened p).
  set (q := mkProc _ _) in *. unfold finish in *.
  destruct (middle fuel (pr_default q) m (without "pipeline" o) lm f) as [[c1 sh1|[[[[[om dag] pl] L] s] valid]]| | |] eqn:M; try discriminate.
  assert (Lm : lm <> Auto AEdpc).
  { unfold first_checks in F. apply sbind_on in F. destruct F as (x & F & G). apply sbind_on in G. destruct G as (y & _ & G). injection G as -> _.
    unfold choose_layout in F. change (has (without "pipeline" o) "layoutgenerator") with (has o "layoutgenerator") in F. rewrite Hl in F.
    destruct (has (without "pipeline" o) "l"); [|injection F as <-; discriminate].
    destruct (mc_file m _); [|discriminate]. destruct (layout_from_spec _ _); try discriminate. cbn in F. injection F as <-. discriminate. }
  apply middle_on in M. destruct M as (inp & s0 & Mo & Mi & So & Ml). apply modes_on in Mo. destruct Mo as (Mf & Mo & Md & Mp).
  assert (M2 : exists s', middle fuel (pr_default q) m (with_option "pipeline" (lit "edpc") o) lm f = Ok (On (om, dag, PEdpc, L, s', false))).
  { unfold middle. assert (Cm : choose_modes (with_option "pipeline" (lit "edpc") o) = Ok (On (om, dag, PEdpc))).
    { unfold choose_modes. cbv zeta.
      change (choose (with_option "pipeline" (lit "edpc") o) "f" output_of_name
          (if has (with_option "pipeline" (lit "edpc") o) "o" || has (with_option "pipeline" (lit "edpc") o) "noslices" then Progress else NoProgress))
        with (choose (without "pipeline" o) "f" output_of_name (if has (without "pipeline" o) "o" || has (without "pipeline" o) "noslices" then Progress else NoProgress)).
      rewrite Mf. cbn [sbind bind].
      change (has (with_option "pipeline" (lit "edpc") o) "f" && negb (has (with_option "pipeline" (lit "edpc") o) "o" || has (with_option "pipeline" (lit "edpc") o) "noslices"))
        with (has (without "pipeline" o) "f" && negb (has (without "pipeline" o) "o" || has (without "pipeline" o) "noslices")).
      assert (X : has (without "pipeline" o) "f" && negb (has (without "pipeline" o) "o" || has (without "pipeline" o) "noslices") = false).
      { destruct (has (without "pipeline" o) "f"); [|reflexivity]. destruct (Mo eq_refl) as [-> | ->]; [reflexivity|]. now rewrite orb_true_r. }
      rewrite X. change (choose (with_option "pipeline" (lit "edpc") o) "printdag" dag_of_name NoDag) with (choose (without "pipeline" o) "printdag" dag_of_name NoDag).
      rewrite Md. reflexivity. }
    rewrite Cm. cbn [sbind bind]. change (choose_input m (with_option "pipeline" (lit "edpc") o)) with (choose_input m (without "pipeline" o)). rewrite Mi. cbn [sbind bind].
    change (open_source fuel (pr_default q) m (with_option "pipeline" (lit "edpc") o) f dag inp) with (open_source fuel (pr_default q) m (without "pipeline" o) f dag inp).
    rewrite So. cbn [sbind bind]. unfold make_layout in *. cbv zeta in *.
    change (has (with_option "pipeline" (lit "edpc") o) "notwists") with (has (without "pipeline" o) "notwists").
    change (distillation_options m (with_option "pipeline" (lit "edpc") o)) with (distillation_options m (without "pipeline" o)).
    destruct lm as [[| |]|L0]; [| |congruence|].
    1,2: destruct (has (without "pipeline" o) "notwists"); [discriminate|]; destruct (make_compact_layout _ _ _); try discriminate; cbn [bind] in *;
         destruct (exposed_core _ _); try discriminate; cbn [sbind bind] in *; injection Ml as <- <- _; eauto.
    destruct (_ && _) in *; [discriminate|]. injection Ml as <- <- _. cbn [sbind bind]. eauto. }
  destruct M2 as [s' M2]. rewrite M2. injection H as <- _. reflexivity.
Qed.
End Slicer.
Print Assumptions C50_only_known_values.
Print Assumptions C50_meaning.
Print Assumptions C50_layout.
Print Assumptions C50_circuit.
Print Assumptions C50_unknown_rejected.
Print Assumptions C50_late_rejected.
Print Assumptions C50_accepted.
Print Assumptions C50_noprogress_refuted.
Print Assumptions C50_file_emptied_refuted.
Print Assumptions C50_corrections_refuted.
Print Assumptions C50_printdag_refuted.
Print Assumptions C50_layout_file_ignored_refuted.
Print Assumptions C50_edpc_throws_refuted.

(** A machine with a small LLI program on its standard input, and command lines for it. *)
Definition ex_lines (l : list string) : text := flat_map (fun s => lit s ++ [ascii_of_nat 10]) l.
Definition ex_mach (input : text) : machine :=
  mkMach (fun _ => None) input 7 (fun _ => Throw RuntimeError) (fun _ => 1%N) (fun _ => false).
Definition ex_lli : machine := ex_mach (ex_lines ["DeclareLogicalQubitPatches 0,1"; "HGate 0"; "MeasureSinglePatch 0 Z"]%string).
Fixpoint line_of (l : list (string * string)) : options := fun k =>
  match l with [] => None | (k', v) :: r => if String.eqb k k' then Some (lit v) else line_of r k end.
Definition ex_run (l : list (string * string)) : process * outcome (stage job) :=
  slicer (fun _ => Throw RuntimeError) false 30 false ex_lli (line_of l) (mkProc DedicatedCell None).
(** A run that is sliced by the wave pipeline with the cached router, one with an unknown search, which is rejected, and one with
    nonsense for a router that succeeds in printing a graph. *)
Example C50_ex : (exists p j, ex_run [("pipeline", "wave"); ("r", "graph_search_cached"); ("o", "f"); ("f", "machine")]%string = (p, Ok (On j))
    /\ j_pipeline j = PWave /\ j_cached j = true /\ j_output j = Machine /\ pr_opened p = Some (lit "f"))
  /\ snd (ex_run [("g", "dijkstra")]%string) = Ok (Return (-1) Nothing)
  /\ (exists l, snd (ex_run [("printdag", "input"); ("r", "nonsense")]%string) = Ok (Return 0 (LliGraph l)) /\ length l = 2%nat)
  /\ ex_run [("pipeline", "edpc")]%string = (mkProc DedicatedCell None, Throw RuntimeError)
  /\ ~ taken_values "r" (lit "nonsense").
Proof.
  split; [do 2 eexists; split; [vm_compute; reflexivity|]; repeat split|].
  split; [vm_compute; reflexivity|]. split; [eexists; split; [vm_compute; reflexivity|reflexivity]|].
  split; [vm_compute; reflexivity|].
  intros H. apply router_table in H. apply H. reflexivity.
Qed.

(** The EDPC pipeline takes neither the cached router nor the Boost search, and this is not checked with the options: the job is accepted and
    then fails with an exception before the first slice, whatever the program. *)
Theorem C50_edpc_router_refuted :
  (forall ops j, j_pipeline j = PEdpc -> j_cached j = true \/ j_provider j = Boost -> forall w, job_world ops j <> Ok w)
  /\ (exists p j, ex_run [("layoutgenerator", "edpc"); ("local", ""); ("pipeline", "edpc"); ("r", "graph_search_cached")]%string = (p, Ok (On j))
       /\ j_pipeline j = PEdpc /\ j_cached j = true /\ job_world 0 j = Throw LogicError)
  /\ (exists p j, ex_run [("layoutgenerator", "edpc"); ("local", ""); ("pipeline", "edpc"); ("g", "boost")]%string = (p, Ok (On j))
       /\ j_pipeline j = PEdpc /\ j_provider j = Boost /\ job_world 0 j = Throw LogicError)
  /\ exists p j w, ex_run [("layoutgenerator", "edpc"); ("local", ""); ("pipeline", "edpc")]%string = (p, Ok (On j)) /\ j_pipeline j = PEdpc /\ job_world 0 j = Ok w.
Proof.
  split.
  - intros ops j P B w H. unfold job_world, job_refused in H. rewrite P in H.
    assert (R : j_cached j || match j_provider j with Boost => true | _ => false end = true) by (destruct B as [-> | ->]; [reflexivity|apply orb_true_r]).
    rewrite R in H. destruct (SliceModel.new_slice _ _); discriminate.
  - split; [do 2 eexists; split; [vm_compute; reflexivity|]; repeat split|].
    split; [do 2 eexists; split; [vm_compute; reflexivity|]; repeat split|].
    do 3 eexists. split; [vm_compute; reflexivity|]. split; [reflexivity|vm_compute; reflexivity].
Qed.
Print Assumptions C50_edpc_router_refuted.

(** Three command lines: a layout without twists, the default one, and one that does not fit. *)
Example C50_layout_ex :
  (exists p j, ex_run [("layoutgenerator", "edpc"); ("notwists", ""); ("nostagger", "")]%string = (p, Ok (On j)) /\ st_passes (j_stream j) = CatalyticPasses
     /\ l_ystates (j_layout j) <> [] /\ length (st_core (j_stream j)) = 2%nat)
  /\ (exists p j e, ex_run [] = (p, Ok (On j)) /\ st_passes (j_stream j) = CompactPasses e /\ l_ystates (j_layout j) = [])
  /\ snd (ex_run [("notwists", "")]%string) = Ok (Return (-1) Nothing).
Proof.
  split; [do 2 eexists; split; [vm_compute; reflexivity|]; split; [reflexivity|]; split; [discriminate|reflexivity]|].
  split; [do 3 eexists; split; [vm_compute; reflexivity|]; split; reflexivity|vm_compute; reflexivity].
Qed.
