(** C57: what a run depends on.  The default placement of CNOT ancillas and the counter of operation ids are static. *)
From Verif Require Import Base TextModel PatchesModel LayoutModel InstrModel ReadModel GatesModel LoweringModel SliceModel RouterModel ApplyModel RunModel.
From Verif Require Import SlicerModel SlicerSpec SlicerProps.
From Verif Require Import SliceSpec SliceProofs BellProps.
Open Scope Z_scope.

(** ** Gates up to the placement of their ancilla *)
Definition forget (g : gate) : gate :=
  match g with GControlled c t ct _ => GControlled c t ct DedicatedCell | _ => g end.
Definition omap {A B} (f : A -> B) (x : outcome A) : outcome B :=
  match x with Ok a => Ok (f a) | Throw e => Throw e | UB u => UB u | Fuel => Fuel end.
Definition forget_result (r : parse_result) : parse_result := match r with PGate g => PGate (forget g) | _ => r end.
Definition forget_file (f : gate_file) : gate_file :=
  mkGF (gf_lines f) (gf_qreg f) (match gf_next f with Some g => Some (forget g) | None => None end).

Lemma omap_bind : forall A B C (x : outcome A) (k : A -> outcome B) (f : B -> C), omap f (bind x k) = bind x (fun a => omap f (k a)).
Proof. intros A B C [a| | |] k f; reflexivity. Qed.
Lemma bind_ext : forall A B (x : outcome A) (k k' : A -> outcome B), (forall a, k a = k' a) -> bind x k = bind x k'.
Proof. intros A B [a| | |] k k' H; cbn; auto. Qed.
Lemma parse_qasm_forget : forall d d' l, omap forget (parse_qasm_gate d l) = omap forget (parse_qasm_gate d' l).
Proof.
  intros d d' l. unfold parse_qasm_gate. destruct (basic_of_name (ln_instr l)); [reflexivity|].
  destruct (text_eqb (ln_instr l) (lit "cx")).
  { destruct (ln_args l) as [|a [|b [|]]]; try reflexivity. rewrite !omap_bind. apply bind_ext. intros t. rewrite !omap_bind. apply bind_ext. intros c. reflexivity. }
  destruct (text_eqb (ln_instr l) (lit "cz")).
  { destruct (ln_args l) as [|a [|b [|]]]; try reflexivity. rewrite !omap_bind. apply bind_ext. intros t. rewrite !omap_bind. apply bind_ext. intros c. reflexivity. }
  destruct (strip_prefix (lit "rz") (ln_instr l)); [reflexivity|].
  destruct (strip_prefix (lit "crz") (ln_instr l)) as [r|]; [|reflexivity]. destruct (strip_prefix (lit "(pi/") r); [|reflexivity].
  do 6 (rewrite !omap_bind; apply bind_ext; intros). reflexivity.
Qed.
Lemma parse_forget : forall d d' l, omap forget_result (parse_gate d l) = omap forget_result (parse_gate d' l).
Proof.
  intros d d' l. unfold parse_gate. rewrite !omap_bind. apply bind_ext. intros c0. rewrite !omap_bind. apply bind_ext. intros cm.
  destruct cm; [reflexivity|]. rewrite !omap_bind. apply bind_ext. intros ql. destruct (is_ignored_instruction (ln_instr ql)); [reflexivity|].
  destruct (text_eqb (ln_instr ql) (lit "qreg")); [reflexivity|]. rewrite !omap_bind. cbn [omap forget_result].
  pose proof (parse_qasm_forget d d' ql) as H. destruct (parse_qasm_gate d ql), (parse_qasm_gate d' ql); cbn in *; congruence.
Qed.
Lemma advance_forget : forall d d' lines q, omap forget_file (advance_gate d lines q) = omap forget_file (advance_gate d' lines q).
Proof.
  intros d d' lines. induction lines as [|l r IH]; intros q; [reflexivity|]. cbn [advance_gate]. destruct l as [|ch l]; [apply IH|].
  pose proof (parse_forget d d' (ch :: l)) as H. destruct (parse_gate d (ch :: l)) as [[g| |n k]| | |], (parse_gate d' (ch :: l)) as [[g'| |n' k']| | |]; cbn in H; try discriminate; auto.
  - injection H as H. cbn. unfold forget_file. cbn. now rewrite H.
  - injection H as -> ->. destruct q; auto.
  - injection H as ->. destruct e0; reflexivity.
  - injection H as ->. reflexivity.
Qed.
Lemma drain_file_forget : forall fuel d d' f f', forget_file f = forget_file f' ->
  omap (fun r => (map forget (fst r), snd r)) (drain_file fuel d f) = omap (fun r => (map forget (fst r), snd r)) (drain_file fuel d' f').
Proof.
  induction fuel as [|n IH]; intros d d' f f' H; [reflexivity|]. cbn [drain_file].
  destruct f as [ln q nx], f' as [ln' q' nx']. unfold forget_file in H. cbn in H. injection H as <- <- H. cbn [gf_next gf_qreg].
  destruct nx as [g|], nx' as [g'|]; try discriminate; [|reflexivity]. injection H as H. cbn [file_next_gate gf_next value_ bind gf_lines gf_qreg].
  pose proof (advance_forget d d' ln q) as A. unfold file_next_gate. cbn [gf_next value_ bind gf_lines gf_qreg].
  destruct (advance_gate d ln q) as [f1|e1|u1|], (advance_gate d' ln q) as [f2|e2|u2|]; cbn [omap] in A; try discriminate A; cbn [bind].
  2: injection A as ->; reflexivity. 2: injection A as ->; reflexivity. 2: reflexivity.
  injection A as A1 A2 A3. assert (E : forget_file f1 = forget_file f2) by (unfold forget_file; congruence). specialize (IH d d' f1 f2 E).
  destruct (drain_file n d f1) as [[g1 q1]|e1|u1|], (drain_file n d' f2) as [[g2 q2]|e2|u2|]; cbn in IH |- *; try discriminate IH; congruence.
Qed.

(** ** Lowering for a local compilation does not look at the placement *)
Section Lower.
Variables (gridsynth : text -> outcome text) (use_gridsynth : bool).
Notation rot_drain := (rot_drain gridsynth use_gridsynth).
Notation instructions := (instructions gridsynth use_gridsynth).
Lemma decompose_forget : forall g g', forget g = forget g' ->
  omap (map forget) (decompose gridsynth use_gridsynth g) = omap (map forget) (decompose gridsynth use_gridsynth g').
Proof.
  intros g g' H. destruct g as [t b|t f|c [t b|t f] ct pl|r t], g' as [t' b'|t' f'|c' [t' b'|t' f'] ct' pl'|r' t']; cbn in H; try discriminate; injection H; intros; subst; try reflexivity.
  cbn [decompose]. unfold decompose_CRZ. do 5 (rewrite !omap_bind; apply bind_ext; intros). cbn. rewrite !map_app. cbn. rewrite !map_app. reflexivity.
Qed.
Lemma is_decomposed_forget : forall g g', forget g = forget g' -> is_decomposed g = is_decomposed g'.
Proof. intros g g' H. destruct g as [t b|t f|c [t b|t f] ct pl|r t], g' as [t' b'|t' f'|c' [t' b'|t' f'] ct' pl'|r' t']; cbn in H; try discriminate; reflexivity. Qed.
Lemma rot_forget : forall fuel q q' i i', map forget q = map forget q' -> map forget i = map forget i' ->
  omap (map forget) (rot_drain fuel q i) = omap (map forget) (rot_drain fuel q' i').
Proof.
  induction fuel as [|n IH]; intros q q' i i' Hq Hi; [reflexivity|]. cbn [GatesModel.rot_drain].
  destruct q as [|g q], q' as [|g' q']; try discriminate.
  - destruct i as [|g i], i' as [|g' i']; try discriminate; [reflexivity|]. cbn in Hi. injection Hi as Hg Hi. cbn [rot_has_next rot_next].
    rewrite (is_decomposed_forget g g' Hg). destruct (is_decomposed g').
    + cbn [bind]. specialize (IH [] [] i i' eq_refl Hi). destruct (rot_drain n [] i), (rot_drain n [] i'); cbn in *; congruence.
    + pose proof (decompose_forget g g' Hg) as D.
      destruct (decompose gridsynth use_gridsynth g) as [l| | |], (decompose gridsynth use_gridsynth g') as [l'| | |]; cbn in D; try discriminate; cbn [bind omap]; try congruence.
      injection D as D. destruct l as [|h t], l' as [|h' t']; try discriminate; [reflexivity|]. cbn in D. injection D as Dh Dt. cbn [bind].
      specialize (IH t t' i i' Dt Hi). destruct (rot_drain n t i), (rot_drain n t' i'); cbn in *; congruence.
  - cbn in Hq. injection Hq as Hg Hq. cbn [rot_has_next rot_next bind].
    specialize (IH q q' i i' Hq Hi). destruct (rot_drain n q i), (rot_drain n q' i'); cbn in *; congruence.
Qed.
Lemma lower_forget : forall cfg c g g', cfg_local cfg = true -> forget g = forget g' -> lower_gate cfg c g = lower_gate cfg c g'.
Proof.
  intros cfg c g g' L H. destruct g as [t b|t f|k [t b|t f] ct pl|r t], g' as [t' b'|t' f'|k' [t' b'|t' f'] ct' pl'|r' t']; cbn in H; try discriminate; injection H; intros; subst; try reflexivity.
  cbn [lower_gate]. rewrite L. assert (E : forall c k t x corr, make_cnot true c k t x pl corr = make_cnot true c k t x pl' corr)
    by (intros ? ? ? x ?; unfold make_cnot; destruct x; reflexivity). rewrite E. reflexivity.
Qed.

(** Two streams that go along with each other deliver the same. *)
Definition same_step {A B} (R : A -> B -> Prop) (x : outcome (option (instr * A * N))) (y : outcome (option (instr * B * N))) : Prop :=
  match x, y with
  | Ok None, Ok None => True
  | Ok (Some (i, a, c)), Ok (Some (j, b, d)) => i = j /\ c = d /\ R a b
  | Throw e, Throw f => e = f
  | UB u, UB v => u = v
  | Fuel, Fuel => True
  | _, _ => False
  end.
Definition along {A B} (R : A -> B -> Prop) (f : next_fn A) (g : next_fn B) : Prop := forall a b c, R a b -> same_step R (f a c) (g b c).
Lemma drain_along : forall A B (R : A -> B -> Prop) f g, along R f g -> forall fuel a b c, R a b -> drain f fuel a c = drain g fuel b c.
Proof.
  intros A B R f g H fuel. induction fuel as [|n IH]; intros a b c Hab; [reflexivity|]. cbn [drain]. specialize (H a b c Hab).
  unfold same_step in H. destruct (f a c) as [[[[i a'] c']|]| | |], (g b c) as [[[[j b'] d']|]| | |]; try contradiction; cbn [bind]; try congruence.
  destruct H as (-> & -> & H). now rewrite (IH _ _ _ H).
Qed.
Definition same_queue {A B M} (R : A -> B -> Prop) (x : inject_state A M) (y : inject_state B M) : Prop :=
  is_queue x = is_queue y /\ is_mem x = is_mem y /\ R (is_src x) (is_src y).
Lemma inject_along : forall A B M (R : A -> B -> Prop) f g (ex : expander M), along R f g -> along (same_queue R) (inject_next ex f) (inject_next ex g).
Proof.
  intros A B M R f g ex H [q m s] [q' m' s'] c (Q & Mm & S). cbn in Q, Mm, S. subst q' m'. unfold inject_next. cbn [is_queue is_mem is_src].
  destruct q as [|i q]; [|cbn; repeat split; auto]. specialize (H s s' c S). unfold same_step in H.
  destruct (f s c) as [[[[i a'] c']|]| | |], (g s' c) as [[[[j b'] d']|]| | |]; try contradiction; cbn [bind]; try (cbn; congruence).
  destruct H as (-> & -> & H). destruct (ex m d' j) as [[[l m'] c'']| | |]; cbn; auto. destruct l; cbn; [reflexivity|]. repeat split; auto.
Qed.
Definition same_gates (x y : lower_state) : Prop := ls_queue x = ls_queue y /\ map forget (ls_gates x) = map forget (ls_gates y).
Lemma lower_along : forall cfg, cfg_local cfg = true -> along same_gates (lower_next cfg) (lower_next cfg).
Proof.
  intros cfg L [q gs] [q' gs'] c (Q & G). cbn in Q, G. subst q'. unfold lower_next. cbn [ls_queue ls_gates]. destruct q as [|i q]; [|cbn; repeat split; auto].
  destruct gs as [|g gs], gs' as [|g' gs']; try discriminate; [exact I|]. cbn in G. injection G as Hg G. rewrite (lower_forget cfg c g g' L Hg).
  destruct (lower_gate cfg c g') as [[l c']| | |]; cbn; auto. destruct l; cbn; [reflexivity|]. repeat split; auto.
Qed.

Definition same_source (x y : source) : Prop :=
  match x, y with
  | LliSource f, LliSource g => f = g
  | GateSource f n k, GateSource g n' k' => forget_file f = forget_file g /\ n = n' /\ k = k'
  | PandoraSource f n k, PandoraSource g n' k' => f = g /\ n = n' /\ k = k'
  | _, _ => False
  end.
Definition same_stream (x y : stream) : Prop :=
  same_source (st_source x) (st_source y) /\ st_core x = st_core y /\ st_start x = st_start y /\ st_passes x = st_passes y /\ st_local x = st_local y.
Lemma instructions_local : forall fuel d d' s s', same_stream s s' -> st_local s = true -> instructions fuel d s = instructions fuel d' s'.
Proof.
  intros fuel d d' [src core start ps loc] [src' core' start' ps' loc'] (S & C & T & P & L) Hl. cbn in *. subst core' start' ps' loc' loc.
  assert (K : forall name corr, omap (map forget) (gates_of fuel d src) = omap (map forget) (gates_of fuel d' src') ->
    let cfg := mkCfg true corr name in
    forall k k', (forall gs gs', map forget gs = map forget gs' -> k gs = k' gs') ->
    (do raw <- gates_of fuel d src ;; do gs <- rot_drain fuel [] raw ;; k gs) = (do raw <- gates_of fuel d' src' ;; do gs <- rot_drain fuel [] raw ;; k' gs) :> outcome (list instr * N)).
  { intros name corr H cfg k k' Hk. destruct (gates_of fuel d src) as [l| | |], (gates_of fuel d' src') as [l'| | |]; cbn in H; try discriminate; cbn [bind]; try congruence.
    injection H as H. pose proof (rot_forget fuel [] [] l l' eq_refl H) as R.
    destruct (rot_drain fuel [] l), (rot_drain fuel [] l'); cbn in R; try discriminate; cbn [bind]; try congruence. injection R as R. auto. }
  assert (G : forall name corr, omap (map forget) (gates_of fuel d src) = omap (map forget) (gates_of fuel d' src') ->
    let cfg := mkCfg true corr name in
    (do raw <- gates_of fuel d src ;; do gs <- rot_drain fuel [] raw ;;
      match ps with
      | NoPasses => drain (lower_next cfg) fuel (mkLS [] gs) start
      | CompactPasses m => drain (compact_next cfg core) fuel (mkIS [] tt (mkIS [] m (mkLS [] gs))) start
      | EdpcPasses => drain (edpc_next cfg core) fuel (mkIS [] tt (mkLS [] gs)) start
      | CatalyticPasses => drain (catalytic_next cfg core) fuel (mkIS [] tt (mkLS [] gs)) start
      end) =
    (do raw <- gates_of fuel d' src' ;; do gs <- rot_drain fuel [] raw ;;
      match ps with
      | NoPasses => drain (lower_next cfg) fuel (mkLS [] gs) start
      | CompactPasses m => drain (compact_next cfg core) fuel (mkIS [] tt (mkIS [] m (mkLS [] gs))) start
      | EdpcPasses => drain (edpc_next cfg core) fuel (mkIS [] tt (mkLS [] gs)) start
      | CatalyticPasses => drain (catalytic_next cfg core) fuel (mkIS [] tt (mkLS [] gs)) start
      end)).
  { intros name corr H cfg. apply (K name corr H). intros gs gs' E. assert (A : along same_gates (lower_next cfg) (lower_next cfg)) by now apply lower_along.
    destruct ps.
    - eapply drain_along; [exact A|]. split; [reflexivity|exact E].
    - unfold compact_next. eapply drain_along; [apply inject_along, inject_along, A|]. repeat split; exact E.
    - unfold edpc_next. eapply drain_along; [apply inject_along, A|]. repeat split; exact E.
    - unfold catalytic_next. eapply drain_along; [apply inject_along, A|]. repeat split; exact E. }
  unfold SlicerModel.instructions. cbn [st_source st_core st_start st_passes st_local].
  destruct src as [f|f n k|gs n k], src' as [f'|f' n' k'|gs' n' k']; cbn in S; try contradiction.
  - subst f'. reflexivity.
  - destruct S as (S & <- & <-). apply (G n k). cbn [gates_of]. pose proof (drain_file_forget fuel d d' f f' S) as D.
    destruct (drain_file fuel d f) as [[]| | |], (drain_file fuel d' f') as [[]| | |]; cbn in D |- *; congruence.
  - destruct S as (<- & <- & <-). apply (G n k). reflexivity.
Qed.
Lemma instructions_lli : forall fuel d d' s f, st_source s = LliSource f -> instructions fuel d s = instructions fuel d' s.
Proof. intros fuel d d' s f H. unfold SlicerModel.instructions. rewrite H. reflexivity. Qed.

(** ** C57 *)

(** Two jobs with the same settings: they differ in nothing but the source of the instructions. *)
Definition same_settings (j j' : job) : Prop :=
  j_layout j = j_layout j' /\ st_core (j_stream j) = st_core (j_stream j') /\ j_pipeline j = j_pipeline j' /\ j_local j = j_local j' /\ j_twists j = j_twists j'
  /\ j_cached j = j_cached j' /\ j_provider j = j_provider j' /\ j_timeout j = j_timeout j' /\ j_graceful j = j_graceful j' /\ j_opids j = j_opids j'
  /\ j_output j = j_output j' /\ j_summary j = j_summary j' /\ j_slices j = j_slices j' /\ j_lli j = j_lli j' /\ j_file j = j_file j'.

Lemma open_file_forget : forall d d' t, omap forget_file (open_gate_file d t) = omap forget_file (open_gate_file d' t).
Proof.
  intros d d' t. unfold open_gate_file. pose proof (advance_forget d d' (split_on t (ascii_of_nat 10)) None) as H.
  destruct (advance_gate d _ None) as [f|e|u|], (advance_gate d' _ None) as [f'|e'|u'|]; cbn [omap] in H; try discriminate H; cbn [bind]; try exact H.
  injection H as H1 H2 H3. assert (X : forget_file f = forget_file f') by (unfold forget_file; congruence). rewrite <- H2. destruct (gf_qreg f); [|reflexivity]. cbn [omap]. now rewrite X.
Qed.
Lemma same_stream_refl : forall s, same_stream s s.
Proof. intros s. unfold same_stream. repeat split. destruct (st_source s); cbn; auto. Qed.
Lemma source_either : forall fuel d d' m o f dag inp s, open_source fuel d m o f dag inp = Ok (On s) ->
  exists s', open_source fuel d' m o f dag inp = Ok (On s') /\ same_stream s s' /\ (f = Lli -> s' = s) /\ st_local s = has o "local" /\ st_passes s = NoPasses.
Proof.
  intros fuel d d' m o f dag inp s H. unfold open_source in *. cbv zeta in *. destruct f.
  - exists s. destruct (open_stream _) as [fs| | |]; try discriminate. cbn [bind] in *.
    destruct dag; [|destruct (ReadModel.drain fuel fs); discriminate|]; injection H as <-; repeat split.
  - pose proof (open_file_forget d d' inp) as E.
    destruct (open_gate_file d inp) as [g| | |]; try discriminate. destruct (open_gate_file d' inp) as [g'| | |]; cbn [omap] in E; try discriminate E. cbn [bind] in *.
    injection E as E1 E2 E3. rewrite <- E2.
    destruct dag; [|destruct (drain_file fuel d g) as [[]| | |]; discriminate|];
      apply sbind_on in H; destruct H as (corr & C & H); rewrite C; destruct (gf_qreg g) as [q|] eqn:Q; try discriminate; cbn [value_ bind sbind] in *;
      injection H as <-; (eexists; split; [reflexivity|]); (split; [|split; [discriminate|split; reflexivity]]);
      repeat split; cbn; unfold forget_file; congruence.
  - exists s. destruct (mc_pandora _ _) as [[gs q]| | |]; try discriminate. cbn [bind] in *.
    destruct dag; try discriminate; apply sbind_on in H; destruct H as (corr & C & H); rewrite C; injection H as <-; (split; [reflexivity|]); repeat split; discriminate.
Qed.
Lemma layout_either : forall m o lm pl s s' L r v, same_stream s s' -> make_layout m o lm pl s = Ok (On (L, r, v)) ->
  exists r', make_layout m o lm pl s' = Ok (On (L, r', v)) /\ same_stream r r' /\ (s' = s -> r' = r) /\ st_local r = st_local s.
Proof.
  intros m o lm pl s s' L r v S H. unfold make_layout in *. cbv zeta in *. pose proof S as (Ss & C & T & P & Lo). rewrite <- C.
  assert (K : forall ps, same_stream (with_passes s ps) (with_passes s' ps)) by (intros; repeat split; cbn; auto).
  destruct lm as [[| |]|L0].
  1,2: destruct (has o "notwists"); [discriminate|]; destruct (make_compact_layout _ _ _) as [x| | |]; try discriminate; cbn [bind] in *;
       destruct (exposed_core x _); try discriminate; cbn [bind] in *; injection H as <- <- <-; eexists; (split; [reflexivity|]); (split; [apply K|]); (split; [now intros ->|reflexivity]).
  - destruct (EdpcModel.make_edpc_layout _ _); try discriminate. cbn [bind] in *. injection H as <- <- <-. eexists. split; [reflexivity|]. split; [apply K|]. split; [now intros ->|reflexivity].
  - destruct (_ && _); [discriminate|]. injection H as <- <- <-. exists s'. repeat split; auto.
Qed.
Lemma either : forall fuel bad m o p p' q j, SlicerModel.slicer gridsynth use_gridsynth fuel bad m o p = (q, Ok (On j)) ->
  exists q' j', SlicerModel.slicer gridsynth use_gridsynth fuel bad m o p' = (q', Ok (On j')) /\ same_settings j j' /\ same_stream (j_stream j) (j_stream j')
  /\ st_local (j_stream j) = has o "local" /\ (choose o "input-format" format_of_name Lli = Ok (On Lli) -> j' = j /\ exists f, st_source (j_stream j) = LliSource f).
Proof.
  intros fuel bad m o p p' q j H. pose proof H as H0. apply slicer_on in H0. destruct H0 as (lm & f & om & dag & pl & L & s & valid & -> & Hh & F & M & _ & La).
  apply middle_on in M. destruct M as (inp & s0 & Mo & Mi & So & Ml).
  destruct (source_either _ _ (pr_default p') _ _ _ _ _ _ So) as (s0' & So' & S0 & El & Lo & _).
  destruct (layout_either _ _ _ _ _ _ _ _ _ S0 Ml) as (s' & Ml' & S & Es & Lo').
  rewrite slicer_parts, Hh, F. unfold finish, middle. cbn [pr_default pr_opened]. rewrite Mo. cbn [sbind bind]. rewrite Mi. cbn [sbind bind]. rewrite So'. cbn [sbind bind].
  rewrite Ml'. cbn [sbind bind]. pose proof La as La0. apply last_on in La0. destruct La0 as (-> & lli & Ll & N1 & N2 & Lr & Lg & Rest).
  unfold SlicerModel.last_checks in *. cbn [negb] in *. rewrite Ll in *. cbn [sbind bind] in *.
  destruct lli; [|contradiction|]; (destruct dag; [| |contradiction]);
    rewrite Lr, Lg in *; cbn [sbind bind] in *; injection La as <-; cbn [j_stream] in *;
    (eexists _, _; split; [reflexivity|]); (split; [repeat split; cbn; auto; apply S|]); (split; [exact S|]); (split; [congruence|]);
    intros Cf; apply first_format in F; rewrite F in Cf; injection Cf as ->; specialize (El eq_refl); rewrite (Es El);
    (split; [reflexivity|]); clear -So Ml; unfold open_source in So;
    (destruct (open_stream _) as [fs| | |]; try discriminate; cbn [bind] in So;
     first [injection So as <- | destruct (ReadModel.drain fuel fs); discriminate]);
    unfold make_layout in Ml; cbv zeta in Ml;
    (destruct lm as [[| |]|L0];
     [ destruct (has o "notwists"); [discriminate|]; destruct (make_compact_layout _ _ _) as [x| | |]; try discriminate; cbn [bind] in Ml;
       destruct (exposed_core x _); try discriminate; cbn [bind] in Ml; injection Ml as <- <-; eexists; reflexivity
     | destruct (has o "notwists"); [discriminate|]; destruct (make_compact_layout _ _ _) as [x| | |]; try discriminate; cbn [bind] in Ml;
       destruct (exposed_core x _); try discriminate; cbn [bind] in Ml; injection Ml as <- <-; eexists; reflexivity
     | destruct (EdpcModel.make_edpc_layout _ _); try discriminate; cbn [bind] in Ml; injection Ml as <- <-; eexists; reflexivity
     | destruct (_ && _); [discriminate|]; injection Ml as <- <-; eexists; reflexivity ]).
Qed.

(** Compiling LLI: the process, and with it everything compiled before, has no influence on what is sliced. *)
Theorem C57_lli : forall fuel bad m o p p' q j,
  o "input-format"%string = None \/ o "input-format"%string = Some (lit "lli") \/ o "input-format"%string = Some (lit "l") ->
  SlicerModel.slicer gridsynth use_gridsynth fuel bad m o p = (q, Ok (On j)) ->
  (exists q', SlicerModel.slicer gridsynth use_gridsynth fuel bad m o p' = (q', Ok (On j)))
  /\ forall fuel' d d', instructions fuel' d (j_stream j) = instructions fuel' d' (j_stream j).
Proof.
  intros fuel bad m o p p' q j Hf H. destruct (either _ _ _ _ _ p' _ _ H) as (q' & j' & H' & _ & _ & _ & El).
  assert (Cf : choose o "input-format" format_of_name Lli = Ok (On Lli)) by (unfold choose; destruct Hf as [-> |[-> | ->]]; reflexivity).
  destruct (El Cf) as [-> [f Ef]]. split; [eauto|]. intros. eapply instructions_lli; eauto.
Qed.

(** Compiling gates for local instructions only: the settings are the same and the instructions are the same. *)
Theorem C57_local : forall fuel bad m o p p' q j, o "local"%string <> None ->
  SlicerModel.slicer gridsynth use_gridsynth fuel bad m o p = (q, Ok (On j)) ->
  exists q' j', SlicerModel.slicer gridsynth use_gridsynth fuel bad m o p' = (q', Ok (On j')) /\ same_settings j j'
  /\ (forall fuel', instructions fuel' (pr_default q) (j_stream j) = instructions fuel' (pr_default q') (j_stream j'))
  /\ (forall pick, job_env pick j = job_env pick j') /\ forall ops, job_world ops j = job_world ops j'.
Proof.
  intros fuel bad m o p p' q j Hl H. destruct (either _ _ _ _ _ p' _ _ H) as (q' & j' & H' & Se & St & Lo & _).
  exists q', j'. split; [exact H'|]. split; [exact Se|]. split.
  - intros fuel'. apply instructions_local; [exact St|]. rewrite Lo. unfold has. destruct (o "local"%string); [reflexivity|contradiction].
  - destruct Se as (E1 & E2 & E3 & E4 & E5 & E6 & E7 & E8 & E9 & E10 & _). split; intros; [unfold job_env, job_router|unfold job_world, job_refused]; rewrite ?E1, ?E2, ?E3, ?E4, ?E5, ?E6, ?E7, ?E10; reflexivity.
Qed.
End Lower.
Print Assumptions C57_lli.
Print Assumptions C57_local.

(** ** The first CNOT of a circuit compiled for a layout without cells for ancillas *)
(** A program that begins by asking for such a cell is never compiled: no instruction is applied and the run does not finish;
    it goes on for as many slices as the instruction may be put off. *)
Lemma waits_step : forall e late t st wt cl fut rest w tl, layout_wf (e_layout e) -> l_ancilla (e_layout e) = [] -> timed (e_layout e) (w_slice w) ->
  stream_step e late (mkSS w (mkI (Init t st None) wt cl :: fut) rest tl) =
    if late (length (emitted (t_events tl))) then Halt tl (Failed RuntimeError) else
    if (wt =? 0)%N then Halt (saw tl (Emitted (w_slice w))) (Failed RuntimeError)
    else match advance_slice (e_layout e) (w_slice w) with
         | Ok s => Go (mkSS (with_slice w s) (mkI (Init t st None) (wt - 1) cl :: fut) rest (saw tl (Emitted (w_slice w))))
         | Throw x => Halt (saw tl (Emitted (w_slice w))) (Failed x) | UB u => Halt (saw tl (Emitted (w_slice w))) (Undefined u) | Fuel => Halt (saw tl (Emitted (w_slice w))) Unended
         end.
Proof.
  intros e late t st wt cl fut rest w tl W A T. unfold stream_step, take_next. cbn [ss_future ss_rest ss_world ss_tally].
  unfold try_apply. cbn [op]. unfold apply_init, find_free_ancilla_location. rewrite A. cbn [first_free bind]. unfold failed.
  assert (Pr : exists x, print_op (Init t st None) = Ok x) by (cbn; destruct st; eauto). destruct Pr as [x Pr]. rewrite Pr. cbn [bind lift pbind a_error a_follow a_world a_op negb].
  unfold visit. destruct (late _); [reflexivity|]. cbn [pbind wait clients]. destruct (wt =? 0)%N; [reflexivity|]. unfold advance.
  destruct (advance_slice _ _); reflexivity.
Qed.
Theorem C57_no_cell_refuted : forall e late t st wt cl rest w, layout_wf (e_layout e) -> l_ancilla (e_layout e) = [] -> timed (e_layout e) (w_slice w) ->
  (forall n tl, turns (stream_step e late) n (stream_init (mkI (Init t st None) wt cl :: rest) w) <> Halt tl Finished)
  /\ ((forall k, late k = false) -> forall n, (N.of_nat n <= wt)%N -> exists x,
       turns (stream_step e late) n (stream_init (mkI (Init t st None) wt cl :: rest) w) = Go x
       /\ length (t_events (ss_tally x)) = n /\ (forall i, ~ In (Applied i) (t_events (ss_tally x)))).
Proof.
  intros e late t st wt cl rest w W A T.
  assert (F : forall tl, stream_step e late (mkSS w [] (mkI (Init t st None) wt cl :: rest) tl) = stream_step e late (mkSS w [mkI (Init t st None) wt cl] rest (more_instrs tl))) by reflexivity.
  unfold stream_init. set (tl0 := tally0).
  assert (K1 : forall n wt w tl, timed (e_layout e) (w_slice w) -> forall t', turns (stream_step e late) n (mkSS w [mkI (Init t st None) wt cl] rest tl) <> Halt t' Finished).
  { induction n as [|n IH]; intros wt' w' tl T' t'; [discriminate|]. cbn [turns]. rewrite waits_step by auto.
    destruct (late _); [discriminate|]. destruct (wt' =? 0)%N; [discriminate|]. destruct (advance_timed _ _ W T') as (s' & E & T''). rewrite E. cbn [pbind]. apply IH. exact T''. }
  assert (K2 : (forall k, late k = false) -> forall n wt w tl, timed (e_layout e) (w_slice w) -> (N.of_nat n <= wt)%N -> (forall i, ~ In (Applied i) (t_events tl)) ->
     exists x, turns (stream_step e late) n (mkSS w [mkI (Init t st None) wt cl] rest tl) = Go x
       /\ length (t_events (ss_tally x)) = (n + length (t_events tl))%nat /\ (forall i, ~ In (Applied i) (t_events (ss_tally x)))).
  { intros Hl. induction n as [|n IH]; intros wt' w' tl T' Hn Ha; [eexists; split; [reflexivity|]; split; [reflexivity|exact Ha]|].
    cbn [turns]. rewrite waits_step by auto. rewrite Hl. destruct (N.eqb_spec wt' 0); [lia|]. destruct (advance_timed _ _ W T') as (s' & E & T''). rewrite E. cbn [pbind].
    destruct (IH (wt' - 1)%N (with_slice w' s') (saw tl (Emitted (w_slice w'))) T'' ltac:(lia)) as (x & E1 & E2 & E3).
    - intros i X. cbn in X. apply in_app_iff in X. destruct X as [X|[X|[]]]; [eapply Ha; eauto|discriminate].
    - exists x. split; [exact E1|]. split; [rewrite E2; cbn; rewrite app_length; cbn; lia|exact E3]. }
  split.
  - intros [|n] tl; [discriminate|]. cbn [turns]. rewrite F. apply (K1 (S n)). exact T.
  - intros Hl [|n] Hn; [eexists; split; [reflexivity|]; split; [reflexivity|intros i []]|].
    cbn [turns]. rewrite F. destruct (K2 Hl (S n) wt w (more_instrs tl0) T Hn ltac:(intros i [])) as (x & E1 & E2 & E3).
    exists x. split; [exact E1|]. split; [rewrite E2; cbn; lia|exact E3].
Qed.
Print Assumptions C57_no_cell_refuted.

(** Two CNOTs compiled for the EDPC layout, twice in one process (as the web front end does).  The default placement is set only after the
    reader's constructor has read the first gate.  So in a fresh process the first CNOT asks for a dedicated cell, of which this layout has none,
    and the run never finishes; the second time the very same input and options give another program, and it is compiled. *)
Definition two_cnots : machine := ex_mach (ex_lines ["OPENQASM 2.0;"; "qreg q[2];"; "cx q[0],q[1];"; "cx q[1],q[0];"]%string).
Definition edpc_line : options := line_of [("input-format", "qasm"); ("layoutgenerator", "edpc")]%string.
Definition no_synth : text -> outcome text := fun _ => Throw RuntimeError.
Definition twice (p : process) : process * outcome (stage job) := slicer no_synth false 50 false two_cnots edpc_line p.
Definition fresh : process := mkProc DedicatedCell None.
Theorem C57_refuted : exists q j q' j' l c l' c' w w',
  twice fresh = (q, Ok (On j)) /\ twice q = (q', Ok (On j'))
  /\ instructions no_synth false 100 (pr_default q) (j_stream j) = Ok (l, c)
  /\ instructions no_synth false 100 (pr_default q') (j_stream j') = Ok (l', c')
  /\ job_world 0 j = Ok w /\ job_world 0 j' = Ok w'
  /\ l <> l'
  /\ (forall late n t, turns (stream_step (job_env pick_min j) late) n (stream_init l w) <> Halt t Finished)
  /\ (exists t, turns (stream_step (job_env pick_min j') (fun _ => false)) 40 (stream_init l' w') = Halt t Finished).
Proof.
  do 10 eexists. split; [vm_compute; reflexivity|]. split; [vm_compute; reflexivity|]. split; [vm_compute; reflexivity|]. split; [vm_compute; reflexivity|].
  split; [vm_compute; reflexivity|]. split; [vm_compute; reflexivity|]. split; [discriminate|]. split.
  - intros late. match goal with |- context [stream_init _ ?w] => set (w0 := w) end.
    match goal with |- context [job_env _ ?j] => set (j0 := j) end.
    assert (L : exists g, EdpcModel.edpc_grid (EdpcModel.mkEdpc 2 1 false false false) = Ok g /\ layout_of_grid g (mkDO true 10) = Ok (j_layout j0)).
    { eexists. split; vm_compute; reflexivity. }
    destruct L as (g & _ & L). apply grid_layout_wf in L.
    apply C57_no_cell_refuted; [exact L|reflexivity|]. destruct (new_slice_ok (j_layout j0) [0; 1]%N L ltac:(vm_compute; lia)) as (s & E & I).
    assert (X : s = w_slice w0) by (vm_compute in E; injection E as <-; reflexivity). rewrite <- X. split; [apply (in_sized _ _ _ I)|]. rewrite (in_timers _ _ _ I). reflexivity.
  - eexists. vm_compute. reflexivity.
Qed.
Print Assumptions C57_refuted.

(** Concrete cases: the two local compilations of this circuit in the two processes, whose files differ but whose instructions do not. *)
Definition local_line : options := line_of [("input-format", "qasm"); ("local", "")]%string.
Example C57_ex : exists q j q' j' l c,
  slicer no_synth false 50 false two_cnots local_line fresh = (q, Ok (On j))
  /\ slicer no_synth false 50 false two_cnots local_line (mkProc NextToTarget None) = (q', Ok (On j'))
  /\ j_stream j <> j_stream j' /\ instructions no_synth false 100 (pr_default q) (j_stream j) = Ok (l, c) /\ length l = 2%nat
  /\ instructions no_synth false 100 (pr_default q') (j_stream j') = Ok (l, c).
Proof.
  do 6 eexists. split; [vm_compute; reflexivity|]. split; [vm_compute; reflexivity|]. split; [discriminate|]. split; [vm_compute; reflexivity|].
  split; [reflexivity|]. vm_compute. reflexivity.
Qed.

(** With a layout file no pass is added: S gates on declared qubits are compiled as they are, --notwists or not. *)
Theorem C50_notwists_refuted : forall gs use fuel bad m o p q j name, o "layoutgenerator"%string = None -> o "l"%string = Some name ->
  slicer gs use fuel bad m o p = (q, Ok (On j)) -> st_passes (j_stream j) = NoPasses.
Proof.
  intros gs use fuel bad m o p q j name Hg Hl H. apply slicer_on in H. destruct H as (lm & f & om & dag & pl & L & s & valid & _ & _ & F & M & _ & La).
  apply middle_on in M. destruct M as (inp & s0 & _ & _ & So & Ml). apply last_on in La. destruct La as (_ & lli & _ & _ & _ & _ & _ & _ & -> & _).
  destruct (source_either _ _ (pr_default p) _ _ _ _ _ _ So) as (_ & _ & _ & _ & _ & Np).
  unfold first_checks in F. apply sbind_on in F. destruct F as (x & F & G). apply sbind_on in G. destruct G as (y & _ & G). injection G as -> _.
  unfold choose_layout, has in F. rewrite Hg, Hl in F. destruct (mc_file m _); [|discriminate]. destruct (layout_from_spec _ _); try discriminate. cbn in F. injection F as <-.
  unfold make_layout in Ml. destruct (_ && _); [discriminate|]. injection Ml as _ <- _. exact Np.
Qed.
Print Assumptions C50_notwists_refuted.
Definition custom_machine : machine :=
  mkMach (fun n => if text_eqb n (lit "lay") then Some (lit "rrrr" ++ [ascii_of_nat 10] ++ lit "rQrY" ++ [ascii_of_nat 10] ++ lit "rrrr") else None)
    (ex_lines ["DeclareLogicalQubitPatches 0"; "SGate 0"]%string) 7 (fun _ => Throw RuntimeError) (fun _ => 1%N) (fun _ => false).
Example C50_notwists_ex : exists q j c, slicer no_synth false 50 false custom_machine (line_of [("l", "lay"); ("notwists", "")]%string) fresh = (q, Ok (On j))
  /\ instructions no_synth false 50 (pr_default q) (j_stream j) = Ok ([instr_of (SingleOp 0 SqS false)], c).
Proof. do 3 eexists. split; [vm_compute; reflexivity|]. vm_compute. reflexivity. Qed.
