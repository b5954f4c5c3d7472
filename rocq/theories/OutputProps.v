(** The output: C43 (JSON), C44 (slices), C45 (statistics). *)
From Coq Require Import Relations.
From Verif Require Import Base TextModel TextSpec TextProofs LayoutProps SliceProps PatchesModel InstrProofs LayoutModel LayoutSpec InstrModel SliceModel SliceSpec SliceProofs RouterProps BellProps ApplyModel
  RunModel RunProps SchedSpec DagLoop DagLoopProps WaveModel WaveSpec WaveProps RunInv OutputModel OutputSpec OutputProofs.
Open Scope nat_scope.

(** ** C43 *)

Lemma written_rest : forall L l, layout_wf L -> real_regions L -> Forall (timed L) l ->
  exists js t, mapM (slice_json L) l = Ok js /\ written L false l = Ok t /\ Forall plain js
    /\ t = flat_map (fun j => [","%char; newline_char] ++ dump 0 j) js.
Proof.
  intros L l W R. induction l as [|s l IH]; intros H; [exists [], []; repeat split; constructor|].
  apply Forall_cons_iff in H. destruct H as [H1 H2]. destruct (IH H2) as (js & t & E1 & E2 & P & ->). destruct (slice_json_plain L s W R H1) as (j & Ej & Pj).
  exists (j :: js). eexists. cbn [mapM written]. rewrite Ej, E1, E2. cbn [bind]. repeat split; auto.
Qed.
Lemma written_all : forall L l, layout_wf L -> real_regions L -> Forall (timed L) l -> l <> [] ->
  exists j js, mapM (slice_json L) l = Ok (j :: js) /\ Forall plain (j :: js)
    /\ written L true l = Ok (["["%char; newline_char] ++ dump 0 j ++ flat_map (fun j => [","%char; newline_char] ++ dump 0 j) js).
Proof.
  intros L [|s l] W R H Ne; [congruence|]. apply Forall_cons_iff in H. destruct H as [H1 H2].
  destruct (written_rest L l W R H2) as (js & t & E1 & E2 & P & ->). destruct (slice_json_plain L s W R H1) as (j & Ej & Pj).
  exists j, js. cbn [mapM written]. rewrite Ej, E1, E2. cbn [bind]. repeat split; auto.
Qed.
Lemma written_items : forall js j b, blanks b -> Forall plain (j :: js) ->
  items (j :: js) (b ++ dump 0 j ++ flat_map (fun j => [","%char; newline_char] ++ dump 0 j) js).
Proof.
  induction js as [|k js IH]; intros j b B H; apply Forall_cons_iff in H; destruct H as [H1 H2].
  - constructor; [exact B|apply dump_denotes; exact H1|constructor].
  - cbn [flat_map]. change (([","%char; newline_char] ++ dump 0 k) ++ flat_map (fun j => [","%char; newline_char] ++ dump 0 j) js)
      with ([] ++ ","%char :: ([newline_char] ++ dump 0 k) ++ flat_map (fun j => [","%char; newline_char] ++ dump 0 j) js).
    constructor; [exact B|apply dump_denotes; exact H1|constructor|]. rewrite <- app_assoc. apply IH; [constructor; [apply white_newline|constructor]|exact H2].
Qed.
Lemma closed_text : forall j js, Forall plain (j :: js) ->
  json_text (JArr (j :: js)) ((["["%char; newline_char] ++ dump 0 j ++ flat_map (fun j => [","%char; newline_char] ++ dump 0 j) js) ++ ["]"%char; newline_char]).
Proof.
  intros j js H. exists [], ("["%char :: ([newline_char] ++ dump 0 j ++ flat_map (fun j => [","%char; newline_char] ++ dump 0 j) js) ++ ["]"%char]), [newline_char].
  split; [cbn [app]; rewrite <- !app_assoc; reflexivity|]. split; [constructor|]. split; [|constructor; [apply white_newline|constructor]].
  constructor. apply written_items; [constructor; [apply white_newline|constructor]|exact H].
Qed.

(** Any slices, at least one: the text written is a JSON array with one element per slice, in order. *)
Theorem C43_slices : forall L l graceful shared what t, layout_wf L -> real_regions L -> Forall (timed L) l -> l <> [] -> emitted (t_events t) = l ->
  exists js txt, mapM (slice_json L) l = Ok js /\ output L graceful shared what t Finished = Ok txt /\ json_text (JArr js) txt.
Proof.
  intros L l graceful shared what t W R H Ne <-. destruct (written_all L _ W R H Ne) as (j & js & E1 & P & E2).
  exists (j :: js). eexists. split; [exact E1|]. unfold output. rewrite E2. cbn [bind]. split; [reflexivity|]. now apply closed_text.
Qed.
Print Assumptions C43_slices.

(** Every pipeline and program: if the run finishes and at least one slice was emitted, so it is with the output. *)
Theorem C43_finished : forall pl e late grow prog w t graceful shared what, admits pl e prog -> layout_wf (e_layout e) -> real_regions (e_layout e) -> timed (e_layout e) (w_slice w) -> halts pl e late grow prog w t Finished -> emitted (t_events t) <> [] ->
  exists js txt, mapM (slice_json (e_layout e)) (emitted (t_events t)) = Ok js /\ output (e_layout e) graceful shared what t Finished = Ok txt /\ json_text (JArr js) txt.
Proof. intros. eapply C43_slices; eauto. eapply halts_timed; eauto. Qed.
Print Assumptions C43_finished.

(** Stream compilation always emits a slice. *)
Theorem C43_stream : forall e late grow prog w t graceful shared what, e_edpc e = false -> layout_wf (e_layout e) -> real_regions (e_layout e) ->
  timed (e_layout e) (w_slice w) -> halts Stream e late grow prog w t Finished ->
  exists js txt, length js = length (emitted (t_events t)) /\ js <> [] /\ output (e_layout e) graceful shared what t Finished = Ok txt /\ json_text (JArr js) txt.
Proof.
  intros e late grow prog w t g sh what Ed W R T H. pose proof H as (n & Hn). destruct (C38_finished e late prog w n t Ed Hn) as (es & k & w' & _ & Ev).
  assert (Ne : emitted (t_events t) <> []).
  { rewrite Ev. rewrite RunProofs.emitted_app. intros X. apply app_eq_nil in X. destruct X as [_ X]. discriminate. }
  destruct (C43_finished Stream e late grow prog w t g sh what Ed W R T H Ne) as (js & txt & M & O & J). exists js, txt.
  assert (Ln : forall A B (f : A -> outcome B) l r, mapM f l = Ok r -> length r = length l).
  { clear. intros A B f. induction l as [|x l IH]; intros r; cbn [mapM]; [now intros [= <-]|]. destruct (f x); cbn [bind]; try discriminate.
    destruct (mapM f l); cbn [bind]; try discriminate. intros [= <-]. cbn. f_equal. auto. }
  apply Ln in M. split; [exact M|]. split; [intros ->; apply Ne; now apply length_zero_iff_nil|auto].
Qed.
Print Assumptions C43_stream.

(** DAG and wave compilation of an empty program emit none, and the output is a single bracket. *)
Theorem C43_empty_refuted : forall pl e late grow w graceful shared what, pl <> Stream ->
  exists t, halts pl e late grow [] w t Finished
    /\ output (e_layout e) graceful shared what t Finished = Ok ["]"%char; newline_char]
    /\ forall v, ~ json_text v ["]"%char; newline_char].
Proof.
  intros pl e late grow w g sh what Ne. exists tally0. split; [|split; [reflexivity|]].
  - exists 1. destruct pl; [congruence|reflexivity|reflexivity].
  - intros v H. apply json_scan in H. discriminate.
Qed.
Print Assumptions C43_empty_refuted.

Lemma open_scan : forall L l txt, layout_wf L -> real_regions L -> Forall (timed L) l -> l <> [] -> written L true l = Ok txt -> scan Outside 0 txt = Some (Outside, 1%Z).
Proof.
  intros L l txt W R H Ne E. destruct (written_all L _ W R H Ne) as (j & js & _ & P & E2). pose proof (json_scan _ _ (closed_text j js P)) as S. rewrite E in E2.
  remember (["["%char; newline_char] ++ dump 0 j ++ flat_map (fun j => [","%char; newline_char] ++ dump 0 j) js) as u eqn:Eu. clear Eu. assert (u = txt) by congruence. subst u.
  rewrite scan_app in S. destruct (scan Outside 0 txt) as [[m d]|]; [|discriminate].
  destruct m; cbn in S; try discriminate. injection S as S. f_equal. f_equal. lia.
Qed.

(** A run that is left by an exception never leaves JSON behind. *)
Theorem C43_failed : forall pl e late grow prog w t x shared what txt v, admits pl e prog -> layout_wf (e_layout e) -> real_regions (e_layout e) -> timed (e_layout e) (w_slice w) -> halts pl e late grow prog w t (Failed x) ->
  output (e_layout e) false shared what t (Failed x) = Ok txt -> ~ json_text v txt.
Proof.
  intros pl e late grow prog w t x shared what txt v Ad W R T H O J.
  pose proof (halts_timed pl e late grow prog w t _ Ad W T H) as Ft. unfold output in O.
  destruct (written (e_layout e) true (emitted (t_events t))) as [b| | |] eqn:Wr; try discriminate. cbn [bind] in O. injection O as <-.
  destruct (emitted (t_events t)) as [|s l] eqn:Em.
  - cbn in Wr. injection Wr as <-. destruct J as (b & m & b' & E & _ & D & _). symmetry in E. apply app_eq_nil in E. destruct E as [_ E]. apply app_eq_nil in E.
    destruct E as [-> _]. inversion D. subst. destruct H0. congruence.
  - apply json_scan in J. rewrite (open_scan _ _ _ W R Ft ltac:(discriminate) Wr) in J. discriminate.
Qed.
Print Assumptions C43_failed.

(** With --graceful the array is completed if the slices are written somewhere else than to the standard output ... *)
Theorem C43_graceful : forall pl e late grow prog w t x what, admits pl e prog -> layout_wf (e_layout e) -> real_regions (e_layout e) -> timed (e_layout e) (w_slice w) -> halts pl e late grow prog w t (Failed x) -> emitted (t_events t) <> [] ->
  exists js txt, mapM (slice_json (e_layout e)) (emitted (t_events t)) = Ok js /\ output (e_layout e) true false what t (Failed x) = Ok txt /\ json_text (JArr js) txt.
Proof.
  intros pl e late grow prog w t x what Ad W R T H Ne.
  destruct (written_all _ _ W R (halts_timed pl e late grow prog w t _ Ad W T H) Ne) as (j & js & E1 & P & E2).
  exists (j :: js). eexists. split; [exact E1|]. unfold output. rewrite E2. cbn [bind]. split; [reflexivity|]. cbn [app]. now apply closed_text.
Qed.
Print Assumptions C43_graceful.

(** ... and otherwise the message gets between the slices and the closing bracket. *)
Theorem C43_graceful_refuted : forall pl e late grow prog w t x what txt v, admits pl e prog -> layout_wf (e_layout e) -> real_regions (e_layout e) -> timed (e_layout e) (w_slice w) -> halts pl e late grow prog w t (Failed x) ->
  output (e_layout e) true true what t (Failed x) = Ok txt -> ~ json_text v txt.
Proof.
  intros pl e late grow prog w t x what txt v Ad W R T H O J.
  pose proof (halts_timed pl e late grow prog w t _ Ad W T H) as Ft. unfold output in O.
  destruct (written (e_layout e) true (emitted (t_events t))) as [b| | |] eqn:Wr; try discriminate. cbn [bind] in O. injection O as <-.
  assert (S : exists d, scan Outside 0 b = Some (Outside, d)).
  { destruct (emitted (t_events t)) as [|s l] eqn:Em; [cbn in Wr; injection Wr as <-; exists 0%Z; reflexivity|]. eexists. exact (open_scan _ _ _ W R Ft ltac:(discriminate) Wr). }
  destruct S as (d & S). apply json_scan in J. rewrite scan_app, S in J.
  match type of J with ?l = _ => assert (X : l = None) by reflexivity end. congruence.
Qed.
Print Assumptions C43_graceful_refuted.

(** Layouts from grids have no empty factories. *)
Theorem C43_layouts : forall spec o L, layout_from_spec spec o = Ok L -> layout_wf L /\ real_regions L.
Proof.
  intros spec o L E. split; [eapply SliceProps.C27_every_text_layout; eauto|]. apply Forall_forall. intros R HR ->. apply In_nth_error in HR. destruct HR as [k HR].
  assert (X : exists lines, Forall (fun l => ~ In newline l) lines /\ spec = intercalate newline lines).
  { exists (split_on spec newline). split; [|symmetry; apply split_on_join]. unfold split_on.
    assert (Y : forall t st acc, ~ In newline acc -> Forall (fun l => ~ In newline l) (split_go newline st acc t)).
    { induction t as [|c t IH]; intros st acc Ha; cbn [split_go].
      - destruct acc; [destruct st; repeat constructor; auto|]. constructor; [rewrite <- in_rev; exact Ha|constructor].
      - destruct (Ascii.eqb_spec c newline) as [->|Nc]; [constructor; [rewrite <- in_rev; exact Ha|apply IH; intros []]|].
        apply IH. intros [X|X]; [congruence|tauto]. }
    apply Y. intros []. }
  destruct X as (lines & Hl & ->). destruct (LayoutProps.C24_regions lines o L Hl E) as [H _]. destruct (H k [] HR) as (_ & d & c0 & _ & _ & H3).
  destruct (proj2 (H3 c0)). apply rt_refl.
Qed.
Print Assumptions C43_layouts.

(** ** C44 *)

Lemma edge_look : forall b, edge_name b = look_word (look_of b).
Proof. intros [t a]. now destruct t, a. Qed.
Lemma value_pictures : forall p, pictures p (patch_value p).
Proof.
  intros p. unfold pictures. split; [|split; [|split]].
  - eexists. split; [unfold patch_value, field; destruct (p_op (dp p)); reflexivity|]. rewrite <- !edge_look. repeat split.
  - unfold patch_value. destruct (p_op (dp p)), (p_type (dp p)); reflexivity.
  - unfold patch_value. destruct (p_op (dp p)); reflexivity.
  - exists (activity_json (p_act (dp p))). split; [unfold patch_value; destruct (p_op (dp p)); reflexivity|]. destruct (p_act (dp p)); reflexivity.
Qed.
Lemma noted_pictures : forall p n, pictures p (noted n (patch_value p)).
Proof.
  intros p n. pose proof (value_pictures p) as H. unfold patch_value in *. destruct (p_op (dp p)) eqn:E; exact H.
Qed.
Lemma unbound_dec : forall p, p_id p = None -> unbound p <-> (ptype_eqb (p_type p) TDistillation && act_eqb (p_act p) ANone || ptype_eqb (p_type p) TQubit)%bool = true.
Proof.
  intros p Hi. unfold unbound. destruct (p_type p), (p_act p); cbn; intuition (try discriminate; try congruence).
Qed.
Lemma value_texts : forall p, exists t, field "text" (patch_value p) = Some (JStr t) /\ texts (dp p) t.
Proof.
  intros p. exists (patch_text (dp p)). split; [unfold patch_value; destruct (p_op (dp p)); reflexivity|]. unfold patch_text. split; [|split].
  - now intros id ->.
  - intros U. pose proof (proj1 U) as Hi. rewrite Hi. apply (unbound_dec _ Hi) in U. now rewrite U.
  - intros Hi U. rewrite Hi. destruct (_ || _)%bool eqn:E; [|reflexivity]. apply (unbound_dec _ Hi) in E. contradiction.
Qed.

(** Every slice of a run: a grid of the layout's size.  An empty tile is null, a patch shows its edges, kind, operation and activity,
    and its id.  On the first tile of a factory, the text is the time to the next magic state. *)
Theorem C44_shows : forall L s, layout_wf L -> real_regions L -> timed L s ->
  exists j, slice_json L s = Ok j /\ is_grid (l_furthest L) j /\
    forall c, on_lattice (l_furthest L) c -> exists v, grid_at j c = Some v
      /\ (forall k n, front_of L c k -> nth_error (s_timers s) k = Some n ->
            field "text" v = Some (JStr (lit "Time to next magic state:" ++ print_N n))
            /\ match tile_at s c with Some p => pictures p v | None => field "edges" v = None end)
      /\ ((forall k, ~ front_of L c k) ->
            match tile_at s c with Some p => pictures p v /\ (exists t, field "text" v = Some (JStr t) /\ texts (dp p) t) | None => v = JNull end).
Proof.
  intros L s W R T. destruct (slice_json_shows L s W R T) as (j & F & E & [G S] & H). exists j. split; [exact E|]. split; [exact G|]. intros c Hc. exists (F c).
  split; [apply S; exact Hc|]. destruct (H c Hc) as [A B]. split.
  - intros k n Hk Hn. rewrite (A k n Hk Hn). destruct (tile_at s c) as [p|]; cbn [tile_value].
    + split; [|apply noted_pictures]. unfold patch_value. destruct (p_op (dp p)); reflexivity.
    + split; reflexivity.
  - intros Nf. rewrite (B Nf). destruct (tile_at s c) as [p|]; cbn [tile_value]; [|reflexivity]. split; [apply value_pictures|apply value_texts].
Qed.
Print Assumptions C44_shows.

Lemma look_word_inj : forall a b, look_word a = look_word b -> a = b.
Proof. intros [| |[]|[]] [| |[]|[]]; (reflexivity || discriminate). Qed.
Lemma pictures_alike : forall p q v, pictures p v -> pictures q v -> alike (Some p) (Some q).
Proof.
  intros p q v ((e & E0 & E1 & E2 & E3 & E4) & T & O & (a & A0 & A)) ((e' & E0' & E1' & E2' & E3' & E4') & T' & O' & (a' & A0' & A')).
  assert (e' = e) by congruence. assert (a' = a) by congruence. subst e' a'.
  assert (J : forall x y, Some (JStr x) = Some (JStr y) -> x = y) by (now intros x y [=]).
  rewrite E1 in E1'. rewrite E2 in E2'. rewrite E3 in E3'. rewrite E4 in E4'. rewrite T in T'. rewrite O in O'. rewrite A in A'.
  repeat split; try (now apply look_word_inj, J).
  - apply J in T'. revert T'. clear. destruct (kind_of (p_type (dp p))), (kind_of (p_type (dp q))); (reflexivity || discriminate).
  - revert O'. clear. destruct (p_op (dp p)), (p_op (dp q)); cbn; intros [=]; auto. f_equal. now apply print_N_inj.
  - revert A'. clear. destruct (acting (p_act (dp p))) as [[]|], (acting (p_act (dp q))) as [[]|]; (reflexivity || discriminate).
Qed.
Lemma unbound_or : forall p, unbound p \/ ~ unbound p.
Proof.
  intros p. destruct (p_id p) as [n|] eqn:E; [right; intros [X _]; congruence|]. pose proof (unbound_dec p E) as D. destruct (_ || _)%bool; [left; tauto|right].
  intros U. apply D in U. discriminate.
Qed.
Lemma texts_same : forall p q t, texts (dp p) t -> texts (dp q) t -> same_text (Some p) (Some q).
Proof.
  intros p q t (A & B & C) (A' & B' & C'). unfold same_text.
  destruct (p_id (dp p)) as [n|] eqn:E, (p_id (dp q)) as [m|] eqn:E'.
  - rewrite (A n eq_refl) in A'. specialize (A' m eq_refl). apply app_inv_head in A'. apply print_N_inj in A'. subst m. split; [reflexivity|].
    split; intros [X _]; congruence.
  - exfalso. rewrite (A n eq_refl) in *. destruct (unbound_or (dp q)) as [U|U]; [specialize (B' U)|specialize (C' eq_refl U)]; discriminate.
  - exfalso. rewrite (A' m eq_refl) in *. destruct (unbound_or (dp p)) as [U|U]; [specialize (B U)|specialize (C eq_refl U)]; discriminate.
  - split; [reflexivity|]. destruct (unbound_or (dp p)) as [U|U], (unbound_or (dp q)) as [U'|U']; try tauto; exfalso.
    + rewrite (B U) in C'. specialize (C' eq_refl U'). discriminate.
    + rewrite (B' U') in C. specialize (C eq_refl U). discriminate.
Qed.

(** Slices with the same picture agree on which tiles are occupied, on operations, kinds, shown activities and edges,
    on the timers of the factories, and on ids except on the first tiles of factories. *)
Theorem C44_faithful : forall L s1 s2 j, layout_wf L -> real_regions L -> timed L s1 -> timed L s2 ->
  slice_json L s1 = Ok j -> slice_json L s2 = Ok j ->
  (forall c, on_lattice (l_furthest L) c -> alike (tile_at s1 c) (tile_at s2 c) /\ ((forall k, ~ front_of L c k) -> same_text (tile_at s1 c) (tile_at s2 c)))
  /\ forall k, k < length (l_regions L) -> nth_error (s_timers s1) k = nth_error (s_timers s2) k.
Proof.
  intros L s1 s2 j W R T1 T2 E1 E2.
  destruct (C44_shows L s1 W R T1) as (j1 & X1 & _ & H1). destruct (C44_shows L s2 W R T2) as (j2 & X2 & _ & H2).
  assert (j1 = j) by congruence. assert (j2 = j) by congruence. subst j1 j2.
  assert (Tm : forall s k, timed L s -> k < length (l_regions L) -> exists n, nth_error (s_timers s) k = Some n).
  { intros s k [_ Tm] Hk. destruct (nth_error (s_timers s) k) eqn:E; [eauto|]. apply nth_error_None in E. rewrite Tm, (lw_times _ W) in E. lia. }
  assert (Fk : forall c k, front_of L c k -> k < length (l_regions L)) by (intros c k (sc & r & E & _); apply nth_error_Some; congruence).
  split.
  - intros c Hc. destruct (H1 c Hc) as (v & G1 & A1 & B1). destruct (H2 c Hc) as (v' & G2 & A2 & B2). assert (v' = v) by congruence. subst v'.
    destruct (front_dec L c) as [(k & Hk)|Nf].
    + destruct (Tm s1 k T1 (Fk _ _ Hk)) as (n & Hn). destruct (Tm s2 k T2 (Fk _ _ Hk)) as (m & Hm).
      destruct (A1 k n Hk Hn) as [_ P1]. destruct (A2 k m Hk Hm) as [_ P2]. split; [|intros Nf; destruct (Nf _ Hk)].
      destruct (tile_at s1 c) as [p|], (tile_at s2 c) as [q|]; [eapply pictures_alike; eauto| | |exact I];
        [destruct P1 as [(e & X & _) _]|destruct P2 as [(e & X & _) _]]; congruence.
    + specialize (B1 Nf). specialize (B2 Nf). destruct (tile_at s1 c) as [p|], (tile_at s2 c) as [q|].
      * destruct B1 as (P1 & t & F1 & X3). destruct B2 as (P2 & t' & F2 & X4). assert (t' = t) by congruence. subst t'. split; [eapply pictures_alike; eauto|].
        intros _. eapply texts_same; eauto.
      * subst v. destruct B1 as [[(e & X & _) _] _]. discriminate.
      * subst v. destruct B2 as [[(e & X & _) _] _]. discriminate.
      * split; [exact I|intros; exact I].
  - intros k Hk. destruct (nth_error (l_regions L) k) as [r|] eqn:Er; [|apply nth_error_None in Er; lia].
    assert (Ne : r <> []) by (unfold real_regions in R; rewrite Forall_forall in R; apply R; eapply nth_error_In; eauto). destruct r as [|sc r]; [congruence|].
    assert (Hc : on_lattice (l_furthest L) (sc_cell sc)).
    { apply (lw_on _ W). unfold taken. rewrite !in_app_iff. right; right; left. unfold region_cells. apply in_map. apply in_concat. eexists. split; [eapply nth_error_In; eauto|now left]. }
    destruct (H1 _ Hc) as (v & G1 & A1 & _). destruct (H2 _ Hc) as (v' & G2 & A2 & _). assert (v' = v) by congruence. subst v'.
    destruct (Tm s1 k T1 Hk) as (n & Hn). destruct (Tm s2 k T2 Hk) as (m & Hm). assert (Fr : front_of L (sc_cell sc) k) by (exists sc, r; auto).
    destruct (A1 k n Fr Hn) as [F1 _]. destruct (A2 k m Fr Hm) as [F2 _]. rewrite Hn, Hm. f_equal. apply print_N_inj.
    apply (app_inv_head (lit "Time to next magic state:")). congruence.
Qed.
Print Assumptions C44_faithful.

Lemma alike_value : forall t u, alike t u -> same_text t u -> tile_value t = tile_value u.
Proof.
  intros [p|] [q|]; try (intros []; fail); [|reflexivity]. intros (H1 & H2 & H3 & H4 & H5 & H6 & H7) [T1 T2]. cbn [tile_value].
  assert (A : activity_json (p_act (dp p)) = activity_json (p_act (dp q))) by (revert H7; clear; destruct (p_act (dp p)), (p_act (dp q)); (reflexivity || discriminate)).
  assert (B : type_name (p_type (dp p)) = type_name (p_type (dp q))) by (revert H5; clear; destruct (p_type (dp p)), (p_type (dp q)); (reflexivity || discriminate)).
  assert (C : patch_text (dp p) = patch_text (dp q)).
  { unfold patch_text. rewrite <- T1. destruct (p_id (dp p)) eqn:E; [reflexivity|]. pose proof (unbound_dec (dp p) E) as D1. pose proof (unbound_dec (dp q) ltac:(congruence)) as D2.
    destruct (_ || _)%bool, (_ || _)%bool; auto; exfalso; [assert (false = true) by tauto|assert (false = true) by tauto]; discriminate. }
  unfold patch_value. rewrite A, B, C, H6, !edge_look, H1, H2, H3, H4. reflexivity.
Qed.
Lemma shows_eq : forall far j k F G, shows far j F -> shows far k G -> (forall c, on_lattice far c -> F c = G c) -> j = k.
Proof.
  intros far j k F G [(a & -> & La & Fa) Ha] [(b & -> & Lb & Fb) Hb] E. f_equal. rewrite Forall_forall in Fa, Fb. apply list_ext. intros i.
  destruct (nth_error a i) as [r|] eqn:Ea.
  - assert (Hi : i < length a) by (apply nth_error_Some; congruence).
    destruct (nth_error b i) as [r'|] eqn:Eb; [|apply nth_error_None in Eb; lia].
    destruct (Fa r (nth_error_In _ _ Ea)) as (l & -> & Ll). destruct (Fb r' (nth_error_In _ _ Eb)) as (l' & -> & Ll'). do 2 f_equal. apply list_ext. intros m.
    destruct (Nat.lt_ge_cases m (length l)) as [Hm|Hm].
    + assert (Hc : on_lattice far (mkCell (Z.of_nat i) (Z.of_nat m))) by (unfold on_lattice; cbn [row col]; lia).
      pose proof (Ha _ Hc) as X. pose proof (Hb _ Hc) as Y. rewrite <- E in Y by exact Hc. rewrite <- Y in X. unfold grid_at, element in X. cbn [row col] in X.
      destruct (Z.ltb_spec (Z.of_nat i) 0); [lia|]. destruct (Z.ltb_spec (Z.of_nat m) 0); [lia|]. rewrite !Nat2Z.id, Ea, Eb in X. exact X.
    + rewrite (proj2 (nth_error_None l m)) by lia. symmetry. apply nth_error_None. lia.
  - apply nth_error_None in Ea. symmetry. apply nth_error_None. lia.
Qed.

(** Nothing else can be told: slices that agree on this have the same picture. *)
Theorem C44_complete : forall L s1 s2, layout_wf L -> real_regions L -> timed L s1 -> timed L s2 -> s_timers s1 = s_timers s2 ->
  (forall c, on_lattice (l_furthest L) c -> alike (tile_at s1 c) (tile_at s2 c) /\ same_text (tile_at s1 c) (tile_at s2 c)) ->
  slice_json L s1 = slice_json L s2.
Proof.
  intros L s1 s2 W R T1 T2 Tm H.
  destruct (slice_json_shows L s1 W R T1) as (j1 & F1 & E1 & S1 & H1). destruct (slice_json_shows L s2 W R T2) as (j2 & F2 & E2 & S2 & H2).
  rewrite E1, E2. f_equal. eapply shows_eq; [exact S1|exact S2|]. intros c Hc. destruct (H1 c Hc) as [A1 B1]. destruct (H2 c Hc) as [A2 B2].
  destruct (H c Hc) as [X Y]. pose proof (alike_value _ _ X Y) as V. destruct (front_dec L c) as [(k & Hk)|Nf].
  - destruct (nth_error (s_timers s1) k) as [n|] eqn:En.
    + rewrite (A1 k n Hk En), (A2 k n Hk), V; [reflexivity|]. now rewrite <- Tm.
    + apply nth_error_None in En. rewrite (proj2 T1), (lw_times _ W) in En. destruct Hk as (sc & r & Ek & _). assert (k < length (l_regions L)) by (apply nth_error_Some; congruence). lia.
  - rewrite (B1 Nf), (B2 Nf). exact V.
Qed.
Print Assumptions C44_complete.

(** So dead tiles and routes, and magic states and busy factories, cannot be told apart, nor can labels be seen. *)
Definition drawn (p : patch) : slice := SliceProofs.put (snd ex_start) (mkCell 1 2) (Some (mkDP p (db (square None None)))).
Lemma drawn_timed : forall p, timed (fst ex_start) (drawn p).
Proof. intros p. split; [apply sized_put; small_sized|reflexivity]. Qed.
Theorem C44_refuted : let L := fst ex_start in
  layout_wf L /\ real_regions L
  /\ (exists j, slice_json L (drawn (mkPatch TDead ADead None None None)) = Ok j /\ slice_json L (drawn (mkPatch TRouting ANone None None None)) = Ok j)
  /\ (exists j, slice_json L (drawn (mkPatch TPreparedState ANone None None None)) = Ok j /\ slice_json L (drawn (mkPatch TDistillation ADistillation None None None)) = Ok j)
  /\ (exists j, slice_json L (drawn (mkPatch TQubit ANone None (Some (lit "+")) None)) = Ok j /\ slice_json L (drawn (mkPatch TQubit ANone None (Some (lit "0")) None)) = Ok j).
Proof.
  cbv zeta. assert (E : layout_from_spec route_text (mkDO true 2) = Ok (fst ex_start)) by (vm_compute; reflexivity).
  destruct (C43_layouts _ _ _ E) as [W R]. split; [exact W|]. split; [exact R|].
  split; [|split]; (eexists; split; vm_compute; reflexivity).
Qed.
Print Assumptions C44_refuted.

(** The first slice with a factory: the time on its first tile, the id on the qubit, nothing on a free tile *)
Example C44_ex : exists j, slice_json (fst magic_start) (snd magic_start) = Ok j
  /\ is_grid (l_furthest (fst magic_start)) j
  /\ (exists c v, In c (core_cells (fst magic_start)) /\ grid_at j c = Some v /\ field "text" v = Some (JStr (lit "Id: 7")))
  /\ (exists c k v, front_of (fst magic_start) c k /\ grid_at j c = Some v /\ field "text" v = Some (JStr (lit "Time to next magic state:3")))
  /\ grid_at j (mkCell 0 0) = Some JNull.
Proof.
  assert (E : layout_from_spec magic_text (mkDO true 3) = Ok (fst magic_start)) by (vm_compute; reflexivity). destruct (C43_layouts _ _ _ E) as [W R].
  assert (T : timed (fst magic_start) (snd magic_start)) by (split; [small_sized|reflexivity]).
  destruct (C44_shows _ _ W R T) as (j & Ej & G & _). exists j. split; [exact Ej|]. split; [exact G|]. vm_compute in Ej. injection Ej as <-. split; [|split; [|reflexivity]].
  - exists (mkCell 1 1). eexists. split; [left; reflexivity|]. split; vm_compute; reflexivity.
  - exists (mkCell 2 0), 0. eexists. split; [do 2 eexists; split; reflexivity|]. split; vm_compute; reflexivity.
Qed.

(** ** C45 *)

Lemma map_snd_enum : forall A (l : list A) k, map snd (enum_from k l) = l.
Proof. induction l as [|x l IH]; intros k; cbn; [reflexivity|now rewrite IH]. Qed.
Lemma tiles_concat : forall s, map snd (tiles s) = concat (s_cells s).
Proof.
  intros s. unfold tiles. generalize 0%Z at 2. induction (s_cells s) as [|r rows IH]; intros k; [reflexivity|]. cbn [enum_from flat_map concat]. rewrite map_app, IH. f_equal.
  cbn [snd]. rewrite map_map. cbn [snd]. apply map_snd_enum.
Qed.
Definition class_count (res : bool) (k : class) (l : list tile) : N := N.of_nat (length (filter (fun t => class_eqb (class_of res t) k) l)).
Lemma class_count_cons : forall res k t l, class_count res k (t :: l) = ((if class_eqb (class_of res t) k then 1 else 0) + class_count res k l)%N.
Proof. intros res k t l. unfold class_count. cbn [filter]. destruct (class_eqb _ _); cbn [length]; lia. Qed.
Lemma count_tiles : forall res l v, fold_left (count_tile res) l v =
  mkV (vol v) (vol_unused v + class_count res Unused l) (vol_dist v + class_count res Factory l) (vol_dead v + class_count res Lost l).
Proof.
  intros res. induction l as [|t l IH]; intros v; cbn [fold_left].
  - unfold class_count. cbn. rewrite !N.add_0_r. now destruct v.
  - rewrite IH, !class_count_cons. destruct t as [[[ty a i lb o] b]|]; cbn [count_tile class_of class_eqb p_type dp vol vol_unused vol_dist vol_dead].
    + destruct ty, res; cbn -[N.add class_count]; f_equal; lia.
    + f_equal; lia.
Qed.
Lemma classes_sum : forall res l, (class_count res Unused l + class_count res Factory l + class_count res Lost l + class_count res Active l = N.of_nat (length l))%N.
Proof.
  intros res. induction l as [|t l IH]; [reflexivity|]. rewrite !class_count_cons. cbn [length]. destruct (class_of res t); cbn [class_eqb]; lia.
Qed.
Lemma tiles_number : forall far s, sized far s -> Z.of_nat (length (tiles s)) = ((row far + 1) * (col far + 1))%Z.
Proof.
  intros far s (H0 & H1 & H2 & H3). rewrite <- (map_length snd), tiles_concat, <- H2. clear H2. induction (s_cells s) as [|r rows IH]; [reflexivity|].
  apply Forall_cons_iff in H3. destruct H3 as [Hr H3]. cbn [concat length]. rewrite app_length. specialize (IH H3). lia.
Qed.
Lemma tiles_of_one : forall res k s, tiles_of res k [s] = class_count res k (map snd (tiles s)).
Proof. intros res k s. unfold tiles_of, class_count. cbn [flat_map]. now rewrite app_nil_r. Qed.
Lemma tiles_of_cons : forall res k s l, tiles_of res k (s :: l) = (tiles_of res k [s] + tiles_of res k l)%N.
Proof. intros res k s l. rewrite tiles_of_one. unfold tiles_of, class_count. cbn [flat_map]. rewrite filter_app, app_length. lia. Qed.
Lemma of_all : forall res far l, Forall (sized far) l ->
  Z.of_N (tiles_of res Unused l + tiles_of res Factory l + tiles_of res Lost l + tiles_of res Active l) = (Z.of_nat (length l) * ((row far + 1) * (col far + 1)))%Z.
Proof.
  intros res far. induction l as [|s l IH]; intros H; [reflexivity|]. apply Forall_cons_iff in H. destruct H as [H1 H2]. specialize (IH H2).
  rewrite !(tiles_of_cons _ _ s l), !tiles_of_one. pose proof (classes_sum res (map snd (tiles s))) as X. rewrite map_length in X. pose proof (tiles_number _ _ H1). cbn [length]. lia.
Qed.

(** The counters of a slice: the number of tiles, and the numbers of unused, factory and dead ones.  The other volume is the number of the
    remaining ones; each tile is in one class and the numbers add up. *)
Theorem C45_slice : forall L s, timed L s -> ((row (l_furthest L) + 1) * (col (l_furthest L) + 1) < 2 ^ 31)%Z ->
  let count k := tiles_of (l_magic_reserved L) k [s] in
  exists v, volume_counts L s = Ok v /\ vol v = N.of_nat (length (tiles s))
    /\ Z.of_N (vol v) = ((row (l_furthest L) + 1) * (col (l_furthest L) + 1))%Z
    /\ vol_unused v = count Unused /\ vol_dist v = count Factory /\ vol_dead v = count Lost /\ other_volume v = count Active
    /\ (vol_unused v + vol_dist v + vol_dead v + other_volume v = vol v)%N.
Proof.
  intros L s [Sz _] Big count. unfold volume_counts. destruct (Z.leb_spec (2 ^ 31) ((row (l_furthest L) + 1) * (col (l_furthest L) + 1))); [lia|].
  rewrite count_tiles. eexists. split; [reflexivity|]. cbn [vol vol_unused vol_dist vol_dead].
  pose proof (tiles_number _ _ Sz) as Tn. rewrite <- Tn in *. unfold count. rewrite !tiles_of_one, <- !tiles_concat.
  pose proof (classes_sum (l_magic_reserved L) (map snd (tiles s))) as X. rewrite map_length in X.
  assert (O : forall u d x, other_volume (mkV (N.of_nat (length (tiles s))) u d x) = (N.of_nat (length (tiles s)) - u - d - x)%N \/ (N.of_nat (length (tiles s)) < u + d + x)%N).
  { intros u d x. destruct (N.lt_ge_cases (N.of_nat (length (tiles s))) (u + d + x)); [now right|left]. unfold other_volume. cbn [vol vol_unused vol_dist vol_dead].
    rewrite Z.mod_small; lia. }
  rewrite !N.add_0_l. replace (Z.to_N (Z.of_nat (length (tiles s)))) with (N.of_nat (length (tiles s))) by lia.
  specialize (O (class_count (l_magic_reserved L) Unused (map snd (tiles s))) (class_count (l_magic_reserved L) Factory (map snd (tiles s))) (class_count (l_magic_reserved L) Lost (map snd (tiles s)))).
  destruct O as [->|O]; [|lia]. repeat split; lia.
Qed.
Print Assumptions C45_slice.

Lemma total_ok : forall L l v0, Forall (timed L) l -> ((row (l_furthest L) + 1) * (col (l_furthest L) + 1) < 2 ^ 31)%Z ->
  total_volumes L l v0 = Ok (mkV (vol v0 + N.of_nat (length l) * Z.to_N ((row (l_furthest L) + 1) * (col (l_furthest L) + 1)))
    (vol_unused v0 + tiles_of (l_magic_reserved L) Unused l) (vol_dist v0 + tiles_of (l_magic_reserved L) Factory l) (vol_dead v0 + tiles_of (l_magic_reserved L) Lost l)).
Proof.
  intros L l v0 H Big. revert v0. induction l as [|s l IH]; intros v0; cbn [total_volumes].
  - cbn. rewrite !N.add_0_r. now destruct v0.
  - apply Forall_cons_iff in H. destruct H as [H1 H2]. destruct (C45_slice L s H1 Big) as (v & -> & _ & E0 & E1 & E2 & E3 & _). cbn [bind]. rewrite (IH H2).
    rewrite !(tiles_of_cons _ _ s l), <- E1, <- E2, <- E3. cbn [add_volumes vol vol_unused vol_dist vol_dead length]. f_equal. f_equal; lia.
Qed.

(** Every run: the totals are those of all the slices emitted, and the other volume is the number of the remaining tiles. *)
Theorem C45_run : forall pl e late grow prog w t r, admits pl e prog -> layout_wf (e_layout e) ->
  timed (e_layout e) (w_slice w) -> halts pl e late grow prog w t r ->
  let L := e_layout e in let l := emitted (t_events t) in let tiles := ((row (l_furthest L) + 1) * (col (l_furthest L) + 1))%Z in
  (tiles < 2 ^ 31)%Z -> (Z.of_nat (length l) * tiles < 2 ^ 64)%Z ->
  let count k := tiles_of (l_magic_reserved L) k l in
  exists v, total_volumes L l volumes0 = Ok v /\ Z.of_N (vol v) = (Z.of_nat (length l) * tiles)%Z
    /\ vol_unused v = count Unused /\ vol_dist v = count Factory /\ vol_dead v = count Lost /\ other_volume v = count Active
    /\ (vol_unused v + vol_dist v + vol_dead v + other_volume v = vol v)%N.
Proof.
  intros pl e late grow prog w t r Ad W T H L l tl Big Small count.
  pose proof (halts_timed pl e late grow prog w t _ Ad W T H) as Ft. fold L l in Ft. fold tl in Big.
  rewrite (total_ok L l volumes0 Ft Big). eexists. split; [reflexivity|]. cbn [volumes0 vol vol_unused vol_dist vol_dead]. rewrite !N.add_0_l. fold tl. unfold count.
  assert (P : (0 <= tl)%Z) by (destruct (lw_far _ W) as [P1 P2]; cbn [row col] in P1, P2; fold L in P1, P2; unfold tl; nia).
  assert (Sz : Forall (sized (l_furthest L)) l) by (eapply Forall_impl; [|exact Ft]; now intros s [X _]).
  pose proof (of_all (l_magic_reserved L) _ _ Sz) as X. fold tl in X.
  assert (E : Z.of_N (N.of_nat (length l) * Z.to_N tl) = (Z.of_nat (length l) * tl)%Z) by lia.
  assert (O : other_volume (mkV (N.of_nat (length l) * Z.to_N tl) (tiles_of (l_magic_reserved L) Unused l) (tiles_of (l_magic_reserved L) Factory l) (tiles_of (l_magic_reserved L) Lost l))
    = tiles_of (l_magic_reserved L) Active l).
  { unfold other_volume. cbn [vol vol_unused vol_dist vol_dead]. rewrite Z.mod_small; lia. }
  rewrite O. repeat split; lia.
Qed.
Print Assumptions C45_run.

(** A layout with 2^31 tiles or more overflows an int. *)
Theorem C45_overflow_refuted : forall L s, (2 ^ 31 <= (row (l_furthest L) + 1) * (col (l_furthest L) + 1))%Z -> volume_counts L s = UB UBOverflow.
Proof. intros L s H. unfold volume_counts. now rewrite (proj2 (Z.leb_le _ _) H). Qed.
Print Assumptions C45_overflow_refuted.

(** The slice with a factory of three tiles, one qubit and five free tiles *)
Example C45_ex : exists v, volume_counts (fst magic_start) (snd magic_start) = Ok v /\ (vol v, vol_unused v, vol_dist v, vol_dead v, other_volume v) = (9, 5, 3, 0, 1)%N.
Proof. eexists. split; [vm_compute; reflexivity|]. vm_compute. reflexivity. Qed.
(** A finished run and a failed one *)
Example C43_ex : exists t, halts Stream bell_env never never [hadamard 7; hadamard 7] ex_world t Finished /\ length (emitted (t_events t)) = 2.
Proof. destruct C39_stream_refuted as (t & H1 & _ & H2). exists t. split; [unfold halts; exists 9; cbv iota beta; exact H1|exact H2]. Qed.
Example C43_failed_ex : exists t, halts Stream bell_env never never [hadamard 7; mkI (SingleOp 99 SqH false) 2 []] ex_world t (Failed RuntimeError) /\ length (emitted (t_events t)) = 3.
Proof. eexists. split; [unfold halts; exists 9; vm_compute; reflexivity|]. vm_compute. reflexivity. Qed.
