(** C62: the two kinds of slice answer alike. *)
From Verif Require Import Base TextModel PatchesModel InstrModel InstrSpec InstrProofs LayoutModel LayoutSpec SliceModel SliceSpec SliceProofs SliceProps BellProps OutputModel OutputSpec OutputProofs OutputProps SparseModel.
Open Scope Z_scope.

(** A list entry standing for the patch on one tile; labels are not compared. *)
Definition stands_for (q : spatch) (c : cell) (p : dpatch) : Prop :=
  sp_cells q = Single (mkSC (db p) c) /\ p_type (sp_patch q) = p_type (dp p) /\ p_act (sp_patch q) = p_act (dp p)
  /\ p_id (sp_patch q) = p_id (dp p) /\ p_op (sp_patch q) = p_op (dp p).
(** The dense slice [d] and the sparse slice [s] describe one lattice: every listed patch is on its tile, every tile that is taken is
    listed or belongs to a factory; factories and magic states bear no id; no id is on two tiles. *)
Record same (L : layout) (d : slice) (s : sslice) : Prop := {
  sm_sized : sized (l_furthest L) d;
  sm_unique : unique_ids d;
  sm_qubits : forall q, In q (ss_qubits s) -> exists c p, tile_at d c = Some p /\ stands_for q c p;
  sm_magic : forall q, In q (ss_magic s) -> exists c p, tile_at d c = Some p /\ stands_for q c p /\ p_id (dp p) = None;
  sm_regions : forall c, In c (region_cells L) -> exists p, tile_at d c = Some p /\ p_id (dp p) = None;
  sm_all : forall c p, tile_at d c = Some p ->
    (exists q, (In q (ss_qubits s) \/ In q (ss_magic s)) /\ stands_for q c p) \/ In c (region_cells L)
}.

Lemma bears_iff id q : bears id q = true <-> p_id (sp_patch q) = Some id.
Proof. unfold bears. destruct (p_id (sp_patch q)); [rewrite N.eqb_eq|]; split; congruence. Qed.
Lemma stands_cells q c p : stands_for q c p -> get_cells q = [c].
Proof. intros (H & _). unfold get_cells. now rewrite H. Qed.
Lemma with_sound l c q : patch_with c l = Some q -> In q l /\ In c (get_cells q).
Proof.
  intros H. apply find_some in H. destruct H as [H1 H2]. split; [exact H1|]. apply existsb_exists in H2. destruct H2 as (x & Hx & E). apply cell_eqb_eq in E. now subst.
Qed.
Lemma with_none l c : patch_with c l = None -> forall q, In q l -> ~ In c (get_cells q).
Proof.
  intros H q Hq Hc. pose proof (find_none _ _ H q Hq) as E. cbv beta in E. assert (X : existsb (fun x => cell_eqb x c) (get_cells q) = true); [|congruence].
  apply existsb_exists. exists c. split; [exact Hc|]. now apply cell_eqb_eq.
Qed.
Lemma within_regions L c : existsb (existsb (fun x => cell_eqb (sc_cell x) c)) (l_regions L) = true <-> In c (region_cells L).
Proof.
  unfold region_cells. rewrite existsb_exists. split.
  - intros (r & Hr & H). apply existsb_exists in H. destruct H as (x & Hx & E). apply cell_eqb_eq in E. subst. apply in_map. apply in_concat. eauto.
  - intros H. apply in_map_iff in H. destruct H as (x & <- & H). apply in_concat in H. destruct H as (r & Hr & Hx). exists r. split; [exact Hr|].
    apply existsb_exists. exists x. split; [exact Hx|]. now apply cell_eqb_eq.
Qed.

Section Agree.
  Variables (L : layout) (d : slice) (s : sslice).
  Hypothesis Same : same L d s.
  Let sz := sm_sized _ _ _ Same.

  Lemma listed_id id : ss_has_patch s id = true <-> exists c, carries d c id.
  Proof.
    unfold ss_has_patch. rewrite existsb_exists. split.
    - intros (q & Hq & B). apply bears_iff in B. destruct (sm_qubits _ _ _ Same q Hq) as (c & p & T & S). exists c, p. split; [exact T|]. destruct S as (_ & _ & _ & X & _). congruence.
    - intros (c & p & T & I). destruct (sm_all _ _ _ Same c p T) as [(q & [Hq|Hq] & S)|R].
      + exists q. split; [exact Hq|]. apply bears_iff. destruct S as (_ & _ & _ & X & _). congruence.
      + exfalso. destruct (sm_magic _ _ _ Same q Hq) as (c' & p' & T' & S' & N').
        pose proof (stands_cells _ _ _ S) as E. pose proof (stands_cells _ _ _ S') as E'. rewrite E in E'. injection E' as <-. congruence.
      + exfalso. destruct (sm_regions _ _ _ Same c R) as (p' & T' & N'). congruence.
  Qed.
  Lemma has_patch_cell id : has_patch d id = true <-> exists c, get_cell_by_id d id = Some c.
  Proof.
    unfold has_patch. destruct (get_patch_by_id d id) as [p|] eqn:G.
    - split; [intros _|reflexivity]. destruct (get_patch_by_id_tile _ d id p sz G) as (c & H & _). eauto.
    - apply (get_patch_by_id_None _ d id sz) in G. rewrite G. split; [discriminate|intros (c & X); discriminate].
  Qed.
  Lemma agree_has id : ss_has_patch s id = has_patch d id.
  Proof.
    apply Bool.eq_true_iff_eq. rewrite listed_id, has_patch_cell. split.
    - intros (c & H). destruct (get_cell_by_id d id) as [c'|] eqn:G; [eauto|]. exfalso. exact (proj1 (get_cell_by_id_None _ d id sz) G c H).
    - intros (c & H). apply (get_cell_by_id_Some _ d id c sz) in H. destruct H as [H _]. eauto.
  Qed.
  Lemma agree_cell id : ss_cell_by_id s id = Ok (get_cell_by_id d id).
  Proof.
    unfold ss_cell_by_id. destruct (ss_has_patch s id) eqn:H.
    - unfold ss_patch_by_id. destruct (find (bears id) (ss_qubits s)) as [q|] eqn:F.
      2:{ unfold ss_has_patch in H. apply existsb_exists in H. destruct H as (q & Hq & B). rewrite (find_none _ _ F q Hq) in B. discriminate. }
      apply find_some in F. destruct F as [Hq B]. apply bears_iff in B. destruct (sm_qubits _ _ _ Same q Hq) as (c & p & T & S).
      cbn [bind]. unfold get_a_cell. destruct S as (Sc & _ & _ & Si & _). rewrite Sc. cbn [bind sc_cell]. f_equal.
      assert (C : carries d c id) by (exists p; split; [exact T|congruence]).
      destruct (get_cell_by_id d id) as [c'|] eqn:G; [|exfalso; exact (proj1 (get_cell_by_id_None _ d id sz) G c C)].
      f_equal. apply (sm_unique _ _ _ Same c c' id C). apply (get_cell_by_id_Some _ d id c' sz G).
    - destruct (get_cell_by_id d id) as [c'|] eqn:G; [|reflexivity]. exfalso.
      assert (X : ss_has_patch s id = true); [|congruence]. apply listed_id. exists c'. apply (get_cell_by_id_Some _ d id c' sz G).
  Qed.
  Lemma listed_tile c q : ss_any_on s c = Some q -> exists p, tile_at d c = Some p /\ stands_for q c p.
  Proof.
    unfold ss_any_on. destruct (ss_qubit_on s c) as [q'|] eqn:Q.
    - intros X. injection X as <-. apply with_sound in Q. destruct Q as [Hq Hc]. destruct (sm_qubits _ _ _ Same _ Hq) as (c' & p & T & S).
      rewrite (stands_cells _ _ _ S) in Hc. destruct Hc as [<-|[]]. eauto.
    - intros M. apply with_sound in M. destruct M as [Hq Hc]. destruct (sm_magic _ _ _ Same _ Hq) as (c' & p & T & S & _).
      rewrite (stands_cells _ _ _ S) in Hc. destruct Hc as [<-|[]]. eauto.
  Qed.
  Lemma agree_free c : ss_is_free L s c = match tile_at d c with None => true | Some _ => false end.
  Proof.
    unfold ss_is_free. destruct (existsb _ (l_regions L)) eqn:R.
    - apply within_regions in R. destruct (sm_regions _ _ _ Same c R) as (p & -> & _). reflexivity.
    - destruct (ss_any_on s c) as [q|] eqn:A; [destruct (listed_tile c q A) as (p & -> & _); reflexivity|].
      destruct (tile_at d c) as [p|] eqn:T; [|reflexivity]. exfalso. destruct (sm_all _ _ _ Same c p T) as [(q & Hq & S)|X].
      + unfold ss_any_on in A. destruct (ss_qubit_on s c) eqn:Q; [discriminate|]. assert (Hc : In c (get_cells q)) by (rewrite (stands_cells _ _ _ S); now left).
        destruct Hq as [Hq|Hq]; [exact (with_none _ _ Q q Hq Hc)|exact (with_none _ _ A q Hq Hc)].
      + apply within_regions in X. congruence.
  Qed.
  Lemma between_tile c n p : tile_at d c = Some p -> on_lattice (l_furthest L) c ->
    boundary_between d c n = Ok (match side_towards c n with Some x => Some (side (db p) x) | None => None end).
  Proof.
    intros T O. unfold boundary_between, boundary_ref. rewrite (patch_at_ok _ _ _ sz O), T. cbn [bind]. destruct (side_towards c n) as [x|]; [|reflexivity].
    unfold read_ref. cbn [fst snd]. rewrite (patch_at_ok _ _ _ sz O), T. reflexivity.
  Qed.
  Lemma qubit_tile c q : ss_qubit_on s c = Some q -> exists p, tile_at d c = Some p /\ stands_for q c p /\ on_lattice (l_furthest L) c.
  Proof.
    intros Q. destruct (listed_tile c q) as (p & T & S); [unfold ss_any_on; now rewrite Q|]. exists p. split; [exact T|]. split; [exact S|]. exact (tile_on _ _ _ _ sz T).
  Qed.
  Lemma agree_type c n o q : ss_qubit_on s c = Some q -> ss_boundary_of_type s c n o = has_boundary_of_type d c n o.
  Proof.
    intros Q. destruct (qubit_tile c q Q) as (p & T & S & O). unfold ss_boundary_of_type, has_boundary_of_type. rewrite Q, (between_tile c n p T O). destruct S as (-> & _).
    cbn [bind]. unfold have_boundary_of_type_with, get_boundary_with. cbn [sc_cell sc_b]. destruct (side_towards c n); reflexivity.
  Qed.
  Lemma agree_reserved c n q : ss_qubit_on s c = Some q -> ss_reserved s c n = is_boundary_reserved d c n.
  Proof.
    intros Q. destruct (qubit_tile c q Q) as (p & T & S & O). unfold ss_reserved, is_boundary_reserved. rewrite Q, (between_tile c n p T O). destruct S as (-> & _).
    cbn [bind]. unfold get_boundary_with. cbn [sc_cell sc_b]. destruct (side_towards c n); reflexivity.
  Qed.
End Agree.

(** Slices describing one lattice give the same answers: which ids there are and where, which tiles are free, what is next to what, and
    for the tile of a listed qubit patch what its sides are. *)
Theorem C62_answers : forall L d s, same L d s ->
  (forall id, ss_has_patch s id = has_patch d id) /\
  (forall id, ss_cell_by_id s id = Ok (get_cell_by_id d id)) /\
  (forall c, on_lattice (l_furthest L) c -> Ok (ss_is_free L s c) = is_free d c) /\
  (forall c, ss_neighbours L c = neighbours L c) /\
  (forall c n o q, ss_qubit_on s c = Some q ->
     ss_boundary_of_type s c n o = has_boundary_of_type d c n o /\ ss_reserved s c n = is_boundary_reserved d c n).
Proof.
  intros L d s S. split; [apply (agree_has L d s S)|]. split; [apply (agree_cell L d s S)|]. split.
  - intros c O. unfold is_free. rewrite (patch_at_ok _ _ _ (sm_sized _ _ _ S) O), (agree_free L d s S c). reflexivity.
  - split; [reflexivity|]. intros c n o q Q. split; [exact (agree_type L d s S c n o q Q)|exact (agree_reserved L d s S c n q Q)].
Qed.
Print Assumptions C62_answers.

(** Every dense slice in which no id is twice has a sparse one that describes the same lattice, so the above speaks of all of them. *)
Definition listed (ct : cell * tile) : list spatch :=
  match snd ct with Some p => [mkSP (dp p) (Single (mkSC (db p) (fst ct)))] | None => [] end.
Definition bound (q : spatch) : bool := match p_id (sp_patch q) with Some _ => true | None => false end.
Definition twin (d : slice) : sslice :=
  let l := flat_map listed (tiles d) in mkSS (filter bound l) [] (filter (fun q => negb (bound q)) l) (s_timers d).
Theorem C62_twin : forall L d, sized (l_furthest L) d -> unique_ids d ->
  (forall c, In c (region_cells L) -> exists p, tile_at d c = Some p /\ p_id (dp p) = None) -> same L d (twin d).
Proof.
  intros L d Sz U R.
  assert (A : forall q, In q (flat_map listed (tiles d)) -> exists c p, tile_at d c = Some p /\ stands_for q c p).
  { intros q H. apply in_flat_map in H. destruct H as ([c t] & Hct & H). apply (tiles_In _ _ _ _ Sz) in Hct. destruct Hct as [Ho ->].
    unfold listed in H. cbn [fst snd] in H. destruct (tile_at d c) as [p|] eqn:T; [|destruct H]. destruct H as [<-|[]]. exists c, p. repeat split. exact T. }
  split; auto.
  - intros q H. apply filter_In in H. apply A, H.
  - intros q H. apply filter_In in H. destruct H as [H B]. destruct (A q H) as (c & p & T & S). exists c, p. split; [exact T|]. split; [exact S|].
    destruct S as (_ & _ & _ & <- & _). unfold bound in B. destruct (p_id (sp_patch q)); [discriminate|reflexivity].
  - intros c p T. left. pose (q := mkSP (dp p) (Single (mkSC (db p) c))). exists q. split; [|repeat split].
    assert (Hq : In q (flat_map listed (tiles d))).
    { apply in_flat_map. exists (c, tile_at d c). split; [apply (tiles_In _ _ _ _ Sz); split; [exact (tile_on _ _ _ _ Sz T)|reflexivity]|]. unfold listed. cbn [snd fst]. rewrite T. now left. }
    cbn [twin ss_qubits ss_magic]. rewrite !filter_In. destruct (bound q); auto.
Qed.
Print Assumptions C62_twin.

(** ** The JSON *)
Lemma stands_json q c p : stands_for q c p -> forall j, ss_draw_patch j q = at_cell c (fun _ => Ok (patch_value p)) j.
Proof.
  intros (E & E1 & E2 & E3 & E4) j. unfold ss_draw_patch, from_sparse_patch. rewrite E. cbn [bind sc_cell sc_b]. rewrite patch_json_ok. cbn [bind].
  f_equal. unfold patch_value, patch_text. cbn [dp db]. now rewrite E1, E2, E3, E4.
Qed.
Lemma ss_draw_shows : forall far d l j F, sized far d -> shows far j F -> (forall c, on_lattice far c -> F c = JNull \/ F c = tile_value (tile_at d c)) ->
  (forall q, In q l -> exists c p, tile_at d c = Some p /\ stands_for q c p) ->
  exists j' F', foldM ss_draw_patch l j = Ok j' /\ shows far j' F' /\
    forall c, on_lattice far c -> (F' c = JNull \/ F' c = tile_value (tile_at d c))
      /\ (F c = tile_value (tile_at d c) \/ (exists q p, In q l /\ stands_for q c p) -> F' c = tile_value (tile_at d c)).
Proof.
  intros far d. induction l as [|q l IH]; intros j F Sz S HF Hl.
  - exists j, F. split; [reflexivity|]. split; [exact S|]. intros c Hc. split; [auto|]. intros [X|(q & p & [] & _)]. exact X.
  - destruct (Hl q) as (c & p & T & Q); [now left|]. pose proof (tile_on _ _ _ _ Sz T) as Hc. cbn [foldM]. rewrite (stands_json q c p Q).
    destruct (at_cell_shows far j F c (fun _ => Ok (patch_value p)) _ S Hc eq_refl) as (j1 & -> & S1). cbn [bind].
    edestruct (IH j1 _ Sz S1) as (j2 & F2 & E2 & S2 & H2).
    + intros c' Hc'. cbn beta. destruct (cell_eqb c' c) eqn:Eq; [|auto]. apply cell_eqb_eq in Eq. subst c'. rewrite T. auto.
    + intros q' H'. apply Hl. now right.
    + exists j2, F2. split; [exact E2|]. split; [exact S2|]. intros c' Hc'. destruct (H2 c' Hc') as [A B]. split; [exact A|]. intros X. apply B. cbn beta.
      destruct (cell_eqb c' c) eqn:Eq.
      * apply cell_eqb_eq in Eq. subst c'. rewrite T. auto.
      * destruct X as [X|(q' & p' & [<-|X] & Q')]; [auto| |right; eauto]. pose proof (stands_cells _ _ _ Q) as E. rewrite (stands_cells _ _ _ Q') in E. injection E as ->.
        rewrite (proj2 (cell_eqb_eq _ _) eq_refl) in Eq. discriminate.
Qed.
(** Without factories and routes under way, the same JSON is written for both. *)
Theorem C62_json : forall L d s, layout_wf L -> timed L d -> l_regions L = [] -> same L d s -> ss_routing s = [] -> ss_json L s = slice_json L d.
Proof.
  intros L d s W T R S Z. assert (Rr : real_regions L) by (unfold real_regions; rewrite R; constructor).
  destruct (slice_json_shows L d W Rr T) as (j & F & -> & Sh & H). unfold ss_json. rewrite Z, R. cbn [foldM].
  destruct (ss_draw_shows (l_furthest L) d (ss_qubits s ++ ss_magic s) _ _ (sm_sized _ _ _ S) (shows_blank _ (lw_far _ W))) as (j' & F' & -> & Sh' & H').
  - auto.
  - intros q Hq. apply in_app_iff in Hq. destruct Hq as [Hq|Hq]; [exact (sm_qubits _ _ _ S q Hq)|]. destruct (sm_magic _ _ _ S q Hq) as (c & p & A & B & _). eauto.
  - cbn [bind]. f_equal. apply (shows_eq _ _ _ _ _ Sh' Sh). intros c Hc. rewrite (proj2 (H c Hc)).
    2:{ intros k (sc & r & E & _). rewrite R in E. destruct k; discriminate. }
    apply (H' c Hc). destruct (tile_at d c) as [p|] eqn:Tc; [right|left; reflexivity].
    destruct (sm_all _ _ _ S c p Tc) as [(q & Hq & Q)|X]; [exists q, p; split; [apply in_app_iff; exact Hq|exact Q]|]. unfold region_cells in X. rewrite R in X. destruct X.
Qed.
Print Assumptions C62_json.

(** In particular the first slice of every compilation has one. *)
Theorem C62_start : forall L ids d, layout_wf L -> NoDup ids -> new_slice L ids = Ok d -> same L d (twin d).
Proof.
  intros L ids d W Nd E. destruct (C27_once_each L ids d W E Nd) as (_ & U & _).
  assert (I : initial L ids d).
  { destruct (Nat.le_gt_cases (length ids) (length (core_cells L))) as [H|H].
    - destruct (C27_first_slice L ids W H) as (s' & E' & I). congruence.
    - rewrite (C27_too_few L ids W H) in E. discriminate. }
  apply C62_twin; [exact (in_sized _ _ _ I)|exact U|]. intros c Hc. unfold region_cells in Hc. apply in_map_iff in Hc. destruct Hc as (x & <- & Hx).
  rewrite (in_regions _ _ _ I x Hx). eexists. split; reflexivity.
Qed.
Print Assumptions C62_start.

(** ** Deleting *)
Lemma tile_delete d id c : tile_at (delete_patch_by_id d id) c = (if has_id id (tile_at d c) then None else tile_at d c).
Proof.
  unfold tile_at, delete_patch_by_id, with_cells. cbn [s_cells]. destruct (_ || _)%bool; [reflexivity|].
  rewrite nth_error_map. destruct (nth_error (s_cells d) _) as [r|]; [|reflexivity]. cbn [option_map]. rewrite nth_error_map. destruct (nth_error r _) as [t|]; [|reflexivity]. reflexivity.
Qed.
Lemma has_id_iff id p : has_id id (Some p) = true <-> p_id (dp p) = Some id.
Proof. cbn [has_id]. destruct (p_id (dp p)); [rewrite N.eqb_eq|]; split; congruence. Qed.
(** They stay alike when a patch is deleted from both, and its id is gone from both. *)
Theorem C62_delete : forall L d s id, same L d s -> same L (delete_patch_by_id d id) (ss_delete s id) /\ ss_has_patch (ss_delete s id) id = false.
Proof.
  intros L d s id S. destruct S as [A B C D E F].
  assert (K : forall c p, tile_at (delete_patch_by_id d id) c = Some p <-> tile_at d c = Some p /\ p_id (dp p) <> Some id).
  { intros c p. rewrite tile_delete. destruct (tile_at d c) as [p'|]; [|cbn; intuition discriminate].
    destruct (has_id id (Some p')) eqn:H; [apply has_id_iff in H|assert (p_id (dp p') <> Some id) by (intros X; apply has_id_iff in X; congruence)].
    - split; [discriminate|]. intros [X Y]. injection X as <-. contradiction.
    - split; [|tauto]. intros X. injection X as <-. auto. }
  split.
  - split.
    + destruct A as (A1 & A2 & A3 & A4). unfold sized, delete_patch_by_id, with_cells. cbn [s_cells]. rewrite map_length. repeat split; auto. apply Forall_map. revert A4. apply Forall_impl. intros r. now rewrite map_length.
    + intros c c' i (p & T & I) (p' & T' & I'). apply K in T. apply K in T'. apply (B c c' i); eexists; split; [apply T|exact I|apply T'|exact I'].
    + intros q Hq. cbn [ss_delete ss_qubits] in Hq. apply filter_In in Hq. destruct Hq as [Hq Nb]. destruct (C q Hq) as (c & p & T & Q). exists c, p. split; [|exact Q]. apply K. split; [exact T|].
      intros X. destruct Q as (_ & _ & _ & Qi & _). rewrite <- Qi in X. apply bears_iff in X. rewrite X in Nb. discriminate.
    + intros q Hq. destruct (D q Hq) as (c & p & T & Q & N0). exists c, p. split; [|auto]. apply K. split; [exact T|congruence].
    + intros c Hc. destruct (E c Hc) as (p & T & N0). exists p. split; [|exact N0]. apply K. split; [exact T|congruence].
    + intros c p T. apply K in T. destruct T as [T Ni]. destruct (F c p T) as [(q & Hq & Q)|X]; [|auto]. left. exists q. split; [|exact Q].
      destruct Hq as [Hq|Hq]; [left|right; exact Hq]. cbn [ss_delete ss_qubits]. apply filter_In. split; [exact Hq|]. destruct (bears id q) eqn:X; [|reflexivity]. apply bears_iff in X.
      destruct Q as (_ & _ & _ & Qi & _). congruence.
  - unfold ss_has_patch. cbn [ss_delete ss_qubits]. destruct (existsb _ _) eqn:X; [|reflexivity]. apply existsb_exists in X. destruct X as (q & Hq & Y). apply filter_In in Hq. destruct Hq as [_ Z].
    rewrite Y in Z. discriminate.
Qed.
Print Assumptions C62_delete.

(** ** Where they differ *)
Definition start_L : layout := Eval vm_compute in match ex_layout with Ok L => L | _ => mkLayout [] (mkCell 0 0) [] [] [] [] [] [] [] false end.
Definition start_d : slice := Eval vm_compute in match new_slice start_L [7; 3]%N with Ok d => d | _ => mkSlice [] [] [] 0 [] [] [] end.
Lemma start_same : same start_L start_d (twin start_d).
Proof.
  apply (C62_start start_L [7; 3]%N).
  - apply (text_layout_wf ex_text (mkDO true 2)). vm_compute. reflexivity.
  - repeat constructor; cbn; intuition discriminate.
  - vm_compute. reflexivity.
Qed.
(** The same lattice, and yet: a tile without a qubit patch has sides (none, or those of a state) in the one and is an access to an absent
    optional in the other; a tile outside of the lattice is an error in the one and free in the other; searching routes throws. *)
Theorem C62_tiles_refuted : exists L d s, same L d s /\
  (exists c n, tile_at d c = None /\ has_boundary_of_type d c n PX = Ok false /\ ss_boundary_of_type s c n PX = Throw BadOptional) /\
  (exists c n p, tile_at d c = Some p /\ p_id (dp p) = None /\ has_boundary_of_type d c n PX = Ok true /\ ss_boundary_of_type s c n PX = Throw BadOptional) /\
  (exists c, ~ on_lattice (l_furthest L) c /\ ss_is_free L s c = true /\ is_free d c = Throw OutOfRange) /\
  (exists c, is_free_or_activity d c [AEDPC] = Ok true /\ ss_is_free_or_activity s c [AEDPC] = Throw NotImplemented).
Proof.
  exists start_L, start_d, (twin start_d). split; [exact start_same|]. split; [|split; [|split]].
  - exists (mkCell 1 0), (mkCell 1 1). vm_compute. auto.
  - exists (mkCell 1 2), (mkCell 1 3). eexists. vm_compute. repeat split; reflexivity.
  - exists (mkCell 9 9). split; [unfold on_lattice; cbn; lia|]. vm_compute. auto.
  - exists (mkCell 1 0). vm_compute. auto.
Qed.
Print Assumptions C62_tiles_refuted.

(** The JSON of the tiles of a factory: the dense slice shows all of them, the sparse slice none that is not listed, apart from the note. *)
Definition unlisted (L : layout) (s : sslice) : sslice :=
  let out q := negb (existsb (fun c => existsb (cell_eqb c) (region_cells L)) (get_cells q)) in
  mkSS (filter out (ss_qubits s)) (ss_routing s) (filter out (ss_magic s)) (ss_timers s).
Theorem C62_factory_refuted : exists L d s j j' c p, same L d s /\ ss_timers s = s_timers d /\ ss_routing s = [] /\
  slice_json L d = Ok j /\ ss_json L s = Ok j' /\ tile_at d c = Some p /\ p_type (dp p) = TDistillation /\
  (exists v, grid_at j c = Some v /\ field "patch_type" v = Some (JStr (lit "DistillationQubit"))) /\ grid_at j' c = Some JNull.
Proof.
  exists start_L, start_d, (unlisted start_L (twin start_d)).
  assert (S : same start_L start_d (unlisted start_L (twin start_d))).
  { pose proof start_same as S. destruct S as [A B C D E F]. split; [exact A|exact B| | |exact E|].
    - intros q Hq. apply C. cbn [unlisted ss_qubits] in Hq. apply filter_In in Hq. apply Hq.
    - intros q Hq. apply D. cbn [unlisted ss_magic] in Hq. apply filter_In in Hq. apply Hq.
    - intros c p T. destruct (F c p T) as [(q & Hq & Q)|X]; [|auto].
      destruct (existsb (fun x => cell_eqb x c) (region_cells start_L)) eqn:X.
      + right. apply existsb_exists in X. destruct X as (x & Hx & Ex). apply cell_eqb_eq in Ex. now subst.
      + left. exists q. split; [|exact Q]. cbn [unlisted ss_qubits ss_magic]. rewrite !filter_In.
        assert (Y : negb (existsb (fun c0 => existsb (cell_eqb c0) (region_cells start_L)) (get_cells q)) = true).
        { rewrite (stands_cells _ _ _ Q). cbn [existsb]. rewrite Bool.orb_false_r. apply Bool.negb_true_iff. rewrite <- X. clear.
          induction (region_cells start_L) as [|x l IH]; [reflexivity|]. cbn [existsb]. rewrite IH. f_equal. apply Bool.eq_true_iff_eq. rewrite !cell_eqb_eq. split; congruence. }
        tauto. }
  do 2 eexists. exists (mkCell 2 3). eexists. split; [exact S|]. split; [reflexivity|]. split; [reflexivity|].
  split; [vm_compute; reflexivity|]. split; [vm_compute; reflexivity|]. split; [vm_compute; reflexivity|]. split; [vm_compute; reflexivity|].
  split; [eexists; split; vm_compute; reflexivity|vm_compute; reflexivity].
Qed.
Print Assumptions C62_factory_refuted.

(** A patch of several cells also takes the tile of the origin, wherever it is, and has no JSON. *)
Theorem C62_cells_refuted : exists L s l, ss_qubits s = [mkSP distillation_patch (Multi l)] /\ ss_magic s = [] /\ l_regions L = [] /\ ~ In (mkCell 0 0) (map sc_cell l) /\
  ss_is_free L s (mkCell 0 0) = false /\ ss_json L s = Throw RuntimeError.
Proof.
  pose (l := [mkSC connected4 (mkCell 1 1); mkSC connected4 (mkCell 1 2)]).
  exists (mkLayout [] (mkCell 2 2) [] [] [] [] [] [] [] false), (mkSS [mkSP distillation_patch (Multi l)] [] [] []), l.
  repeat split. cbn. intros [X|[X|[]]]; discriminate.
Qed.
Print Assumptions C62_cells_refuted.
(** The tiles of a route under way count as free, though they are drawn. *)
Theorem C62_routing_refuted : exists L s r c j v, In r (ss_routing s) /\ In c (map sc_cell (rg_cells r)) /\ ss_is_free L s c = true /\
  ss_json L s = Ok j /\ grid_at j c = Some v /\ field "patch_type" v = Some (JStr (lit "Ancilla")).
Proof.
  pose (r := mkRegion [mkSC connected4 (mkCell 1 1)] (Some 4%N)).
  exists (mkLayout [] (mkCell 2 2) [] [] [] [] [] [] [] false), (mkSS [] [r] [] []), r, (mkCell 1 1). do 2 eexists.
  split; [now left|]. split; [now left|]. split; [reflexivity|]. split; [vm_compute; reflexivity|]. split; vm_compute; reflexivity.
Qed.
Print Assumptions C62_routing_refuted.
(** Slices that compare equal may differ in their magic states: in what is free and in the JSON. *)
Theorem C62_equal_refuted : exists L a b c, ss_equal a b = true /\ ss_is_free L a c = true /\ ss_is_free L b c = false /\ ss_json L a <> ss_json L b.
Proof.
  pose (q := mkSP (dp magic_tile) (Single (mkSC (db magic_tile) (mkCell 1 1)))).
  exists (mkLayout [] (mkCell 2 2) [] [] [] [] [] [] [] false), (mkSS [] [] [] []), (mkSS [] [] [q] []), (mkCell 1 1). repeat split. vm_compute. discriminate.
Qed.
Print Assumptions C62_equal_refuted.

(** The hypotheses hold of a lattice with two qubits, a Y state and a factory, and the ids are found. *)
Example C62_ex : same start_L start_d (twin start_d) /\ ss_cell_by_id (twin start_d) 3 = Ok (Some (mkCell 0 1)) /\ ss_cell_by_id (twin start_d) 9 = Ok None
  /\ ss_is_free start_L (twin start_d) (mkCell 0 1) = false /\ ss_is_free start_L (twin start_d) (mkCell 1 0) = true
  /\ ss_boundary_of_type (twin start_d) (mkCell 0 1) (mkCell 1 1) PZ <> ss_boundary_of_type (twin start_d) (mkCell 0 1) (mkCell 1 1) PX.
Proof. split; [exact start_same|]. repeat split; try reflexivity. vm_compute. discriminate. Qed.
Definition plain_L : layout := Eval vm_compute in match layout_from_spec (lit "QrQ") (mkDO true 2) with Ok L => L | _ => start_L end.
Definition plain_d : slice := Eval vm_compute in match new_slice plain_L [7; 3]%N with Ok d => d | _ => start_d end.
Example C62_json_ex : exists j, layout_wf plain_L /\ timed plain_L plain_d /\ l_regions plain_L = [] /\ same plain_L plain_d (twin plain_d) /\ ss_routing (twin plain_d) = []
  /\ ss_json plain_L (twin plain_d) = Ok j /\ exists v, grid_at j (mkCell 0 2) = Some v /\ field "text" v = Some (JStr (lit "Id: 3")).
Proof.
  assert (W : layout_wf plain_L) by (apply (text_layout_wf (lit "QrQ") (mkDO true 2)); vm_compute; reflexivity).
  assert (Q : same plain_L plain_d (twin plain_d)) by (apply (C62_start plain_L [7; 3]%N); [exact W|repeat constructor; cbn; intuition discriminate|vm_compute; reflexivity]).
  eexists. split; [exact W|]. split; [split; [exact (sm_sized _ _ _ Q)|reflexivity]|]. split; [reflexivity|]. split; [exact Q|]. split; [reflexivity|].
  split; [vm_compute; reflexivity|]. eexists. split; vm_compute; reflexivity.
Qed.
