(** Attempting an instruction comes to an end: no recursion of the model runs out of fuel. *)
From Verif Require Import Base PatchesModel LayoutModel LayoutSpec LayoutProofs InstrModel InstrSpec InstrProofs.
From Verif Require Import SliceModel SliceSpec SliceProofs RouterModel RouterSpec RouterProofs ApplyModel ApplySpec ApplyProofs ApplyEffect ApplyBell.
Open Scope Z_scope.

Definition ends {A} (r : outcome A) : Prop := r <> Fuel.

Lemma ends_bind : forall A B (x : outcome A) (f : A -> outcome B), ends x -> (forall a, x = Ok a -> ends (f a)) -> ends (bind x f).
Proof. unfold ends. intros A B [a| | |] f H K; cbn; try congruence. now apply K. Qed.
Lemma ends_foldM : forall A S (f : S -> A -> outcome S) l s, (forall s a, In a l -> ends (f s a)) -> ends (foldM f l s).
Proof.
  intros A S f. induction l as [|a l IH]; intros s H; cbn [foldM]; [discriminate|]. apply ends_bind; [apply H; now left|].
  intros s' _. apply IH. intros s'' a' Ha. apply H. now right.
Qed.
Lemma ends_mapM : forall A B (f : A -> outcome B) l, (forall a, ends (f a)) -> ends (mapM f l).
Proof.
  intros A B f l H. induction l as [|a l IH]; cbn [mapM]; [discriminate|]. apply ends_bind; [apply H|]. intros b _. apply ends_bind; [exact IH|]. discriminate.
Qed.

Create HintDb ending.
Ltac close := solve [discriminate | auto with ending].
Ltac go := repeat match goal with
  | |- ends (Ok _) => unfold ends; discriminate
  | |- ends (Throw _) => unfold ends; discriminate
  | |- ends (UB _) => unfold ends; discriminate
  | |- ends (bind _ _) => apply ends_bind; [|intros ? _]
  | |- ends (foldM _ _ _) => apply ends_foldM; intros ? ? _
  | |- ends (mapM _ _) => apply ends_mapM; intros ?
  | |- _ => solve [auto with ending]
  | |- ends (match ?x with _ => _ end) => destruct x
  end.
Ltac start f := intros; unfold f; go.

Lemma at_ends : forall A (l : list A) i, ends (at_ l i). Proof. start @at_. Qed.
#[export] Hint Resolve at_ends : ending.
Lemma at_z_ends : forall A (l : list A) i, ends (at_z l i). Proof. start @at_z. Qed.
Lemma idx_ends : forall A (l : list A) i, ends (idx l i). Proof. start @idx. Qed.
Lemma value_ends : forall A (o : option A), ends (value_ o). Proof. start @value_. Qed.
Lemma deref_ends : forall A (o : option A), ends (deref o). Proof. start @deref. Qed.
#[export] Hint Resolve at_z_ends idx_ends value_ends deref_ends : ending.
Lemma patch_at_ends : forall s c, ends (patch_at s c). Proof. start patch_at. Qed.
#[export] Hint Resolve patch_at_ends : ending.
Lemma set_patch_ends : forall s c t, ends (set_patch s c t). Proof. start set_patch. Qed.
#[export] Hint Resolve set_patch_ends : ending.
Lemma is_free_ends : forall s c, ends (is_free s c). Proof. start is_free. Qed.
Lemma is_free_or_activity_ends : forall s c l, ends (is_free_or_activity s c l). Proof. start is_free_or_activity. Qed.
Lemma from_sparse_ends : forall p, ends (from_sparse_patch p). Proof. start from_sparse_patch. Qed.
#[export] Hint Resolve is_free_ends is_free_or_activity_ends from_sparse_ends : ending.
Lemma place_single_ends : forall s p b, ends (place_single s p b). Proof. start place_single. Qed.
#[export] Hint Resolve place_single_ends : ending.
Lemma place_sparse_ends : forall s p b, ends (place_sparse s p b). Proof. start place_sparse. Qed.
Lemma boundary_ref_ends : forall s a b, ends (boundary_ref s a b). Proof. start boundary_ref. Qed.
Lemma read_ref_ends : forall s r, ends (read_ref s r). Proof. start read_ref. Qed.
Lemma write_ref_ends : forall s r b, ends (write_ref s r b). Proof. start write_ref. Qed.
#[export] Hint Resolve place_sparse_ends boundary_ref_ends read_ref_ends write_ref_ends : ending.
Lemma set_ref_type_ends : forall s r t, ends (set_ref_type s r t). Proof. start set_ref_type. Qed.
Lemma set_ref_active_ends : forall s r t, ends (set_ref_active s r t). Proof. start set_ref_active. Qed.
Lemma boundary_ref_or_fail_ends : forall s a b, ends (boundary_ref_or_fail s a b). Proof. start boundary_ref_or_fail. Qed.
Lemma boundary_between_ends : forall s a b, ends (boundary_between s a b). Proof. start boundary_between. Qed.
Lemma boundary_for_ends : forall o, ends (boundary_for_operator o). Proof. start boundary_for_operator. Qed.
#[export] Hint Resolve set_ref_type_ends set_ref_active_ends boundary_ref_or_fail_ends boundary_between_ends boundary_for_ends : ending.
Lemma has_boundary_ends : forall s a b o, ends (has_boundary_of_type s a b o). Proof. start has_boundary_of_type. Qed.
Lemma is_boundary_reserved_ends : forall s a b, ends (is_boundary_reserved s a b). Proof. start is_boundary_reserved. Qed.
Lemma place_ystate_ends : forall s c, ends (place_ystate s c). Proof. start place_ystate. Qed.
#[export] Hint Resolve has_boundary_ends is_boundary_reserved_ends place_ystate_ends : ending.

(** ** Advancing *)
Lemma spawn_magic_ends : forall s c, ends (spawn_magic s c). Proof. start spawn_magic. Qed.
#[export] Hint Resolve spawn_magic_ends : ending.
Lemma respawn_ends : forall L st c, ends (respawn L st c). Proof. start respawn. Qed.
Lemma first_free_ends : forall s l, ends (first_free s l). Proof. intros s. induction l; cbn [first_free]; go. Qed.
#[export] Hint Resolve respawn_ends first_free_ends : ending.
Lemma find_place_ends : forall s L i, ends (find_place_for_magic_state s L i). Proof. start find_place_for_magic_state. Qed.
#[export] Hint Resolve find_place_ends : ending.
Lemma run_factories_ends : forall L todo s i, ends (run_factories L s i todo). Proof. intros L. induction todo; intros s i; cbn [run_factories]; go. Qed.
#[export] Hint Resolve run_factories_ends : ending.
Lemma advance_ends : forall L s, ends (advance_slice L s). Proof. start advance_slice. Qed.
#[export] Hint Resolve advance_ends : ending.

(** ** Crossing routes *)

Lemma flip_ref_ends : forall s r, ends (flip_ref s r). Proof. start flip_ref. Qed.
#[export] Hint Resolve flip_ref_ends : ending.
Lemma flip_conjugate_ends : forall s n c, ends (flip_conjugate s n c). Proof. start flip_conjugate. Qed.
Lemma label_conjugate_ends : forall s n c t, ends (label_conjugate s n c t). Proof. start label_conjugate. Qed.
#[export] Hint Resolve flip_conjugate_ends label_conjugate_ends : ending.
Lemma flip_side_ends : forall L c d s d', ends (flip_side L c d s d'). Proof. start flip_side. Qed.
Lemma label_side_ends : forall L c t s d, ends (label_side L c t s d). Proof. start label_side. Qed.
#[export] Hint Resolve flip_side_ends label_side_ends : ending.

(** How many tiles there are ahead *)
Definition ahead (far c : cell) (d : dir) : Z :=
  match d with DTop => row c | DBottom => row far - row c | DLeft => col c | DRight => col far - col c end.
Lemma ahead_less : forall L c d n, neighbour_towards L c d = Some n -> ahead (l_furthest L) n d = ahead (l_furthest L) c d - 1 /\ 0 <= ahead (l_furthest L) n d.
Proof.
  intros L c d n H. unfold neighbour_towards, get_directional_neighbor in H.
  destruct d; match type of H with (if ?b then _ else _) = _ => destruct b eqn:B; [|discriminate] end; injection H as <-; cbn [ahead row col] in *; lia.
Qed.

Lemma flip_chain_short : forall L d f s c, 0 <= ahead (l_furthest L) c d < Z.of_nat f -> ends (flip_crossing_chain f L s c d).
Proof.
  intros L d. induction f as [|f IH]; intros s c H; [lia|]. cbn [flip_crossing_chain].
  destruct (negb (mem_cell c (s_crossing s))); [unfold ends; discriminate|]. apply ends_bind; [apply patch_at_ends|]. intros t _.
  destruct t; [|unfold ends; discriminate]. apply ends_bind; [go|]. intros s' _. destruct (neighbour_towards L c d) as [n|] eqn:N; [|unfold ends; discriminate].
  destruct (mem_cell n (s_crossing s')); [|unfold ends; discriminate]. apply IH. apply ahead_less in N. lia.
Qed.

(** The recursion that turns the labels of a chain of crossings runs along one row or column and stops at the border. *)
Lemma flip_chain_fuel : forall L s c d, sized (l_furthest L) s -> ends (flip_crossing_chain (chain_fuel L) L s c d).
Proof.
  intros L s c d Hs. assert (K : exists f, chain_fuel L = S f).
  { destruct Hs as (H1 & H2 & _). unfold chain_fuel. destruct (Z.to_nat _) eqn:Z; [lia|eauto]. }
  destruct (patch_at s c) as [t| | |] eqn:P.
  - apply (patch_at_inv (l_furthest L)) in P; [|exact Hs]. destruct P as [On _]. apply flip_chain_short.
    unfold on_lattice in On. unfold chain_fuel. destruct d; cbn [ahead]; lia.
  - destruct K as [f ->]. cbn [flip_crossing_chain]. destruct (negb _); [unfold ends; discriminate|]. rewrite P. unfold ends. discriminate.
  - destruct K as [f ->]. cbn [flip_crossing_chain]. destruct (negb _); [unfold ends; discriminate|]. rewrite P. unfold ends. discriminate.
  - destruct (patch_at_ends _ _ P).
Qed.

Lemma follow_chain_ends : forall L s n d ci nc, sized (l_furthest L) s -> ends (follow_chain L s n d ci nc).
Proof.
  intros L s n d ci nc Hs. unfold follow_chain. destruct (mem_cell n (s_crossing s)); [|unfold ends; discriminate].
  apply ends_bind; [now apply flip_chain_fuel|]. unfold ends. discriminate.
Qed.
Lemma cross_side_ends : forall L c prev pd pc s tmp ci nc nr d, sized (l_furthest L) s -> ends (cross_side L c prev pd pc (s, tmp, ci, nc, nr) d).
Proof.
  intros L c prev pd pc s tmp ci nc nr d Hs. unfold cross_side. destruct (neighbour_towards L c d); [|go]. apply ends_bind; [go|]. intros b _.
  destruct (is_label (btype b)); [|go]. destruct (cell_eqb c0 prev); [go|]. destruct tmp.
  - apply ends_bind; [go|]. intros x _. destruct (negb _); [|go]. apply ends_bind; [go|]. intros s1 E1. apply ends_bind; [go|]. intros s2 E2.
    apply (flip_sides (l_furthest L)) in E1; [|exact Hs]. apply (label_conj_sides (l_furthest L)) in E2; [|apply E1].
    apply ends_bind; [apply follow_chain_ends, E2|]. intros x0 _. go.
  - apply ends_bind; [go|]. intros x _. destruct (btype_eqb _ _); [|go]. apply ends_bind; [go|]. intros s1 E1. apply ends_bind; [go|]. intros s2 E2.
    apply (flip_sides (l_furthest L)) in E1; [|exact Hs]. apply (flip_conj_sides (l_furthest L)) in E2; [|apply E1].
    apply ends_bind; [apply follow_chain_ends, E2|]. intros x0 _. go.
Qed.
Lemma cross_fold_ends : forall L c prev pd pc l s tmp ci nc nr, sized (l_furthest L) s -> ends (foldM (cross_side L c prev pd pc) l (s, tmp, ci, nc, nr)).
Proof.
  intros L c prev pd pc. induction l as [|d l IH]; intros s tmp ci nc nr Hs; cbn [foldM]; [go|].
  apply ends_bind; [now apply cross_side_ends|]. intros [[[[s' tmp'] ci'] nc'] nr'] E. apply IH. eapply cross_side_sides; eauto.
Qed.
Lemma crossing_ends : forall L s c prev, sized (l_furthest L) s -> ends (mark_boundaries_for_crossing_cell L s c prev).
Proof.
  intros L s c prev Hs. unfold mark_boundaries_for_crossing_cell. apply ends_bind; [go|]. intros [p|] _; [|go]. apply ends_bind; [go|]. intros b _.
  destruct (_ && _)%bool; [go|]. apply ends_bind; [now apply cross_fold_ends|]. intros [[[[s' tmp'] ci'] nc'] nr'] _. go.
Qed.

Lemma place_routing_ends : forall s sc a o, ends (place_routing s sc a o). Proof. start place_routing. Qed.
#[export] Hint Resolve place_routing_ends : ending.
Lemma mark_cells_ends : forall L act opid all todo s label k prev, sized (l_furthest L) s -> ends (mark_cells L act opid all s label k prev todo).
Proof.
  intros L act opid all. induction todo as [|sc todo IH]; intros s label k prev Hs; cbn [mark_cells]; [go|].
  apply ends_bind; [go|]. intros t P. apply ends_bind.
  - destruct t; [|go]. destruct (act_eqb act AEDPC); [|go]. destruct (act_eqb (p_act (dp d)) AEDPC); [|go].
    destruct (mem_cell (sc_cell sc) (s_crossing s)); [go|]. apply ends_bind; [go|]. intros pc _. apply ends_bind; [apply crossing_ends; exact Hs|]. intros [x y] _. go.
  - intros [[s1 label1] sc1] E. apply ends_bind; [|intros [s2 r] _; go]. apply IH.
    apply (patch_at_inv (l_furthest L)) in P as [Ho ->]; [|exact Hs].
    destruct (tile_at s (sc_cell sc)) as [q|] eqn:Et.
    + destruct (act_eqb act AEDPC); [|discriminate]. destruct (act_eqb (p_act (dp q)) AEDPC).
      * destruct (mem_cell (sc_cell sc) (s_crossing s)); [discriminate|]. bstep E. bstep E. destruct x0 as [s2 lab].
        apply (crossing_sides (l_furthest L)) in H0 as [S2 _]; [|exact Hs]. injection E as <- <- <-. exact S2.
      * destruct (k =? 0)%nat.
        -- bstep E. bstep E. destruct x0 as [r|]; [|discriminate]. bstep E. apply (type_sides (l_furthest L)) in H1 as [S2 _]; auto. injection E as <- <- <-. exact S2.
        -- destruct (S k =? length all)%nat; [|discriminate]. bstep E. bstep E. destruct x0 as [r|]; [|discriminate]. bstep E.
           apply (type_sides (l_furthest L)) in H1 as [S2 _]; auto. injection E as <- <- <-. exact S2.
    + bstep E. unfold place_routing, place_sparse in H. cbn [sp_cells] in H. bstep H. destruct x0 as [s3 c3].
      eapply (place_single_inv (l_furthest L)) in H0 as (-> & _ & _ & E3); auto. 2: reflexivity. cbn in E3.
      assert (x = s3) by congruence. subst x s3. injection E as <- <- <-. apply sized_put; auto.
Qed.
Lemma mark_region_ends : forall L s r act, sized (l_furthest L) s -> ends (mark_routing_region L s r act).
Proof. intros L s r act Hs. unfold mark_routing_region. apply ends_bind; [now apply mark_cells_ends|]. intros [x y] _. go. Qed.

(** ** The instructions *)

Lemma have_boundary_with_ends : forall s o n, ends (have_boundary_of_type_with s o n). Proof. start have_boundary_of_type_with. Qed.
Lemma get_a_cell_ends : forall p, ends (get_a_cell p). Proof. start get_a_cell. Qed.
Lemma join_tiles_ends : forall a b, ends (join_tiles a b). Proof. start join_tiles. Qed.
#[export] Hint Resolve have_boundary_with_ends get_a_cell_ends join_tiles_ends : ending.
Lemma litinski_ends : forall p n, ends (litinski_rotation p n). Proof. start litinski_rotation. Qed.
Lemma find_ancilla_ends : forall L s, ends (find_free_ancilla_location L s). Proof. start find_free_ancilla_location. Qed.
Lemma first_next_ends : forall s t o l, ends (first_next_to s t o l). Proof. intros s t o. induction l; cbn [first_next_to]; go. Qed.
#[export] Hint Resolve litinski_ends find_ancilla_ends first_next_ends : ending.
Lemma place_next_ends : forall L s t o, ends (place_ancilla_next_to L s t o). Proof. start place_ancilla_next_to. Qed.
Lemma activate_ends : forall s a b, ends (activate s a b). Proof. start activate. Qed.
Lemma activate_or_fail_ends : forall s a b, ends (activate_or_fail s a b). Proof. start activate_or_fail. Qed.
#[export] Hint Resolve place_next_ends activate_ends activate_or_fail_ends : ending.
Lemma stitch_ends : forall s a b l, ends (stitch_boundaries s a b l). Proof. start stitch_boundaries. Qed.
Lemma clear_ends : forall s r, ends (clear_routing_region s r). Proof. start clear_routing_region. Qed.
Lemma free_for_local_ends : forall e s c, ends (free_for_local e s c). Proof. start free_for_local. Qed.
Lemma vacate_ends : forall e s c, ends (vacate_for_local e s c). Proof. start vacate_for_local. Qed.
Lemma place_square_ends : forall s c i l, ends (place_square s c i l). Proof. start place_square. Qed.
Lemma set_activity_ends : forall s c a, ends (set_activity s c a). Proof. start set_activity. Qed.
Lemma set_tile_id_ends : forall s c i, ends (set_tile_id s c i). Proof. start set_tile_id. Qed.
Lemma unusable_ends : forall s c, ends (unusable s c). Proof. start unusable. Qed.
Lemma absent_ends : forall s c, ends (absent s c). Proof. start absent. Qed.
#[export] Hint Resolve stitch_ends clear_ends free_for_local_ends vacate_ends place_square_ends set_activity_ends set_tile_id_ends unusable_ends absent_ends : ending.
Lemma try_local_ends : forall e s l, ends (try_local e s l). Proof. start try_local. Qed.
#[export] Hint Resolve try_local_ends : ending.
Lemma run_locals_ends : forall e ls s i, ends (run_locals e s ls i). Proof. intros e. induction ls; intros s i; cbn [run_locals]; go. Qed.
Lemma bell_pair_at_ends : forall r t rv ev o a b i1 i2 l k, ends (bell_pair_at r t rv ev o a b i1 i2 l k). Proof. start bell_pair_at. Qed.
#[export] Hint Resolve run_locals_ends bell_pair_at_ends : ending.
Lemma bell_link_at_ends : forall r t rv ev o a b i1 i2 l k, ends (bell_link_at r t rv ev o a b i1 i2 l k). Proof. start bell_link_at. Qed.
#[export] Hint Resolve bell_link_at_ends : ending.
Lemma bell_chain_ends : forall r t rv ev a b i1 i2 l, ends (bell_chain r t rv ev a b i1 i2 l). Proof. start bell_chain. Qed.
#[export] Hint Resolve bell_chain_ends : ending.
Lemma compile_bell_ends : forall t l r a b rv i1 i2, ends (compile_bell t l r a b rv i1 i2). Proof. start compile_bell. Qed.
#[export] Hint Resolve compile_bell_ends : ending.
Lemma compile_cnot_ends : forall l r a b, ends (compile_cnot l r a b). Proof. start compile_cnot. Qed.
Lemma type_between_ends : forall s a b, ends (type_between s a b). Proof. start type_between. Qed.
#[export] Hint Resolve compile_cnot_ends type_between_ends : ending.
Lemma label_changes_ends : forall s cells cur i, ends (label_changes s cur i cells). 
Proof.
  intros s. induction cells as [|c l IH]; intros cur i; cbn [label_changes]; [go|]. destruct l as [|c' l]; [go|]. apply ends_bind; [go|]. intros t _.
  destruct (btype_eqb t cur); [apply IH|]. apply ends_bind; [apply IH|]. intros [x y] _. go.
Qed.
Lemma edpc_segment_ends : forall r a b n en l i, ends (edpc_segment r a b n en l i). Proof. start edpc_segment. Qed.
#[export] Hint Resolve label_changes_ends edpc_segment_ends : ending.
Lemma edpc_decompose_ends : forall s r a b, ends (edpc_decompose s r a b). Proof. start edpc_decompose. Qed.
Lemma set_idx_ends : forall A (l : list A) i x, ends (set_idx l i x). Proof. start @set_idx. Qed.
Lemma print_run_ends : forall ls k i, ends (print_local_run ls i k). Proof. intros ls. induction k; intros i; cbn [print_local_run]; go. Qed.
#[export] Hint Resolve print_run_ends : ending.
Lemma print_sets_ends : forall ss cs, ends (print_local_sets ss cs). Proof. induction ss as [|s ss IH]; intros cs; cbn [print_local_sets]; [go|]. destruct cs as [|[a b] cs]; go. Qed.
Lemma print_sq_ends : forall o, ends (print_sq_op o). Proof. start print_sq_op. Qed.
#[export] Hint Resolve print_sets_ends print_sq_ends : ending.
Lemma print_op_ends : forall o, ends (print_op o). Proof. start print_op. Qed.
#[export] Hint Resolve edpc_decompose_ends set_idx_ends print_op_ends : ending.
Lemma failed_ends : forall w o, ends (failed w o). Proof. start failed. Qed.
Lemma done_ends : forall w o, ends (done_ w o). Proof. start done_. Qed.
#[export] Hint Resolve failed_ends done_ends : ending.
Lemma measure_ends : forall w o t, ends (apply_measure w o t). Proof. start apply_measure. Qed.
Lemma init_ends : forall e w t st p, ends (apply_init e w t st p). Proof. start apply_init. Qed.
Lemma last_free_ends : forall s l, ends (last_free s l). Proof. start last_free. Qed.
Lemma nearest_step_ends : forall s n b c, ends (nearest_step s n b c). Proof. start nearest_step. Qed.
#[export] Hint Resolve nearest_step_ends : ending.
Lemma nearest_y_ends : forall s n b c, ends (nearest_y s n b c). Proof. start nearest_y. Qed.
Lemma smooth_ends : forall s c a n, ends (smooth_neighbour s c a n). Proof. start smooth_neighbour. Qed.
#[export] Hint Resolve measure_ends init_ends last_free_ends nearest_step_ends nearest_y_ends smooth_ends : ending.
Lemma magic_ends : forall e w t n, ends (apply_magic e w t n). Proof. start apply_magic. Qed.
Lemma y_ends : forall e w t n l, ends (apply_y e w t n l). Proof. start apply_y. Qed.
Lemma place_all_ends : forall l s, ends (place_all s l). Proof. induction l; intros s; cbn [place_all]; go. Qed.
#[export] Hint Resolve magic_ends y_ends place_all_ends : ending.
Lemma busy_ends : forall w r n l, ends (apply_busy w r n l). Proof. start apply_busy. Qed.
#[export] Hint Resolve busy_ends : ending.

(** The search for routes comes to an end. *)
Definition settles (e : env) : Prop := forall cache s a pa b pb, sized (l_furthest (e_layout e)) s -> ends (e_route e cache s a pa b pb).

Lemma merge_ends : forall e w a pa b pb, settles e -> sized (l_furthest (e_layout e)) (w_slice w) -> ends (merge_patches e w a pa b pb).
Proof.
  intros e w a pa b pb St Hs. unfold merge_patches. apply ends_bind; [go|]. intros p _. apply ends_bind; [go|]. intros busy _. destruct busy; [go|].
  apply ends_bind; [now apply St|]. intros [[reg|] cache] _; [|go]. apply ends_bind; [go|]. intros ca _. apply ends_bind; [go|]. intros cb _.
  apply ends_bind; [go|]. intros s1 E. apply ends_bind; [|intros [x y] _; go]. apply mark_region_ends.
  assert (G : forall x y, (do s2 <- activate (w_slice w) ca x ;; activate s2 cb y) = Ok s1 -> sized (l_furthest (e_layout e)) s1).
  { intros x y G. bstep G. apply (activate_inv (l_furthest (e_layout e))) in H as (d & q & _ & _ & On & ->); [|exact Hs].
    apply (activate_inv (l_furthest (e_layout e))) in G as (d' & q' & _ & _ & On' & ->); [|now apply sized_put]. now repeat apply sized_put. }
  unfold stitch_boundaries in E. destruct (rg_cells (if e_opids e then mkRegion (rg_cells reg) (Some (w_ops w)) else reg)); eapply G; exact E.
Qed.

(** Every attempt at an instruction ends. *)
Lemma try_apply_ends : forall e w i, settles e -> sized (l_furthest (e_layout e)) (w_slice w) -> ends (try_apply e w i).
Proof.
  intros e w [o wt cl] St Hs. unfold try_apply. cbn [op wait clients]. destruct o; try (go; fail).
  - unfold apply_multi. destruct observable as [|[a pa] [|[b pb] [|? ?]]]; try (go; fail). destruct (negb (has_patch _ a)); [go|].
    destruct (negb (has_patch _ b)); [go|]. destruct (negb (e_local e)); [|go]. destruct (e_edpc e); [go|]. apply ends_bind; [now apply merge_ends|]. intros [w' ok] _. go.
  - unfold apply_bell_init. destruct (negb (e_local e)); [go|]. destruct (negb _); [go|]. destruct (negb _); [go|].
    destruct counter as [[f n]|]; [go|]. apply ends_bind; [now apply St|]. intros [[reg|] cache] _; go.
  - unfold apply_single. destruct (get_cell_by_id (w_slice w) target), (get_patch_by_id (w_slice w) target); try (go; fail). destruct op; try (go; fail). destruct (e_edpc e); [go|].
    apply ends_bind; [now apply merge_ends|]. intros [w' ok] _. go.
  - unfold apply_rotate. destruct (get_cell_by_id (w_slice w) target); [|go]. apply ends_bind; [go|]. intros [n|] _; [|go]. apply ends_bind; [go|]. intros t _.
    apply ends_bind; [go|]. intros p _. apply ends_bind; [go|]. intros b _. apply ends_bind; [go|]. intros s1 E. destruct b; try (go; fail).
    apply ends_bind; [|intros [x y] _; go]. apply mark_region_ends. apply (set_patch_inv (l_furthest (e_layout e))) in E as [On ->]; [|exact Hs]. now apply sized_put.
  - unfold apply_cnot. destruct (negb (e_local e)); [go|]. destruct (get_patch_by_id (w_slice w) control) as [pc|]; [|go]. destruct (get_patch_by_id (w_slice w) target) as [pt|]; [|go].
    destruct (dp_is_active pc); [go|]. destruct (dp_is_active pt); [go|]. destruct (e_edpc e).
    + destruct route as [reg|].
      * destruct counters as [cs|]; [unfold cnot_phase; go|unfold cnot_decompose; go].
      * unfold cnot_find_route. apply ends_bind; [now apply St|]. intros [[reg|] cache] _; [|go]. destruct (Nat.ltb _ _); [go|].
        apply ends_bind; [go|]. intros cc _. apply ends_bind; [go|]. intros ct _. apply ends_bind; [now apply mark_region_ends|]. intros [x y] _. go.
    + unfold cnot_plain. destruct counters as [cs|]; [unfold cnot_locals; go|]. apply ends_bind; [now apply St|]. intros [[reg|] cache] _; [|go]. unfold cnot_locals. go.
Qed.
