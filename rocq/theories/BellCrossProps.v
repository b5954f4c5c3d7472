(** C53 for crossing routes: CNOTs carried out segment by segment in two phases. *)
From Verif Require Import Base TextModel PatchesModel LayoutModel InstrModel StabSpec StabProofs.
From Verif Require Import SliceModel SliceSpec SliceProofs RouterModel RouterSpec RouterProofs RouterProps ApplyModel ApplySpec ApplyProofs ApplyBell ApplyIds BellSpec BellProps BellStabSpec BellStab BellStabProps BellIds BellCross BellDrop.
Open Scope nat_scope.

(** A CNOT along a route that crosses others, of any length and shape and with any
    number of crossings, its target end showing X and its control end showing Z: if
    the route leaves the one sideways and the other up- or downwards, the layers
    of the first phase followed by those of the second are exactly a CNOT of the
    two end patches, whatever the labels along the route. *)
Theorem C53_crossing : forall patch shows tgt inner ctl s s1 s2 p1 p2, inner <> [] ->
  let route := tgt :: inner ++ [ctl] in NoDup route -> own_patches patch route ->
  (forall a b, In a inner -> shows a b = square_shows a b) ->
  shows tgt (hd ctl inner) = PX -> shows ctl (last inner tgt) = PZ ->
  beside tgt (hd ctl inner) <> beside (last inner tgt) ctl ->
  edpc_decompose s route s1 s2 = Ok (p1, p2) ->
  tiles_act_as patch shows inner ((fst p1 ++ snd p1) ++ (fst p2 ++ snd p2)) (image (conj_cnot (patch ctl) (patch tgt))).
Proof.
  intros patch shows tgt inner ctl s s1 s2 [a1 b1] [a2 b2] Hi route Nd Op Sq St Sc B E G HG U. cbn [fst snd].
  pose proof (cross_couples patch shows tgt inner ctl Hi Nd Op Sq s s1 s2 _ E G HG U) as C.
  assert (Eb : Bool.eqb (beside tgt (hd ctl inner)) (beside (last inner tgt) ctl) = false) by now apply Bool.eqb_false_iff.
  rewrite Eb, St, Sc in C. eapply same_trans; [exact C|]. apply link_cnot; [|exact (state_ext _ HG)].
  intros Ep. apply Op in Ep; [|right; apply in_app_iff; right; now left|now left]. subst ctl.
  apply NoDup_cons_iff in Nd. destruct Nd as [Nd _]. apply Nd, in_app_iff. right. now left.
Qed.
Print Assumptions C53_crossing.

(** [shows] says what the patches of a slice show, and takes tiles that routes may
    use as places for fresh square ones. *)
Definition reads_crossing (s : slice) (shows : cell -> cell -> pauli) : Prop :=
  (forall a b o, ~ usable true s a -> RouterSpec.shows s a b o -> shows a b = o) /\ (forall a b, usable true s a -> shows a b = square_shows a b).
Lemma crossing_ends L s src sop tgt top cells : is_route true L s src sop tgt top cells -> cells <> [] ->
  ~ usable true s src -> ~ usable true s tgt ->
  let inner := map sc_cell cells in RouterSpec.shows s src (last inner tgt) sop /\ RouterSpec.shows s tgt (hd src inner) top.
Proof.
  intros ((W & _) & _ & Ns & Nt & Us & _) Hc Hp Hq inner. fold inner in W, Ns, Nt, Us.
  assert (Hi : inner <> []) by (unfold inner; destruct cells; [congruence|discriminate]).
  destruct (exists_last Hi) as (l & x & El). split.
  - rewrite El in W, Nt |- *. rewrite rev_app_distr in W, Nt. cbn [rev app] in W, Nt. cbn [consecutive] in W. rewrite last_last.
    destruct W as [[_ St] _]. inversion St; subst; try contradiction.
    + assumption.
    + exfalso. apply Nt. now left.
  - destruct inner as [|y r]; [congruence|]. cbn [hd rev] in *. rewrite <- app_assoc in W. cbn [app] in W.
    apply (consecutive_end _ (src :: rev r)) in W. destruct W as [_ St]. inversion St; subst; try contradiction.
    + assumption.
    + exfalso. apply Ns. apply in_app_iff. right. now left.
Qed.

(** A CNOT instruction in a setting where routes cross: once it has found a route
    in a slice, then whatever slices its later attempts take place in and whatever
    happens to them in between, what its attempts have done when it is finished is
    altogether a CNOT of the two qubits if their patches were turned the same way,
    and the joint measurement otherwise.  That nothing is left out needs the second
    phase to begin with a non-empty layer, or to be empty. *)
Theorem C53_crossing_instruction : forall L pick stop e w wt cl c t s1 s2 z a b pa pb ha hb patch shows reg steps,
  let s := w_slice w in
  e_edpc e = true -> e_route e = plain_router L true pick stop -> valid_pick pick -> sized (l_furthest L) s ->
  c <> t -> single s c -> single s t -> carries s a c -> carries s b t ->
  tile_at s a = Some pa -> oriented pa ha -> tile_at s b = Some pb -> oriented pb hb ->
  reads_crossing s shows -> (forall x y, patch x = patch y -> x = y) ->
  try_apply e w (mkI (BellCNOT c t s1 s2 None None None None) wt cl) = Ok z -> a_op z = BellCNOT c t s1 s2 (Some reg) None None None ->
  lifetime (l_furthest L) e (a_op z) steps ->
  exists inner s' p1 p2 ops, map sc_cell (rg_cells reg) = b :: inner ++ [a] /\ Forall (usable true s) inner /\ In s' (map fst steps)
    /\ edpc_decompose s' (b :: inner ++ [a]) s1 s2 = Ok (p1, p2)
    /\ Forall2 (fun st d => ran true (fst st) d (snd st)) steps ops
    /\ let meant := if Bool.eqb ha hb then image (conj_cnot (patch a) (patch b)) else measure [(patch b, PX); (patch a, PZ)] in
       (fst p2 <> [] \/ snd p2 = [] -> tiles_act_as patch shows inner (concat ops) meant)
       /\ (fst p2 = [] -> snd p2 <> [] -> concat ops = fst p1 ++ snd p1 /\ ~ tiles_act_as patch shows inner (concat ops) meant).
Proof.
  intros L pick stop e w wt cl c t s1 s2 z a b pa pb ha hb patch shows reg0 steps s He Er Hv Hs D Sc St Ca Cb Ta Oa Tb Ob [R1 R2] Pj E Ne Lf.
  pose proof (get_single _ _ _ _ Hs Sc Ca) as Ga. pose proof (get_single _ _ _ _ Hs St Cb) as Gb.
  pose proof (proj2 (proj2 (get_cell_by_id_Some _ _ _ _ Hs Ga))) as Pa. pose proof (proj2 (proj2 (get_cell_by_id_Some _ _ _ _ Hs Gb))) as Pb.
  cbn [try_apply op wait clients] in E. unfold apply_cnot in E. destruct (e_local e); [|discriminate]. cbn [negb] in E.
  fold s in E. rewrite Pa, Ta, Pb, Tb in E.
  assert (Fl : forall w x, failed w x = Ok z -> a_op z = x) by (intros w' x F; unfold failed in F; apply bind_ok in F as (? & _ & F); injection F as F; subst z; auto).
  destruct (dp_is_active pa) eqn:Aa; [apply Fl in E; unfold cnot_op in E; congruence|]. destruct (dp_is_active pb) eqn:Ab; [apply Fl in E; unfold cnot_op in E; congruence|].
  rewrite He in E. unfold cnot_find_route in E. rewrite Er in E. unfold plain_router in E. fold s in E. rewrite Ne in Lf.
  apply bind_ok in E as ([r ca] & Ef & E). apply bind_ok in Ef as (r' & Ef & Eq). injection Eq as -> <-.
  destruct r as [reg|]; [|apply Fl in E; unfold cnot_op in E; congruence].
  destruct (Nat.ltb_spec (length (rg_cells reg)) 2) as [|Hn]; [discriminate|].
  rewrite Ga, Gb in E. cbn [value_ bind] in E. apply bind_ok in E as ([s' reg'] & Em & E). apply bind_ok in E as (y0 & _ & E). injection E as E. subst z. cbn [a_op] in *. unfold cnot_op in *. injection Ne as Ne. subst reg0.
  unfold mark_routing_region in Em. apply bind_ok in Em as ([s'' cells] & Em & Eq). injection Eq as <- <-.
  destruct (mark_cells_edpc _ _ _ _ _ _ _ _ _ _ _ Hs Em) as (_ & _ & Ec). cbn [with_ends rg_cells map] in Ec. rewrite map_app in Ec. cbn [map sc_cell] in Ec.
  destruct (from_route _ _ _ _ _ _ _ _ He Lf _ _ _ eq_refl) as (sd & p1 & p2 & ops & Is & Ed & Ro & Co & Co2). cbn [rg_cells] in Ed. rewrite Ec in Ed.
  destruct (C29_route _ _ _ _ _ _ _ _ _ _ Hs Hv Ef) as (a' & b' & Ea' & Eb' & _ & _ & _ & Rt).
  rewrite Ga in Ea'. injection Ea' as <-. rewrite Gb in Eb'. injection Eb' as <-.
  set (inner := map sc_cell (rg_cells reg)) in *.
  assert (Hc : rg_cells reg <> []) by (destruct (rg_cells reg); [cbn in Hn; lia|discriminate]).
  assert (Hi : inner <> []) by (unfold inner; destruct (rg_cells reg); [congruence|discriminate]).
  assert (Un : forall x p, tile_at s x = Some p -> dp_is_active p = false -> ~ usable true s x).
  { intros x p Hx Hp U. unfold usable in U. rewrite Hx in U. destruct U as [_ U].
    unfold dp_is_active in Hp. rewrite U in Hp. discriminate. }
  destruct (crossing_ends _ _ _ _ _ _ _ Rt Hc (Un _ _ Ta Aa) (Un _ _ Tb Ab)) as [Sa Sb]. fold inner in Sa, Sb.
  assert (Dab : a <> b).
  { intros ->. destruct Ca as (p & P1 & P2), Cb as (q & Q1 & Q2). congruence. }
  pose proof (shows_oriented _ _ _ _ _ _ Sa Ta Oa) as Ba. pose proof (shows_oriented _ _ _ _ _ _ Sb Tb Ob) as Bb. cbn in Ba, Bb.
  destruct Rt as (_ & Nd & Na & Nb & Us & _). fold inner in Nd, Na, Nb, Us. rewrite <- in_rev in Na, Nb.
  assert (Us' : Forall (usable true s) inner) by (rewrite Forall_forall in Us |- *; intros x Hx; apply Us; now apply in_rev in Hx).
  assert (Nr : NoDup (b :: inner ++ [a])).
  { apply NoDup_rev in Nd. rewrite rev_involutive in Nd. constructor.
    - rewrite in_app_iff. cbn [In]. intros [|[|]]; auto.
    - apply NoDup_app_intro; auto; [repeat constructor; auto|]. intros x Hx [<-|[]]. auto. }
  assert (Sq : forall x y, In x inner -> shows x y = square_shows x y) by (intros x y Hx; apply R2; rewrite Forall_forall in Us'; auto).
  exists inner, sd, p1, p2, ops. split; [exact Ec|]. split; [exact Us'|]. split; [exact Is|]. split; [exact Ed|]. split; [unfold readings in Ro; now rewrite He in Ro|].
  cbv zeta. split.
  2:{ intros Z2 N2. rewrite (Co2 Z2). split; [reflexivity|].
    destruct (first_phase_apart patch shows b inner a sd s1 s2 p1 p2 Hi Nr (fun x y _ _ => Pj x y) Sq Ed) as (A & Ha & Hb & F); [now rewrite Z2|].
    destruct (Bool.eqb ha hb); [apply (apart_no_cnot patch shows A); auto; intros x Hx Ep; apply Pj in Ep; subst x; auto|apply (apart_no_measure patch shows A); auto]. }
  intros Cut. rewrite (Co Cut). intros G HG U.
  pose proof (cross_couples patch shows b inner a Hi Nr (fun x y _ _ => Pj x y) Sq sd s1 s2 _ Ed G HG U) as C.
  rewrite (R1 _ _ _ (Un _ _ Ta Aa) Sa), (R1 _ _ _ (Un _ _ Tb Ab) Sb) in C. rewrite (beside_sym (last inner b)), Ba, Bb in C.
  eapply same_trans; [exact C|]. destruct (Bool.eqb ha hb) eqn:Eh.
  - replace (negb (Bool.eqb hb (negb ha))) with true in * by (destruct ha, hb; reflexivity || discriminate).
    cbn [couple]. apply link_cnot; [|exact (state_ext _ HG)]. intros Ep. apply Dab, Pj, Ep.
  - replace (negb (Bool.eqb hb (negb ha))) with false by (destruct ha, hb; reflexivity || discriminate). apply same_refl.
Qed.
Print Assumptions C53_crossing_instruction.

(** Two CNOTs whose routes cross: the second is cut in two where it meets the first. *)
Definition cross_rows : text := let nl := [Ascii.ascii_of_nat 10] in
  lit "rrrrrrr" ++ nl ++ lit "rQrQrrr" ++ nl ++ lit "rrrrrrr" ++ nl ++ lit "rrrrrQr" ++ nl ++ lit "rrrrrrr" ++ nl ++ lit "rQrrrrr" ++ nl ++ lit "rrrrrrr".
Definition cross_start : layout * slice := Eval vm_compute in
  match (do l <- layout_from_spec cross_rows (mkDO true 2) ;; do s <- new_slice l [0; 1; 2; 3]%N ;; Ok (l, s)) with
  | Ok x => x | _ => ex_start end.
Definition cross_env : env := mkEnv true false false true (fst cross_start) (plain_router (fst cross_start) true pick_min false).
Definition cross_slice : slice := Eval vm_compute in
  match (do a <- try_apply cross_env (mkW (snd cross_start) 0 []) (mkI (BellCNOT 1 3 20 21 None None None None) 5 []) ;;
         do b <- try_apply cross_env (a_world a) (mkI (BellCNOT 0 2 22 23 None None None None) 5 []) ;;
         do a2 <- match a_follow a with [i] => try_apply cross_env (a_world b) i | _ => Throw RuntimeError end ;; Ok (w_slice (a_world a2))) with
  | Ok s => s | _ => snd cross_start end.
Definition cross_inner : list cell := [mkCell 3 4; mkCell 3 3; mkCell 3 2; mkCell 3 1; mkCell 2 1].
Example C53_crossing_ex : exists a1 a2 b2, a1 <> [] /\ a2 <> [] /\ b2 <> []
  /\ edpc_decompose cross_slice (mkCell 3 5 :: cross_inner ++ [mkCell 1 1]) 22 23 = Ok ((a1, []), (a2, b2))
  /\ forall patch, (forall x y, patch x = patch y -> x = y) ->
     tiles_act_as patch square_shows cross_inner (a1 ++ a2 ++ b2) (image (conj_cnot (patch (mkCell 1 1)) (patch (mkCell 3 5)))).
Proof.
  eexists _, _, _. split; [|split; [|split; [|split; [vm_compute; reflexivity|]]]]; try discriminate.
  intros patch Pj.
  match goal with |- tiles_act_as _ _ _ (?a ++ ?b ++ ?c) _ =>
    pose proof (C53_crossing patch square_shows (mkCell 3 5) cross_inner (mkCell 1 1) cross_slice 22 23 (a, []) (b, c)) as T end.
  cbn [fst snd] in T. rewrite app_nil_r in T. apply T; try reflexivity; try discriminate.
  - repeat constructor; cbn; intuition congruence.
  - intros x y _ _. apply Pj.
Qed.

(** The second of them through all its attempts, with a new slice after each that
    leaves something to be done *)
Definition cross_found : applied := Eval vm_compute in
  match (do a <- try_apply cross_env (mkW (snd cross_start) 0 []) (mkI (BellCNOT 1 3 20 21 None None None None) 5 []) ;;
         try_apply cross_env (a_world a) (mkI (BellCNOT 0 2 22 23 None None None None) 5 [])) with
  | Ok z => z | _ => mkA (mkW (snd cross_start) 0 []) (BellCNOT 0 2 22 23 None None None None) true [] end.
Definition cross_before : world := Eval vm_compute in
  match try_apply cross_env (mkW (snd cross_start) 0 []) (mkI (BellCNOT 1 3 20 21 None None None None) 5 []) with
  | Ok z => a_world z | _ => mkW (snd cross_start) 0 [] end.
Definition cross_try (s : slice) (o : operation) : applied :=
  match try_apply cross_env (mkW s 0 []) (mkI o 5 []) with Ok z => z | _ => cross_found end.
Definition cross_next (z : applied) : applied :=
  match a_follow z, advance_slice (fst cross_start) (w_slice (a_world z)) with
  | [i], Ok s => cross_try s (op i) | _, _ => z end.
Definition cross_0 : applied := Eval vm_compute in cross_try cross_slice (a_op cross_found).
Definition cross_1 : applied := Eval vm_compute in cross_try cross_slice (a_op cross_0).
Definition cross_2 : applied := Eval vm_compute in cross_next cross_1.
Definition cross_3 : applied := Eval vm_compute in cross_next cross_2.
Definition cross_4 : applied := Eval vm_compute in cross_next cross_3.
Definition after (z : applied) : slice := match advance_slice (fst cross_start) (w_slice (a_world z)) with Ok s => s | _ => snd cross_start end.
Definition cross_s2 : slice := Eval vm_compute in after cross_1.
Definition cross_s3 : slice := Eval vm_compute in after cross_2.
Definition cross_s4 : slice := Eval vm_compute in after cross_3.
Definition cross_steps : list (slice * slice) :=
  [(cross_slice, cross_slice); (cross_slice, w_slice (a_world cross_1)); (cross_s2, w_slice (a_world cross_2));
   (cross_s3, w_slice (a_world cross_3)); (cross_s4, w_slice (a_world cross_4))].
Definition cross_shows (s : slice) (a b : cell) : pauli :=
  match tile_at s a with
  | Some p => if act_eqb (p_act (dp p)) AEDPC then square_shows a b else fresh_shows s a b
  | None => square_shows a b
  end.
Lemma cross_reads s : reads_crossing s (cross_shows s).
Proof.
  split; unfold cross_shows.
  - intros a b o Hn (p & R). destruct R as (d & t & Hp & R). rewrite Hp. destruct (act_eqb (p_act (dp p)) AEDPC) eqn:Ea.
    + exfalso. apply Hn. unfold usable. rewrite Hp. split; [reflexivity|]. destruct (p_act (dp p)); (discriminate || reflexivity).
    + apply (proj1 (fresh_reads s)). exists p, d, t. auto.
  - intros a b U. unfold usable in U. destruct (tile_at s a) as [p|]; [|reflexivity]. destruct U as [_ ->]. reflexivity.
Qed.
Lemma cross_life : lifetime (l_furthest (fst cross_start)) cross_env (a_op cross_found) cross_steps.
Proof.
  apply (life_wait _ _ (mkW cross_slice 0 []) 5 [] _ cross_0); [small_sized|vm_compute; reflexivity|reflexivity|].
  apply (life_part _ _ (mkW cross_slice 0 []) 5 [] _ cross_1 (mkI (a_op cross_1) 5 [])); [small_sized|vm_compute; reflexivity|reflexivity|reflexivity|].
  apply (life_part _ _ (mkW cross_s2 0 []) 5 [] _ cross_2 (mkI (a_op cross_2) 5 [])); [small_sized|vm_compute; reflexivity|reflexivity|reflexivity|].
  apply (life_part _ _ (mkW cross_s3 0 []) 5 [] _ cross_3 (mkI (a_op cross_3) 5 [])); [small_sized|vm_compute; reflexivity|reflexivity|reflexivity|].
  apply (life_end _ _ (mkW cross_s4 0 []) 5 [] _ cross_4); [small_sized|vm_compute; reflexivity|reflexivity|reflexivity].
Qed.
Definition cross_reg : region := Eval vm_compute in match a_op cross_found with BellCNOT _ _ _ _ (Some r) _ _ _ => r | _ => mkRegion [] None end.
Definition cross_patch (c : cell) : dpatch := match tile_at (w_slice cross_before) c with Some p => p | None => square None None end.
Example C53_crossing_instruction_ex : forall patch, (forall x y, patch x = patch y -> x = y) -> exists inner ops,
  Forall2 (fun st d => ran true (fst st) d (snd st)) cross_steps ops
  /\ tiles_act_as patch (cross_shows (w_slice cross_before)) inner (concat ops) (image (conj_cnot (patch (mkCell 1 1)) (patch (mkCell 3 5)))).
Proof.
  intros patch Pj.
  assert (Hs : sized (l_furthest (fst cross_start)) (w_slice cross_before)) by small_sized.
  assert (T : filter (fun x => match snd x with Some _ => true | None => false end) (on_tiles (w_slice cross_before))
     = [(mkCell 1 1, Some 0%N); (mkCell 1 3, Some 1%N); (mkCell 3 5, Some 2%N); (mkCell 5 1, Some 3%N)]) by (vm_compute; reflexivity).
  assert (Cl : forall x id, carries (w_slice cross_before) x id -> In (x, Some id) [(mkCell 1 1, Some 0%N); (mkCell 1 3, Some 1%N); (mkCell 3 5, Some 2%N); (mkCell 5 1, Some 3%N)]).
  { intros x id Hx. rewrite <- T. apply filter_In. split; [apply (carried_listed _ _ _ _ Hs); exact Hx|reflexivity]. }
  assert (C1 : forall x, carries (w_slice cross_before) x 0 -> x = mkCell 1 1) by (intros x Hx; apply Cl in Hx; cbn in Hx; intuition congruence).
  assert (C2 : forall x, carries (w_slice cross_before) x 2 -> x = mkCell 3 5) by (intros x Hx; apply Cl in Hx; cbn in Hx; intuition congruence).
  destruct (C53_crossing_instruction (fst cross_start) pick_min false cross_env cross_before 5 [] 0 2 22 23 cross_found (mkCell 1 1) (mkCell 3 5)
    (cross_patch (mkCell 1 1)) (cross_patch (mkCell 3 5)) true true patch (cross_shows (w_slice cross_before)) cross_reg cross_steps) as (inner & s' & p1 & p2 & ops & Ei & Us & Is & Ed & Rn & Act);
    auto using pick_min_valid, cross_reads, cross_life.
  - discriminate.
  - intros x y Hx Hy. rewrite (C1 _ Hx). symmetry. auto.
  - intros x y Hx Hy. rewrite (C2 _ Hx). symmetry. auto.
  - exists (cross_patch (mkCell 1 1)). split; vm_compute; reflexivity.
  - exists (cross_patch (mkCell 3 5)). split; vm_compute; reflexivity.
  - intros []; vm_compute; reflexivity.
  - intros []; vm_compute; reflexivity.
  - exists inner, ops. split; [exact Rn|]. apply (proj1 Act).
    assert (In1 : inner ++ [mkCell 1 1] = cross_inner ++ [mkCell 1 1]) by (change (mkCell 3 5 :: cross_inner ++ [mkCell 1 1] = mkCell 3 5 :: inner ++ [mkCell 1 1]) in Ei; now injection Ei).
    apply app_inv_tail in In1. subst inner. left.
    assert (K : match edpc_decompose s' (mkCell 3 5 :: cross_inner ++ [mkCell 1 1]) 22 23 with Ok (_, p) => fst p <> [] | _ => True end).
    { clear Ed. destruct Is as [<-|[<-|[<-|[<-|[<-|[]]]]]]; vm_compute; first [exact I|discriminate]. }
    rewrite Ed in K. exact K.
Qed.
