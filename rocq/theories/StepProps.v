(** Properties of single steps of a run: C28 (no id in two places, with what is
    left to be done), C35 and C48 (magic and Y states), C37 (rotations). *)
From Verif Require Import Base TextModel PatchesModel LayoutModel LayoutSpec LayoutProofs InstrModel InstrSpec InstrProofs.
From Verif Require Import SliceModel SliceSpec SliceProofs SliceProps RouterModel RouterSpec RouterProofs RouterProps.
From Verif Require Import ApplyModel ApplySpec ApplyProofs ApplyEffect ApplyBell ApplyIds BellSpec BellProofs BellIds BellProps ApplyProps.
Open Scope nat_scope.

(** ** C28, with what is left to be done *)

(** What a pipeline still has to do about an instruction after trying it: the
    follow-ups or, failing that, the instruction again. *)
Definition remaining (a : applied) : list operation :=
  match a_follow a with
  | [] => if a_error a then [a_op a] else []
  | l => map op l
  end.

(** Instructions that only occur as follow-ups are as other instructions leave
    them: a busy region ends in one patch on one of its tiles, and a crossing route has
    both its ends. *)
Definition tidy (o : operation) : Prop :=
  match o with
  | Busy reg _ after => exists p sc, after = [mkSP p (Single sc)] /\ In (sc_cell sc) (map sc_cell (rg_cells reg))
  | BellCNOT _ _ _ _ (Some reg) None _ _ => 4 <= length (rg_cells reg)
  | _ => True
  end.

(** The ids an instruction may put on the lattice: [brings] and the target of a
    Y state request. *)
Definition puts (edpc : bool) (o : operation) : list N :=
  match o with YRequest t _ _ => [t] | _ => brings edpc o end.

Lemma effect_ids : forall e w o u m y f s', effect e w o u m y f -> changed (w_slice w) s' u m y ->
  forall c id, carries s' c id -> carries (w_slice w) c id \/ In id (puts (e_edpc e) o).
Proof.
  intros e w o u m y f s' E (T & _) c id (p & P & I). rewrite T in P. clear T.
  destruct E; subst s; cbn [puts brings].
  4: (left; eapply merging_ids; eauto). 4: (left; eapply merging_ids; eauto).
  all: apply over_cases in P as [P|P]; [|left; exists p; auto].
  - destruct P as [O|[]]. injection O as <- <-. left. eexists. split; [apply H|exact I].
  - destruct P.
  - destruct P as [O|[]]. injection O as <- <-. left. eexists. split; [apply H|exact I].
  - inversion H2 as [| | |? d q0 q1 I0 I1| | |]; subst. destruct P as [O|[O|[]]]; injection O as <- <-; left.
    + exists q0. split; [apply I0|exact I].
    + exists q1. split; [apply I1|exact I].
  - destruct P as [O|[]]. injection O as <- <-. injection I as <-. right. cbn. auto.
  - destruct P as [O|[]]. injection O as <- <-. injection I as <-. right. cbn. auto.
  - destruct P as [O|[O|[]]]; injection O as <- <-; discriminate.
  - destruct P as [O|[]]. injection O as <- <-. injection I as <-. right. cbn. auto.
  - destruct P as [O|[]]. injection O as <- <-. discriminate.
  - destruct P as [O|[]]. injection O as <- <-. injection I as <-. right. cbn. auto.
  - destruct P as [O|[]]. injection O as <- <-. injection I as <-. right. cbn. auto.
  - destruct P.
  - apply in_app_iff in P as [P|P].
    + rewrite <- in_rev in P. right. destruct (placed_ids _ _ _ _ P I) as (v & V1 & V2 & sc & V3 & _).
      apply in_flat_map. exists v. rewrite V3, V2. cbn. auto.
    + apply in_map_iff in P as (sc & Q & _). discriminate.
  - destruct P.
Qed.

(** After some of the operations to be done, the ids of the others are still new. *)
Lemma fresh_rest : forall edpc s done rest s', ran edpc s done s' -> NoDup (flat_map local_ids (done ++ rest)) ->
  (forall id, In id (flat_map local_ids (done ++ rest)) -> absent_id s id) ->
  NoDup (flat_map local_ids rest) /\ forall id, In id (flat_map local_ids rest) -> absent_id s' id.
Proof.
  intros edpc s done rest s' R Nd Fr. rewrite flat_map_app in Nd. destruct (prefix_nodup _ _ _ Nd) as (_ & N2 & Dj).
  split; auto. intros id Hi c Hc. destruct (proj1 (proj2 (ran_ids _ _ _ _ R)) id c Hc) as [(c' & C)|C]; [|eauto].
  eapply (Fr id); [rewrite flat_map_app; apply in_app_iff; auto|exact C].
Qed.

Definition step_ids (e : env) (s s' : slice) (o : operation) (rem : list operation) : Prop :=
  (forall c id, carries s' c id -> (exists c', carries s c' id) \/ In id (puts (e_edpc e) o))
  /\ match rem with
     | [] => True
     | [o'] => tidy o' /\ fresh_for e s' o'
               /\ forall id, In id (brings (e_edpc e) o') -> In id (brings (e_edpc e) o) \/ o = Rotate id /\ exists c, carries s c id
     | _ => False
     end.

Lemma same_step : forall e s s' o a, tidy o -> fresh_for e s o -> s' = s -> a_error a = true -> a_follow a = [] -> a_op a = o ->
  step_ids e s s' o (remaining a).
Proof.
  intros e s s' o a T F -> E1 E2 E3. unfold remaining. rewrite E1, E2, E3. split; [eauto|]. auto.
Qed.
Lemma failed_step : forall e w w' o a, tidy o -> fresh_for e (w_slice w) o -> w_slice w' = w_slice w ->
  failed w' o = Ok a -> step_ids e (w_slice w) (w_slice (a_world a)) o (remaining a).
Proof.
  intros e w w' o a T F Ew H. apply failed_inv in H as (E1 & E2 & E3 & E4).
  apply same_step; auto. rewrite E1. auto.
Qed.

(** Running some of what is to be done. *)
Lemma run_step : forall e far s o first ls s' i (all : bool) rem extra, sized far s -> fresh_for e s o ->
  run_locals e s (skipn first ls) first = Ok (s', i, all) ->
  (forall id, In id (flat_map local_ids (skipn first ls ++ extra)) -> In id (brings (e_edpc e) o)) ->
  (NoDup (brings (e_edpc e) o) -> NoDup (flat_map local_ids (skipn first ls ++ extra))) ->
  puts (e_edpc e) o = brings (e_edpc e) o ->
  match rem with
  | [] => True
  | [o'] => tidy o' /\ exists more, flat_map local_ids (skipn i ls ++ extra) = more ++ brings (e_edpc e) o'
  | _ => False
  end -> step_ids e s s' o rem.
Proof.
  intros e far s o first ls s' i all rem extra Hs [Nd Fr] H Hin Hnd Hp Hr.
  apply (run_pending far) in H as (_ & (done & Ed & R & _) & _); auto.
  rewrite Ed, <- app_assoc in Hin, Hnd.
  split.
  - intros c id Hc. destruct (proj1 (proj2 (ran_ids _ _ _ _ R)) id c Hc) as [C|C]; [auto|]. right. rewrite Hp. apply Hin.
    rewrite flat_map_app. apply in_app_iff. auto.
  - destruct rem as [|o' [|? ?]]; auto. destruct Hr as [T (more & Em)]. split; auto.
    destruct (fresh_rest _ _ _ _ _ R (Hnd Nd)) as [N2 A2]; [intros id Hi; apply Fr, Hin; auto|].
    rewrite Em in N2, A2. destruct (prefix_nodup _ _ _ N2) as (_ & N3 & _). split; [split; auto|].
    + intros id Hi. apply A2, in_app_iff. auto.
    + intros id Hi. left. apply Hin. rewrite flat_map_app. apply in_app_iff. right. rewrite Em. apply in_app_iff. auto.
Qed.

Lemma pair_len : forall (cells : list scell) s1 s2 la lb,
  compile_bell LRPrep ([], []) (map sc_cell cells) 0 (length cells - 1) false (Some s1) (Some s2) = Ok (la, lb) ->
  2 <= length (map sc_cell cells)
  /\ compile_bell LRPrep ([], []) (map sc_cell cells) 0 (length (map sc_cell cells) - 1) false (Some s1) (Some s2) = Ok (la, lb).
Proof.
  intros cells s1 s2 la lb E. rewrite map_length. split; auto. unfold compile_bell in E.
  destruct (Nat.leb_spec (length cells - 1) 0); [discriminate|lia].
Qed.

Lemma bell_init_step : forall far e w s1 s2 l1 l2 locals counter wt cl a, sized far (w_slice w) ->
  let o := BellInit s1 s2 l1 l2 locals counter in
  fresh_for e (w_slice w) o -> apply_bell_init e w s1 s2 l1 l2 locals counter wt cl = Ok a ->
  step_ids e (w_slice w) (w_slice (a_world a)) o (remaining a).
Proof.
  intros far e w s1 s2 l1 l2 locals counter wt cl a Hs o Fr H. unfold apply_bell_init in H.
  assert (T : tidy o) by exact I.
  destruct (e_local e); cbn [negb] in H; [|discriminate].
  destruct (has_patch (w_slice w) (pnt_target l1)); cbn [negb] in H; [|eapply failed_step; eauto].
  destruct (has_patch (w_slice w) (pnt_target l2)); cbn [negb] in H; [|eapply failed_step; eauto].
  destruct counter as [[k1 k2]|].
  - destruct locals as [ls|]; [|discriminate]. cbn [value_ bind] in H. bstep H. destruct x as [[s' i] all].
    injection H as <-. cbn [a_world w_slice with_slice].
    eapply (run_step e far _ o k2 ls s' i all _ []); [exact Hs|exact Fr|eassumption| | |reflexivity|].
    + subst o. cbn [brings pending later]. auto.
    + subst o. cbn [brings pending later]. auto.
    + unfold remaining. cbn [a_follow a_error a_op]. destruct all; [exact I|]. cbn [map op tidy]. split; auto.
      exists []. reflexivity.
  - bstep H. destruct x as [r cache]. destruct r as [reg|]; [|eapply (failed_step e w); [exact T|exact Fr| |exact H]; auto].
    destruct (length (rg_cells reg) <? 2); [eapply (failed_step e w); [exact T|exact Fr| |exact H]; auto|].
    bstep H. destruct x as [la lb]. cbn [value_ bind] in H. bstep H. destruct x as [[s' i] all].
    injection H as <-. cbn [a_world w_slice with_slice] in *. apply pair_len in H1 as [Hlen Ec].
    destruct (pair_todo _ _ _ _ _ Hlen Ec) as (_ & Ii & Nn).
    eapply (run_step e far _ o 0 (la ++ lb) s' i all _ []); [exact Hs|exact Fr|eassumption| | |reflexivity|]; rewrite ?app_nil_r, ?Ee.
    + intros id Hi. subst o. cbn [brings]. cbn. destruct (Ii id Hi); auto.
    + subst o. cbn [brings]. intro Nd. apply Nn. intros ->. inversion Nd; subst. cbn in *. tauto.
    + unfold remaining. cbn [a_follow a_error a_op]. destruct all; [exact I|]. cbn [map op tidy]. split; auto.
      exists []. cbn [brings pending later app]. rewrite app_nil_r. reflexivity.
Qed.

Lemma skipn_nth : forall A (l : list A) i x, nth_error l i = Some x -> skipn i l = x :: skipn (S i) l.
Proof.
  intros A l. induction l as [|y l IH]; intros [|i] x H; try discriminate.
  - cbn in H. injection H as ->. reflexivity.
  - cbn [nth_error] in H. cbn [skipn]. rewrite (IH _ _ H). reflexivity.
Qed.

Lemma cnot_step : forall far e w control target s1 s2 wt cl route counters sets phase a, sized far (w_slice w) ->
  let o := BellCNOT control target s1 s2 route counters sets phase in
  tidy o -> fresh_for e (w_slice w) o -> apply_cnot e w control target s1 s2 wt cl route counters sets phase = Ok a ->
  step_ids e (w_slice w) (w_slice (a_world a)) o (remaining a).
Proof.
  intros far e w control target s1 s2 wt cl route counters sets phase a Hs o T Fr H. unfold apply_cnot in H.
  fold (cnot_op control target s1 s2 route counters sets phase) in o.
  destruct (e_local e); cbn [negb] in H; [|discriminate].
  destruct (get_patch_by_id (w_slice w) control) as [pc|]; [|eapply failed_step; eauto].
  destruct (get_patch_by_id (w_slice w) target) as [pt|]; [|eapply failed_step; eauto].
  destruct (dp_is_active pc); [eapply failed_step; eauto|]. destruct (dp_is_active pt); [eapply failed_step; eauto|].
  destruct (e_edpc e) eqn:Ee.
  - destruct route as [reg|]; [destruct counters as [cs|]|].
    + (* a phase *)
      unfold cnot_phase in H. apply bind_ok in H as (ph & Hph & H).
      destruct phase as [ph0|]; [|discriminate]. cbn in Hph. injection Hph as ->.
      apply bind_ok in H as (cs' & Hcs & H). bstep H. apply idx_ok in H0. bstep H.
      destruct sets as [ss|]; [|discriminate]. cbn in H1. injection H1 as <-. bstep H. apply idx_ok in H1.
      bstep H. destruct x1 as [[s' i] all].
      assert (Ec : nth_error cs ph = Some x).
      { destruct (ph =? 0)%nat eqn:E0; [congruence|]. apply Nat.eqb_neq in E0. bstep Hcs. unfold set_idx in Hcs.
        bstep Hcs. assert (cs' = set_row cs (ph - 1) (snd x1, snd x1)) by congruence. subst cs'.
        rewrite set_row_other in H0 by lia. auto. }
      assert (Eb : brings true o = flat_map local_ids (skipn (snd x) x0 ++ concat (skipn (S ph) ss))).
      { unfold o, cnot_op. cbn [brings pending later]. rewrite Ec, H1. destruct x. reflexivity. }
      assert (Main : forall rem, match rem with
          | [] => True
          | [o'] => tidy o' /\ exists more, flat_map local_ids (skipn i x0 ++ concat (skipn (S ph) ss)) = more ++ brings (e_edpc e) o'
          | _ => False
          end -> step_ids e (w_slice w) s' o rem).
      { intros rem Hr. eapply (run_step e far _ o (snd x) x0 s' i all rem (concat (skipn (S ph) ss))); eauto;
          rewrite Ee, Eb; auto. }
      destruct all; cbn [negb] in H.
      * apply bind_ok in H as (third & _ & H). destruct (_ || _) in H; injection H as <-; apply Main;
          unfold remaining; cbn [a_follow a_error]; auto.
        cbn [map op cnot_op tidy]. split; auto. rewrite Ee. unfold cnot_op. cbn [brings pending later].
        destruct (nth_error (set_row cs' ph (snd x, i)) (S ph)) as [[k1 k2]|].
        -- destruct (nth_error ss (S ph)) as [ls|] eqn:En.
           ++ rewrite (skipn_nth _ _ _ _ En). cbn [concat].
              assert (Es : flat_map local_ids ls = flat_map local_ids (firstn k2 ls) ++ flat_map local_ids (skipn k2 ls))
                by (rewrite <- flat_map_app, firstn_skipn; reflexivity).
              exists (flat_map local_ids (skipn i x0 ++ firstn k2 ls)). rewrite !flat_map_app, Es, <- !app_assoc. reflexivity.
           ++ exists (flat_map local_ids (skipn i x0)). apply nth_error_None in En.
              rewrite (skipn_all2 (n := S ph) ss), (skipn_all2 (n := S (S ph)) ss) by lia. cbn [concat app flat_map]. rewrite !app_nil_r. reflexivity.
        -- destruct (nth_error ss (S ph)) as [ls|] eqn:En.
           ++ rewrite (skipn_nth _ _ _ _ En). cbn [concat app]. exists (flat_map local_ids (skipn i x0 ++ ls)).
              rewrite app_assoc, flat_map_app. reflexivity.
           ++ exists (flat_map local_ids (skipn i x0)). apply nth_error_None in En.
              rewrite (skipn_all2 (n := S ph) ss), (skipn_all2 (n := S (S ph)) ss) by lia. cbn [concat app flat_map]. rewrite !app_nil_r. reflexivity.
      * injection H as <-. apply Main. unfold remaining; cbn [a_follow a_error map op cnot_op tidy]. split; auto.
        exists []. rewrite Ee. unfold cnot_op. cbn [brings pending later app]. erewrite nth_set_row by eauto. rewrite H1. reflexivity.
    + (* decomposing *)
      unfold cnot_decompose in H. bstep H. destruct x as [p1 p2]. pose proof (failed_inv _ _ _ H) as (E1 & E2 & E3 & E4).
      unfold remaining. rewrite E1, E2, E3, E4. split; [eauto|]. destruct p1 as [a1 b1], p2 as [a2 b2].
      cbn [o cnot_op tidy] in T. assert (L4 : 4 <= length (map sc_cell (rg_cells reg))) by (rewrite map_length; auto).
      destruct (edpc_todo _ _ _ _ _ L4 H0) as (_ & Ii & Nn).
      assert (Eb : brings (e_edpc e) (cnot_op control target s1 s2 (Some reg) (Some [(0, 0); (0, 0); (0, 0); (0, 0)])
                 (Some [a1; b1; a2; b2]) (Some 0)) = flat_map local_ids (phase_ops ((a1, b1), (a2, b2)))).
      { rewrite Ee. unfold cnot_op. cbn [brings pending later nth_error skipn concat phase_ops]. rewrite app_nil_r, <- !app_assoc. reflexivity. }
      cbn [fst snd]. destruct Fr as [Nd Fr].
      assert (Sub : forall id, In id (flat_map local_ids (phase_ops ((a1, b1), (a2, b2)))) -> In id (brings (e_edpc e) o)).
      { intros id Hi. unfold o, cnot_op. cbn [brings]. cbn. destruct (Ii id Hi); auto. }
      split; [exact I|]. split; [split|]; rewrite Eb.
      * apply Nn. intros ->. unfold o, cnot_op in Nd. cbn [brings] in Nd. inversion Nd; subst. cbn in *. tauto.
      * intros id Hi. apply Fr, Sub. auto.
      * intros id Hi. left. apply Sub. auto.
    + (* finding a route *)
      unfold cnot_find_route in H. bstep H. destruct x as [r cache]. destruct r as [reg|];
        [|eapply (failed_step e w); [exact T|exact Fr| |exact H]; auto].
      destruct (Nat.ltb_spec (length (rg_cells reg)) 2); [discriminate|]. bstep H. bstep H. bstep H. destruct x1 as [s' reg'].
      unfold mark_routing_region in H4. bstep H4. destruct x1 as [s3 cells].
      apply (mark_cells_edpc _ _ _ _ far) in H5 as (S3 & (M1 & M2 & _) & C3); auto. injection H4 as <- <-. bstep H.
      injection H as <-. unfold remaining. cbn [a_world a_error a_follow a_op w_slice with_slice map op].
      assert (Car : forall c id, carries s3 c id -> carries (w_slice w) c id).
      { intros z id (p & P1 & P2). destruct (tile_at (w_slice w) z) as [q|] eqn:Tq.
        - destruct (M1 _ _ Tq) as [b Hb]. rewrite P1 in Hb. injection Hb as ->. exists q. auto.
        - destruct (M2 _ Tq) as [Hx|[_ [b Hb]]]; [congruence|]. rewrite P1 in Hb. injection Hb as ->. discriminate. }
      assert (Eb : forall r, brings (e_edpc e) (cnot_op control target s1 s2 (Some r) counters sets phase) = brings (e_edpc e) o) by reflexivity.
      split; [eauto|]. destruct Fr as [Nd Fr]. split; [|split; [split|]].
      * cbn [cnot_op tidy]. destruct counters; auto. cbn [rg_cells].
        rewrite <- (map_length sc_cell cells), C3, map_length. cbn [with_ends rg_cells length]. rewrite app_length. cbn [length]. lia.
      * rewrite Eb. exact Nd.
      * intros id Hi z Hz. rewrite Eb in Hi. eapply (Fr id Hi). eauto.
      * intros id Hi. rewrite Eb in Hi. auto.
  - unfold cnot_plain in H.
    assert (G : forall w1 rt cs ss (extra : unit), w_slice w1 = w_slice w ->
      cnot_locals e control target s1 s2 wt cl w1 rt cs (Some ss) phase = Ok a ->
      (forall x ls, nth_error cs 0 = Some x -> nth_error ss 0 = Some ls ->
        (forall id, In id (flat_map local_ids (skipn (snd x) ls)) -> In id (brings false o))
        /\ (NoDup (brings false o) -> NoDup (flat_map local_ids (skipn (snd x) ls)))) ->
      step_ids e (w_slice w) (w_slice (a_world a)) o (remaining a)).
    { intros w1 rt cs ss _ Ew HH Hp. unfold cnot_locals in HH. bstep HH. apply idx_ok in H0. cbn [value_ bind] in HH.
      bstep HH. apply idx_ok in H1. rewrite Ew in HH. bstep HH. destruct x1 as [[s' i] all].
      injection HH as <-. destruct (Hp _ _ H0 H1) as [Hp1 Hp2]. cbn [a_world w_slice with_slice].
      eapply (run_step e far _ o (snd x) x0 s' i all _ []); [exact Hs|exact Fr|eassumption| | |reflexivity|]; rewrite ?app_nil_r, ?Ee.
      { exact Hp1. }
      { exact Hp2. }
      unfold remaining. cbn [a_follow a_error a_op]. destruct all; [exact I|]. cbn [map op cnot_op tidy].
      split; [destruct rt; auto|]. exists []. unfold cnot_op. cbn [brings pending later app]. erewrite nth_set_row by eauto. rewrite H1, app_nil_r.
      reflexivity. }
    destruct counters as [cs|].
    + destruct sets as [ss|].
      * eapply (G w route cs ss tt); auto. intros [x1 x2] ls Hx Hl. unfold o, cnot_op. cbn [brings pending later snd].
        rewrite Hx, Hl, app_nil_r. auto.
      * unfold cnot_locals in H. bstep H. discriminate.
    + bstep H. destruct x as [r cache]. destruct r as [reg|]; [|eapply (failed_step e w); [exact T|exact Fr| |exact H]; auto].
      destruct (Nat.ltb_spec (length (rg_cells reg)) 2) as [|Hlen]; [discriminate|].
      bstep H. bstep H. bstep H. destruct x1 as [la lb].
      eapply (G _ route [(0%nat, 0%nat)] [la ++ lb] tt); [|exact H|]; auto.
      intros y ls Hx Hl. cbn in Hx, Hl. injection Hx as <-. injection Hl as <-. cbn [snd skipn].
      cbn [with_ends rg_cells map sc_cell] in H3. rewrite map_app in H3.
      assert (L4 : 4 <= length (x0 :: map sc_cell (rg_cells reg) ++ map sc_cell [mkSC bare_bounds x])).
      { cbn [length]. rewrite app_length, map_length. cbn [length map]. lia. }
      destruct (cnot_todo _ _ _ _ _ L4 H3) as (_ & Ii & Nn). unfold o, cnot_op. cbn [brings]. split.
      * intros id Hi. cbn. destruct (Ii id Hi); auto.
      * intro Nd. apply Nn. intros ->. inversion Nd; subst. cbn in *. tauto.
Qed.

Lemma tidy_busy : forall far w reg steps after a, sized far (w_slice w) -> tidy (Busy reg steps after) ->
  apply_busy w reg steps after = Ok a -> a_error a = false.
Proof.
  intros far w reg steps after a Hs (p & sc & -> & Hin) H. unfold apply_busy in H. destruct (N.eqb_spec steps 0).
  - bstep H. unfold clear_routing_region in H0. apply (clear_inv far) in H0 as [S1 B1]; auto.
    bstep H. destruct x0 as [s2 all]. destruct all; [apply done_inv in H; tauto|]. exfalso. cbn [place_all sp_cells foldM] in H0.
    assert (Hf : tile_at x (sc_cell sc) = None).
    { rewrite (becomes_tile _ _ _ _ B1). clear -Hin. induction (rg_cells reg) as [|y l IH]; [destruct Hin|]. cbn [map over].
      destruct (cell_eqb_spec (sc_cell y) (sc_cell sc)); auto. apply IH. destruct Hin; [contradiction|auto]. }
    apply bind_ok in H0 as (bl & Hb & H0). apply bind_ok in Hb as (b1 & Hb & Hb'). apply bind_ok in Hb as (f & Hf' & Hb).
    apply (is_free_inv far) in Hf' as [_ Hf']; auto. assert (f = true) by (apply Hf'; exact Hf). subst f. injection Hb as <-. injection Hb' as <-.
    cbn in H0. bstep H0. discriminate.
  - bstep H. injection H as <-. reflexivity.
Qed.

(** An instruction that could not be applied is left as it is. *)
Lemma failed_same : forall e w i a, try_apply e w i = Ok a -> a_error a = true -> ~ bell_op (op i) -> tidy (op i) ->
  match op i with MultiMeasure obs neg _ => exists l, a_op a = MultiMeasure obs neg l | o => a_op a = o end.
Proof.
  intros e w [o wt cl] a H He Hb T. cbn [op] in *.
  assert (F : forall w' o', failed w' o' = Ok a -> a_op a = o') by (intros w' o' HF; apply failed_inv in HF; tauto).
  assert (D : forall w' o' (P : Prop), done_ w' o' = Ok a -> P).
  { intros w' o' P HD. apply done_inv in HD as (_ & _ & E & _). congruence. }
  Ltac fin D F H := first [exact (D _ _ _ H) | apply F in H; eauto].
  destruct o; cbn [try_apply InstrModel.op wait clients] in H; try discriminate; try (exfalso; apply Hb; exact I).
  - unfold apply_measure in H. destruct (get_cell_by_id (w_slice w) target); [bstep H|]; fin D F H.
  - unfold apply_multi in H. destruct observable as [|[x px] [|[y py] [|? ?]]]; try discriminate.
    destruct (has_patch (w_slice w) x); cbn [negb] in H; [|fin D F H].
    destruct (has_patch (w_slice w) y); cbn [negb] in H; [|fin D F H].
    destruct (e_local e) eqn:El; cbn [negb] in H.
    + do 4 bstep H. bstep H. destruct x4 as [s' err]. injection H as <-. eexists; reflexivity.
    + destruct (e_edpc e); [discriminate|]. bstep H. destruct x0 as [w' ok]. destruct ok; cbn [negb] in H; fin D F H.
  - unfold apply_init in H. bstep H. destruct x; [|fin D F H]. do 2 bstep H. fin D F H.
  - unfold apply_magic in H. destruct (l_times (e_layout e)); [discriminate|]. destruct (s_magic (w_slice w)); [fin D F H|].
    do 5 bstep H. fin D F H.
  - unfold apply_y in H. destruct (get_cell_by_id (w_slice w) target); [bstep H; fin D F H|].
    destruct (negb (e_local e && e_twists e) && negb (N.eqb (s_yavail (w_slice w)) 0)).
    + bstep H. destruct x as [[d c]|]; [bstep H; fin D F H|injection H as <-; auto].
    + destruct (e_twists e); [|injection H as <-; auto]. do 2 bstep H. destruct x0; [|fin D F H]. bstep H. destruct x0. fin D F H.
  - unfold apply_single in H. destruct (get_cell_by_id (w_slice w) target) as [c|]; [|fin D F H].
    destruct (get_patch_by_id (w_slice w) target) as [p|]; [|fin D F H].
    destruct op; try (destruct (dp_is_active p); [|try bstep H]; fin D F H; fail).
    destruct (e_edpc e); [discriminate|]. bstep H. destruct x as [w' ok]. destruct ok; cbn [negb] in H; [|fin D F H].
    injection H as <-. discriminate.
  - unfold apply_rotate in H. destruct (get_cell_by_id (w_slice w) target); [|fin D F H].
    bstep H. destruct x as [n|]; [|fin D F H]. do 4 bstep H. destruct x1; try discriminate. bstep H. destruct x1.
    injection H as <-. discriminate.
  - unfold apply_busy in H. destruct (N.eqb_spec steps_to_clear 0).
    + do 2 bstep H. destruct x0 as [s2 all]. destruct all; fin D F H.
    + bstep H. injection H as <-. discriminate.
  - fin D F H.
Qed.

(** If every id is on at most one tile, and the ids an instruction brings in are
    new, then so it is after the instruction, and what is left to be done about the instruction
    again brings in new ids only: the same ones, or the patch that is being rotated. *)
Theorem C28_step : forall e w i a, sized (l_furthest (e_layout e)) (w_slice w) -> try_apply e w i = Ok a ->
  unique_ids (w_slice w) -> tidy (op i) -> fresh_for e (w_slice w) (op i) ->
  unique_ids (w_slice (a_world a))
  /\ (forall c id, carries (w_slice (a_world a)) c id ->
        (exists c', carries (w_slice w) c' id) \/ In id (puts (e_edpc e) (op i)))
  /\ match remaining a with
     | [] => True
     | [o'] => tidy o' /\ fresh_for e (w_slice (a_world a)) o'
               /\ forall id, In id (brings (e_edpc e) o') ->
                    In id (brings (e_edpc e) (op i)) \/ op i = Rotate id /\ exists c, carries (w_slice w) c id
     | _ => False
     end.
Proof.
  intros e w i a Hs H U T Fr. set (far := l_furthest (e_layout e)) in *.
  assert (Nb : a_error a = true -> forall reg after, op i <> Busy reg 0 after).
  { intros He reg after Eo. unfold try_apply in H. rewrite Eo in H, T.
    rewrite (tidy_busy far w reg 0 after a Hs T H) in He. discriminate. }
  split; [exact (C28_instruction e w i a Hs H Nb U Fr)|].
  change (step_ids e (w_slice w) (w_slice (a_world a)) (op i) (remaining a)).
  destruct i as [o wt cl]. cbn [op] in *.
  assert (Bell : bell_op o \/ ~ bell_op o) by (destruct o; cbn; tauto). destruct Bell as [Bell|Bell].
  - destruct o; try destruct Bell; cbn [try_apply op wait clients] in H.
    + eapply (bell_init_step far); eauto.
    + eapply (cnot_step far); eauto.
  - destruct (a_error a) eqn:He.
    + destruct (C32_unchanged_partial e w (mkI o wt cl) a Hs H He) as [E1 E2].
      { intro M. destruct o; try contradiction; [|exact (Bell I)]. cbn in M. subst. eapply Nb; eauto. }
      pose proof (failed_same e w (mkI o wt cl) a H He Bell T) as Q. cbn [op] in Q. rewrite E1.
      destruct o; try (apply same_step; auto; fail). destruct Q as [l Q]. unfold remaining. rewrite He, E2, Q. split; [eauto|].
      split; [exact I|]. split; [exact Fr|auto].
    + destruct (C33_effect e w (mkI o wt cl) a Hs Bell H He) as (u & m & y & E & Ch). cbn [op] in E. split.
      * intros c id Hc. destruct (effect_ids _ _ _ _ _ _ _ _ E Ch c id Hc); eauto.
      * unfold remaining. destruct (a_follow a) as [|f fs] eqn:Ef; [rewrite He; exact I|].
        remember (f :: fs) as fl eqn:Efl. destruct E; try discriminate; injection Efl as <- <-; cbn [map op instr_of].
        -- split; [exact I|]. split; [split; [constructor|intros id []]|intros id []].
        -- split; [do 2 eexists; split; [reflexivity|cbn; auto]|]. cbn [fresh_for brings flat_map sp_cells sp_patch p_id opt_id app].
           split; [split|].
           ++ repeat constructor. intros [].
           ++ intros id [<-|[]] z (q & Q1 & Q2). rewrite (proj1 Ch) in Q1. cbn [over routing sc_cell rotating fst snd] in Q1.
              destruct (cell_eqb_spec c z); [injection Q1 as <-; discriminate|].
              destruct (cell_eqb_spec (InstrSpec.step c d) z); [injection Q1 as <-; discriminate|].
              apply n. destruct H0 as [P1 P2]. apply (U c z t); [exists p|exists q]; auto.
           ++ intros id [<-|[]]. right. split; [reflexivity|]. exists c. exists p. apply H0.
        -- split; [exact T|]. destruct Fr as [Nd Fr]. split; [split|]; [exact Nd| |auto].
           intros id Hi z (q & Q1 & Q2). rewrite (proj1 Ch) in Q1. cbn [over] in Q1. eapply (Fr id Hi z). exists q. auto.
Qed.
Print Assumptions C28_step.

(** ** C37: rotating a patch *)

(** A region of two tiles on the lattice that ends in one patch on the first. *)
Lemma busy_two : forall far w steps c n b1 b2 p b, sized far (w_slice w) -> on_lattice far c -> on_lattice far n -> c <> n ->
  let reg := mkRegion [mkSC b1 c; mkSC b2 n] None in
  let after := [mkSP p (Single (mkSC b c))] in
  exists a, apply_busy w reg steps after = Ok a /\ a_error a = false
    /\ (steps <> 0%N -> a_world a = w /\ a_follow a = [instr_of (Busy reg (steps - 1) after)])
    /\ (steps = 0%N -> a_follow a = []
        /\ becomes (w_slice w) (w_slice (a_world a)) [(c, Some (mkDP p b)); (n, None)]).
Proof.
  intros far w steps c n b1 b2 p b Hs Hc Hn Hne reg after. unfold apply_busy. destruct (N.eqb_spec steps 0) as [->|Hz].
  - unfold clear_routing_region. subst reg after. cbn [rg_cells foldM sc_cell].
    rewrite (set_patch_ok far) by auto. cbn [bind].
    rewrite (set_patch_ok far) by (auto using sized_put). cbn [bind]. set (s2 := put (put (w_slice w) c None) n None).
    assert (S2 : sized far s2) by (unfold s2; auto using sized_put).
    assert (T2 : forall x, tile_at s2 x = over [(n, None); (c, None)] (w_slice w) x).
    { intro x. unfold s2. cbn [over]. destruct (cell_eqb_spec n x) as [->|E1].
      - apply (tile_put_same far); auto using sized_put.
      - rewrite (tile_put_other far); auto using sized_put. destruct (cell_eqb_spec c x) as [->|E2].
        + apply (tile_put_same far); auto.
        + apply (tile_put_other far); auto. }
    assert (Tc : tile_at s2 c = None) by (rewrite T2; cbn [over]; destruct (cell_eqb n c); rewrite ?(proj2 (cell_eqb_eq c c) eq_refl); auto).
    cbn [place_all sp_cells foldM sc_cell]. rewrite (is_free_ok far) by auto. cbn [bind negb orb].
    unfold place_sparse, place_single. cbn [sp_cells sc_cell]. rewrite (is_free_ok far) by auto. cbn [bind negb andb].
    unfold from_sparse_patch. cbn [sp_cells sp_patch sc_b bind]. rewrite (set_patch_ok far) by auto. cbn [bind].
    eexists. split; [reflexivity|]. split; [reflexivity|]. split; [contradiction|]. intros _. split; [reflexivity|].
    cbn [a_world w_slice with_slice]. split.
    + intro x. cbn [over]. destruct (cell_eqb_spec c x) as [->|E]; [apply (tile_put_same far); auto|].
      rewrite (tile_put_other far) by auto. rewrite T2. cbn [over]. destruct (cell_eqb_spec n x); auto.
      destruct (cell_eqb_spec c x); [contradiction|auto].
    + repeat split; reflexivity.
  - cbn [rg_cells mapM sc_cell]. unfold reg. cbn [rg_cells mapM sc_cell].
    rewrite !(patch_at_ok far) by auto. cbn [bind]. eexists. split; [reflexivity|]. split; [reflexivity|].
    split; [auto|contradiction].
Qed.

(** The tile is taken up by a rotation. *)
Definition rotating_on (s : slice) (c : cell) : Prop :=
  exists q, tile_at s c = Some q /\ p_type (dp q) = TRouting /\ p_act (dp q) = ARotation /\ p_id (dp q) = None.

(** A rotation that starts takes up the tile of the patch and a free neighbour.
    Until it ends both stay so, whatever else happens elsewhere ([keeps] is one
    step of time).  Its three follow-ups, due in the next three slices, can
    always be carried out; the first two change nothing; the last puts the
    patch back, turned, and frees the neighbour, and changes nothing else.
    (What else is lost: the label and the operation number.) *)
Theorem C37_rotation : forall e w t wt cl a, layout_wf (e_layout e) -> sized (l_furthest (e_layout e)) (w_slice w) ->
  try_apply e w (mkI (Rotate t) wt cl) = Ok a -> a_error a = false ->
  exists c p d i1 i2 i3, let n := InstrSpec.step c d in
    sits (w_slice w) t c p /\ tile_at (w_slice w) n = None
    /\ rotating_on (w_slice (a_world a)) c /\ rotating_on (w_slice (a_world a)) n
    /\ (forall x, x <> c -> x <> n -> tile_at (w_slice (a_world a)) x = tile_at (w_slice w) x)
    /\ a_follow a = [i1]
    /\ (forall w1, sized (l_furthest (e_layout e)) (w_slice w1) -> exists a1, try_apply e w1 i1 = Ok a1
          /\ a_error a1 = false /\ a_follow a1 = [i2] /\ a_world a1 = w1)
    /\ (forall w2, sized (l_furthest (e_layout e)) (w_slice w2) -> exists a2, try_apply e w2 i2 = Ok a2
          /\ a_error a2 = false /\ a_follow a2 = [i3] /\ a_world a2 = w2)
    /\ (forall w3, sized (l_furthest (e_layout e)) (w_slice w3) -> exists a3 p', try_apply e w3 i3 = Ok a3
          /\ a_error a3 = false /\ a_follow a3 = []
          /\ tile_at (w_slice (a_world a3)) c = Some p' /\ tile_at (w_slice (a_world a3)) n = None
          /\ (forall x, x <> c -> x <> n -> tile_at (w_slice (a_world a3)) x = tile_at (w_slice w3) x)
          /\ rest_same (w_slice w3) (w_slice (a_world a3))
          /\ p_id (dp p') = Some t /\ p_type (dp p') = p_type (dp p)
          /\ p_act (dp p') = (if act_eqb (p_act (dp p)) AUnitary then ANone else p_act (dp p))
          /\ side (db p') DTop = side (db p) DLeft /\ side (db p') DLeft = side (db p) DBottom
          /\ side (db p') DBottom = side (db p) DRight /\ side (db p') DRight = side (db p) DTop)
    /\ (forall s s' x, timed (e_layout e) s -> advance_slice (e_layout e) s = Ok s' -> ~ In x (l_reserved (e_layout e)) ->
          rotating_on s x -> rotating_on s' x).
Proof.
  intros e w t wt cl a W Hs H He. set (L := e_layout e) in *. set (far := l_furthest L) in *.
  destruct (C33_effect e w (mkI (Rotate t) wt cl) a Hs (fun x => x) H He) as (u & m & y & E & Ch).
  cbn [op] in E. remember (a_follow a) as fl eqn:Efl. inversion E; subst; clear E. subst s. cbn [op] in *.
  assert (Hne : c <> InstrSpec.step c d) by (intro X; apply (step_neq c d); auto).
  assert (T : forall x, tile_at (w_slice (a_world a)) x = over [routing ARotation None (rotating c d);
     routing ARotation None (rotating (InstrSpec.step c d) (dir_not d))] (w_slice w) x) by apply Ch.
  set (n := InstrSpec.step c d) in *.
  assert (Tc : rotating_on (w_slice (a_world a)) c).
  { eexists. rewrite T. cbn [over routing rotating sc_cell]. rewrite (proj2 (cell_eqb_eq c c) eq_refl). split; [reflexivity|]. auto. }
  assert (Tn : rotating_on (w_slice (a_world a)) n).
  { eexists. rewrite T. cbn [over routing rotating sc_cell]. destruct (cell_eqb_spec c n); [contradiction|].
    rewrite (proj2 (cell_eqb_eq n n) eq_refl). split; [reflexivity|]. auto. }
  assert (S' : sized far (w_slice (a_world a))) by (apply (C33_timers e w _ a Hs H)).
  assert (Oc : on_lattice far c) by (destruct Tc as (q & Q & _); eapply tile_on; eauto).
  assert (On : on_lattice far n) by (destruct Tn as (q & Q & _); eapply tile_on; eauto).
  set (pp := mkPatch (p_type (dp p)) (if act_eqb (p_act (dp p)) AUnitary then ANone else p_act (dp p)) (Some t) None None).
  pose (busy := fun k => Busy (mkRegion [rotating c d; rotating n (dir_not d)] None) k [mkSP pp (Single (mkSC (turned (db p)) c))]).
  exists c, p, d, (instr_of (busy 2%N)), (instr_of (busy 1%N)), (instr_of (busy 0%N)). cbn zeta. fold n.
  split; [auto|]. split; [auto|]. split; [auto|]. split; [auto|]. split.
  { intros x Hc Hx. rewrite T. cbn [over routing rotating sc_cell].
    destruct (cell_eqb_spec c x); [congruence|]. destruct (cell_eqb_spec n x) as [X|X]; [exfalso; apply Hx; symmetry; exact X|auto]. }
  split; [reflexivity|]. split; [|split; [|split]].
  - intros w1 S1. destruct (busy_two far w1 2 c n (sc_b (rotating c d)) (sc_b (rotating n (dir_not d))) pp (turned (db p)) S1 Oc On Hne) as (a1 & A1 & A2 & A3 & _).
    exists a1. split; [exact A1|]. split; auto. destruct A3 as [A3 A4]; [discriminate|]. split; [exact A4|exact A3].
  - intros w1 S1. destruct (busy_two far w1 1 c n (sc_b (rotating c d)) (sc_b (rotating n (dir_not d))) pp (turned (db p)) S1 Oc On Hne) as (a1 & A1 & A2 & A3 & _).
    exists a1. split; [exact A1|]. split; auto. destruct A3 as [A3 A4]; [discriminate|]. split; [exact A4|exact A3].
  - intros w1 S1. destruct (busy_two far w1 0 c n (sc_b (rotating c d)) (sc_b (rotating n (dir_not d))) pp (turned (db p)) S1 Oc On Hne) as (a1 & A1 & A2 & _ & A3).
    exists a1, (mkDP pp (turned (db p))). split; [exact A1|]. split; auto. destruct A3 as [A3 [A4 A5]]; [reflexivity|].
    split; [exact A3|]. split; [|split; [|split; [|split; [exact A5|]]]].
    + rewrite A4. cbn [over]. rewrite (proj2 (cell_eqb_eq c c) eq_refl). reflexivity.
    + rewrite A4. cbn [over]. destruct (cell_eqb_spec c n); [contradiction|]. destruct (cell_eqb_spec n n) as [_|X]; [reflexivity|exfalso; apply X; reflexivity].
    + intros x Hc Hx. rewrite A4. cbn [over]. destruct (cell_eqb_spec c x); [congruence|]. destruct (cell_eqb_spec n x) as [X|X]; [exfalso; apply Hx; symmetry; exact X|auto].
    + repeat split.
  - intros s s' x [Ss Sl] Ad Hx (q & Q1 & Q2 & Q3 & Q4).
    destruct (C34_survivors L s W Ss Sl) as (s'' & E'' & _ & _ & _ & K). assert (s'' = s') by congruence. subst s''.
    destruct (K x q Q1) as (q' & Q' & P1 & P2 & _ & _ & P5 & _).
    + rewrite Q3. intros [X|X]; discriminate.
    + auto.
    + exists q'. split; auto. rewrite P5, Q3, P1, P2. auto.
Qed.
Print Assumptions C37_rotation.

(** A square patch, whose opposite sides are alike, comes back with rough and smooth
    sides exchanged; twice round it is as before. *)
Theorem C37_exchanged : forall b, b_top b = b_bottom b -> b_left b = b_right b ->
  b_top (turned b) = b_left b /\ b_bottom (turned b) = b_left b
  /\ b_left (turned b) = b_top b /\ b_right (turned b) = b_top b /\ turned (turned b) = b.
Proof. intros [x1 x2 x3 x4] H1 H2. cbn in *. subst. auto. Qed.
Print Assumptions C37_exchanged.

(** A concrete rotation. *)
Example C37_ex : exists a, try_apply bell_env ex_world (instr_of (Rotate 7)) = Ok a /\ a_error a = false
  /\ length (a_follow a) = 1 /\ sized (l_furthest (fst ex_start)) (snd ex_start).
Proof. eexists. split; [vm_compute; reflexivity|]. split; [reflexivity|]. split; [reflexivity|]. small_sized. Qed.

(** ** C35: the list of magic states, under instructions *)

(** The operations that work on tiles rather than on ids keep off the given tiles. *)
Definition keeps_off (e : env) (w : world) (o : operation) (cells : list cell) : Prop :=
  match o with
  | Measure _ _ _ | SingleOp _ _ _ | MultiMeasure _ _ _ | Init _ _ _ | Rotate _ | MagicRequest _ _ | Reset _ => True
  | YRequest _ _ _ => forall c, In c cells -> ~ In c (l_ystates (e_layout e))
  | _ => forall c, In c cells -> ~ own e w o c
  end.

Lemma cset_erase_In : forall c l z, In z (cset_erase c l) <-> In z l /\ z <> c.
Proof.
  intros c l z. unfold cset_erase. rewrite filter_In. destruct (cell_eqb_spec c z) as [->|E]; cbn; [|intuition congruence].
  split; [intros [_ X]; discriminate|tauto].
Qed.

(** Every listed tile keeps its magic state, or has just been taken off the list. *)
Theorem C35_instruction : forall e w i a, sized (l_furthest (e_layout e)) (w_slice w) -> try_apply e w i = Ok a ->
  a_error a = false -> magic_listed (w_slice w) -> keeps_off e w (op i) (s_magic (w_slice w)) ->
  magic_listed (w_slice (a_world a))
  /\ (forall c, In c (s_magic (w_slice (a_world a))) -> In c (s_magic (w_slice w)))
  /\ (forall c, In c (s_magic (w_slice w)) -> ~ In c (s_magic (w_slice (a_world a))) ->
        exists t near, op i = MagicRequest t near /\ carries (w_slice (a_world a)) c t).
Proof.
  intros e w i a Hs H He M K. set (s := w_slice w) in *. set (s' := w_slice (a_world a)) in *.
  (* all but requests *)
  assert (G : s_magic s' = s_magic s -> (forall c, In c (s_magic s) -> ~ own e w (op i) c) ->
    magic_listed s' /\ (forall c, In c (s_magic s') -> In c (s_magic s))
    /\ (forall c, In c (s_magic s) -> ~ In c (s_magic s') -> exists t near, op i = MagicRequest t near /\ carries s' c t)).
  { intros Em Ho. rewrite Em. split; [|split; [auto|intros c H1 H2; contradiction]]. intros c Hc. rewrite Em in Hc.
    destruct (M c Hc) as (p & P & Q). exists p. split; auto.
    exact (C33_others e w i a c p Hs H He P (Ho c Hc)). }
  assert (Nc : forall c id, In c (s_magic s) -> ~ carries s c id).
  { intros c id Hc (q & Q1 & Q2). destruct (M c Hc) as (p & P & _ & P2 & _). rewrite P in Q1. injection Q1 as <-. congruence. }
  assert (B : bell_op (op i) -> s_magic s' = s_magic s).
  { intro Hb. destruct i as [o wt cl]. cbn [op] in Hb.
    assert (Bg : bell_good (l_furthest (e_layout e)) e w o wt cl a).
    { destruct o; try destruct Hb; [eapply bell_init_good|eapply cnot_good]; eauto; exact H. }
    destruct Bg as (_ & _ & G2). destruct (G2 He) as (todo & rest & _ & (done & _ & R & _) & _).
    apply ran_frame in R as [(T & _) _]. exact T. }
  assert (NB : ~ bell_op (op i) -> (forall t near, op i <> MagicRequest t near) -> s_magic s' = s_magic s).
  { intros Hb Hm. destruct (C33_effect e w i a Hs Hb H He) as (u & m & y & E & (_ & T & _)). fold s' in T. rewrite T.
    destruct E; try reflexivity. exfalso. eapply Hm. reflexivity. }
  destruct (op i) eqn:Eo; cbn [keeps_off] in K.
  all: try (apply G; [first [apply B; exact I|apply NB; [exact (fun x => x)|discriminate]]|]; first [exact K|idtac]).
  all: cbn [own]; try (intros z Hz; apply Nc; exact Hz); try (intros z Hz X; exact X).
  - intros z Hz (id & _ & Hc). eapply Nc; eauto.
  - (* a request *)
    destruct (C33_effect e w i a Hs) as (u & m & y & E & Ch); [rewrite Eo; auto|auto|auto|]. rewrite Eo in E.
    inversion E; subst. destruct Ch as (T & Em & _). fold s in Em, T. fold s' in Em, T.
    match goal with N : nearest _ _ _ |- _ => destruct N as [Hin _] end.
    assert (Er : forall z, In z (s_magic s') <-> In z (s_magic s) /\ z <> c).
    { intro z. rewrite Em. apply cset_erase_In. }
    split; [|split].
    + intros z Hz. apply Er in Hz as [Hz Hne]. destruct (M z Hz) as (q & Q). exists q. rewrite T. cbn [over].
      destruct (cell_eqb_spec c z); [congruence|exact Q].
    + intros z Hz. apply Er in Hz. tauto.
    + intros z Hz Hn. assert (z = c). { destruct (cell_eqb_spec z c); auto. exfalso. apply Hn, Er. auto. } subst z.
      do 2 eexists. split; [reflexivity|]. eexists. rewrite T. cbn [over]. rewrite (proj2 (cell_eqb_eq c c) eq_refl).
      split; reflexivity.
  - intros z Hz [Hc|Hc]; [eapply Nc; eauto|eapply K; eauto].
Qed.
Print Assumptions C35_instruction.

(** A request is served whenever the list is not empty: it binds a listed state
    nearest to the patch it is meant for, which is a qubit with that id from then on and no
    longer listed.  With an empty list it is refused. *)
Theorem C35_request : forall e w t near wt cl, sized (l_furthest (e_layout e)) (w_slice w) -> magic_listed (w_slice w) ->
  l_times (e_layout e) <> [] -> (exists n, carries (w_slice w) n near) -> 
  (s_magic (w_slice w) = [] -> exists a, try_apply e w (mkI (MagicRequest t near) wt cl) = Ok a /\ a_error a = true)
  /\ (s_magic (w_slice w) <> [] -> exists a n c p, try_apply e w (mkI (MagicRequest t near) wt cl) = Ok a
        /\ a_error a = false /\ a_follow a = [] /\ carries (w_slice w) n near
        /\ nearest (fun c => In c (s_magic (w_slice w))) n c
        /\ tile_at (w_slice (a_world a)) c = Some p /\ p_id (dp p) = Some t /\ p_type (dp p) = TQubit
        /\ p_act (dp p) = ANone
        /\ (forall x, x <> c -> tile_at (w_slice (a_world a)) x = tile_at (w_slice w) x)
        /\ ~ In c (s_magic (w_slice (a_world a)))).
Proof.
  intros e w t near wt cl Hs M Ht (n0 & Hn0). set (far := l_furthest (e_layout e)) in *. set (s := w_slice w) in *.
  assert (Gn : exists n, get_cell_by_id s near = Some n).
  { destruct (get_cell_by_id s near) eqn:E; eauto. apply (get_cell_by_id_None far) with (c := n0) in E; auto. contradiction. }
  destruct Gn as [n Gn].
  assert (St : forall l best, exists r, foldM (nearest_step s near) l best = Ok r /\ (best <> None \/ l <> [] -> r <> None)).
  { induction l as [|c l IH]; intros best.
    - exists best. split; [reflexivity|]. intros [X|X]; auto.
    - cbn [foldM]. unfold nearest_step at 1. rewrite Gn. cbn [value_ bind].
      destruct (IH (match best with None => Some (l1 c n, c) | Some (d, _) => if (l1 c n <? d)%Z then Some (l1 c n, c) else best end)) as (r & R1 & R2).
      exists r. split; [exact R1|]. intros _. apply R2. left. destruct best as [[d b]|]; [|discriminate].
      destruct (l1 c n <? d)%Z; discriminate. }
  assert (Tr : exists a, try_apply e w (mkI (MagicRequest t near) wt cl) = Ok a /\ (a_error a = true <-> s_magic s = [])).
  { cbn [try_apply op]. unfold apply_magic. fold s. destruct (l_times (e_layout e)); [contradiction|].
    destruct (s_magic s) as [|m0 ms] eqn:Em.
    - eexists. split; [reflexivity|]. cbn. tauto.
    - rewrite <- Em. destruct (St (s_magic s) None) as (r & R1 & R2). rewrite R1. cbn [bind].
      destruct r as [[d c]|]; [|exfalso; apply R2; auto; right; rewrite Em; discriminate]. cbn [value_ bind snd].
      assert (Hc : In c (s_magic s)).
      { eapply (nearest_fold n (fun c => In c (s_magic s))) in R1 as (_ & Q & _); auto.
        2: { intros b c' r Hin Hc'. left. split; auto. eapply nearest_step_inv; eauto. }
        2: (intros; discriminate). destruct Q as [Q|[Q _]]; [discriminate|exact Q]. }
      destruct (M c Hc) as (p & P & _). rewrite (patch_at_ok far) by (auto; eapply tile_on; eauto). cbn [bind]. rewrite P. cbn [value_ bind].
      rewrite (set_patch_ok far) by (auto; eapply tile_on; eauto). cbn [bind]. eexists. split; [reflexivity|]. cbn. split; [discriminate|rewrite Em; discriminate]. }
  destruct Tr as (a & Ea & Er). split; intro Hm.
  - exists a. split; auto. apply Er. auto.
  - assert (He : a_error a = false) by (destruct (a_error a); auto; exfalso; apply Hm, Er; auto).
    destruct (C33_effect e w (mkI (MagicRequest t near) wt cl) a Hs (fun x => x) Ea He) as (u & m & y & E & Ch). cbn [op] in E.
    remember (a_follow a) as fl eqn:Ef. inversion E; subst. destruct Ch as (T & Em & _). fold s in Em, T.
    destruct (M c) as (q & Q & _). { match goal with N : nearest _ _ _ |- _ => destruct N as [Hin _]; exact Hin end. }
    eexists a, _, c, _. split; [exact Ea|]. split; [exact He|]. split; [auto|]. split; [eassumption|]. split; [eassumption|].
    split; [rewrite T; cbn [over]; rewrite (proj2 (cell_eqb_eq c c) eq_refl); reflexivity|].
    do 3 (split; [reflexivity|]). split.
    + intros x Hx. rewrite T. cbn [over]. destruct (cell_eqb_spec c x); [congruence|reflexivity].
    + rewrite Em, cset_erase_In. tauto.
Qed.
Print Assumptions C35_request.

(** ** C48: Y states *)

(** The Y state tiles that hold a patch bound to no id. *)
Definition unbound (s : slice) (c : cell) : bool :=
  match tile_at s c with Some p => match p_id (dp p) with None => true | Some _ => false end | None => false end.
Definition y_unbound (L : layout) (s : slice) : list cell := filter (unbound s) (l_ystates L).
(** All Y state tiles hold a patch, and as many as are said to be available are unbound. *)
Definition y_conserved (L : layout) (s : slice) : Prop :=
  s_yavail s = N.of_nat (length (y_unbound L s)) /\ forall c, In c (l_ystates L) -> exists p, tile_at s c = Some p.

Definition b2n (b : bool) : nat := if b then 1 else 0.
Lemma count_change : forall (f g : cell -> bool) c l, NoDup l -> (forall x, In x l -> x <> c -> g x = f x) ->
  (In c l -> length (filter g l) + b2n (f c) = length (filter f l) + b2n (g c))
  /\ (~ In c l -> length (filter g l) = length (filter f l)).
Proof.
  intros f g c l. induction l as [|x l IH]; intros Nd E; [split; [intros []|auto]|].
  inversion Nd as [|? ? Hx Nd']; subst. destruct IH as [I1 I2]; auto; [intros y Hy; apply E; cbn; auto|]. cbn [filter]. split.
  - intros [->|Hc].
    + specialize (I2 Hx). destruct (f c), (g c); cbn [length b2n]; lia.
    + assert (x <> c) by (intros ->; contradiction). rewrite (E x) by (cbn; auto). specialize (I1 Hc).
      destruct (f x); cbn [length]; lia.
  - intros Hn. rewrite (E x); [|cbn; auto|intros ->; apply Hn; cbn; auto].
    assert (Hl : ~ In c l) by (intro; apply Hn; cbn; auto). specialize (I2 Hl). destruct (f x); cbn [length]; lia.
Qed.
Lemma count_same : forall (f g : cell -> bool) l, (forall x, In x l -> g x = f x) -> length (filter g l) = length (filter f l).
Proof. intros f g l E. rewrite (filter_ext_in g f l E). reflexivity. Qed.

Theorem C48_start : forall L ids s, layout_wf L -> (length ids <= length (core_cells L))%nat -> new_slice L ids = Ok s ->
  (N.of_nat (length (l_ystates L)) < 2 ^ 32)%N -> y_conserved L s /\ y_unbound L s = l_ystates L.
Proof.
  intros L ids s W H E B. destruct (new_slice_ok L ids W H) as (s' & E' & I). assert (s' = s) by congruence. subst s'.
  assert (F : y_unbound L s = l_ystates L).
  { unfold y_unbound. assert (A : forall l, (forall c, In c l -> unbound s c = true) -> filter (unbound s) l = l).
    { induction l as [|c l IH]; intros Hl; [reflexivity|]. cbn [filter]. rewrite Hl by (cbn; auto). f_equal. apply IH.
      intros; apply Hl; cbn; auto. }
    apply A. intros c Hc. unfold unbound. rewrite (in_ystates _ _ _ I c Hc). reflexivity. }
  split; auto. split.
  - rewrite F, (in_yavail _ _ _ I). unfold u32. apply N.mod_small. exact B.
  - intros c Hc. eexists. apply (in_ystates _ _ _ I c Hc).
Qed.
Print Assumptions C48_start.

(** Time passes: nothing changes unless a Y state has been measured. *)
Theorem C48_advance : forall L s s', layout_wf L -> timed L s -> advance_slice L s = Ok s' -> y_conserved L s ->
  (forall c p, In c (l_ystates L) -> tile_at s c = Some p -> ~ consumed (p_act (dp p))) -> y_conserved L s'.
Proof.
  intros L s s' W [Hs Hl] E [C T] M. destruct (C34_survivors L s W Hs Hl) as (s1 & E1 & _ & _ & Y & K).
  assert (s1 = s') by congruence. subst s1.
  assert (R : forall c, In c (l_ystates L) -> ~ In c (l_reserved L)).
  { intros c Hc Hr. pose proof (lw_disjoint L W) as D. unfold taken in D.
    apply NoDup_app_parts in D as (_ & D & _). apply NoDup_app_parts in D as (_ & _ & D). apply (D c); auto.
    rewrite !in_app_iff. auto. }
  assert (P : forall c, In c (l_ystates L) -> exists p p', tile_at s c = Some p /\ tile_at s' c = Some p' /\ p_id (dp p') = p_id (dp p)).
  { intros c Hc. destruct (T c Hc) as [p Hp]. destruct (K c p Hp (M c p Hc Hp)) as (p' & P' & (_ & Q & _)); [auto|].
    exists p, p'. auto. }
  split.
  - rewrite Y, C. f_equal. symmetry. apply count_same. intros c Hc. destruct (P c Hc) as (p & p' & P1 & P2 & P3).
    unfold unbound. rewrite P1, P2, P3. reflexivity.
  - intros c Hc. destruct (P c Hc) as (p & p' & _ & P2 & _). eauto.
Qed.
Print Assumptions C48_advance.

(** Instructions that concern Y states only as such. *)
Definition minds_y (e : env) (w : world) (o : operation) : Prop :=
  match o with
  | YRequest t _ _ => forall c, carries (w_slice w) c t -> In c (l_ystates (e_layout e))
  | Measure _ _ _ | SingleOp _ _ _ | MultiMeasure _ _ _ | Init _ _ _ | Reset _ => True
  | _ => forall c, In c (l_ystates (e_layout e)) -> ~ own e w o c
  end.

(** Taking a Y state makes one less available, returning it one more, and nothing else does. *)
Theorem C48_instruction : forall e w i a, layout_wf (e_layout e) -> sized (l_furthest (e_layout e)) (w_slice w) ->
  (N.of_nat (length (l_ystates (e_layout e))) < 2 ^ 32)%N ->
  try_apply e w i = Ok a -> a_error a = false -> y_conserved (e_layout e) (w_slice w) -> minds_y e w (op i) ->
  y_conserved (e_layout e) (w_slice (a_world a)).
Proof.
  intros e w i a W Hs Bd H He [C T] M. set (L := e_layout e) in *. set (s := w_slice w) in *. set (s' := w_slice (a_world a)) in *.
  assert (Nd : NoDup (l_ystates L)).
  { pose proof (lw_disjoint L W) as D. unfold taken in D. apply NoDup_app_parts in D as (_ & D & _). apply NoDup_app_parts in D. tauto. }
  (* tiles that keep their ids *)
  assert (G : s_yavail s' = s_yavail s ->
     (forall c p, In c (l_ystates L) -> tile_at s c = Some p -> exists p', tile_at s' c = Some p' /\ p_id (dp p') = p_id (dp p)) ->
     y_conserved L s').
  { intros Y K. split.
    - rewrite Y, C. f_equal. symmetry. apply count_same. intros c Hc. destruct (T c Hc) as [p Hp].
      destruct (K c p Hc Hp) as (p' & P1 & P2). unfold unbound. rewrite Hp, P1, P2. reflexivity.
    - intros c Hc. destruct (T c Hc) as [p Hp]. destruct (K c p Hc Hp) as (p' & P1 & _). eauto. }
  assert (Off : s_yavail s' = s_yavail s -> (forall c, In c (l_ystates L) -> ~ own e w (op i) c) -> y_conserved L s').
  { intros Y K. apply G; auto. intros c p Hc Hp. exists p. split; auto. exact (C33_others e w i a c p Hs H He Hp (K c Hc)). }
  assert (B : bell_op (op i) -> s_yavail s' = s_yavail s).
  { intro Hb. destruct i as [o wt cl]. cbn [op] in Hb.
    assert (Bg : bell_good (l_furthest (e_layout e)) e w o wt cl a).
    { destruct o; try destruct Hb; [eapply bell_init_good|eapply cnot_good]; eauto; exact H. }
    destruct Bg as (_ & _ & G2). destruct (G2 He) as (todo & rest & _ & (done & _ & R & _) & _).
    apply ran_frame in R as [(_ & _ & Y & _) _]. exact Y. }
  assert (Bell : bell_op (op i) \/ ~ bell_op (op i)) by (destruct (op i); cbn; tauto). destruct Bell as [Bell|Bell].
  { apply Off; auto. destruct (op i); try destruct Bell; exact M. }
  destruct (C33_effect e w i a Hs Bell H He) as (u & m & y & E & (Tl & _ & Y & _)). fold s s' in Tl, Y.
  (* one tile changes, none of the Y state tiles' ids *)
  assert (One : forall c t, u = [(c, t)] -> y = s_yavail s ->
    (forall p, tile_at s c = Some p -> In c (l_ystates L) -> exists p', t = Some p' /\ p_id (dp p') = p_id (dp p)) -> y_conserved L s').
  { intros c t Eu Ey K. apply G; [congruence|]. intros z p Hz Hp. rewrite Tl, Eu. cbn [over].
    destruct (cell_eqb_spec c z) as [->|Ne]; [|eauto]. destruct (K p Hp Hz) as (p' & -> & Q). eauto. }
  assert (Mg : forall opid a b cells, merging opid s a b cells u -> y = s_yavail s -> y_conserved L s').
  { intros opid a0 b cells Mg Ey. apply G; [congruence|]. intros z p Hz Hp. rewrite Tl.
    destruct Mg as [ca pa cb q da db_ Ha _ Hb _ _ _ _ F].
    assert (Nr : forall l tl, (forall sc, In sc l -> tile_at s (sc_cell sc) = None) ->
       over (map (routing AMultiPatch opid) l ++ tl) s z = over tl s z).
    { clear -Hp. induction l as [|sc l IH]; intros tl F; [reflexivity|]. cbn [map app over routing].
      destruct (cell_eqb_spec (sc_cell sc) z) as [X|_]; [rewrite <- X, F in Hp; [discriminate|cbn; auto]|].
      apply IH. intros; apply F; cbn; auto. }
    rewrite <- map_rev, Nr by (intros sc Hsc; apply F; rewrite in_rev; exact Hsc). unfold join_side. cbn [over].
    destruct (cell_eqb_spec cb z) as [->|N1].
    - destruct (cell_eqb_spec ca z) as [->|N2].
      + rewrite (proj1 Ha) in Hp. injection Hp as <-. eexists. split; reflexivity.
      + rewrite Hp. eexists. split; reflexivity.
    - destruct (cell_eqb_spec ca z) as [->|N2]; [|eauto]. rewrite (proj1 Ha) in Hp. injection Hp as <-. eexists. split; reflexivity. }
  assert (Es : w_slice w = s) by reflexivity. clearbody s.
  destruct E; subst s0; cbn [minds_y] in M;
    repeat match goal with Hx : _ |- _ => lazymatch Hx with Es => fail | _ => rewrite Es in Hx end end.
  - eapply One; [reflexivity|auto|]. intros q Q _. destruct H0 as [P1 P2]. rewrite P1 in Q. injection Q as <-. eexists. split; reflexivity.
  - apply G; [auto|]. intros z q Hz Q. rewrite Tl. cbn [over]. eauto.
  - eapply One; [reflexivity|auto|]. intros q Q _. destruct H0 as [P1 P2]. rewrite P1 in Q. injection Q as <-. eexists. split; reflexivity.
  - eapply Mg; eauto.
  - eapply Mg; eauto.
  - inversion H3 as [| | |? d p0 q0 I0 I1| | |]; subst. apply G; [auto|]. intros z r Hz R. rewrite Tl. cbn [over].
    destruct (cell_eqb_spec ca z) as [->|N1].
    + rewrite (proj1 I0) in R. injection R as <-. eexists. split; reflexivity.
    + destruct (cell_eqb_spec (InstrSpec.step ca d) z) as [<-|N2]; [|eauto]. rewrite (proj1 I1) in R. injection R as <-.
      eexists. split; reflexivity.
  - eapply One; [reflexivity|auto|]. intros q Q _. congruence.
  - eapply One; [reflexivity|auto|]. intros q Q _. congruence.
  - apply Off; [auto|]. exact M.
  - apply Off; [auto|]. exact M.
  - (* returned *)
    assert (Hc : In c (l_ystates L)) by (apply M; exists p; exact H0). destruct H0 as [P1 P2]. split.
    + rewrite Y, C. destruct (count_change (unbound s) (unbound s') c (l_ystates L) Nd) as [K _].
      { intros x _ Hx. unfold unbound. rewrite Tl. cbn [over]. destruct (cell_eqb_spec c x); [congruence|reflexivity]. }
      specialize (K Hc). assert (F1 : unbound s c = false) by (unfold unbound; rewrite P1, P2; reflexivity).
      assert (F2 : unbound s' c = true).
      { unfold unbound. rewrite Tl. cbn [over]. rewrite (proj2 (cell_eqb_eq c c) eq_refl). reflexivity. }
      rewrite F1, F2 in K. cbn [b2n] in K. fold (y_unbound L s) (y_unbound L s') in K.
      assert (Le : length (y_unbound L s') <= length (l_ystates L)).
      { unfold y_unbound. clear. induction (l_ystates L) as [|x l IH]; cbn [filter]; [cbn; lia|].
        destruct (unbound s' x); cbn [length]; lia. }
      unfold u32. rewrite N.mod_small; lia.
    + intros z Hz. rewrite Tl. cbn [over]. destruct (cell_eqb c z); eauto.
  - (* taken *)
    destruct H4 as [[Hc (q & Q1 & Q2)] _]. destruct Q1 as (Q1 & _). rewrite Q1 in H5. injection H5 as ->. split.
    + rewrite Y, C. destruct (count_change (unbound s) (unbound s') c (l_ystates L) Nd) as [K _].
      { intros x _ Hx. unfold unbound. rewrite Tl. cbn [over]. destruct (cell_eqb_spec c x); [congruence|reflexivity]. }
      specialize (K Hc). assert (F1 : unbound s c = true) by (unfold unbound; rewrite Q1, Q2; reflexivity).
      assert (F2 : unbound s' c = false).
      { unfold unbound. rewrite Tl. cbn [over]. rewrite (proj2 (cell_eqb_eq c c) eq_refl). reflexivity. }
      rewrite F1, F2 in K. cbn [b2n] in K. fold (y_unbound L s) (y_unbound L s') in K. lia.
    + intros z Hz. rewrite Tl. cbn [over]. destruct (cell_eqb c z); eauto.
  - eapply One; [reflexivity|auto|]. intros q Q _. congruence.
  - apply Off; [auto|]. exact M.
  - apply Off; [auto|]. exact M.
  - apply G; [auto|]. intros z q Hz Q. rewrite Tl. cbn [over]. eauto.
Qed.
Print Assumptions C48_instruction.

(** A borrowed Y state that is still on its tile is given back by a second
    request for the same id, and is available again. *)
Theorem C48_returned : forall e w t near l wt cl c p, sized (l_furthest (e_layout e)) (w_slice w) ->
  single (w_slice w) t -> sits (w_slice w) t c p -> (s_yavail (w_slice w) + 1 < 2 ^ 32)%N ->
  exists a, try_apply e w (mkI (YRequest t near l) wt cl) = Ok a /\ a_error a = false /\ a_follow a = []
    /\ s_yavail (w_slice (a_world a)) = (s_yavail (w_slice w) + 1)%N
    /\ tile_at (w_slice (a_world a)) c = Some (named None p)
    /\ forall x, x <> c -> tile_at (w_slice (a_world a)) x = tile_at (w_slice w) x.
Proof.
  intros e w t near l wt cl c p Hs Si [P1 P2] Bd. set (far := l_furthest (e_layout e)) in *.
  cbn [try_apply op]. unfold apply_y.
  rewrite (get_single far (w_slice w) t c Hs Si) by (exists p; auto).
  rewrite (set_tile_id_ok far _ _ _ p Hs P1). cbn [bind]. eexists. split; [reflexivity|]. cbn [a_error a_follow a_world w_slice with_slice].
  split; [reflexivity|]. split; [reflexivity|]. assert (Oc : on_lattice far c) by (eapply tile_on; eauto). split; [|split].
  - cbn. unfold u32_inc, u32. rewrite N.mod_small; auto.
  - exact (tile_put_same far (w_slice w) c _ Hs Oc).
  - intros x Hx. exact (tile_put_other far (w_slice w) c _ x Hs Oc (not_eq_sym Hx)).
Qed.
Print Assumptions C48_returned.

(** ** Concrete cases *)

(** C48 fails for a request that names an ordinary qubit (its patch loses its id
    and is counted as a Y state) and when a bound Y state is measured: the next
    request then reads a tile without a patch. *)
Definition y_text : text := lit "rYYr
rQrr".
Definition y_start : layout * slice := Eval vm_compute in
  match (do L <- layout_from_spec y_text (mkDO true 2) ;; do s <- new_slice L [7]%N ;; Ok (L, s)) with
  | Ok x => x | _ => ex_start
  end.
Definition y_env : env := mkEnv false false false false (fst y_start) (plain_router (fst y_start) false pick_min false).
(** Each instruction must be applicable and is followed by an advance. *)
Definition y_run (is : list instr) : outcome slice :=
  foldM (fun s i => do a <- try_apply y_env (mkW s 0 []) i ;;
    if a_error a then Throw RuntimeError else advance_slice (fst y_start) (w_slice (a_world a))) is (snd y_start).

(** Lists the patches of a concrete slice on a lattice with furthest cell [far]. *)
Lemma listed_tile : forall far s c p, sized far s -> tile_at s c = Some p -> In (c, Some p) (tiles s).
Proof. intros far s c p Hs H. apply (tiles_In far s c (Some p) Hs). split; [eapply tile_on; eauto|auto]. Qed.
Ltac listed far H := apply (listed_tile far) in H; [vm_compute in H|small_sized].

Theorem C48_refuted :
  (exists s, y_run [instr_of (YRequest 7 7 None)] = Ok s /\ s_yavail s = 3%N /\ length (y_unbound (fst y_start) s) = 2
     /\ forall c, ~ carries s c 7%N)
  /\ y_run [instr_of (YRequest 9 7 None); instr_of (Measure 9 PZ false); instr_of (YRequest 10 7 None)] = UB UBDeref.
Proof.
  split; [|vm_compute; reflexivity]. eexists. split; [vm_compute; reflexivity|]. split; [reflexivity|]. split; [reflexivity|].
  intros c (p & P1 & P2). listed (mkCell 1 3) P1.
  repeat (destruct P1 as [P1|P1]; [first [discriminate P1|injection P1; intros <- <-; vm_compute in P2; discriminate P2]|]). destruct P1.
Qed.
Print Assumptions C48_refuted.

Example C48_ex : exists s, y_run [instr_of (YRequest 9 7 None); instr_of (YRequest 9 7 None); instr_of (YRequest 10 7 None)] = Ok s
  /\ s_yavail s = 1%N /\ y_conserved (fst y_start) (snd y_start) /\ y_conserved (fst y_start) s
  /\ minds_y y_env (mkW (snd y_start) 0 []) (YRequest 9 7 None).
Proof.
  eexists. split; [vm_compute; reflexivity|]. split; [reflexivity|].
  split; [|split].
  - split; [vm_compute; reflexivity|]. intros c [<-|[<-|[]]]; eexists; vm_compute; reflexivity.
  - split; [vm_compute; reflexivity|]. intros c [<-|[<-|[]]]; eexists; vm_compute; reflexivity.
  - intros c (p & P1 & P2). listed (mkCell 1 3) P1.
    repeat (destruct P1 as [P1|P1]; [first [discriminate P1|injection P1; intros <- <-; vm_compute in P2; discriminate P2]|]). destruct P1.
Qed.

(** C28 fails for a program that initialises a patch it already has: no check
    is made and the id is on two tiles. *)
Theorem C28_refuted : exists a, unique_ids (w_slice ex_world)
  /\ try_apply bell_env ex_world (instr_of (Init 7 StZero (Some (mkPNT 3 PX)))) = Ok a /\ a_error a = false
  /\ carries (w_slice (a_world a)) (mkCell 1 1) 7 /\ carries (w_slice (a_world a)) (mkCell 1 2) 7.
Proof.
  eexists. split; [|split; [vm_compute; reflexivity|]].
  - intros c c' x (p & P1 & P2) (q & Q1 & Q2). listed (mkCell 2 4) P1. listed (mkCell 2 4) Q1.
    repeat (destruct P1 as [P1|P1]; [first [discriminate P1|injection P1; intros <- <-; vm_compute in P2; try discriminate P2]|]); try destruct P1;
    repeat (destruct Q1 as [Q1|Q1]; [first [discriminate Q1|injection Q1; intros <- <-; vm_compute in Q2; try discriminate Q2]|]); try destruct Q1; try reflexivity; congruence.
  - split; [reflexivity|]. split; eexists; split; vm_compute; reflexivity.
Qed.
Print Assumptions C28_refuted.

(** C32 fails in the two cases left out of [C32_unchanged_partial]. *)
Definition edpc_env : env := mkEnv true false false true (fst ex_start) (plain_router (fst ex_start) true pick_min false).
Definition ex_busy : operation :=
  Busy (mkRegion [mkSC bare_bounds (mkCell 1 1)] None) 0
       [mkSP (mkPatch TQubit ANone (Some 9%N) None None) (Single (mkSC bare_bounds (mkCell 1 3)))].
Theorem C32_refuted :
  (exists a, try_apply bell_env ex_world (instr_of ex_busy) = Ok a /\ a_error a = true
     /\ tile_at (w_slice ex_world) (mkCell 1 1) <> None /\ tile_at (w_slice (a_world a)) (mkCell 1 1) = None)
  /\ exists a p, try_apply edpc_env ex_world ex_cnot = Ok a /\ a_error a = true
     /\ tile_at (w_slice ex_world) (mkCell 1 2) = None /\ tile_at (w_slice (a_world a)) (mkCell 1 2) = Some p.
Proof.
  split.
  - eexists. split; [vm_compute; reflexivity|]. split; [reflexivity|]. split; [discriminate|vm_compute; reflexivity].
  - do 2 eexists. split; [vm_compute; reflexivity|]. split; [reflexivity|]. split; vm_compute; reflexivity.
Qed.
Print Assumptions C32_refuted.

(** An instruction that is refused, one that is applied and disturbs neither its
    neighbours nor the magic states, and an id that is brought in. *)
Example C32_ex : exists a, try_apply bell_env ex_world (instr_of (Measure 9 PZ false)) = Ok a /\ a_error a = true
  /\ w_slice (a_world a) = w_slice ex_world.
Proof. eexists. split; [vm_compute; reflexivity|]. split; reflexivity. Qed.
Example C33_ex : exists a p, try_apply bell_env ex_world (instr_of (Init 9 StZero (Some (mkPNT 3 PX)))) = Ok a /\ a_error a = false
  /\ on_tiles (w_slice (a_world a)) = [(mkCell 1 1, Some 7%N); (mkCell 1 2, Some 9%N); (mkCell 1 3, Some 3%N)]
  /\ tile_at (w_slice ex_world) (mkCell 1 3) = Some p.
Proof. do 2 eexists. split; [vm_compute; reflexivity|]. split; [reflexivity|]. split; vm_compute; reflexivity. Qed.
Example C28_ex : exists a, try_apply bell_env ex_world ex_cnot = Ok a /\ unique_ids (w_slice ex_world)
  /\ remaining a <> [] /\ ~ In 20%N (map (fun c => match snd c with Some x => x | None => 0%N end) (on_tiles (w_slice ex_world))).
Proof.
  eexists. split; [vm_compute; reflexivity|]. split; [|split; [discriminate|vm_compute; intuition discriminate]].
  destruct C28_refuted as (a & U & _). exact U.
Qed.
