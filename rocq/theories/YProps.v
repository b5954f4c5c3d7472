(** C48 over whole runs: Y states are conserved. *)
From Verif Require Import Base TextModel PatchesModel LayoutModel LayoutSpec LayoutProofs InstrModel InstrSpec InstrProofs.
From Verif Require Import GatesModel LoweringModel LoweringSpec LoweringProofs LoweringProps.
From Verif Require Import SliceModel SliceSpec SliceProofs SliceProps RouterModel RouterSpec RouterProofs RouterProps.
From Verif Require Import ApplyModel ApplySpec ApplyProofs ApplyEffect ApplyBell ApplyIds BellSpec BellProofs BellRun BellCnot BellIds BellProps ApplyProps StepProps.
From Verif Require Import RunModel RunSpec RunProofs RunProps StreamProps SchedSpec SchedProofs DagLoop DagLoopProps WaveModel WaveSpec WaveProofs WaveProps RunInv IdsProps Claims ClaimsRun.
Open Scope nat_scope.

(** ** What holds in all runs *)

(** A condition [I] on slices.  Instructions are attempted of which [P] holds, also of what is left of them; attempting one
    does not undo this for another if the two are apart, [D]. *)
Definition left_of (a : applied) (o : operation) : Prop := a_error a = true /\ o = a_op a \/ exists y, hd_error (a_follow a) = Some y /\ o = op y.
Section Keep.
Variables (e : env) (I : slice -> Prop) (P : slice -> operation -> Prop) (D : operation -> operation -> Prop).
Hypothesis Ed : e_edpc e = false.
Hypothesis Sym : forall o o', D o o' -> D o' o.
Hypothesis Try_ : forall w i a, I (w_slice w) -> P (w_slice w) (op i) -> try_apply e w i = Ok a ->
  I (w_slice (a_world a)) /\ (forall o', left_of a o' -> P (w_slice (a_world a)) o')
  /\ forall o, P (w_slice w) o -> D (op i) o -> P (w_slice (a_world a)) o /\ forall o', left_of a o' -> D o' o.
Hypothesis Adv : forall s s', I s -> advance_slice (e_layout e) s = Ok s' -> I s' /\ forall o, P s o -> P s' o.

Definition all_apart (s : slice) (p : list (option instr)) : Prop :=
  (forall j x, nth_error p j = Some (Some x) -> P s (op x))
  /\ forall j k x y, j <> k -> nth_error p j = Some (Some x) -> nth_error p k = Some (Some y) -> D (op x) (op y).
Lemma nth_put : forall (p : list (option instr)) j o k, j < length p -> nth_error (put_at j o p) k = if Nat.eqb k j then Some o else nth_error p k.
Proof.
  intros p j o k Hj. unfold put_at. assert (Lf : length (firstn j p) = j) by (apply firstn_length_le; lia). destruct (Nat.eqb_spec k j) as [->|Nk].
  - rewrite nth_error_app2, Lf, Nat.sub_diag by lia. reflexivity.
  - destruct (Nat.lt_ge_cases k j) as [Lt|Ge].
    + rewrite nth_error_app1 by lia. rewrite <- (firstn_skipn j p) at 2. now rewrite nth_error_app1 by lia.
    + rewrite nth_error_app2, Lf by lia. replace (k - j) with (S (k - S j)) by lia. cbn [nth_error].
      rewrite <- (firstn_skipn (S j) p) at 2. rewrite nth_error_app2 by (rewrite firstn_length_le; lia). now rewrite firstn_length_le by lia.
Qed.
Lemma apart_start : forall s l, Forall (fun i => P s (op i)) l -> (forall i i', In i l -> In i' l -> D (op i) (op i')) -> all_apart s (map Some l).
Proof.
  intros s l F A. rewrite Forall_forall in F.
  assert (M : forall j x, nth_error (map Some l) j = Some (Some x) -> In x l).
  { intros j x H. rewrite nth_error_map in H. destruct (nth_error l j) eqn:E; cbn in H; [|discriminate]. injection H as <-. now apply nth_error_In in E. }
  split; eauto.
Qed.
Lemma apart_try : forall w p j x a o, I (w_slice w) -> all_apart (w_slice w) p -> nth_error p j = Some (Some x) -> try_apply e w x = Ok a ->
  (match o with Some y => left_of a (op y) | None => True end) -> I (w_slice (a_world a)) /\ all_apart (w_slice (a_world a)) (put_at j o p).
Proof.
  intros w p j x a o A [B1 B2] Hj Ha Lf. destruct (Try_ w x a A (B1 j x Hj) Ha) as (A' & E1 & E2). split; [exact A'|].
  assert (Lj : j < length p) by (apply nth_error_Some; congruence).
  split.
  - intros k y Hk. rewrite nth_put in Hk by exact Lj. destruct (Nat.eqb_spec k j) as [->|Nk].
    + injection Hk as ->. auto.
    + apply E2; eauto.
  - intros k l y z Nkl Hk Hl. rewrite nth_put in Hk, Hl by exact Lj. destruct (Nat.eqb_spec k j) as [->|Nk], (Nat.eqb_spec l j) as [->|Nl].
    + congruence.
    + injection Hk as ->. apply (E2 (op z)); eauto.
    + injection Hl as ->. apply Sym. apply (E2 (op y)); eauto.
    + exact (B2 k l y z Nkl Hk Hl).
Qed.

Lemma sched_keep : forall (again : instr -> applied -> instr -> Prop) prog w0 acts w p, (forall x a y, again x a y -> op y = a_op a) -> I (w_slice w0) -> all_apart (w_slice w0) (map Some prog) ->
  scheduled e clash again prog w0 acts w p -> I (w_slice w) /\ all_apart (w_slice w) p /\ Forall I (emitted (seen acts)).
Proof.
  intros again prog w0 acts w p Ag I0 P0 Sc. induction Sc as [|acts w p j x a o Sc IH Hp Hr Ha Hl|acts w p s Sc IH Ad|acts w p s Sc IH Em Mn].
  - split; [exact I0|]. split; [exact P0|constructor].
  - destruct IH as (A & B & C). destruct (apart_try w p j x a o A B Hp Ha) as [A' B'].
    { destruct o as [y|]; [|exact Logic.I]. unfold leaves in Hl. destruct (a_error a) eqn:Er.
      - destruct Hl as (y' & X & Z). injection X as <-. left. split; [exact Er|eauto].
      - right. exists y. auto. }
    split; [exact A'|]. split; [exact B'|]. now rewrite emitted_seen, app_nil_r.
  - destruct IH as (A & B & C). destruct (Adv _ _ A Ad) as [A' B']. split; [exact A'|]. split; [destruct B as [B1 B2]; split; eauto|].
    rewrite emitted_seen. apply Forall_app. split; [exact C|]. constructor; [exact A|constructor].
  - congruence.
Qed.

Lemma runs_keep : forall pl late grow prog w t r, (pl = Wave -> Forall few_patches prog) -> I (w_slice w) -> Forall (fun i => P (w_slice w) (op i)) prog ->
  (forall i i', In i prog -> In i' prog -> D (op i) (op i')) -> halts pl e late grow prog w t r -> Forall I (emitted (t_events t)).
Proof.
  intros pl late grow prog w t r Few I0 P0 D0 (n & H). pose proof (apart_start _ _ P0 D0) as S0. destruct pl.
  - set (K := fun w l => I (w_slice w) /\ all_apart (w_slice w) (map Some l)).
    assert (X : match turns (stream_step e late) n (stream_init prog w) with
      | Go st' => Forall I (emitted (t_events (ss_tally st'))) /\ K (ss_world st') (ss_future st' ++ ss_rest st') | Halt t _ => Forall I (emitted (t_events t)) end).
    { apply (kept_run e late Ed K I); [| |split; auto].
      - intros w1 i l a [A B] Ha.
        assert (Tr : forall o, (match o with Some y => left_of a (op y) | None => True end) -> I (w_slice (a_world a)) /\ all_apart (w_slice (a_world a)) (o :: map Some l)).
        { intros o Lf. exact (apart_try w1 (map Some (i :: l)) 0 i a o A B eq_refl Ha Lf). }
        assert (Sh : forall y s, left_of a (op y) -> advance_slice (e_layout e) (w_slice (a_world a)) = Ok s -> K (with_slice (a_world a) s) (y :: l)).
        { intros y s Lf Ad. destruct (Tr (Some y) Lf) as [A' B']. destruct (Adv _ _ A' Ad) as [A2 B2]. split; [exact A2|]. destruct B' as [C1 C2]. split; [|exact C2]. cbn [w_slice with_slice]. eauto. }
        destruct (Tr None Logic.I) as [A' [B1 B2]]. split; [exact A'|]. split; [|split].
        + intros _ _. split; [exact A'|]. split; [intros j x Hj; exact (B1 (S j) x Hj)|].
          intros j k x y N Hj Hk. apply (B2 (S j) (S k) x y); auto.
        + intros y s Er Fo Ad. apply Sh; [|exact Ad]. right. exists y. rewrite Fo. auto.
        + intros s Er _ _ Ad. apply Sh; [|exact Ad]. left. auto.
      - intros w1 [A _]. exact A. }
    rewrite H in X. exact X.
  - destruct (C40_runs e late prog w) as (st0 & E0 & R). rewrite E0 in H. cbn [pbind] in H. specialize (R n). rewrite H in R.
    assert (Ag : forall x a y, same_again x a y -> op y = a_op a) by (intros x a y ->; reflexivity).
    destruct R as [acts w' p S' Ev _ _ _|acts w' p j x r S' Ev _ _|acts w' p j x a o S' Ev _ _|acts w' p j x a o S' Ev _ _|acts w' p S' Ev _|acts w' p r S' Ev _];
    destruct (sched_keep _ _ _ _ _ _ Ag I0 S0 S') as (A & _ & B); rewrite Ev; auto.
    + now rewrite emitted_seen, app_nil_r in B.
    + now rewrite emitted_seen, app_nil_r in B.
    + rewrite emitted_app. apply Forall_app. split; [exact B|]. constructor; [exact A|constructor].
  - pose proof (C41_runs e late grow prog w (plain_uncut e prog Ed) (Few eq_refl) n) as R. rewrite H in R.
    assert (Ag : forall x a y, less_again x a y -> op y = a_op a) by (intros x a y [->|[_ ->]]; reflexivity).
    destruct R as [acts w' p S' Ev _ _ _|acts w' p j x r S' Ev _ _ _|acts w' p j x S' Ev _ _ _|acts w' p j x a o S' Ev _ _|acts w' p j x a o S' Ev _ _|acts w' p S' Ev _|acts w' p r S' Ev _|acts w' p S' Ev _ _|acts w' p r S' Ev Em _|acts w' p j S' Ev _ _ _ _];
    destruct (sched_keep _ _ _ _ _ _ Ag I0 S0 S') as (A & _ & B); rewrite Ev; auto.
    + now rewrite emitted_seen, app_nil_r in B.
    + now rewrite emitted_seen, app_nil_r in B.
    + rewrite emitted_app. apply Forall_app. split; [exact B|]. constructor; [exact A|constructor].
Qed.
End Keep.

Lemma cnot_spoils : forall route s1 s2 la lb c, 4 <= length route -> compile_cnot ([], []) route s1 s2 = Ok (la, lb) ->
  In c (flat_map spoils (la ++ lb)) -> exists k, 0 < k /\ k + 1 < length route /\ c = seg route 0 k.
Proof.
  intros route s1 s2 la lb c Hl E Hc. destruct (cnot_shape route s1 s2 Hl) as (la' & lb' & E' & A & B). rewrite E in E'. injection E' as <- <-.
  set (n := length route) in *. destruct A as (ka & Fa & Na & Ia), B as (kb & Fb & Nb & Ib).
  set (does := cnot_link s1 s2 (cnot_k1 n) 1 n (seg route 0)) in *.
  assert (Odd2 : forall k, k = n - 2 -> Nat.odd k = Nat.odd n).
  { intros k ->. assert (X : n = S (S (n - 2))) by lia. rewrite X at 2. now rewrite Nat.odd_succ_succ. }
  assert (Pick : forall ks ls, Forall2 does ks ls -> In c (flat_map spoils ls) -> exists k l, In k ks /\ does k l /\ In c (spoils l)).
  { intros ks ls F. induction F as [|k l ks ls D F IH]; intros H; [destruct H|]. cbn [flat_map] in H. apply in_app_iff in H as [H|H].
    - exists k, l. cbn. auto.
    - destruct (IH H) as (k' & l' & X & Y). exists k', l'. cbn. tauto. }
  rewrite flat_map_app in Hc. apply in_app_iff in Hc as [Hc|Hc].
  - exfalso. destruct (Pick _ _ Fa Hc) as (k & l & K & D & Sp). apply Ia in K as [K1 K2]. unfold does, cnot_link in D. destruct (Nat.eqb_spec k 0) as [->|_]; [discriminate|].
    destruct (Nat.eqb_spec k (n - 2)) as [X|X].
    + rewrite (Odd2 k X) in K2. rewrite even_odd, K2 in D. subst l. destruct Sp.
    + rewrite K2 in D. destruct D as (x & y & Ei & i & j & -> & _). destruct Sp.
  - destruct (Pick _ _ Fb Hc) as (k & l & K & D & Sp). apply Ib in K as [K1 K2]. apply Bool.negb_true_iff in K2. unfold does, cnot_link in D.
    destruct (Nat.eqb_spec k 0) as [->|K0]; [subst l; destruct Sp as [<-|[]]; exists 1; repeat split; lia|].
    destruct (Nat.eqb_spec k (n - 2)) as [X|X].
    + rewrite (Odd2 k X) in K2. rewrite even_odd, K2 in D. subst l. destruct Sp as [<-|[]]. exists (n - 2). repeat split; lia.
    + rewrite K2 in D. destruct D as (x & y & Ei & ->). destruct Ei as [[-> ->]|[-> ->]], Sp as [<-|[<-|[]]]; eexists; (split; [|split; [|reflexivity]]); lia.
Qed.

(** ** Y states *)

(** A patch that a rotation has for now replaced *)
Definition spins (p : dpatch) : Prop := p_type (dp p) = TRouting /\ p_act (dp p) = ARotation /\ p_id (dp p) = None.
Definition spinning_at (s : slice) (c : cell) : Prop := exists p, tile_at s c = Some p /\ spins p.
(** A patch that is there to stay, bound to one of the ids [Y] or free *)
Definition rests (Y : N -> Prop) (p : dpatch) : Prop := ~ consumed (p_act (dp p)) /\ p_type (dp p) <> TRouting /\ forall id, p_id (dp p) = Some id -> Y id.
(** A Y state that is not bound *)
Definition spare (t : tile) : bool :=
  match t with
  | Some p => match p_id (dp p), p_type (dp p) with None, TRouting => false | None, _ => true | Some _, _ => false end
  | None => false
  end.
Definition y_spare (L : layout) (s : slice) : list cell := filter (fun c => spare (tile_at s c)) (l_ystates L).
(** Where a rotation puts its patch back *)
Definition back_at (o : operation) : option cell := match o with Busy _ _ [mkSP _ (Single sc)] => Some (sc_cell sc) | _ => None end.

(** Every Y state tile holds a Y state, free or bound to an id for Y states, or one of them is being rotated there; these ids are nowhere else; and
    as many Y states are available as are free. *)
Record y_kept (L : layout) (Y : N -> Prop) (s : slice) : Prop := {
  yk_timed : timed L s;
  yk_count : s_yavail s = N.of_nat (length (y_spare L s));
  yk_there : forall c, In c (l_ystates L) -> exists p, tile_at s c = Some p /\ (rests Y p \/ spins p);
  yk_apart : forall c, In c (s_magic s) -> ~ In c (l_ystates L);
  yk_only : forall c id, carries s c id -> Y id -> In c (l_ystates L) }.

Section Y.
Variables (e : env) (Y : N -> Prop).
Hypothesis W : layout_wf (e_layout e).
Hypothesis Ed : e_edpc e = false.
Hypothesis Tw : e_twists e = false.
Hypothesis Few : (N.of_nat (length (l_ystates (e_layout e))) < 2 ^ 32)%N.
(** Routes go over free tiles. *)
Hypothesis Fr : forall cache s a pa b pb reg cache', sized (l_furthest (e_layout e)) s -> e_route e cache s a pa b pb = Ok (Some reg, cache') ->
  forall sc, In sc (rg_cells reg) -> tile_at s (sc_cell sc) = None.
Local Notation L := (e_layout e).
Local Notation Yt c := (In c (l_ystates L)).
Local Notation kept := (y_kept L Y).

(** What the instructions attempted are like: ids for Y states are used in requests for Y states and nowhere else are patches
    made or measured under these ids. *)
Definition y_minded (s : slice) (o : operation) : Prop :=
  match o with
  | YRequest t _ _ => Y t
  | Measure t _ _ | Init t _ _ | MagicRequest t _ => ~ Y t
  | SingleOp _ _ _ | MultiMeasure _ _ _ | Reset _ | Declare _ | Rotate _ => True
  | BellInit s1 s2 _ _ _ k => ~ Y s1 /\ ~ Y s2 /\ (k <> None -> forall c, In c (flat_map spoils (ApplySpec.pending false o)) -> ~ Yt c)
      /\ (k <> None -> forall id, In id (flat_map local_ids (ApplySpec.pending false o)) -> ~ Y id)
  | BellCNOT _ _ s1 s2 _ k _ _ => ~ Y s1 /\ ~ Y s2 /\ (k <> None -> forall c, In c (flat_map spoils (ApplySpec.pending false o)) -> ~ Yt c)
      /\ (k <> None -> forall id, In id (flat_map local_ids (ApplySpec.pending false o)) -> ~ Y id)
  | Busy reg _ after => exists p sc, after = [mkSP p (Single sc)] /\ In (sc_cell sc) (map sc_cell (rg_cells reg))
      /\ (forall c, In c (map sc_cell (rg_cells reg)) -> c <> sc_cell sc -> ~ Yt c)
      /\ (Yt (sc_cell sc) -> spinning_at s (sc_cell sc) /\ rests Y (mkDP p (sc_b sc)) /\ p_id p <> None)
      /\ (~ Yt (sc_cell sc) -> forall id, p_id p = Some id -> ~ Y id)
  end.
Definition y_apart (o o' : operation) : Prop := forall c, Yt c -> back_at o = Some c -> back_at o' <> Some c.

(** A tile that stays as it is as far as Y states are concerned *)
Definition like (p p' : dpatch) : Prop := p_id (dp p') = p_id (dp p) /\ p_type (dp p') = p_type (dp p)
  /\ (~ consumed (p_act (dp p)) -> ~ consumed (p_act (dp p'))) /\ (spins p -> p_act (dp p') = ARotation).
Lemma like_refl : forall p, like p p. Proof. intros p. split; [|split; [|split]]; auto. intros (_ & X & _). exact X. Qed.
Lemma like_spins : forall p p', like p p' -> spins p -> spins p'.
Proof. intros p p' (I & T & _ & A) S. pose proof (A S). destruct S as (S1 & S2 & S3). split; [|split]; congruence. Qed.
Lemma like_fine : forall p p', like p p' -> rests Y p \/ spins p -> rests Y p' \/ spins p'.
Proof.
  intros p p' K [(R1 & R2 & R3)|S]; [left|right; eapply like_spins; eauto]. destruct K as (I & T & A & _). split; [auto|]. split; [congruence|]. intros id X. apply R3. congruence.
Qed.
Lemma like_spare : forall p p', like p p' -> spare (Some p') = spare (Some p).
Proof. intros p p' (I & T & _). cbn. now rewrite I, T. Qed.
Definition all_like (s s' : slice) : Prop := forall c, Yt c -> forall p, tile_at s c = Some p -> exists p', tile_at s' c = Some p' /\ like p p'.
Lemma idle_like : forall s c p q, idle s c p -> p_id (dp q) = p_id (dp p) -> p_type (dp q) = p_type (dp p) -> ~ consumed (p_act (dp q)) -> like p q.
Proof. intros s c p q (_ & A & _) I T C. split; [|split; [|split]]; auto. intros (_ & X & _). congruence. Qed.

(** One local operation *)
Lemma local_y : forall s l u s', local_effect false s l u -> becomes s s' u ->
  (forall c, Yt c -> exists p, tile_at s c = Some p /\ (rests Y p \/ spins p)) ->
  (forall c id, carries s c id -> Y id -> Yt c) -> (forall c, In c (spoils l) -> ~ Yt c) -> (forall id, In id (local_ids l) -> ~ Y id) ->
  all_like s s' /\ forall c id, carries s' c id -> Y id -> Yt c.
Proof.
  intros s l u s' H [B _] Th On Sp Li.
  assert (Free : forall c, claimable false s c -> ~ Yt c).
  { intros c [X|[X _]] Hc; [|discriminate]. destruct (Th c Hc) as (p & P & _). congruence. }
  assert (Keep : all_like s s').
  { intros c Hc p Hp. rewrite B.
    destruct (over_cases u s c) as [(t & Ht & ->)|(_ & ->)]; [|exists p; split; [exact Hp|apply like_refl]].
    assert (Jn : forall q d, idle s c q -> exists p', Some (joined d q) = Some p' /\ like p p').
    { intros q d Iq. assert (q = p) by (destruct Iq as (X & _); congruence). subst q. eexists. split; [reflexivity|]. apply (idle_like s c p); cbn; auto.
      destruct Iq as (_ & -> & _). intros [X|X]; discriminate X. }
    destruct H as [id c0 F|id1 id2 c0 d F1 F2|c0 d q r F1 F2|c0 d q r F1 F2|id c0 d q F1 F2|c0 d q r F1 F2|c0 d q nid F1 F2]; cbn [In spoils] in *;
      destruct Ht as [Ht|Ht]; try (destruct Ht as [Ht|Ht]); try contradiction; injection Ht as <- <-; try (exfalso; match goal with X : In ?x (l_ystates _), F : claimable false s ?x |- _ => exact (Free x F X) end);
      try (exfalso; match goal with X : In ?x (l_ystates _) |- _ => apply (Sp x); [tauto|exact X] end); eauto.
    congruence. }
  split; [exact Keep|]. intros c id (p & T & I) Hy. rewrite B in T.
  destruct (over_cases u s c) as [(t & Ht & E)|(_ & E)]; rewrite E in T; [|apply (On c id); [exists p; auto|exact Hy]]. subst t.
  assert (Old : forall c0 q, idle s c0 q -> p_id (dp q) = Some id -> Yt c0) by (intros c0 q (X & _) Z; apply (On c0 id); [exists q; auto|exact Hy]).
  destruct H as [id0 c0 F|id1 id2 c0 d F1 F2|c0 d q r F1 F2|c0 d q r F1 F2|id0 c0 d q F1 F2|c0 d q r F1 F2|c0 d q nid F1 F2]; cbn [In spoils local_ids opt_id app] in *;
    destruct Ht as [Ht|Ht]; try (destruct Ht as [Ht|Ht]); try contradiction; injection Ht as <- <-; cbn in I; eauto; exfalso; try discriminate I.
  - apply (Li id); [rewrite I; now left|exact Hy].
  - apply (Li id); [rewrite I; apply in_or_app; left; now left|exact Hy].
  - apply (Li id); [rewrite I; apply in_or_app; right; now left|exact Hy].
  - apply (Li id); [rewrite I; now left|exact Hy].
  - destruct nid as [n|]; [injection I as ->; apply (Li id); [now left|exact Hy]|]. apply (Sp c0); eauto.
Qed.

(** Tiles that hold as many free Y states as before *)
Lemma y_same : forall s s', kept s -> timed L s' -> s_yavail s' = s_yavail s -> (forall c, In c (s_magic s') -> In c (s_magic s)) ->
  (forall c, Yt c -> forall p, tile_at s c = Some p -> rests Y p \/ spins p -> exists p', tile_at s' c = Some p' /\ (rests Y p' \/ spins p') /\ spare (Some p') = spare (Some p)) ->
  (forall c id, carries s' c id -> Y id -> Yt c) -> kept s'.
Proof.
  intros s s' [T C Th Ap On] T' Ya Mg K O'. split; auto.
  - rewrite Ya, C. f_equal. symmetry. apply count_same. intros c Hc. destruct (Th c Hc) as (p & P & F). destruct (K c Hc p P F) as (p' & P' & _ & I').
    now rewrite P, P', I'.
  - intros c Hc. destruct (Th c Hc) as (p & P & F). destruct (K c Hc p P F) as (p' & P' & F' & _). eauto.
Qed.
Lemma y_like : forall s s', kept s -> timed L s' -> s_yavail s' = s_yavail s -> (forall c, In c (s_magic s') -> In c (s_magic s)) -> all_like s s' ->
  (forall c id, carries s' c id -> Y id -> Yt c) -> kept s'.
Proof.
  intros s s' K T' Ya Mg A O'. apply (y_same s); auto. intros c Hc p Hp F. destruct (A c Hc p Hp) as (p' & P' & Lk). exists p'. split; [exact P'|]. split; [eapply like_fine; eauto|now apply like_spare].
Qed.
Lemma like_stays : forall s s' c, all_like s s' -> Yt c -> spinning_at s c -> spinning_at s' c.
Proof. intros s s' c A Hc (p & P & S). destruct (A c Hc p P) as (p' & P' & Lk). exists p'. split; [exact P'|eapply like_spins; eauto]. Qed.

Lemma ran_y : forall ls s s', ran false s ls s' -> kept s -> timed L s' -> (forall c, In c (flat_map spoils ls) -> ~ Yt c) -> (forall id, In id (flat_map local_ids ls) -> ~ Y id) -> kept s' /\ all_like s s'.
Proof.
  intros ls s s' R K T' Sp Li. pose proof (ran_frame _ _ _ _ R) as [(F1 & _ & F2 & _) _].
  assert (G : all_like s s' /\ forall c id, carries s' c id -> Y id -> Yt c).
  { destruct K as [_ _ Th _ On]. clear T' F1 F2. revert Th On Sp Li. induction R as [s|s l u s1 ls s' Hu B R IH]; intros Th On Sp Li.
    - split; [|exact On]. intros c Hc p Hp. exists p. split; [exact Hp|apply like_refl].
    - cbn [flat_map] in Sp, Li. destruct (local_y s l u s1 Hu B Th On) as [K1 On1]; [intros c X; apply Sp, in_or_app; now left|intros c X; apply Li, in_or_app; now left|].
      destruct IH as [K2 On2]; auto.
      + intros c Hc. destruct (Th c Hc) as (p & P & F). destruct (K1 c Hc p P) as (p' & P' & Lk). exists p'. split; [exact P'|eapply like_fine; eauto].
      + intros c X. apply Sp, in_or_app. now right.
      + intros c X. apply Li, in_or_app. now right.
      + split; [|exact On2]. intros c Hc p Hp. destruct (K1 c Hc p Hp) as (p' & P' & Lk). destruct (K2 c Hc p' P') as (q & Q & Lq). exists q. split; [exact Q|].
        pose proof (like_spins _ _ Lk) as Ls. destruct Lk as (I1 & T1 & C1 & A1), Lq as (I2 & T2 & C2 & A2). split; [congruence|]. split; [congruence|]. split; auto. }
  destruct G as [G1 G2]. split; [|exact G1]. apply (y_like s s' K T' F2); auto. now rewrite F1.
Qed.

(** The instructions that are not made of local operations *)
Lemma effect_y : forall w o u m y fo s', effect e w o u m y fo -> changed (w_slice w) s' u m y -> timed L s' -> kept (w_slice w) -> y_minded (w_slice w) o ->
  kept s' /\ forall c, Yt c -> back_at o <> Some c -> spinning_at (w_slice w) c -> spinning_at s' c.
Proof.
  intros w o u m y fo s' Ef (B & Em & Ey & Rest) T' K M. pose proof K as [T C Th Ap On].
  assert (Nd : NoDup (l_ystates L)).
  { pose proof (lw_disjoint L W) as D. unfold taken in D. apply NoDup_app_parts in D as (_ & D & _). apply NoDup_app_parts in D. tauto. }
  assert (Same : y = s_yavail (w_slice w) -> (forall c, In c m -> In c (s_magic (w_slice w))) ->
    (forall c t, In (c, t) u -> Yt c -> forall p, tile_at (w_slice w) c = Some p -> exists p', t = Some p' /\ like p p') ->
    (forall c p id, In (c, Some p) u -> p_id (dp p) = Some id -> Y id -> Yt c) ->
    kept s' /\ forall c, Yt c -> back_at o <> Some c -> spinning_at (w_slice w) c -> spinning_at s' c).
  { intros E1 E2 E3 E4. assert (A : all_like (w_slice w) s').
    { intros c Hc p Hp. rewrite B. destruct (over_cases u (w_slice w) c) as [(t & Ht & ->)|(_ & ->)]; [eauto|]. exists p. split; [exact Hp|apply like_refl]. }
    split; [|intros c Hc _; now apply like_stays]. apply (y_like (w_slice w) s' K T'); [congruence|rewrite Em; exact E2|exact A|].
    intros c id (p & P & I) Hy. rewrite B in P. destruct (over_cases u (w_slice w) c) as [(t & Ht & X)|(_ & X)]; rewrite X in P.
    - subst t. eauto.
    - apply (On c id); [exists p; auto|exact Hy]. }
  assert (Sits : forall t c p, sits (w_slice w) t c p -> Yt c -> rests Y p /\ Y t).
  { intros t c p [P I] Hc. destruct (Th c Hc) as (q & Q & F). assert (q = p) by congruence. subst q. destruct F as [F|(_ & _ & F)]; [|congruence]. split; [exact F|]. now apply F. }
  assert (No : forall t c p, sits (w_slice w) t c p -> ~ Y t -> ~ Yt c) by (intros t c p S Nt Hc; destruct (Sits t c p S Hc); contradiction).
  assert (Fr0 : forall c, tile_at (w_slice w) c = None -> ~ Yt c) by (intros c X Hc; destruct (Th c Hc) as (q & Q & _); congruence).
  assert (Jn : forall t c p d, sits (w_slice w) t c p -> forall q, tile_at (w_slice w) c = Some q -> exists p', Some (joined d p) = Some p' /\ like q p').
  { intros t c p d [P I] q Q. assert (q = p) by congruence. subst q. eexists. split; [reflexivity|]. split; [|split; [|split]]; auto. intros (_ & _ & X). congruence. }
  assert (Mg : forall opid a b cells, merging opid (w_slice w) a b cells u -> y = s_yavail (w_slice w) -> m = s_magic (w_slice w) -> 
    kept s' /\ forall c, Yt c -> back_at o <> Some c -> spinning_at (w_slice w) c -> spinning_at s' c).
  { intros opid a b cells G E1 E2. destruct G as [ca pa cb q da db_ Ha _ Hb _ _ _ _ F]. apply Same; [exact E1|intros c X; now rewrite E2 in X|..].
    - intros c t Ht Hc p Hp. apply in_app_or in Ht as [Ht|Ht].
      + rewrite <- in_rev in Ht. apply in_map_iff in Ht as (sc & Ht & Hsc). injection Ht as <- <-. destruct (Fr0 _ (F sc Hsc) Hc).
      + unfold join_side in Ht. cbn [In over] in Ht. destruct Ht as [Ht|[Ht|[]]]; injection Ht as <- <-.
        * destruct (cell_eqb_spec ca cb) as [E|Nq]; [|rewrite (proj1 Hb); exact (Jn b cb q db_ Hb p Hp)].
          subst cb. destruct Ha as [X XI]. assert (pa = p) by congruence. subst pa. eexists. split; [reflexivity|]. split; [|split; [|split]]; auto. intros (_ & _ & Z). congruence.
        * exact (Jn a ca pa da Ha p Hp).
    - intros c p id Ht I Hy. apply in_app_or in Ht as [Ht|Ht].
      + rewrite <- in_rev in Ht. apply in_map_iff in Ht as (sc & Ht & Hsc). injection Ht as <- <-. discriminate I.
      + unfold join_side in Ht. cbn [In over] in Ht. destruct Ht as [Ht|[Ht|[]]].
        * destruct (cell_eqb_spec ca cb) as [E|Nq]; [|destruct (tile_at (w_slice w) cb) as [q'|] eqn:Q; [|discriminate Ht]]; injection Ht as <- <-.
          -- apply (On cb id); [|exact Hy]. exists pa. split; [rewrite <- E; apply Ha|exact I].
          -- apply (On cb id); [|exact Hy]. exists q'. split; [exact Q|exact I].
        * injection Ht as <- <-. apply (On ca id); [|exact Hy]. exists pa. split; [apply Ha|exact I]. }
  assert (One : forall c q, u = [(c, Some q)] -> y = s_yavail (w_slice w) -> (forall c, In c m -> In c (s_magic (w_slice w))) ->
    ~ Yt c -> (forall id, p_id (dp q) = Some id -> ~ Y id) -> kept s' /\ forall c, Yt c -> back_at o <> Some c -> spinning_at (w_slice w) c -> spinning_at s' c).
  { intros c q -> E1 E2 Nc Ni. apply Same; auto.
    - intros c' t [X|[]] Hc. injection X as <- <-. contradiction.
    - intros c' p' id [X|[]] I Hy. injection X as <- <-. destruct (Ni id I Hy). }
  (* a Y state is bound or given back *)
  assert (Bind : forall c p nid, u = [(c, Some (named nid p))] -> Yt c -> tile_at (w_slice w) c = Some p -> rests Y p -> m = s_magic (w_slice w) ->
    (forall id, nid = Some id -> Y id) ->
    (N.to_nat y + b2n (spare (Some p)) = N.to_nat (s_yavail (w_slice w)) + b2n (spare (Some (named nid p))))%nat ->
    kept s' /\ forall c, Yt c -> back_at o <> Some c -> spinning_at (w_slice w) c -> spinning_at s' c).
  { intros c p nid Eu Hc Hp (R1 & R2 & R3) E2 Ny Cn. assert (Tc : tile_at s' c = Some (named nid p)) by (rewrite B, Eu; cbn [over]; now rewrite (proj2 (cell_eqb_eq c c) eq_refl)).
    assert (To : forall z, z <> c -> tile_at s' z = tile_at (w_slice w) z).
    { intros z Hz. rewrite B, Eu. cbn [over]. destruct (cell_eqb_spec c z); [congruence|reflexivity]. }
    split; [split; auto|].
    - rewrite Ey. destruct (count_change (fun z => spare (tile_at (w_slice w) z)) (fun z => spare (tile_at s' z)) c (l_ystates L) Nd) as [X _].
      { intros x _ Hx. now rewrite To. }
      specialize (X Hc). cbn beta in X. rewrite Hp, Tc in X. fold (y_spare L (w_slice w)) (y_spare L s') in X. rewrite C in Cn. rewrite Nat2N.id in Cn. lia.
    - intros z Hz. destruct (cell_eq_dec z c) as [->|Nz]; [|rewrite To; auto]. exists (named nid p). split; [exact Tc|]. left. split; [exact R1|]. split; [exact R2|]. exact Ny.
    - now rewrite Em, E2.
    - intros z id (q & Q & I) Hy. destruct (cell_eq_dec z c) as [->|Nz]; [exact Hc|]. rewrite To in Q by auto. apply (On z id); [exists q; auto|exact Hy].
    - intros z Hz _ (q & Q & S). destruct (cell_eq_dec z c) as [->|Nz]; [|exists q; rewrite To; auto]. exfalso. destruct S as (S & _). congruence. }
  destruct Ef; cbn [y_minded] in M; subst s.
  - destruct H as [H1 H2]. eapply One; [reflexivity|reflexivity|auto|exact (No _ _ _ (conj H1 H2) M)|]. cbn. intros id I. rewrite H2 in I. injection I as <-. exact M.
  - apply Same; auto; [intros ? ? []|intros ? ? ? []].
  - destruct H as [H1 H2]. apply Same; auto.
    + intros c' t' [X|[]] Hc p' Hp'. injection X as <- <-. assert (p' = p) by congruence. subst p'. eexists. split; [reflexivity|].
      apply (idle_like (w_slice w) c); cbn; auto. intros [X|X]; discriminate X.
    + intros c' p' id [X|[]] I Hy. injection X as <- <-. apply (On c id); [exists p; auto|exact Hy].
  - eapply Mg; eauto.
  - eapply Mg; eauto.
  - rewrite Ed in H2. assert (Bc : becomes (w_slice w) s' u) by (split; [exact B|]; repeat split; tauto).
    destruct (local_y _ _ _ _ H2 Bc Th On) as [X1 X2]; [intros ? []|intros ? []|].
    split; [apply (y_like (w_slice w) s' K T'); auto; now rewrite Em|intros z Hz _; now apply like_stays].
  - eapply One; [reflexivity|reflexivity|auto|now apply Fr0|]. cbn. intros id I. injection I as <-. exact M.
  - eapply One; [reflexivity|reflexivity|auto|now apply Fr0|]. cbn. intros id I. injection I as <-. exact M.
  - (* a rotation starts *)
    assert (Dc : forall z, z <> c -> Yt z -> tile_at s' z = tile_at (w_slice w) z).
    { intros z Hz Yz. rewrite B. cbn [over routing]. change (sc_cell (rotating c d)) with c. change (sc_cell (rotating (InstrSpec.step c d) (dir_not d))) with (InstrSpec.step c d).
      destruct (cell_eqb_spec c z); [congruence|]. destruct (cell_eqb_spec (InstrSpec.step c d) z) as [<-|_]; [|reflexivity]. destruct (Fr0 _ H0 Yz). }
    assert (Tc : spinning_at s' c).
    { eexists. split; [rewrite B; cbn [over routing]; change (sc_cell (rotating c d)) with c; now rewrite (proj2 (cell_eqb_eq c c) eq_refl)|]. now split. }
    split.
    + apply (y_same (w_slice w) s' K T'); [exact Ey|now rewrite Em|..].
      * intros z Hz q Hq F. destruct (cell_eq_dec z c) as [->|Nz].
        -- destruct Tc as (r & R1 & R2). exists r. split; [exact R1|]. split; [now right|]. destruct H as [P1 P2]. assert (q = p) by congruence. subst q. destruct R2 as (R2 & _ & R3). cbn. now rewrite R2, R3, P2.
        -- exists q. rewrite Dc by auto. auto.
      * intros z id (q & Q & I) Hy. rewrite B in Q. match type of Q with over ?u ?s0 ?z0 = _ => destruct (over_cases u s0 z0) as [(t0 & Ht & X)|(_ & X)]; rewrite X in Q end.
        -- subst t0. destruct Ht as [Ht|[Ht|[]]]; injection Ht as <- <-; discriminate I.
        -- apply (On z id); [exists q; auto|exact Hy].
    + intros z Hz _ (q & Q & S). destruct (cell_eq_dec z c) as [->|Nz]; [exact Tc|]. exists q. rewrite Dc by auto. auto.
  - eapply One; [reflexivity|reflexivity| |apply Ap; apply H0|].
    + intros c' X. now apply cset_erase_In in X.
    + cbn. intros id I. injection I as <-. exact M.
  - assert (Hc : Yt c) by (apply (On c t); [exists p; exact H|exact M]). destruct (Sits t c p H Hc) as [R _]. destruct H as [H1 H2].
    apply (Bind c p None); auto; [discriminate|]. cbn [spare named dp p_id p_type]. rewrite H2. destruct R as (_ & R & _). cbn.
    assert (Le : length (y_spare L (w_slice w)) < length (l_ystates L)).
    { assert (X : forall l, In c l -> length (filter (fun z => spare (tile_at (w_slice w) z)) l) < length l).
      { assert (Lf : forall l, length (filter (fun z => spare (tile_at (w_slice w) z)) l) <= length l).
        { intro k; induction k as [|z k IH]; cbn [filter]; [auto|]. destruct (spare (tile_at (w_slice w) z)); cbn [length]; lia. }
        intro k; induction k as [|z k IH]; [intros []|]. cbn [filter length]. intros [->|Hi].
        - rewrite H1. cbn [spare]. rewrite H2. specialize (Lf k). lia.
        - destruct (spare (tile_at (w_slice w) z)); cbn [length]; specialize (IH Hi); lia. }
      now apply X. }
    unfold u32. rewrite N.mod_small by lia. destruct (p_type (dp p)); try congruence; cbn; lia.
  - destruct H3 as [[Hc (q & Q1 & Q2)] _]. assert (q = p) by (destruct Q1; congruence). subst q.
    assert (R : rests Y p).
    { destruct (Th c Hc) as (r & R & F). assert (r = p) by congruence. subst r. destruct F as [F|(_ & F & _)]; [exact F|]. destruct Q1 as (_ & Q1 & _). congruence. }
    apply (Bind c p (Some t)); auto; [intros id X; injection X as <-; exact M|]. cbn [spare named dp p_id p_type]. rewrite Q2. destruct R as (_ & R & _).
    destruct (p_type (dp p)); try congruence; cbn; lia.
  - congruence.
  - apply Same; auto; [intros ? ? []|intros ? ? ? []].
  - (* a rotation ends *)
    destruct M as (p & sc & -> & M1 & M2 & M3 & M4). cbn [flat_map placed sp_cells app rev] in *. cbn [sp_patch] in B.
    set (c := sc_cell sc) in *.
    assert (Tc : tile_at s' c = Some (mkDP p (sc_b sc))) by (rewrite B; cbn [over]; now rewrite (proj2 (cell_eqb_eq c c) eq_refl)).
    assert (To : forall z, Yt z -> z <> c -> tile_at s' z = tile_at (w_slice w) z).
    { intros z Yz Hz. rewrite B. match goal with |- over ?u ?s0 ?z0 = _ => destruct (over_cases u s0 z0) as [(t0 & Ht & X)|(_ & X)]; [|exact X] end.
      exfalso. destruct Ht as [Ht|Ht]; [injection Ht as Ht _; congruence|]. unfold cleared in Ht. apply in_map_iff in Ht as (sc' & Ht & Hs'). injection Ht as <- _.
      apply (M2 (sc_cell sc')); auto. now apply in_map. }
    split.
    + apply (y_same (w_slice w) s' K T'); [exact Ey|now rewrite Em|..].
      * intros z Hz q Hq F. destruct (cell_eq_dec z c) as [->|Nz]; [|exists q; rewrite To; auto]. destruct (M3 Hz) as ((r & R & S1 & _ & S3) & Rs & Ni).
        exists (mkDP p (sc_b sc)). split; [exact Tc|]. split; [now left|]. assert (r = q) by congruence. subst r. cbn. rewrite S1, S3. destruct (p_id p); [reflexivity|contradiction].
      * intros z id (q & Q & I) Hy. rewrite B in Q. match type of Q with over ?u ?s0 ?z0 = _ => destruct (over_cases u s0 z0) as [(t0 & Ht & X)|(_ & X)]; rewrite X in Q end.
        -- subst t0. destruct Ht as [Ht|Ht].
           ++ injection Ht as <- <-. destruct (in_dec cell_eq_dec c (l_ystates L)) as [Yc|Nc]; [exact Yc|]. destruct (M4 Nc id I Hy).
           ++ unfold cleared in Ht. apply in_map_iff in Ht as (sc' & Ht & _). discriminate Ht.
        -- apply (On z id); [exists q; auto|exact Hy].
    + intros z Hz Nb (q & Q & S). exists q. rewrite To; auto. intros ->. apply Nb. reflexivity.
  - apply Same; auto; [intros ? ? []|intros ? ? ? []].
Qed.
(** The local operations of a Bell pair or of a long-range CNOT stay off the Y tiles *)
Lemma todo_y : forall w o todo, kept (w_slice w) -> y_minded (w_slice w) o -> bell_op o ->
  unstarted o /\ planned e w o todo \/ ~ unstarted o /\ todo = ApplySpec.pending false o ->
  (forall c, In c (flat_map spoils todo) -> ~ Yt c) /\ forall id, In id (flat_map local_ids todo) -> ~ Y id.
Proof.
  intros w o todo K M Bo. destruct K as [T _ Th _ _].
  assert (Fr0 : forall c, tile_at (w_slice w) c = None -> ~ Yt c) by (intros c X Hc; destruct (Th c Hc) as (q & Q & _); congruence).
  intros [[U P]|[U ->]].
  - destruct o; try destruct U.
    + destruct counter; [destruct U|]. destruct P as (reg & cache & la & lb & R & C & ->). pose proof (Fr _ _ _ _ _ _ _ _ (proj1 T) R) as F.
      assert (Hl : 2 <= length (map sc_cell (rg_cells reg))).
      { rewrite map_length. destruct (Nat.le_gt_cases 2 (length (rg_cells reg))); auto.
        unfold compile_bell in C. destruct (Nat.leb_spec (length (rg_cells reg) - 1) 0); [discriminate|lia]. }
      rewrite <- (map_length sc_cell (rg_cells reg)) in C. destruct (pair_todo _ _ _ _ _ Hl C) as (Cl & Ci & _). destruct M as (M1 & M2 & _). split.
      * intros c Hc. apply in_flat_map in Hc as (l & L1 & L2). assert (Hc : In c (map sc_cell (rg_cells reg))).
        { apply (Cl l c L1). destruct l; cbn in L2 |- *; tauto. }
        apply in_map_iff in Hc as (sc & <- & Hsc). apply Fr0, F, Hsc.
      * intros id Hi. destruct (Ci id Hi) as [->| ->]; assumption.
    + destruct counters; [destruct U|]. destruct P as (reg & cache & cc & ct & la & lb & R & Hl & _ & _ & C & ->). pose proof (Fr _ _ _ _ _ _ _ _ (proj1 T) R) as F.
      assert (Lr : 4 <= length (ct :: map sc_cell (rg_cells reg) ++ [cc])) by (cbn [length]; rewrite app_length, map_length; cbn; lia).
      destruct (cnot_todo _ _ _ _ _ Lr C) as (_ & Ci & _). destruct M as (M1 & M2 & _). split.
      * intros c Hc. destruct (cnot_spoils _ _ _ _ _ _ Lr C Hc) as (k & K1 & K2 & ->). destruct k as [|k]; [lia|].
        cbn [length] in K2. rewrite app_length in K2. cbn [length] in K2. unfold seg. cbn [plus nth]. rewrite app_nth1 by lia.
        assert (Hi : In (nth k (map sc_cell (rg_cells reg)) (mkCell 0 0)) (map sc_cell (rg_cells reg))) by (apply nth_In; lia).
        apply in_map_iff in Hi as (sc & <- & Hsc). apply Fr0, F, Hsc.
      * intros id Hi. destruct (Ci id Hi) as [->| ->]; assumption.
  - destruct o; try destruct Bo; cbn [unstarted] in U.
    + destruct counter; [|destruct U; exact Logic.I]. destruct M as (_ & _ & M1 & M2). split; [apply M1|apply M2]; discriminate.
    + destruct counters; [|destruct U; exact Logic.I]. destruct M as (_ & _ & M1 & M2). split; [apply M1|apply M2]; discriminate.
Qed.

(** An operation under way never has to start again. *)
Lemma busy_y : forall w reg wt cl after a, sized (l_furthest L) (w_slice w) -> y_minded (w_slice w) (Busy reg 0%N after) ->
  try_apply e w (mkI (Busy reg 0%N after) wt cl) = Ok a -> a_error a = false.
Proof.
  intros w reg wt cl after a Hs (p & sc & -> & Hin & _) H. cbn [try_apply op] in H.
  unfold apply_busy in H. change (N.eqb 0 0) with true in H. cbv iota in H. bstep H. unfold clear_routing_region in H0.
  apply (clear_inv (l_furthest L)) in H0 as [S1 [B1 _]]; auto.
  assert (T1 : tile_at x (sc_cell sc) = None).
  { rewrite B1. destruct (over_cases (map (fun sc => (sc_cell sc, None)) (rg_cells reg)) (w_slice w) (sc_cell sc)) as [(t & T & ->)|(Nn & _)].
    - apply in_map_iff in T as (y & Y' & _). now injection Y'.
    - exfalso. apply Nn. rewrite map_map. exact Hin. }
  cbn [place_all sp_cells] in H. cbn [foldM] in H. 
  destruct (is_free x (sc_cell sc)) as [fr| | |] eqn:Ef; try discriminate H.
  destruct (is_free_inv (l_furthest L) _ _ _ S1 Ef) as [_ X]. assert (fr = true) by tauto. subst fr.
  cbn [bind negb orb] in H. bstep H. cbn in H0. destruct x0 as [s2 all]. bstep H0. injection H0 as <- <-. cbv iota in H. apply done_inv in H. tauto.
Qed.

Lemma y_step : forall w i a, kept (w_slice w) -> y_minded (w_slice w) (op i) -> try_apply e w i = Ok a ->
  kept (w_slice (a_world a)) /\ (forall o', left_of a o' -> y_minded (w_slice (a_world a)) o')
  /\ forall o, y_minded (w_slice w) o -> y_apart (op i) o -> y_minded (w_slice (a_world a)) o /\ forall o', left_of a o' -> y_apart o' o.
Proof.
  intros w i a K M H. pose proof (yk_timed _ _ _ K) as T. pose proof (proj1 T) as Hs.
  assert (T' : timed L (w_slice (a_world a))).
  { destruct (C33_timers e w i a Hs H) as [X1 X2]. split; [exact X1|]. rewrite X2. apply T. }
  pose proof (tried_bare e w i a H) as Ba.
  (* what others need stays *)
  assert (Oth : (forall c, Yt c -> back_at (op i) <> Some c -> spinning_at (w_slice w) c -> spinning_at (w_slice (a_world a)) c) ->
    forall o, y_minded (w_slice w) o -> y_apart (op i) o -> y_minded (w_slice (a_world a)) o).
  { intros St o Mo Ap. destruct o; try exact Mo. destruct Mo as (p & sc & E & M1 & M2 & M3 & M4). exists p, sc. split; [exact E|]. split; [exact M1|]. split; [exact M2|]. split; [|exact M4].
    intros Hc. destruct (M3 Hc) as [S X]. split; [|exact X]. apply St; auto. intro Bk. apply (Ap (sc_cell sc) Hc Bk). rewrite E. reflexivity. }
  destruct (a_error a) eqn:Er.
  { assert (X : w_slice (a_world a) = w_slice w /\ a_follow a = []).
    { apply (C32_unchanged_partial e w i a Hs H Er). intro Tr. destruct i as [o wt cl]. cbn [op] in *.
      destruct o as [| | | | | | | | |reg st after|? ? ? ? [?|]|]; cbn in Tr; try contradiction; [|congruence].
      subst st. pose proof (busy_y w reg wt cl after a Hs M H). congruence. }
    destruct X as [E1 E2]. assert (Ao : y_minded (w_slice w) (a_op a) /\ back_at (a_op a) = back_at (op i)).
    { destruct (refused_op e Ed w i a H Er) as [_ Ro]. destruct i as [o wt cl]. cbn [op] in *.
      destruct o; try (rewrite Ro by (cbn; eauto); split; [exact M|reflexivity]); destruct (a_op a); cbn in Ba; try discriminate Ba; injection Ba; intros; subst; (split; [exact M|reflexivity]). }
    assert (Lf : forall o', left_of a o' -> o' = a_op a).
    { intros o' [[_ X]|(y & X & _)]; [exact X|]. rewrite E2 in X. discriminate X. }
    split; [now rewrite E1|]. split.
    - intros o' X. rewrite (Lf o' X), E1. apply Ao.
    - intros o Mo Ap. split; [now rewrite E1|]. intros o' X c Hc. rewrite (Lf o' X), (proj2 Ao). now apply Ap. }
  assert (Lf : forall o', left_of a o' -> exists y, hd_error (a_follow a) = Some y /\ o' = op y).
  { intros o' [[X _]|X]; [congruence|exact X]. }
  assert (Bell : bell_op (op i) \/ ~ bell_op (op i)) by (destruct (op i); cbn; tauto). destruct Bell as [Bell|Bell].
  - destruct (bell_tried e w i a Hs H Bell) as (_ & _ & G). destruct (G Er) as (todo & rest & Td & Ad & Rs & Rd). rewrite Ed in Td, Ad, Rs.
    destruct (todo_y w (op i) todo K M Bell Td) as [Sp Li]. destruct Ad as (done & -> & R & _). rewrite !flat_map_app in Sp, Li.
    destruct (ran_y _ _ _ R K T') as [K' Al]; [intros c X; apply Sp; apply in_or_app; now left|intros id X; apply Li; apply in_or_app; now left|].
    assert (Af : forall y, hd_error (a_follow a) = Some y -> y_minded (w_slice (a_world a)) (op y) /\ back_at (op y) = None).
    { intros y Hy. destruct rest as [|l rest].
      { rewrite Rd in Hy; auto. discriminate Hy. }
      destruct (Rs ltac:(discriminate)) as (Rp & Ru & Rf). rewrite Rf in Hy. cbn in Hy. injection Hy as <-. cbn [op].
      destruct i as [o wt cl]. cbn [op] in *. destruct o; try destruct Bell; destruct (a_op a); cbn in Ba; try discriminate Ba; injection Ba; intros; subst;
        (split; [|reflexivity]); destruct M as (M1 & M2 & _); cbn [y_minded]; (split; [exact M1|]); (split; [exact M2|]); rewrite Rp; (split; [intros _ c X; apply Sp|intros _ id X; apply Li]; apply in_or_app; now right). }
    split; [exact K'|]. split.
    + intros o' X. destruct (Lf o' X) as (y & Hy & ->). now apply Af.
    + intros o Mo Ap. split; [apply (Oth (fun c Hc _ => like_stays _ _ c Al Hc) o Mo Ap)|]. intros o' X c Hc. destruct (Lf o' X) as (y & Hy & ->). rewrite (proj2 (Af y Hy)). discriminate.
  - destruct (C33_effect e w i a Hs Bell H Er) as (u & m & y & Ef & Ch).
    destruct (effect_y w (op i) u m y _ _ Ef Ch T' K M) as [K' St]. split; [exact K'|].
    assert (Fo : (forall z, hd_error (a_follow a) = Some z -> y_minded (w_slice (a_world a)) (op z)) /\
      forall o z, y_minded (w_slice w) o -> y_apart (op i) o -> hd_error (a_follow a) = Some z -> y_apart (op z) o).
    { destruct Ef; (split; [intros z Hz|intros o0 z Mo Apo Hz]); cbn [hd_error] in Hz; try discriminate Hz; injection Hz as <-; cbn [op instr_of]; cbn [y_minded].
      - exact Logic.I.
      - intros c Hc. cbn [back_at]. discriminate.
      - subst s. eexists _, _. split; [reflexivity|]. cbn [sc_cell rg_cells map]. split; [now left|]. split; [|split].
        + intros z [<-|[<-|[]]] Hz; [destruct Hz; reflexivity|]. intro Hy. destruct (yk_there _ _ _ K _ Hy) as (q & Q & _). change (sc_cell (rotating (InstrSpec.step c d) (dir_not d))) with (InstrSpec.step c d) in Q. congruence.
        + intro Hc. destruct (yk_there _ _ _ K c Hc) as (q & Q & F). destruct H0 as [P I0]. assert (q = p) by congruence. subst q. destruct F as [(F1 & F2 & F3)|(_ & _ & F)]; [|congruence].
          destruct Ch as (B & _). split; [|split].
          * eexists. split; [rewrite B; cbn [over routing]; change (sc_cell (rotating c d)) with c; now rewrite (proj2 (cell_eqb_eq c c) eq_refl)|]. now split.
          * split; [|split; [exact F2|]]; cbn.
            -- destruct (act_eqb (p_act (dp p)) AUnitary); [intros [X|X]; discriminate X|exact F1].
            -- intros id X. injection X as <-. now apply F3.
          * discriminate.
        + intros Nc id X. cbn in X. injection X as <-. intro Hy. apply Nc, (yk_only _ _ _ K c t); [exists p; exact H0|exact Hy].
      - subst s. intros z Hz Bk. cbn [back_at sc_cell] in Bk. injection Bk as <-. destruct o0; try discriminate. destruct Mo as (p0 & sc & -> & _ & _ & M3 & _). cbn [back_at]. intro X. injection X as X.
        rewrite X in M3. destruct (M3 Hz) as ((r & R & _ & _ & S) & _). destruct H0 as [P I0]. congruence.
      - subst s. cbn [y_minded] in M. destruct M as (p & sc & E & M1 & M2 & M3 & M4). exists p, sc. split; [exact E|]. split; [exact M1|]. split; [exact M2|]. split; [|exact M4].
        intros Hc. destruct (M3 Hc) as [(q & Q & S) X]. split; [|exact X]. exists q. split; [|exact S]. destruct Ch as (B & _). rewrite B. exact Q.
      - intros c Hc Bk. apply (Apo c Hc). exact Bk. }
    split.
    + intros o' X. destruct (Lf o' X) as (z & Hz & ->). now apply Fo.
    + intros o Mo Ap. split; [now apply Oth|]. intros o' X. destruct (Lf o' X) as (z & Hz & ->). exact (proj2 Fo o z Mo Ap Hz).
Qed.

Lemma y_advance : forall s s', kept s -> advance_slice L s = Ok s' -> kept s' /\ forall o, y_minded s o -> y_minded s' o.
Proof.
  intros s s' K E. pose proof K as [T C Th Ap On]. destruct (advance_timed L s W T) as (s1 & E1 & T1). assert (s1 = s') by congruence. subst s1.
  assert (Yr : forall c, Yt c -> ~ In c (l_reserved L) /\ forall q, In q (l_queues L) -> ~ In c q).
  { intros c Hc. pose proof (lw_disjoint L W) as D. unfold taken in D. split.
    - apply prefix_nodup in D as (_ & D & _). apply prefix_nodup in D as (_ & _ & D). intro X. apply (D c Hc). apply in_app_iff. right. apply in_app_iff. now left.
    - intros q Hq Hi. apply (proj2 (lw_queue L W q c Hq Hi)). unfold taken. apply in_app_iff. right. apply in_app_iff. now left. }
  destruct (C34_survivors L s W (proj1 T) (proj2 T)) as (s1 & E2 & _ & _ & Ya & Sv). assert (s1 = s') by congruence. subst s1.
  assert (Al : all_like s s').
  { intros c Hc p Hp. destruct (Th c Hc) as (q & Q & F). assert (q = p) by congruence. subst q.
    assert (Nc : ~ consumed (p_act (dp p))) by (destruct F as [(F & _)|(_ & F & _)]; [exact F|rewrite F; intros [X|X]; discriminate X]).
    destruct (Sv c p Hp Nc (or_intror (or_intror (proj1 (Yr c Hc))))) as (p' & P' & S1 & S2 & _ & _ & S3 & _). exists p'. split; [exact P'|]. split; [exact S2|]. split; [exact S1|].
    rewrite S3. split; [|intros (_ & X & _); now rewrite X]. intros _ [X|X]; destruct (p_act (dp p)); try discriminate X; apply Nc; [now left|now right]. }
  split.
  - split; auto.
    + rewrite Ya, C. f_equal. symmetry. apply count_same. intros c Hc. destruct (Th c Hc) as (p & P & _). destruct (Al c Hc p P) as (p' & P' & Lk). rewrite P, P'. now apply like_spare.
    + intros c Hc. destruct (Th c Hc) as (p & P & F). destruct (Al c Hc p P) as (p' & P' & Lk). exists p'. split; [exact P'|eapply like_fine; eauto].
    + destruct (advance_ok L s W (proj1 T) (proj2 T)) as (s1 & E3 & _ & _ & _ & _ & _ & _ & St). assert (s1 = s') by congruence. subst s1.
      intros c Hc Hy. destruct (Yr c Hy) as [Y1 Y2]. destruct (l_magic_reserved L).
      * destruct St as (_ & X & _). apply (Ap c); auto. now apply X.
      * destruct St as (new & De & _). apply (de_list _ _ _ _ _ De) in Hc as [Hc|Hc]; [apply (Ap c Hc Hy)|].
        apply in_map_iff in Hc as ((i & c') & Ec & Hi). cbn in Ec. subst c'. destruct (de_new _ _ _ _ _ De i c Hi) as (_ & (q & Q1 & Q2) & _). apply (Y2 q); auto. eapply nth_error_In; eauto.
    + intros c id Hc Hy. apply (On c id); auto. eapply advance_ids; eauto; apply T.
  - intros o M. destruct o; try exact M. destruct M as (p & sc & E0 & M1 & M2 & M3 & M4). exists p, sc. split; [exact E0|]. split; [exact M1|]. split; [exact M2|]. split; [|exact M4].
    intros Hc. destruct (M3 Hc) as [S X]. split; [|exact X]. now apply (like_stays s).
Qed.
End Y.

(** ** Whole runs *)

(** Instructions as programs contain them: nothing of them was carried out yet, the ids in [Y] are used in requests for Y states,
    and no patch is made or measured under them otherwise. *)
Definition respects (Y : N -> Prop) (o : operation) : Prop :=
  match o with
  | YRequest t _ _ => Y t
  | Measure t _ _ | Init t _ _ | MagicRequest t _ => ~ Y t
  | BellInit s1 s2 _ _ _ k => ~ Y s1 /\ ~ Y s2 /\ k = None
  | BellCNOT _ _ s1 s2 _ k _ _ => ~ Y s1 /\ ~ Y s2 /\ k = None
  | Busy _ _ _ => False
  | _ => True
  end.
(** Routes go over free tiles. *)
Definition free_routes (e : env) : Prop := forall cache s a pa b pb reg cache', sized (l_furthest (e_layout e)) s ->
  e_route e cache s a pa b pb = Ok (Some reg, cache') -> forall sc, In sc (rg_cells reg) -> tile_at s (sc_cell sc) = None.
Lemma plain_free : forall e pick stop, e_route e = plain_router (e_layout e) false pick stop -> valid_pick pick -> free_routes e.
Proof.
  intros e pick stop Er Vp cache s a pa b pb reg cache' Hs R. rewrite Er in R. unfold plain_router in R. bstep R. injection R as -> _.
  destruct (C29_free_and_ends _ _ _ _ _ _ _ _ _ Hs Vp H) as (_ & _ & _ & _ & Fr & _). intros sc Hsc. apply (Fr sc Hsc).
Qed.

(** In every slice that a run emits, every Y state tile holds a Y state, free or bound, or one is being rotated there, ids of Y states
    are on no other tiles, and as many Y states are available as are free. *)
Theorem C48_run : forall pl e late grow Y prog w t r, e_edpc e = false -> e_twists e = false -> layout_wf (e_layout e) ->
  (N.of_nat (length (l_ystates (e_layout e))) < 2 ^ 32)%N -> free_routes e -> (pl = Wave -> Forall few_patches prog) ->
  y_kept (e_layout e) Y (w_slice w) -> Forall (fun i => respects Y (op i)) prog -> halts pl e late grow prog w t r ->
  Forall (y_kept (e_layout e) Y) (emitted (t_events t)).
Proof.
  intros pl e late grow Y prog w t r Ed Tw W Few Fr Wv K M H.
  apply (runs_keep e (y_kept (e_layout e) Y) (y_minded e Y) (y_apart e) Ed) with (pl := pl) (late := late) (grow := grow) (prog := prog) (w := w) (r := r); auto.
  - intros o o' D c Hc X Z. exact (D c Hc Z X).
  - apply y_step; auto.
  - apply y_advance; auto.
  - apply (Forall_impl _ (P := fun i => respects Y (op i))); [|exact M]. intros i X. destruct (op i); cbn in X |- *; try exact X; try contradiction;
      destruct X as (X1 & X2 & ->); (split; [exact X1|split; [exact X2|split; intro Z; congruence]]).
  - rewrite Forall_forall in M. intros i i' Hi _ c _ Bk. specialize (M i Hi). destruct (op i); try discriminate Bk. contradiction.
Qed.
Print Assumptions C48_run.

(** From the first slice of a layout on *)
Lemma start_y : forall L (Y : N -> Prop) ids s, layout_wf L -> (length ids <= length (core_cells L))%nat -> (N.of_nat (length (l_ystates L)) < 2 ^ 32)%N ->
  (forall id, In id ids -> ~ Y id) -> new_slice L ids = Ok s -> y_kept L Y s.
Proof.
  intros L Y ids s W Hl Few Ni E. destruct (C48_start L ids s W Hl E Few) as [[C _] U]. destruct (C35_start _ _ _ W Hl E) as [_ M0]. destruct (new_slice_ok _ _ W Hl) as (s' & E' & I). assert (s' = s) by congruence. subst s'.
  assert (Th : forall c, In c (l_ystates L) -> tile_at s c = Some (square None None)) by (apply (in_ystates _ _ _ I)).
  assert (Sp : y_spare L s = l_ystates L).
  { unfold y_spare. assert (A : forall l, (forall c, In c l -> spare (tile_at s c) = true) -> filter (fun c => spare (tile_at s c)) l = l).
    { induction l as [|c l IH]; intros Hx; [reflexivity|]. cbn [filter]. rewrite Hx by (cbn; auto). f_equal. apply IH. intros; apply Hx; cbn; auto. }
    apply A. intros c Hc. rewrite (Th c Hc). reflexivity. }
  split.
  - split; [apply (in_sized _ _ _ I)|now rewrite (in_timers _ _ _ I)].
  - rewrite Sp, C, U. reflexivity.
  - intros c Hc. exists (square None None). split; [auto|]. left. split; [intros [X|X]; discriminate X|]. split; discriminate.
  - intros c Hc. rewrite M0 in Hc. destruct Hc.
  - intros c id (p & T & Hi) Hy. exfalso.
    assert (D : In c (taken L) \/ ~ In c (taken L)) by (destruct (in_dec cell_eq_dec c (taken L)); auto).
    destruct D as [D|D]; [|rewrite (in_open _ _ _ I c D) in T; discriminate].
    unfold taken in D. rewrite !in_app_iff in D. destruct D as [D|[D|[D|[D|D]]]].
    + apply In_nth_error in D as (k & Hk). destruct (nth_error ids k) as [id'|] eqn:Ek.
      * destruct (in_core _ _ _ I k id' Ek) as (c' & C1 & C2). rewrite Hk in C1. injection C1 as <-. rewrite T in C2. injection C2 as ->. cbn in Hi. injection Hi as ->.
        apply (Ni id); [eapply nth_error_In; eauto|exact Hy].
      * rewrite (in_spare _ _ _ I k c Hk) in T by (now apply nth_error_None). discriminate.
    + rewrite (Th c D) in T. injection T as <-. discriminate Hi.
    + unfold region_cells in D. apply in_map_iff in D as (sc & <- & D). rewrite (in_regions _ _ _ I sc D) in T. injection T as <-. discriminate Hi.
    + rewrite (in_reserved _ _ _ I c D) in T. injection T as <-. discriminate Hi.
    + rewrite (in_dead _ _ _ I c D) in T. injection T as <-. discriminate Hi.
Qed.

(** ** Compiled circuits *)

(** What the passes before the one for S gates give *)
Definition no_y (i : instr) : Prop :=
  match op i with YRequest _ _ _ | Busy _ _ _ => False | BellInit _ _ _ _ _ k => k = None | BellCNOT _ _ _ _ _ k _ _ => k = None | _ => True end.
Lemma make_cnot_no_y local c ctl t ct pl corr l c' : make_cnot local c ctl t ct pl corr = Ok (l, c') -> Forall no_y l.
Proof.
  unfold make_cnot, new_id. destruct ct, local, corr; intros H; try discriminate; injection H as <- <-;
    repeat (apply Forall_cons; [first [exact I|reflexivity]|]); apply Forall_nil.
Qed.
Lemma make_t_no_y local c t d l c' : make_t local c t d = Ok (l, c') -> Forall no_y l.
Proof.
  unfold make_t, new_id. destruct local; intros H.
  - apply bind_ok in H as ([cn c2] & Hx & H). injection H as <- <-. apply make_cnot_no_y in Hx.
    apply Forall_cons; [exact I|]. apply Forall_app. split; [assumption|]. repeat constructor.
  - injection H as <- <-. repeat constructor.
Qed.
Lemma lower_gate_no_y cfg c g l c' : lower_gate cfg c g = Ok (l, c') -> Forall no_y l.
Proof.
  destruct g as [t b|t f|ctl tg ct pl|r t]; cbn [lower_gate].
  - destruct b; intros H; try (injection H as <- <-; repeat constructor); eapply make_t_no_y; eauto.
  - repeat match goal with |- context[if ?b then _ else _] => destruct b end; intros H; try discriminate;
      try (injection H as <- <-; repeat constructor); eapply make_t_no_y; eauto.
  - destruct tg as [t b|]; [destruct b|]; try discriminate; intros H; [eapply make_cnot_no_y; eauto|].
    apply bind_ok in H as ([cn c2] & Hx & H). injection H as <- <-. apply make_cnot_no_y in Hx.
    apply Forall_cons; [exact I|]. apply Forall_app. split; [assumption|]. repeat constructor.
  - destruct text_eqb; intros H; [|discriminate]. injection H as <- <-. repeat constructor.
Qed.
Lemma lowered_no_y cfg : forall st c l, pulled (lower_next cfg) st c l -> Forall no_y (ls_queue st) -> Forall no_y l.
Proof.
  intros st c l P. induction P as [st c E|st c i st' c' c'' l E Lc P IH]; intro Q; [constructor|].
  unfold lower_next in E. destruct (ls_queue st) as [|j q] eqn:Eq.
  - destruct (ls_gates st) as [|g r]; [discriminate|]. apply bind_ok in E as ([l0 c0] & Hx & E). apply lower_gate_no_y in Hx. destruct l0 as [|k q]; [discriminate|].
    injection E as <- <- <-. inversion Hx; subst. constructor; auto.
  - injection E as <- <- <-. inversion Q; subst. constructor; auto.
Qed.
(** What the pass for S gates makes of one instruction: a Y state is asked for, and given back in the end *)
Lemma catalytic_one local core ar i k seg k' : catalytic_expand local core ar tt k i = Ok (seg, tt, k') -> no_y i ->
  Forall (fun j => match op j with YRequest t _ _ => (exists j', In j' seg /\ In t (made j') /\ exists n l, op j' = YRequest t n l)
                                                  /\ exists j', In j' seg /\ ends j' t /\ exists n l, op j' = YRequest t n l
                              | _ => no_y j end) seg.
Proof.
  intros H Ny. assert (One : forall j, no_y j -> match op j with YRequest t _ _ => (exists j', In j' seg /\ In t (made j') /\ exists n l, op j' = YRequest t n l)
                                                  /\ exists j', In j' seg /\ ends j' t /\ exists n l, op j' = YRequest t n l
                              | _ => no_y j end).
  { intros j Nj. unfold no_y in Nj |- *. destruct (op j); try exact Nj. contradiction. }
  unfold catalytic_expand in H. destruct (op i) as [| | | | | | |t o d| | | |] eqn:Eo; try (injection H as <- <-; repeat constructor; apply One, Ny).
  destruct o; try (injection H as <- <-; repeat constructor; apply One, Ny).
  - destruct (ar && memN t core); injection H as <- <-; repeat constructor; apply One, Ny.
  - destruct (memN t core); [|injection H as <- <-; repeat constructor; apply One, Ny].
    unfold new_id in H. apply bind_ok in H as ([l1 c2] & E1 & H). apply bind_ok in H as ([l2 c3] & E2 & H). injection H as H <-.
    apply make_cnot_no_y in E1. apply make_cnot_no_y in E2. set (y := (k mod 2 ^ 32)%N) in *.
    set (a := mkI (YRequest y t None) SIZE_MAX [t]) in *. set (b := mkI (YRequest y t None) SIZE_MAX []) in *.
    assert (Es : seg = a :: l1 ++ [sq y SqH; instr_of (Rotate y)] ++ l2 ++ [sq y SqH; instr_of (Rotate y); b]) by (symmetry; exact H). clear H.
    assert (A : exists j', In j' seg /\ In y (made j') /\ exists n l, op j' = YRequest y n l) by (exists a; split; [rewrite Es; apply in_eq|]; split; [apply in_eq|cbn; eauto]).
    assert (B : exists j', In j' seg /\ ends j' y /\ exists n l, op j' = YRequest y n l).
    { exists b. split; [|split; [now split|cbn; eauto]]. rewrite Es. apply in_cons. rewrite !in_app_iff. right. right. right. cbn. tauto. }
    set (G := (fun j => match op j with YRequest t _ _ => (exists j', In j' seg /\ In t (made j') /\ exists n l, op j' = YRequest t n l)
      /\ exists j', In j' seg /\ ends j' t /\ exists n l, op j' = YRequest t n l | _ => no_y j end)).
    assert (Al : forall l0, Forall no_y l0 -> Forall G l0) by (intros l0; apply Forall_impl; exact One).
    assert (Gh : G (sq y SqH)) by exact I. assert (Gr : G (instr_of (Rotate y))) by exact I. assert (Ga : G a) by exact (conj A B). assert (Gb : G b) by exact (conj A B).
    change (Forall G seg). clearbody G. rewrite Es. constructor; [exact Ga|]. apply Forall_app. split; [now apply Al|]. cbn [app]. constructor; [exact Gh|]. constructor; [exact Gr|].
    apply Forall_app. split; [now apply Al|]. repeat (constructor; [assumption|]). constructor.
Qed.

Lemma both_made : forall out i j t, NoDup (made_by out) -> In i out -> In j out -> In t (made i) -> In t (made j) -> i = j.
Proof.
  unfold made_by. induction out as [|x out IH]; intros i j t Nd Hi Hj Mi Mj; [destruct Hi|]. cbn [map concat] in Nd. apply NoDup_app_parts in Nd as (N1 & N2 & N3).
  assert (Fa : forall k, In k out -> In t (made k) -> In t (concat (map made out))) by (intros k Hk Mk; apply in_concat; exists (made k); split; [now apply in_map|exact Mk]).
  destruct Hi as [<-|Hi], Hj as [<-|Hj]; auto.
  - exfalso. exact (N3 t Mi (Fa j Hj Mj)).
  - exfalso. exact (N3 t Mj (Fa i Hi Mi)).
  - eapply IH; eauto.
Qed.

(** The ids of the Y states a program asks for *)
Definition y_ids (prog : list instr) (t : N) : Prop := exists j n l, In j prog /\ op j = YRequest t n l.
Lemma compiled_respects : forall cfg core gs c out c', Forall (fun q => (q < c)%N) core -> in_register c gs -> (c' <= 2 ^ 32)%N ->
  reads (catalytic_next cfg core) (mkIS [] tt (mkLS [] gs)) c (Ok (out, c')) ->
  Forall (fun i => respects (y_ids out) (op i)) out /\ forall q, In q core -> ~ y_ids out q.
Proof.
  intros cfg core gs c out c' Hc Hg Hl R. pose proof (compiles_catalytic cfg core gs c _ R) as Cm.
  destruct (C11_fresh_partial cfg core gs c out c' Hc Hg Cm Hl) as [Nd Fsh]. pose proof (C13_helper_lives_partial cfg core gs c out c' Hc Hg Cm Hl) as Lv.
  destruct (C15_in_order (lower_next cfg) core true (cfg_local cfg) (catalytic_expand (cfg_local cfg) core true) (mkLS [] gs) c out c' (or_intror eq_refl) R) as (l & segs & Pl & Eo & F2).
  pose proof (lowered_no_y cfg _ _ _ Pl (Forall_nil _)) as Nl.
  assert (G : forall j, In j out -> match op j with
     | YRequest t _ _ => (exists j', In j' out /\ In t (made j') /\ exists n l, op j' = YRequest t n l) /\ exists j', In j' out /\ ends j' t /\ exists n l, op j' = YRequest t n l
     | _ => no_y j end).
  { intros j Hj. rewrite Eo in Hj. apply in_concat in Hj as (seg & Hs & Hj).
    assert (S : exists i k k', In i l /\ alone (catalytic_expand (cfg_local cfg) core true) i k seg k').
    { clear -F2 Hs. induction F2 as [|i sg l segs (k & k' & A) F2 IH]; [destruct Hs|]. destruct Hs as [->|Hs]; [exists i, k, k'; cbn; auto|].
      destruct (IH Hs) as (i' & k0 & k1 & X & Z). exists i', k0, k1. cbn. auto. }
    destruct S as (i & k & k' & Hi & A). apply alone_iff in A; [|apply catalytic_nonempty|intros [] c0 i0; destruct (catalytic_no_fail (cfg_local cfg) core true tt c0 i0) as (o & kk & ->); discriminate].
    rewrite Forall_forall in Nl. pose proof (catalytic_one _ _ _ _ _ _ _ A (Nl i Hi)) as X. rewrite Forall_forall in X. specialize (X j Hj).
    assert (In_out : forall j', In j' seg -> In j' out) by (intros j' Z; rewrite Eo; apply in_concat; eauto).
    destruct (op j); try exact X. destruct X as [(a & A1 & A2) (b & B1 & B2)]. split; [exists a|exists b]; auto. }
  assert (Mk : forall t, y_ids out t -> exists j, In j out /\ In t (made j) /\ exists n l, op j = YRequest t n l).
  { intros t (j & n & l0 & Hj & Ej). specialize (G j Hj). rewrite Ej in G. apply G. }
  assert (Nm : forall i t, In i out -> In t (made i) -> (forall n l, op i <> YRequest t n l) -> ~ y_ids out t).
  { intros i t Hi Mi Ni Hy. destruct (Mk t Hy) as (j & Hj & Mj & n & l0 & Ej). assert (i = j) by (eapply both_made; eauto). subst j. exact (Ni n l0 Ej). }
  split.
  - apply Forall_forall. intros i Hi. pose proof (G i Hi) as Gi. unfold no_y in Gi. unfold respects. destruct (op i) eqn:Ei; auto.
    + intro Hy. destruct (Mk target Hy) as (j & Hj & Mj & n & l0 & Ej). pose proof (G j Hj) as Gj. rewrite Ej in Gj. destruct Gj as [_ (b & Hb & Eb & n' & l' & Ob)].
      assert (Im : In target (made_by out)) by (unfold made_by; apply in_concat; exists (made j); split; [now apply in_map|exact Mj]).
      assert (Hist : forall k, In k out -> In target (ids_of k) -> In k (LoweringSpec.history target out)).
      { intros k Hk Ik. unfold LoweringSpec.history. apply filter_In. split; [exact Hk|]. apply existsb_exists. exists target. split; [exact Ik|apply N.eqb_refl]. }
      assert (Hi1 : In i (LoweringSpec.history target out)) by (apply Hist; auto; unfold ids_of; rewrite Ei; apply in_or_app; cbn; auto).
      assert (Hb1 : In b (LoweringSpec.history target out)) by (apply Hist; auto; unfold ids_of; rewrite Ob; apply in_or_app; cbn; auto).
      assert (Endi : ends i target) by (unfold ends; now rewrite Ei).
      destruct (Lv target Im) as [(cr & us & fin & Eh & _ & _ & _ & Nc & Nu)|(k & cc & tt0 & a0 & b0 & r1 & r2 & r3 & r4 & Eh & Ok0 & _)].
      * assert (Last : forall k, In k (LoweringSpec.history target out) -> ends k target -> k = fin).
        { intros k Hk Ek. rewrite Eh in Hk. destruct Hk as [<-|Hk]; [contradiction|]. apply in_app_or in Hk as [Hk|[<-|[]]]; [|reflexivity].
          rewrite Forall_forall in Nu. destruct (Nu k Hk) as [_ X]. contradiction. }
        rewrite (Last i Hi1 Endi) in Ei. rewrite (Last b Hb1 Eb) in Ob. congruence.
      * rewrite Eh in Hb1. destruct Hb1 as [<-|[]]. congruence.
    + apply (Nm i); auto; [unfold made; rewrite Ei; now left|]. intros n l0 X. congruence.
    + split; [|split; [|exact Gi]]; apply (Nm i); auto; try (intros n l0 X; congruence); unfold made; rewrite Ei; cbn; auto.
    + apply (Nm i); auto; [unfold made; rewrite Ei; now left|]. intros n l0 X. congruence.
    + eexists i, _, _. split; [exact Hi|exact Ei].
    + split; [|split; [|exact Gi]]; apply (Nm i); auto; try (intros n l0 X; congruence); unfold made; rewrite Ei; cbn; auto.
  - intros q Hq Hy. destruct (Mk q Hy) as (j & Hj & Mj & _). rewrite Forall_forall in Fsh. apply (proj2 (Fsh q ltac:(unfold made_by; apply in_concat; exists (made j); split; [now apply in_map|exact Mj]))). exact Hq.
Qed.

(** Circuits compiled with catalytic S gates ([--notwists]) and run on the first slice of the layout: whatever the scheduler does, a Y state is on every
    Y state tile, or being rotated there, in every slice, and as many are available as are free. *)
Theorem C48_compiled : forall pl e late grow cfg core gs c out c' w t r pick stop,
  Forall (fun q => (q < c)%N) core -> in_register c gs -> (c' <= 2 ^ 32)%N -> reads (catalytic_next cfg core) (mkIS [] tt (mkLS [] gs)) c (Ok (out, c')) ->
  e_edpc e = false -> e_twists e = false -> e_route e = plain_router (e_layout e) false pick stop -> valid_pick pick -> layout_wf (e_layout e) ->
  (N.of_nat (length (l_ystates (e_layout e))) < 2 ^ 32)%N -> (length core <= length (core_cells (e_layout e)))%nat ->
  new_slice (e_layout e) core = Ok (w_slice w) -> (pl = Wave -> Forall few_patches out) -> halts pl e late grow out w t r ->
  Forall (fun s => s_yavail s = N.of_nat (length (y_spare (e_layout e) s))
    /\ forall k, In k (l_ystates (e_layout e)) -> exists p, tile_at s k = Some p /\ (rests (y_ids out) p \/ spins p)) (emitted (t_events t)).
Proof.
  intros pl e late grow cfg core gs c out c' w t r pick stop Hc Hg Hl R Ed Tw Er Vp W Few Lc En Wv H.
  destruct (compiled_respects cfg core gs c out c' Hc Hg Hl R) as [Rs Nc].
  apply (Forall_impl (P := y_kept (e_layout e) (y_ids out))); [intros s K; split; apply K|].
  eapply C48_run; eauto; [eapply plain_free; eauto|eapply start_y; eauto].
Qed.
Print Assumptions C48_compiled.

(** ** Concrete cases *)

Definition cat_text : text := lit "rrrrrr
rQrrYr
rrrrrr
rrArrr".
Definition cat_start : layout * slice := Eval vm_compute in
  match (do L <- layout_from_spec cat_text (mkDO true 2) ;; do s <- new_slice L [0]%N ;; Ok (L, s)) with
  | Ok x => x | _ => ex_start end.
Definition cat_env : env := mkEnv false false false false (fst cat_start) (plain_router (fst cat_start) false pick_min false).
Definition cat_world : world := mkW (snd cat_start) 0 [].
Definition cat_cfg : lower_cfg := mkCfg false CorrNever (lit "q").
Definition cat_prog : list instr := Eval vm_compute in
  match drain (catalytic_next cat_cfg [0]%N) 80 (mkIS [] tt (mkLS [] [GBasic 0 GS])) 1 with Ok (o, _) => o | _ => [] end.
Lemma cat_reads : reads (catalytic_next cat_cfg [0]%N) (mkIS [] tt (mkLS [] [GBasic 0 GS])) 1 (Ok (cat_prog, 4%N)).
Proof. split; [discriminate|]. exists 80. vm_compute. reflexivity. Qed.
Definition cat_tally : option tally := Eval vm_compute in
  match dag_run cat_env 60 cat_prog cat_world with Halt t Finished => Some t | _ => None end.
Lemma cat_runs : match cat_tally with Some t => halts Dag cat_env never never cat_prog cat_world t Finished | None => False end.
Proof. exists 60. vm_compute. reflexivity. Qed.
Lemma cat_layout : layout_from_spec cat_text (mkDO true 2) = Ok (fst cat_start).
Proof. vm_compute. reflexivity. Qed.
Lemma cat_slice : new_slice (fst cat_start) [0]%N = Ok (snd cat_start).
Proof. vm_compute. reflexivity. Qed.
Lemma cat_seen : match cat_tally with Some t => map s_yavail (emitted (t_events t)) = [0; 0; 0; 0; 0; 0; 0; 0; 0; 0; 0; 0; 0; 1]%N | None => False end.
Proof. vm_compute. reflexivity. Qed.
(** An S gate, compiled and run: the Y state is borrowed, rotated twice, and given back in the end *)
Example C48_compiled_ex : exists t, halts Dag cat_env never never cat_prog cat_world t Finished
  /\ map s_yavail (emitted (t_events t)) = [0; 0; 0; 0; 0; 0; 0; 0; 0; 0; 0; 0; 0; 1]%N
  /\ Forall (fun s => s_yavail s = N.of_nat (length (y_spare (fst cat_start) s))
    /\ forall k, In k (l_ystates (fst cat_start)) -> exists p, tile_at s k = Some p /\ (rests (y_ids cat_prog) p \/ spins p)) (emitted (t_events t)).
Proof.
  pose proof cat_runs as R. pose proof cat_seen as B. destruct cat_tally as [t|]; [|contradiction]. exists t. split; [exact R|]. split; [exact B|].
  apply (C48_compiled Dag cat_env never never cat_cfg [0]%N [GBasic 0 GS] 1 cat_prog 4 cat_world t Finished pick_min false); auto using pick_min_valid, cat_reads, cat_slice.
  - repeat constructor.
  - repeat constructor.
  - discriminate.
  - exact (text_layout_wf _ _ _ cat_layout).
  - vm_compute. reflexivity.
  - discriminate.
Qed.

(** With twists a Y state is made next to the qubit when there is none on the Y state tiles.  A second request for it, meant to give
    it back, counts it as available although it is on no Y state tile; from then on no request for a Y state can be met, where before
    the first one could. *)
Definition tw_start : layout * slice := Eval vm_compute in
  match (do L <- layout_from_spec (lit "rrr
rQr") (mkDO true 2) ;; do s <- new_slice L [7]%N ;; Ok (L, s)) with
  | Ok x => x | _ => ex_start end.
Definition tw_env : env := mkEnv false true false false (fst tw_start) (plain_router (fst tw_start) false pick_min false).
Definition tw_world : world := mkW (snd tw_start) 0 [].
Theorem C48_twists_refuted : exists t s a a',
  turns (stream_step tw_env never) 9 (stream_init [instr_of (YRequest 100 7 None); instr_of (YRequest 100 7 None)] tw_world) = Halt t Finished
  /\ s = last (emitted (t_events t)) (snd tw_start) /\ l_ystates (fst tw_start) = [] /\ s_yavail s = 1%N
  /\ try_apply tw_env tw_world (instr_of (YRequest 101 7 None)) = Ok a /\ a_error a = false
  /\ try_apply tw_env (mkW s 0 []) (instr_of (YRequest 101 7 None)) = Ok a' /\ a_error a' = true /\ w_slice (a_world a') = s.
Proof.
  do 4 eexists. split; [vm_compute; reflexivity|]. split; [reflexivity|]. split; [reflexivity|]. split; [vm_compute; reflexivity|].
  split; [vm_compute; reflexivity|]. split; [reflexivity|]. split; [vm_compute; reflexivity|]. split; reflexivity.
Qed.
Print Assumptions C48_twists_refuted.
