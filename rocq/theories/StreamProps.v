(** Invariants of whole runs of the stream pipeline: C28 (no id in two places). *)
From Verif Require Import Base TextModel PatchesModel LayoutModel LayoutSpec LayoutProofs InstrModel InstrSpec InstrProofs.
From Verif Require Import SliceModel SliceSpec SliceProofs SliceProps RouterModel RouterSpec RouterProofs RouterProps.
From Verif Require Import ApplyModel ApplySpec ApplyProofs ApplyEffect ApplyBell ApplyIds BellSpec BellProofs BellIds BellProps ApplyProps StepProps.
From Verif Require Import RunModel RunSpec RunProofs RunProps.
Open Scope nat_scope.

(** A program that never reuses an id: the ids an instruction brings in are neither
    on the lattice at the start nor put there by an earlier instruction. *)
Fixpoint new_ids (used : list N) (p : list instr) : Prop :=
  match p with
  | [] => True
  | i :: r => tidy (op i) /\ NoDup (brings false (op i)) /\ (forall id, In id (brings false (op i)) -> ~ In id used)
              /\ new_ids (puts false (op i) ++ used) r
  end.
Lemma new_ids_less : forall p u u', (forall x, In x u' -> In x u) -> new_ids u p -> new_ids u' p.
Proof.
  induction p as [|i p IH]; intros u u' Hi H; [exact I|]. destruct H as (T & N & D & R). split; [auto|]. split; [auto|]. split.
  - intros id Hd Hu. apply (D id Hd). auto.
  - eapply IH; [|exact R]. intros x Hx. apply in_app_iff in Hx as [Hx|Hx]; apply in_app_iff; auto.
Qed.

(** A request for a Y state stays one while it waits, and is never a follow-up of
    anything else. *)
Lemma tried_y : forall e w i a t n l, try_apply e w i = Ok a -> a_op a = YRequest t n l -> exists l', op i = YRequest t n l'.
Proof.
  intros e w [o wt cl] a t n l H E.
  assert (F : forall w' o', failed w' o' = Ok a -> o' = YRequest t n l) by (intros w' o' X; apply failed_inv in X; destruct X as (_ & X & _); congruence).
  assert (D : forall w' o', done_ w' o' = Ok a -> o' = YRequest t n l) by (intros w' o' X; apply done_inv in X; destruct X as (_ & X & _); congruence).
  destruct o; cbn [try_apply InstrModel.op wait clients] in H; try discriminate.
  - unfold apply_measure in H. destruct (get_cell_by_id (w_slice w) target); [bstep H; apply D in H|apply F in H]; discriminate.
  - unfold apply_multi in H. destruct observable as [|[x px] [|[y py] [|? ?]]]; try discriminate.
    repeat (match type of H with (if ?b then _ else _) = _ => destruct b end; try discriminate;
      try (apply F in H; discriminate)).
    + crawl H. destruct b; cbn [negb] in H; [apply D in H|apply F in H]; discriminate.
    + crawl H. injection H as <-. discriminate.
  - unfold apply_init in H. bstep H. destruct x; [|apply F in H; discriminate]. bstep H. bstep H. apply D in H. discriminate.
  - unfold apply_bell_init in H.
    repeat (match type of H with (if ?b then _ else _) = _ => destruct b end; try discriminate; try (apply F in H; discriminate)).
    destruct counter as [[f s]|].
    + crawl H. injection H as <-. discriminate.
    + bstep H. destruct x as [r cache]. destruct r; [|apply F in H; discriminate]. destruct (Nat.ltb (length (rg_cells r)) 2); [apply F in H; discriminate|].
      crawl H. injection H as <-. discriminate.
  - unfold apply_magic in H. destruct (l_times (e_layout e)); try discriminate. destruct (s_magic (w_slice w)); [apply F in H; discriminate|].
    repeat bstep H. apply D in H. discriminate.
  - unfold apply_y in H. destruct (get_cell_by_id (w_slice w) target); [bstep H; apply D in H; injection H as -> -> ->; cbn; eauto|].
    destruct (negb (e_local e && e_twists e) && negb (N.eqb (s_yavail (w_slice w)) 0)).
    + bstep H. destruct x as [[z c]|]; [bstep H; apply D in H; injection H as -> -> ->; cbn; eauto|]. injection H as <-. cbn in E. injection E as -> -> ->. cbn; eauto.
    + destruct (e_twists e); [|injection H as <-; cbn in E; injection E as -> -> ->; cbn; eauto].
      bstep H. bstep H. destruct x0; [|apply F in H; injection H as -> -> ->; cbn; eauto]. bstep H. destruct x0. apply D in H. injection H as -> -> _. cbn; eauto.
  - unfold apply_single in H. destruct (get_cell_by_id (w_slice w) target), (get_patch_by_id (w_slice w) target); try (apply F in H; discriminate).
    destruct op; try (match type of H with (if dp_is_active _ then _ else _) = _ => destruct (dp_is_active d); [apply F in H; discriminate|try (bstep H); apply D in H; discriminate] end).
    destruct (e_edpc e); try discriminate. bstep H. destruct x as [w' ok]. destruct ok; cbn [negb] in H; [injection H as <-; discriminate|apply F in H; discriminate].
  - unfold apply_rotate in H. destruct (get_cell_by_id (w_slice w) target); [|apply F in H; discriminate]. bstep H. destruct x; [|apply F in H; discriminate].
    repeat bstep H. destruct x1; try discriminate. bstep H. destruct x1. injection H as <-. discriminate.
  - unfold apply_busy in H. destruct (N.eqb steps_to_clear 0).
    + repeat bstep H. destruct x0 as [s2 all]. destruct all; [apply D in H|apply F in H]; discriminate.
    + repeat bstep H. injection H as <-. discriminate.
  - exfalso. unfold apply_cnot in H.
    destruct (e_local e); cbn [negb] in H; try discriminate.
    destruct (get_patch_by_id (w_slice w) control); [|apply F in H; discriminate]. destruct (get_patch_by_id (w_slice w) target); [|apply F in H; discriminate].
    destruct (dp_is_active d); [apply F in H; discriminate|]. destruct (dp_is_active d0); [apply F in H; discriminate|].
    assert (L : forall w' cs se, cnot_locals e control target side1 side2 wt cl w' route cs se phase = Ok a -> False).
    { intros w' cs se X. unfold cnot_locals in X. crawl X. injection X as <-. discriminate. }
    destruct (e_edpc e).
    + destruct route as [reg|]; [destruct counters as [cs|]|].
      * unfold cnot_phase in H. crawl H. destruct b; cbn [negb] in H.
        -- bstep H. match type of H with (if ?b then _ else _) = _ => destruct b end; injection H as <-; discriminate.
        -- injection H as <-. discriminate.
      * unfold cnot_decompose in H. bstep H. destruct x as [p1 p2]. apply F in H. discriminate.
      * unfold cnot_find_route in H. bstep H. destruct x as [r cache]. destruct r; [|apply F in H; discriminate].
        destruct (Nat.ltb (length (rg_cells r)) 2); try discriminate.
        bstep H. bstep H. bstep H. destruct x1. bstep H. injection H as <-. discriminate.
    + unfold cnot_plain in H. destruct counters; [eapply L; eauto|].
      bstep H. destruct x as [r cache]. destruct r; [|apply F in H; discriminate].
      destruct (Nat.ltb (length (rg_cells r)) 2); try discriminate.
      bstep H. bstep H. bstep H. destruct x1. eapply L; eauto.
  - apply D in H. discriminate.
Qed.

Lemma puts_remaining : forall e w i a o', try_apply e w i = Ok a -> remaining a = [o'] ->
  (forall id, In id (brings (e_edpc e) o') -> In id (brings (e_edpc e) (op i)) \/ op i = Rotate id /\ exists c, carries (w_slice w) c id) ->
  forall id, In id (puts (e_edpc e) o') -> In id (puts (e_edpc e) (op i)) \/ op i = Rotate id /\ exists c, carries (w_slice w) c id.
Proof.
  intros e w i a o' H R B id Hp.
  assert (Y : (exists t n l, o' = YRequest t n l) \/ puts (e_edpc e) o' = brings (e_edpc e) o') by (destruct o'; eauto).
  destruct Y as [(t & n & l & ->)|Y].
  - left. assert (E : a_op a = YRequest t n l).
    { unfold remaining in R. destruct (follow_shape e w i a H) as [Fo|(j & Fo & _ & [Sh|[(x & ->)|(r & k & p & ->)]])]; rewrite Fo in R.
      - destruct (a_error a); [injection R as ->; reflexivity|discriminate].
      - injection R as R. subst j. exact R.
      - discriminate.
      - discriminate. }
    destruct (tried_y e w i a t n l H E) as (l' & ->). exact Hp.
  - rewrite Y in Hp. destruct (B id Hp) as [X|X]; [left|right; exact X]. destruct (op i); cbn [puts]; auto. destruct X.
Qed.

(** ** C28 for whole runs *)

Definition named_apart (e : env) (w : world) (l : list instr) : Prop :=
  let s := w_slice w in
  timed (e_layout e) s /\ unique_ids s /\ exists used, (forall c id, carries s c id -> In id used)
  /\ match l with
     | [] => True
     | i :: r => tidy (op i) /\ fresh_for e s (op i) /\ new_ids (puts false (op i) ++ used) r
     end.

(** The program never reuses an id: then every slice that is emitted has every id on at
    most one tile, whatever is refused and when, and however the run ends. *)
Theorem C28_stream : forall e late prog w n, e_edpc e = false -> layout_wf (e_layout e) -> timed (e_layout e) (w_slice w) ->
  unique_ids (w_slice w) -> forall used, (forall c id, carries (w_slice w) c id -> In id used) -> new_ids used prog ->
  match turns (stream_step e late) n (stream_init prog w) with
  | Go st => Forall unique_ids (emitted (t_events (ss_tally st))) /\ unique_ids (w_slice (ss_world st))
  | Halt t _ => Forall unique_ids (emitted (t_events t))
  end.
Proof.
  intros e late prog w n Ed W T U used Hu Np.
  assert (Start : forall w used l, timed (e_layout e) (w_slice w) -> unique_ids (w_slice w) ->
     (forall c id, carries (w_slice w) c id -> In id used) -> new_ids used l -> named_apart e w l).
  { intros w1 used1 l T1 U1 H1 N1. split; [auto|]. split; [auto|]. exists used1. split; [auto|]. destruct l as [|i r]; [exact I|].
    destruct N1 as (A & B & C & D). split; [auto|]. split; [|auto]. unfold fresh_for. rewrite Ed. split; auto. intros id Hi c Hc. apply (C id Hi). eauto. }
  pose proof (kept_run e late Ed (named_apart e) unique_ids) as R. specialize (R) .
  assert (R' := fun A B => R A B n prog w (Start w used prog T U Hu Np)). clear R.
  match type of R' with ?A -> ?B -> _ => assert (HA : A) end.
  { intros w1 i l a (T1 & U1 & us & C1 & Td & Fr & Nw) A. 
    destruct (C28_step e w1 i a (proj1 T1) A U1 Td Fr) as (U2 & Cc & Rm).
    destruct (C33_timers e w1 i a (proj1 T1) A) as [S2 Tm].
    assert (T2 : timed (e_layout e) (w_slice (a_world a))) by (split; [auto|rewrite Tm; apply T1]).
    assert (C2 : forall c id, carries (w_slice (a_world a)) c id -> In id (puts false (op i) ++ us)).
    { intros c id Hc. apply in_app_iff. destruct (Cc c id Hc) as [(c' & X)|X]; [right; eauto|left; rewrite Ed in X; auto]. }
    assert (Ad : forall s, advance_slice (e_layout e) (w_slice (a_world a)) = Ok s -> timed (e_layout e) s /\ unique_ids s
        /\ forall c id, carries s c id -> carries (w_slice (a_world a)) c id).
    { intros s A1. destruct (advance_timed (e_layout e) _ W T2) as (s' & A2 & T3). assert (s' = s) by congruence. subst s'.
      destruct (C34_ids (e_layout e) _ s W S2 (proj2 T2) A1) as (_ & B1 & B2). auto. }
    assert (Next : forall s j, advance_slice (e_layout e) (w_slice (a_world a)) = Ok s -> remaining a = [op j] ->
        named_apart e (with_slice (a_world a) s) (j :: l)).
    { intros s j A1 Rj. destruct (Ad s A1) as (T3 & U3 & B3). rewrite Rj in Rm. destruct Rm as (Tj & Fj & Bj).
      split; [exact T3|]. split; [exact U3|]. exists (puts false (op i) ++ us). cbn [w_slice with_slice]. split; [eauto|].
      split; [auto|]. split.
      - destruct Fj as [F1 F2]. split; auto. intros id Hi c Hc. apply (F2 id Hi c). auto.
      - pose proof (puts_remaining e w1 i a (op j) A Rj Bj) as P. rewrite Ed in P.
        eapply new_ids_less; [|exact Nw]. intros x Hx. apply in_app_iff in Hx as [Hx|Hx]; auto. apply in_app_iff.
        destruct (P x Hx) as [?|(_ & c & ?)]; eauto. }
    split; [exact U2|]. split; [|split].
    - intros _ _. apply Start with (used := puts false (op i) ++ us); auto.
    - intros j s _ Fo A1. apply Next; auto. unfold remaining. rewrite Fo. reflexivity.
    - intros s Er Fo _ A1. apply Next; auto. unfold remaining. rewrite Fo, Er. reflexivity. }
  match type of R' with ?A -> ?B -> _ => assert (HB : B) end.
  { intros w1 (_ & U1 & _). exact U1. }
  specialize (R' HA HB). destruct (turns (stream_step e late) n (stream_init prog w)); auto.
  destruct R' as (R1 & _ & R2 & _). auto.
Qed.
Print Assumptions C28_stream.
