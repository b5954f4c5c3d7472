(** C66: an encoded qubit stays on its tile, and only Hadamard gates and rotations of it turn its edges. *)
From Verif Require Import Base TextModel PatchesModel LayoutModel LayoutSpec LayoutProofs InstrModel InstrSpec InstrProofs.
From Verif Require Import SliceModel SliceSpec SliceProofs SliceProps RouterModel RouterSpec RouterProofs RouterProps.
From Verif Require Import ApplyModel ApplySpec ApplyProofs ApplyEffect BellProps ApplyProps StepProps.
From Verif Require Import RunModel RunSpec RunProps SchedSpec WaveModel WaveSpec RunInv YProps TraceProofs OrientSpec OrientProofs.
From Verif Require Import GatesModel LoweringModel LoweringSpec LoweringProofs LoweringProps CircuitProps OrientCirc.
Open Scope nat_scope.

(** The first slice *)
Lemma start_home : forall e ids s k q c, let L := e_layout e in layout_wf L -> length ids <= length (core_cells L) -> NoDup ids -> new_slice L ids = Ok s ->
  nth_error ids k = Some q -> nth_error (core_cells L) k = Some c -> at_home e q c 0 s.
Proof.
  intros e ids s k q c L W Hl Nd E Hq Hc. destruct (new_slice_ok _ _ W Hl) as (s' & E' & I). assert (s' = s) by congruence. subst s'.
  split.
  - split; [apply (in_sized _ _ _ I)|now rewrite (in_timers _ _ _ I)].
  - destruct (in_core _ _ _ I k q Hq) as (c' & C1 & C2). rewrite Hc in C1. injection C1 as <-.
    exists (square (Some q) None). split; [exact C2|]. left. split; [reflexivity|]. split; [now left|]. split; [intros [X|X]; discriminate X|apply faces_square].
  - rewrite (in_magic _ _ _ I). intros [].
  - intros c' (p & T & Hi).
    assert (D : In c' (taken L) \/ ~ In c' (taken L)) by (destruct (in_dec cell_eq_dec c' (taken L)); auto).
    destruct D as [D|D]; [|rewrite (in_open _ _ _ I c' D) in T; discriminate].
    unfold taken in D. rewrite !in_app_iff in D. destruct D as [D|[D|[D|[D|D]]]].
    + apply In_nth_error in D as (k' & Hk). destruct (nth_error ids k') as [id'|] eqn:Ek.
      * destruct (in_core _ _ _ I k' id' Ek) as (c2 & C1 & C2). rewrite Hk in C1. injection C1 as <-. rewrite T in C2. injection C2 as ->. cbn in Hi. injection Hi as ->.
        assert (k' = k). { apply (proj1 (NoDup_nth_error ids) Nd); [apply nth_error_Some; congruence|congruence]. }
        subst k'. congruence.
      * rewrite (in_spare _ _ _ I k' c' Hk) in T by (now apply nth_error_None). discriminate.
    + rewrite (in_ystates _ _ _ I c' D) in T. injection T as <-. discriminate Hi.
    + unfold region_cells in D. apply in_map_iff in D as (sc & <- & D). rewrite (in_regions _ _ _ I sc D) in T. injection T as <-. discriminate Hi.
    + rewrite (in_reserved _ _ _ I c' D) in T. injection T as <-. discriminate Hi.
    + rewrite (in_dead _ _ _ I c' D) in T. injection T as <-. discriminate Hi.
Qed.

Lemma home_stays : forall e q c n s, at_home e q c n s -> stays q c n s.
Proof.
  intros e q c n s [_ (p & T & H) _ O]. split.
  - exists p. split; [exact T|]. destruct H as [H|(A & B & C)]; [left; exact H|right; repeat split; auto].
  - intros c' p' [T' Hi]. apply O. exists p'. auto.
Qed.

Lemma core_apart : forall L k c, layout_wf L -> nth_error (core_cells L) k = Some c -> ~ In c (l_reserved L) /\ (forall l, In l (l_queues L) -> ~ In c l).
Proof.
  intros L k c W Hc. apply nth_error_In in Hc. split.
  - intros X. pose proof (lw_disjoint _ W) as D. unfold taken in D. apply prefix_nodup in D as (_ & _ & D). apply (D c Hc). rewrite !in_app_iff. auto.
  - intros l Hl X. apply (lw_queue _ W l c Hl X). unfold taken. rewrite in_app_iff. auto.
Qed.

(** From the first slice on, in all pipelines without EDPC and however the run ends: in every slice that is shown, a qubit of the circuit
    is on the tile it was given, on no other, and its rough and smooth edges lie as the Hadamard gates and the rotations that were applied
    to it so far have turned them.  While it is rotated, its tile is taken up by the rotation. *)
Theorem C66_turns : forall pl e late grow ids prog w t r pick stop k q c,
  layout_wf (e_layout e) -> e_edpc e = false -> e_route e = plain_router (e_layout e) false pick stop -> valid_pick pick ->
  (pl = Wave -> Forall few_patches prog) -> length ids <= length (core_cells (e_layout e)) -> NoDup ids -> new_slice (e_layout e) ids = Ok (w_slice w) ->
  nth_error ids k = Some q -> nth_error (core_cells (e_layout e)) k = Some c ->
  Forall (fun i => leaves_be q (op i)) prog -> halts pl e late grow prog w t r ->
  forall before s after, t_events t = before ++ Emitted s :: after -> stays q c (quarter_turns q before) s.
Proof.
  intros pl e late grow ids prog w t r pick stop k q c W Ed R V Few Hl Nd E Hq Hc M H before s after Hs.
  destruct (core_apart _ _ _ W Hc) as [Nr Nq].
  eapply home_stays. exact (home_runs e q c 0 W Ed (plain_free e pick stop R V) Nr Nq pl late grow prog w t r Few (start_home _ _ _ _ _ _ W Hl Nd E Hq Hc) M H before s after Hs).
Qed.
Print Assumptions C66_turns.

(** The same for compiled circuits: they leave their qubits be, whatever the passes. *)
Theorem C66_circuit : forall cfg core gs c out c' pl e late grow w t r pick stop k q tile,
  Forall (fun x => (x < c)%N) core -> NoDup core -> compiles cfg core gs c (Ok (out, c')) -> (c' <= 2 ^ 32)%N ->
  layout_wf (e_layout e) -> e_edpc e = false -> e_route e = plain_router (e_layout e) false pick stop -> valid_pick pick ->
  length core <= length (core_cells (e_layout e)) -> new_slice (e_layout e) core = Ok (w_slice w) ->
  nth_error core k = Some q -> nth_error (core_cells (e_layout e)) k = Some tile -> halts pl e late grow out w t r ->
  forall before s after, t_events t = before ++ Emitted s :: after -> stays q tile (quarter_turns q before) s.
Proof.
  intros cfg core gs c out c' pl e late grow w t r pick stop k q tile Hc Nd Cm Hl W Ed R V Lc E Hq Ht H.
  assert (Fw : Forall few_patches out) by (apply (Forall_impl _ plain_few); eapply compiles_plain_all; eauto).
  assert (Lv : Forall (fun i => leaves_be q (op i)) out).
  { eapply compiles_leaves; eauto. rewrite Forall_forall in Hc. apply Hc. eapply nth_error_In; eauto. }
  exact (C66_turns pl e late grow core out w t r pick stop k q tile W Ed R V (fun _ => Fw) Lc Nd E Hq Ht Lv H).
Qed.
Print Assumptions C66_circuit.

(** ** A concrete case *)

Definition spin_prog : list instr := hadamard 0 :: instr_of (Rotate 0) :: cat_prog ++ [hadamard 0].
Definition spin_tally : option tally := Eval vm_compute in
  match turns (stream_step cat_env never) 100 (stream_init spin_prog cat_world) with Halt t Finished => Some t | _ => None end.
Lemma spin_runs : match spin_tally with Some t => halts Stream cat_env never never spin_prog cat_world t Finished | None => False end.
Proof. exists 100. vm_compute. reflexivity. Qed.
(** The number of quarter turns before each slice *)
Fixpoint turns_seen (q : N) (n : nat) (es : list event) : list nat :=
  match es with
  | [] => []
  | Emitted _ :: es' => n :: turns_seen q n es'
  | ev :: es' => turns_seen q (if turns_it q ev then S n else n) es'
  end.
Lemma spin_seen : match spin_tally with Some t => turns_seen 0 0 (t_events t) = [1; 1; 1; 2; 2; 2; 2; 2; 2; 2; 2; 2; 2; 3] | None => False end.
Proof. vm_compute. reflexivity. Qed.
(** A Hadamard gate, a rotation, an S gate with a borrowed Y state and another Hadamard gate *)
Example C66_ex : exists t, halts Stream cat_env never never spin_prog cat_world t Finished
  /\ turns_seen 0 0 (t_events t) = [1; 1; 1; 2; 2; 2; 2; 2; 2; 2; 2; 2; 2; 3]
  /\ forall before s after, t_events t = before ++ Emitted s :: after -> stays 0 (mkCell 1 1) (quarter_turns 0 before) s.
Proof.
  pose proof spin_runs as R. pose proof spin_seen as B. destruct spin_tally as [t|]; [|contradiction]. exists t. split; [exact R|]. split; [exact B|].
  apply (C66_turns Stream cat_env never never [0]%N spin_prog cat_world t Finished pick_min false 0 0%N (mkCell 1 1)); auto using pick_min_valid, cat_slice.
  - exact (text_layout_wf _ _ _ cat_layout).
  - discriminate.
  - repeat constructor. intros [].
  - repeat (apply Forall_cons; [vm_compute; try exact Logic.I; try discriminate; auto|]). constructor.
Qed.

(** The same for the S gate, compiled and run in the order of its dependencies *)
Example C66_circuit_ex : exists t, halts Dag cat_env never never cat_prog cat_world t Finished
  /\ length (emitted (t_events t)) = 14
  /\ forall before s after, t_events t = before ++ Emitted s :: after -> stays 0 (mkCell 1 1) (quarter_turns 0 before) s.
Proof.
  pose proof cat_runs as R. pose proof cat_seen as B. destruct cat_tally as [t|]; [|contradiction]. exists t. split; [exact R|].
  split; [apply (f_equal (@length N)) in B; rewrite map_length in B; exact B|].
  apply (C66_circuit cat_cfg [0]%N [GBasic 0 GS] 1 cat_prog 4 Dag cat_env never never cat_world t Finished pick_min false 0 0%N (mkCell 1 1)); auto using pick_min_valid, cat_slice.
  - repeat constructor.
  - repeat constructor. intros [].
  - apply compiles_catalytic, cat_reads.
  - discriminate.
  - exact (text_layout_wf _ _ _ cat_layout).
Qed.
