(** Properties of whole runs: C38, C39 and C42 for the stream pipeline. *)
From Verif Require Import Base TextModel PatchesModel LayoutModel InstrModel SliceModel RouterModel RouterProps.
From Verif Require Import ApplyModel BellProps RunModel RunSpec RunProofs.
Open Scope nat_scope.

(** ** C38: in order, exactly once *)

(** A run that ends normally has carried out the program in order and emits the last
    slice once more at the end. *)
Theorem C38_finished : forall e late prog w n t, e_edpc e = false ->
  turns (stream_step e late) n (stream_init prog w) = Halt t Finished ->
  exists es k w', in_order e w prog es k w' /\ t_events t = es ++ [Emitted (w_slice w')].
Proof.
  intros e late prog w n t Ed H. pose proof (turns_point e late prog w Ed n _ (at_start e prog w)) as P. rewrite H in P.
  inversion P as [es k w' O E I S|? ? ? ? ? ? ? ? ? ? ? ? _ _ _ B|]; subst; [eauto|]. inversion B; subst;
    match goal with X : match ?x with _ => _ end |- _ => destruct x; [destruct X|discriminate..] end.
Qed.
Print Assumptions C38_finished.

(** A program that can be carried out in order is, unless the time is up. *)
Theorem C38_runs : forall e late prog w es k w', (forall n, late n = false) -> in_order e w prog es k w' ->
  exists n t, turns (stream_step e late) n (stream_init prog w) = Halt t Finished
    /\ t_events t = es ++ [Emitted (w_slice w')].
Proof.
  intros e late prog w es k w' Nv O. destruct (in_order_runs e late Nv w prog es k w' O []) as (_ & n & T).
  rewrite app_nil_r in T. exists (n + 1). eexists. rewrite turns_plus, T. cbn [pbind turns]. unfold stream_step.
  cbn [take_next ss_future ss_rest ss_tally ss_world]. unfold visit. rewrite Nv. cbn [pbind]. split; reflexivity.
Qed.
Print Assumptions C38_runs.

(** At any time: some instructions have been carried out, at most one is
    underway, and the rest has not been looked at. *)
Theorem C38_any_time : forall e late prog w n st, e_edpc e = false ->
  turns (stream_step e late) n (stream_init prog w) = Go st ->
  exists done es k w1, in_order e w done es k w1 /\
   ( prog = done ++ ss_rest st /\ ss_future st = [] /\ ss_world st = w1 /\ t_events (ss_tally st) = es
   \/ exists i0 es' k' i, prog = done ++ i0 :: ss_rest st /\ ss_future st = [i]
        /\ underway e w1 i0 es' k' (ss_world st) i /\ t_events (ss_tally st) = es ++ es').
Proof.
  intros e late prog w n st Ed H. pose proof (turns_point e late prog w Ed n _ (at_start e prog w)) as P. rewrite H in P.
  destruct P as [done rest es k w1 t P O Ev _ _|done i0 rest es k w1 es' k' w2 i t P O U Ev _ _].
  - exists done, es, k, w1. split; [exact O|]. left. auto.
  - exists done, es, k, w1. split; [exact O|]. right. exists i0, es', k', i. auto.
Qed.
Print Assumptions C38_any_time.

(** A run stops early only because an instruction was refused when its waiting limit
    was used up, because applying it or advancing ended in an exception (or worse), or because the time is
    up. *)
Theorem C38_stops : forall e late prog w n t r, e_edpc e = false ->
  turns (stream_step e late) n (stream_init prog w) = Halt t r -> r <> Finished ->
  (exists done i0 rest es k w1 es' k' w2 i last, prog = done ++ i0 :: rest /\ in_order e w done es k w1
     /\ underway e w1 i0 es' k' w2 i /\ breaks_off e w2 i last r /\ t_events t = es ++ es' ++ last)
  \/ late (length (emitted (t_events t))) = true /\ r = Failed RuntimeError.
Proof.
  intros e late prog w n t r Ed H Nf. pose proof (turns_point e late prog w Ed n _ (at_start e prog w)) as P. rewrite H in P.
  inversion P as [|done i0 rest es k w1 es' k' w2 i last r' Pr O U B Ev In|]; subst; [congruence| |right; auto].
  left. exists done, i0, rest, es, k, w1, es', k', w2, i, last. repeat split; auto.
Qed.
Print Assumptions C38_stops.

(** ... and it does stop then. *)
Theorem C38_gives_up : forall e late done i0 rest w es k w1 es' k' w2 i a,
  (forall n, late n = false) -> in_order e w done es k w1 -> underway e w1 i0 es' k' w2 i ->
  try_apply e w2 i = Ok a -> a_error a = true -> a_follow a = [] -> wait i = 0%N ->
  exists n t, turns (stream_step e late) n (stream_init (done ++ i0 :: rest) w) = Halt t (Failed RuntimeError)
    /\ t_events t = es ++ es' ++ [Emitted (w_slice (a_world a))].
Proof.
  intros e late done i0 rest w es k w1 es' k' w2 i a Nv O U A Er Fo Wz.
  destruct (in_order_runs e late Nv w done es k w1 O (i0 :: rest)) as (_ & n & T).
  destruct (underway_runs e late Nv w1 i0 es' k' w2 i U rest (mkT es (N.of_nat (length done)) (1 + N.of_nat (length (emitted es)) - N.of_nat k))) as (m & st & T' & N1).
  exists (n + (m + 1)). eexists. rewrite turns_plus, T. cbn [pbind]. rewrite turns_plus, T'. cbn [pbind turns]. unfold stream_step. rewrite N1.
  cbn [ss_tally ss_world ss_future ss_rest]. rewrite A. cbn [lift pbind]. rewrite Er, Fo. cbn [negb]. unfold visit. rewrite Nv. cbn [pbind].
  rewrite Wz. cbn [N.eqb pbind]. split; [reflexivity|]. cbn [t_events saw]. unfold later. cbn [t_events more_instrs]. rewrite <- app_assoc. reflexivity.
Qed.
Print Assumptions C38_gives_up.

(** ** C39: the counters of the stream pipeline *)

(** The number of instructions is that of the program.  The number of slices falls
    short by the number of refused attempts. *)
Theorem C39_stream : forall e late prog w n t, e_edpc e = false ->
  turns (stream_step e late) n (stream_init prog w) = Halt t Finished ->
  exists es k w', in_order e w prog es k w' /\ t_instrs t = N.of_nat (length prog)
    /\ (t_slices t + N.of_nat k = N.of_nat (length (emitted (t_events t))))%N.
Proof.
  intros e late prog w n t Ed H. pose proof (turns_point e late prog w Ed n _ (at_start e prog w)) as P. rewrite H in P.
  inversion P as [es k w' O E I S|? ? ? ? ? ? ? ? ? ? ? ? _ _ _ B|]; subst; [exists es, k, w'; auto|]. inversion B; subst;
    match goal with X : match ?x with _ => _ end |- _ => destruct x; [destruct X|discriminate..] end.
Qed.
Print Assumptions C39_stream.

(** ** C42: waiting limits in the stream pipeline *)

(** A waiting instruction is tried in successive slices, with nothing in
    between, and each refusal uses up one of its limit. *)
Theorem C42_stream : forall e w i0 es k w' i, underway e w i0 es k w' i -> (forall x, ~ In (Applied x) es) ->
  (N.of_nat k + wait i = wait i0)%N /\ exists l, es = map Emitted l /\ length l = k.
Proof.
  intros e w i0 es k w' i U. induction U as [|es k w1 i a j s U IH A Er Fo Ad|es k w1 i a s U IH A Er Fo Wn Ad]; intros Nx.
  - split; [cbn; lia|]. exists []. auto.
  - exfalso. apply (Nx (tried i a)). apply in_or_app. right. cbn; auto.
  - destruct IH as (W & l & -> & Ll); [intros x Hx; apply (Nx x); apply in_or_app; auto|]. cbn [wait]. split; [lia|].
    exists (l ++ [w_slice (a_world a)]). rewrite map_app, app_length. cbn. split; [reflexivity|lia].
Qed.
Print Assumptions C42_stream.

Lemma emitted_map : forall l, length (emitted (map Emitted l)) = length l.
Proof. induction l as [|x l IH]; cbn; [reflexivity|]. unfold emitted in IH. rewrite IH. reflexivity. Qed.

(** So it is tried once more than its limit says and then the run ends. *)
Theorem C42_stream_gives_up : forall e w i0 es k w' i last, underway e w i0 es k w' i -> (forall x, ~ In (Applied x) es) ->
  breaks_off e w' i last (Failed RuntimeError) -> (forall x, try_apply e w' i <> Throw x) ->
  (forall a x, try_apply e w' i = Ok a -> advance_slice (e_layout e) (w_slice (a_world a)) <> Throw x) ->
  N.of_nat k = wait i0 /\ length (emitted (es ++ last)) = k + 1.
Proof.
  intros e w i0 es k w' i last U Nx B N1 N2. destruct (C42_stream e w i0 es k w' i U Nx) as (W & l & -> & Ll).
  inversion B as [a A Er Fo Wz|r X|a es r A Ee Eo X]; subst.
  - split; [lia|]. rewrite em_slice, emitted_map. lia.
  - destruct (try_apply e w' i) as [|x| |] eqn:A; try discriminate; [destruct X|]. exfalso. apply (N1 x). reflexivity.
  - destruct (advance_slice (e_layout e) (w_slice (a_world a))) as [|x| |] eqn:A2; try discriminate; [destruct X|]. exfalso. apply (N2 a x A A2).
Qed.
Print Assumptions C42_stream_gives_up.

(** ** Concrete runs *)

Definition never (_ : nat) : bool := false.
Definition hadamard (q : N) : instr := instr_of (SingleOp q SqH false).
(** What was seen: which operations were applied, and a [None] for each slice. *)
Definition ops_seen (t : tally) : list (option operation) :=
  map (fun x => match x with Applied i => Some (op i) | Emitted _ => None end) (t_events t).

(** A second Hadamard on the same patch has to wait for one slice; the slice count
    then is one less than the number of slices emitted. *)
Theorem C39_stream_refuted : exists t, turns (stream_step bell_env never) 9 (stream_init [hadamard 7; hadamard 7] ex_world) = Halt t Finished
  /\ t_slices t = 1%N /\ length (emitted (t_events t)) = 2.
Proof. eexists. split; [vm_compute; reflexivity|]. split; vm_compute; reflexivity. Qed.
Print Assumptions C39_stream_refuted.

Example C38_ex : exists t, turns (stream_step bell_env never) 20
    (stream_init [hadamard 7; hadamard 7; instr_of (Rotate 3); instr_of (Measure 7 PZ false)] ex_world) = Halt t Finished
  /\ (match ops_seen t with
      | [Some (SingleOp 7 SqH _); None; Some (SingleOp 7 SqH _); Some (Rotate 3); None; Some (Busy _ 2 _); None; Some (Busy _ 1 _); None;
         Some (Busy _ 0 _); Some (Measure 7 _ _); None] => True
      | _ => False
      end)%N
  /\ t_instrs t = 4%N /\ t_slices t = 4%N.
Proof. eexists. split; [vm_compute; reflexivity|]. repeat split; vm_compute; reflexivity. Qed.

(** A patch that is not there, with a limit of 2: three slices and the end. *)
Example C42_ex : exists t, turns (stream_step bell_env never) 20
    (stream_init [mkI (Measure 9 PZ false) 2 []; hadamard 7] ex_world) = Halt t (Failed RuntimeError)
  /\ ops_seen t = [None; None; None].
Proof. eexists. split; [vm_compute; reflexivity|]. vm_compute; reflexivity. Qed.

(** C42 fails for long-range operations once they are started: they reschedule
    themselves without using up their limit.  Here a magic state is delivered on the
    tile a Bell pair over three tiles was to be extended to; nothing ever takes it away and the
    run goes on for ever although the limit is 5. *)
Definition jam_text : text := lit "QrrrQ
11111".
Definition jam_start : layout * slice := Eval vm_compute in
  match (do L <- layout_from_spec jam_text (mkDO true 1) ;; do s <- new_slice L [7; 3]%N ;; Ok (L, s)) with
  | Ok x => x | _ => ex_start
  end.
Definition jam_env : env := mkEnv true false false false (fst jam_start) (plain_router (fst jam_start) false pick_min false).
Definition jam_prog : list instr := [mkI (BellInit 20 21 (mkPNT 7 PX) (mkPNT 3 PX) None None) 5 []].
Definition jam_stuck : world * instr := Eval vm_compute in
  match turns (stream_step jam_env never) 2 (stream_init jam_prog (mkW (snd jam_start) 0 [])) with
  | Go (mkSS w (i :: _) _ _) => (w, i)
  | _ => (ex_world, hadamard 0)
  end.
Lemma jam_step : forall t, stream_step jam_env never (mkSS (fst jam_stuck) [snd jam_stuck] [] t)
  = Go (mkSS (fst jam_stuck) [snd jam_stuck] []
         (more_slices (saw (saw t (Applied (snd jam_stuck))) (Emitted (w_slice (fst jam_stuck)))))).
Proof. intros t. vm_compute. reflexivity. Qed.

Theorem C42_started_refuted : forall n, exists st,
  turns (stream_step jam_env never) n (stream_init jam_prog (mkW (snd jam_start) 0 [])) = Go st
  /\ (n <= length (emitted (t_events (ss_tally st)))) /\ Forall (fun i => wait i <= 5)%N (ss_future st ++ ss_rest st).
Proof.
  assert (J : forall n t, exists st, turns (stream_step jam_env never) n (mkSS (fst jam_stuck) [snd jam_stuck] [] t) = Go st
    /\ length (emitted (t_events t)) + n <= length (emitted (t_events (ss_tally st))) /\ Forall (fun i => wait i <= 5)%N (ss_future st ++ ss_rest st)).
  { induction n as [|n IH]; intros t.
    - eexists. split; [reflexivity|]. cbn [ss_tally ss_future ss_rest app]. split; [lia|]. repeat constructor. vm_compute. discriminate.
    - cbn [turns]. rewrite jam_step. cbn [pbind]. destruct (IH (more_slices (saw (saw t (Applied (snd jam_stuck))) (Emitted (w_slice (fst jam_stuck)))))) as (st & H1 & H2 & H3).
      exists st. split; [exact H1|]. split; [|exact H3]. cbn [t_events more_slices saw] in H2. rewrite em_slice, em_instr in H2. lia. }
  intros n. destruct n as [|[|n]].
  - eexists. split; [reflexivity|]. split; [cbn; lia|]. repeat constructor. vm_compute. discriminate.
  - eexists. split; [vm_compute; reflexivity|]. split; [vm_compute; lia|]. repeat constructor; vm_compute; discriminate.
  - replace (S (S n)) with (2 + n) by lia. rewrite turns_plus.
    assert (E : exists t, turns (stream_step jam_env never) 2 (stream_init jam_prog (mkW (snd jam_start) 0 [])) = Go (mkSS (fst jam_stuck) [snd jam_stuck] [] t)
      /\ length (emitted (t_events t)) = 2) by (eexists; split; vm_compute; reflexivity).
    destruct E as (t & -> & Et). cbn [pbind]. destruct (J n t) as (st & H1 & H2 & H3). exists st. split; [exact H1|]. split; [lia|exact H3].
Qed.
Print Assumptions C42_started_refuted.
