(** C70, for circuits with CNOT gates whose ancillas have tiles of their own. *)
From Coq Require Import FinFun Relations.
From Verif Require Import Base GatesModel InstrModel PatchesModel LayoutModel LayoutSpec LoweringModel SliceModel SliceSpec SliceProofs ApplyModel RouterModel RouterProofs RunModel RunInv RunProps LiveProps LiveRotateProps LiveToolProps LiveEdpcProps LiveJointProps.
Open Scope nat_scope.

(** Pauli and Hadamard gates, and controlled X and Z gates with an ancilla on a tile for ancillas, on the first n qubits *)
Definition flat (n : N) (g : gate) : Prop :=
  match g with
  | GControlled ctl (SBasic t (GX | GZ)) ct DedicatedCell => (ctl < n)%N /\ (t < n)%N /\ ctl <> t /\ ct <> BellBased
  | _ => easy n g
  end.
(** The number of instructions a gate is translated into, at most *)
Definition parts (g : gate) : nat := match g with GControlled _ _ _ _ => 8 | _ => 1 end.

Lemma drain_queue : forall cfg q fuel gs c out c', drain (lower_next cfg) fuel (mkLS q gs) c = Ok (out, c') -> exists f rest, out = q ++ rest /\ drain (lower_next cfg) f (mkLS [] gs) c = Ok (rest, c').
Proof.
  intros cfg. induction q as [|i q IH]; intros fuel gs c out c' H; [exists fuel, out; auto|]. destruct fuel as [|f]; [discriminate|]. cbn [drain] in H. unfold lower_next at 1 in H. cbn [ls_queue ls_gates bind] in H.
  destruct (drain (lower_next cfg) f (mkLS q gs) c) as [[l c1]| | |] eqn:D; cbn [bind] in H; try discriminate. injection H as <- <-. destruct (IH f gs c l c1 D) as (f' & rest & -> & D'). exists f', rest. auto.
Qed.
Lemma flat_step : forall (spare : Prop) n cfg c g l c1 used, spare -> cfg_local cfg = false -> flat n g -> (n <= c)%N -> (c < 2 ^ 32)%N -> (forall q, In q used -> (q < c)%N) -> lower_gate cfg c g = Ok (l, c1) ->
  l <> [] /\ (c1 <= c + 1)%N /\ (c <= c1)%N /\ length l <= parts g /\ (forall i, In i l -> reach i = 1) /\ exists used', (forall q, In q used' -> (q < c1)%N)
  /\ forall r, joinable spare (mkCr (core_qubits_from_qreg n) used' None) r -> joinable spare (mkCr (core_qubits_from_qreg n) used None) (l ++ r).
Proof.
  intros spare n cfg c g l c1 used Sp Lo Fl Hn Hc Us H. destruct g as [t b|t f|ctl tg ct pl|rg t].
  - rewrite (easy_lower n) in H by exact Fl. injection H as <- <-. split; [discriminate|]. split; [lia|]. split; [lia|]. split; [apply le_n|]. split; [intros i [<-|[]]; destruct b; try contradiction; reflexivity|].
    exists used. split; [exact Us|]. intros r Hr. pose proof (qreg_in n t) as Ht. destruct b; try contradiction; cbn [meant app joinable instr_of op wait live_of]; (split; [reflexivity|]); (split; [exact (Ht Fl)|]); (split; [exact I|exact Hr]).
  - contradiction.
  - destruct tg as [t b|]; [|contradiction]. assert (K : (b = GX \/ b = GZ) /\ pl = DedicatedCell /\ (ctl < n)%N /\ (t < n)%N /\ ctl <> t /\ ct <> BellBased) by (destruct b; try contradiction; destruct pl; try contradiction; cbn [flat] in Fl; tauto).
    destruct K as (Hb & -> & H1 & H2 & H3 & H4). clear Fl. cbn [lower_gate] in H. set (a := (c mod 2 ^ 32)%N) in *. assert (Ea : a = c) by (unfold a; now apply N.mod_small).
    pose proof (qreg_in n ctl H1) as I1. pose proof (qreg_in n t H2) as I2. assert (Na : ~ In a (core_qubits_from_qreg n)).
    { intros X. unfold core_qubits_from_qreg in X. apply in_map_iff in X as (k & K1 & K2). apply in_seq in K2. lia. }
    assert (D1 : ctl <> a) by lia. assert (D2 : t <> a) by lia. assert (Nu : ~ In a used) by (intros X; apply Us in X; lia).
    assert (M : exists body, make_cnot (cfg_local cfg) c ctl t ct DedicatedCell (cfg_corr cfg) = Ok (body, (c + 1)%N) /\ body <> [] /\ length body <= 6 /\ (forall i, In i body -> reach i = 1)
      /\ forall r, joinable spare (mkCr (core_qubits_from_qreg n) (a :: used) None) r -> joinable spare (mkCr (core_qubits_from_qreg n) used None) (body ++ r)).
    { unfold make_cnot. rewrite Lo. unfold new_id. fold a. unfold obs2. rewrite (proj2 (N.eqb_neq ctl a) D1), (proj2 (N.eqb_neq a t) (not_eq_sym D2)).
      destruct ct; [| |contradiction]; destruct (cfg_corr cfg); eexists; (split; [reflexivity|]); (split; [discriminate|]); (split; [cbn; lia|]);
      (split; [intros i Hi; cbn in Hi; repeat (destruct Hi as [<-|Hi]; [reflexivity|]); destruct Hi|]); intros r Hr;
      cbn [app joinable instr_of mpm sq op wait live_of used_of anc_of]; unfold without; cbn [live_of used_of anc_of];
      rewrite N.eqb_refl; (replace (remove N.eq_dec a (a :: core_qubits_from_qreg n)) with (core_qubits_from_qreg n) by (cbn [remove]; destruct (N.eq_dec a a); [symmetry; now apply notin_remove|contradiction]));
      repeat (split; [first [exact Sp|reflexivity|exact Nu|now left|right; assumption|congruence|unfold x_or_z; tauto|exact I]|]); exact Hr. }
    destruct M as (body & M & B1 & B2 & B3 & B4). destruct Hb as [-> | ->]; rewrite M in H; cbn [bind] in H; injection H as <- <-.
    + split; [exact B1|]. split; [lia|]. split; [lia|]. split; [cbn; lia|]. split; [exact B3|]. exists (a :: used). split; [intros q [<-|Hq]; [lia|apply Us in Hq; lia]|exact B4].
    + split; [discriminate|]. split; [lia|]. split; [lia|]. split; [cbn [length]; rewrite app_length; cbn; lia|].
      split; [intros i [<-|Hi]; [reflexivity|]; apply in_app_iff in Hi as [Hi|[<-|[]]]; [now apply B3|reflexivity]|].
      exists (a :: used). split; [intros q [<-|Hq]; [lia|apply Us in Hq; lia]|]. intros r Hr. cbn [app joinable instr_of sq op wait live_of]. split; [reflexivity|]. split; [exact I2|]. split; [exact I|].
      rewrite <- app_assoc. apply B4. cbn [app joinable instr_of sq op wait live_of]. split; [reflexivity|]. split; [exact I2|]. split; [exact I|exact Hr].
  - contradiction.
Qed.
Lemma flat_joinable : forall (spare : Prop) n cfg gs fuel c out c' used, spare -> cfg_local cfg = false -> Forall (flat n) gs -> (n <= c)%N -> (c + N.of_nat (length gs) < 2 ^ 32)%N -> (forall q, In q used -> (q < c)%N) ->
  drain (lower_next cfg) fuel (mkLS [] gs) c = Ok (out, c') -> joinable spare (mkCr (core_qubits_from_qreg n) used None) out /\ reaches out <= list_sum (map parts gs).
Proof.
  intros spare n cfg gs. induction gs as [|g gs IH]; intros fuel c out c' used Sp Lo F Hn Hc Us H; (destruct fuel as [|f]; [discriminate|]); cbn [drain] in H; unfold lower_next at 1 in H; cbn [ls_queue ls_gates bind] in H.
  - injection H as <- _. split; [exact I|apply le_n].
  - inversion F as [|? ? Fg Fr]; subst. cbn [length] in Hc. destruct (lower_gate cfg c g) as [[l c1]| | |] eqn:E; try discriminate. cbn [bind] in H.
    destruct (flat_step spare n cfg c g l c1 used Sp Lo Fg Hn ltac:(lia) Us E) as (Nl & C1 & C2 & Ln & Re & used' & Us' & J). destruct l as [|i q]; [contradiction|]. cbn [bind] in H.
    destruct (drain (lower_next cfg) f (mkLS q gs) c1) as [[l2 c2]| | |] eqn:D; cbn [bind] in H; try discriminate. injection H as <- _.
    destruct (drain_queue cfg q f gs c1 l2 c2 D) as (f' & rest & -> & D'). destruct (IH f' c1 rest c2 used' Sp Lo Fr ltac:(lia) ltac:(lia) Us' D') as [J' K'].
    split; [exact (J rest J')|]. change (i :: q ++ rest) with ((i :: q) ++ rest). unfold reaches in *. rewrite map_app, list_sum_app.
    assert (X : list_sum (map reach (i :: q)) = length (i :: q)) by (clear -Re; induction (i :: q) as [|y l IHl]; [reflexivity|]; cbn [map length]; unfold list_sum in *; cbn [fold_right]; rewrite (Re y (or_introl eq_refl)), IHl; [reflexivity|intros z Hz; apply Re; now right]).
    rewrite X. change (list_sum (map parts (g :: gs))) with (parts g + list_sum (map parts gs)). lia.
Qed.

(** A circuit of Pauli, Hadamard, CNOT and CZ gates on a layout with a tile for an ancilla and room to route: what it is translated into is compiled by the stream pipeline to its end, every instruction in order, in at
    most one slice for a Pauli or Hadamard gate and eight for the others. *)
Theorem C70_circuit : forall e n cfg fuel gs c out c' pick stop w, layout_wf (e_layout e) -> linked (e_layout e) -> l_ancilla (e_layout e) <> [] -> valid_pick pick ->
  e_route e = plain_router (e_layout e) false pick stop -> e_edpc e = false -> e_local e = false -> N.to_nat n <= length (core_cells (e_layout e)) -> new_slice (e_layout e) (core_qubits_from_qreg n) = Ok (w_slice w) ->
  cfg_local cfg = false -> Forall (flat n) gs -> (n <= c)%N -> (c + N.of_nat (length gs) < 2 ^ 32)%N -> drain (lower_next cfg) fuel (mkLS [] gs) c = Ok (out, c') ->
  exists t, halts Stream e never never out w t Finished /\ filter asked (ops_applied t) = map op out /\ length (emitted (t_events t)) <= S (list_sum (map parts gs)).
Proof.
  intros e n cfg fuel gs c out c' pick stop w W Li An Pk Rt Ne Nl Hl E Lo F Hn Hc D.
  assert (Lc : length (core_qubits_from_qreg n) = N.to_nat n) by (unfold core_qubits_from_qreg; now rewrite map_length, seq_length).
  assert (Nd : NoDup (core_qubits_from_qreg n)) by (unfold core_qubits_from_qreg; apply Injective_map_NoDup; [intros x y Ex; now apply Nat2N.inj|apply seq_NoDup]).
  destruct (flat_joinable (l_ancilla (e_layout e) <> []) n cfg gs fuel c out c' (core_qubits_from_qreg n) An Lo F Hn Hc) as [J K]; [|exact D|].
  { intros q Hq. unfold core_qubits_from_qreg in Hq. apply in_map_iff in Hq as (k & K1 & K2). apply in_seq in K2. lia. }
  destruct (C70_joint e (core_qubits_from_qreg n) pick stop out w W Li Pk Rt Ne Nl ltac:(lia) Nd E J) as (t & H & O & S1). exists t. split; [exact H|]. split; [exact O|]. lia.
Qed.
Print Assumptions C70_circuit.

(** A walk over such tiles *)
Fixpoint road (L : layout) (c : cell) (l : list cell) : Prop := way_tile L c /\ match l with [] => True | d :: r => adj c d /\ road L d r end.
Lemma road_strolls : forall L l c, road L c l -> strolls L c (last l c) /\ strolls L (last l c) c.
Proof.
  intros L. induction l as [|d l IH]; intros c [Wc H]; [split; apply rt_refl|]. destruct H as [A R]. replace (last (d :: l) c) with (last l d) by (clear; revert d; induction l as [|x l IH]; intros d; [reflexivity|]; cbn [last] in *; destruct l; [reflexivity|apply IH]).
  assert (Wd : way_tile L d) by (destruct l; apply R). destruct (IH d R) as [S1 S2]. split.
  - eapply rt_trans; [apply rt_step; exact (conj A (conj Wc Wd))|exact S1].
  - eapply rt_trans; [exact S2|apply rt_step]. split; [unfold adj in *; lia|exact (conj Wd Wc)].
Qed.
Definition wide_text : text := ["r"; "r"; "r"; "r"; "r"; "r"; "r"; "010"; "r"; "Q"; "r"; "A"; "r"; "Q"; "r"; "010"; "r"; "r"; "r"; "r"; "r"; "r"; "r"]%char.
Definition wide_gates : list gate := [GBasic 0 GH; GControlled 0 (SBasic 1 GX) ControlFirst DedicatedCell; GControlled 1 (SBasic 0 GZ) TargetFirst DedicatedCell; GBasic 1 GX].
Example C70_circuit_ex : forall corr, exists L s out c, layout_from_spec wide_text (mkDO true 1) = Ok L /\ layout_wf L /\ linked L /\ l_ancilla L <> [] /\ length (core_cells L) = 2 /\ new_slice L (core_qubits_from_qreg 2) = Ok s
  /\ Forall (flat 2) wide_gates /\ drain (lower_next (mkCfg false corr [])) 30 (mkLS [] wide_gates) 2 = Ok (out, c) /\ length out = match corr with CorrAlways => 16 | CorrNever => 12 end
  /\ let e := mkEnv false true false false L (plain_router L false pick_min false) in e_edpc e = false /\ e_local e = false
  /\ exists t, halts Stream e never never out (mkW s 2 []) t Finished /\ length (emitted (t_events t)) <= 18.
Proof.
  intros corr. destruct (layout_from_spec wide_text (mkDO true 1)) as [L| | |] eqn:E; try (vm_compute in E; discriminate E). pose proof (text_layout_wf _ _ _ E) as W. vm_compute in E. injection E as E.
  assert (Wt : forall r k, (0 <= r <= 2)%Z -> (0 <= k <= 6)%Z -> ~ (r = 1%Z /\ (k = 1 \/ k = 3 \/ k = 5)%Z) -> way_tile L (mkCell r k)).
  { intros r k Hr Hk N. subst L. split; [split; [split; [unfold on_lattice; cbn; lia|split; [|split; [|split; [|split]]]]|]|].
    - intros p [<-|[<-|[]]]; cbn; intros [X|[]]; injection X as <- <-; apply N; lia.
    - intros R [].
    - intros [].
    - intros [].
    - intros [].
    - intros q [].
    - cbn. intros [X|[]]. injection X as <- <-. apply N. lia. }
  assert (Li : linked L).
  { split; [intros x q _ Hq; subst L; destruct Hq|]. exists (mkCell 0 3). intros c Hc.
    assert (K : c = mkCell 1 1 \/ c = mkCell 1 5 \/ c = mkCell 1 3) by (subst L; cbn in Hc; intuition congruence).
    assert (P : forall h lh v lv, road L h lh -> last lh h = mkCell 0 3 -> road L v lv -> last lv v = mkCell 0 3 -> row h = row c -> adj c h -> col v = col c -> adj c v ->
      exists h v, way_tile L h /\ way_tile L v /\ row h = row c /\ adj c h /\ col v = col c /\ adj c v /\ strolls L h (mkCell 0 3) /\ strolls L (mkCell 0 3) h /\ strolls L v (mkCell 0 3) /\ strolls L (mkCell 0 3) v).
    { intros h lh v lv Rh Eh Rv Ev H1 H2 H3 H4. exists h, v. destruct (road_strolls L lh h Rh) as [S1 S2]. destruct (road_strolls L lv v Rv) as [S3 S4]. rewrite Eh in *. rewrite Ev in *.
      split; [destruct lh; apply Rh|]. split; [destruct lv; apply Rv|]. tauto. }
    destruct K as [-> |[-> | ->]].
    - apply (P (mkCell 1 0) [mkCell 0 0; mkCell 0 1; mkCell 0 2; mkCell 0 3] (mkCell 0 1) [mkCell 0 2; mkCell 0 3]); try reflexivity; cbn [road]; repeat match goal with |- way_tile _ _ => apply Wt; lia | |- True => exact I | |- adj _ _ => reflexivity | |- _ /\ _ => split end.
    - apply (P (mkCell 1 4) [mkCell 0 4; mkCell 0 3] (mkCell 0 5) [mkCell 0 4; mkCell 0 3]); try reflexivity; cbn [road]; repeat match goal with |- way_tile _ _ => apply Wt; lia | |- True => exact I | |- adj _ _ => reflexivity | |- _ /\ _ => split end.
    - apply (P (mkCell 1 2) [mkCell 0 2; mkCell 0 3] (mkCell 0 3) []); try reflexivity; cbn [road]; repeat match goal with |- way_tile _ _ => apply Wt; lia | |- True => exact I | |- adj _ _ => reflexivity | |- _ /\ _ => split end. }
  destruct corr; exists L; do 3 eexists; (split; [reflexivity|]); (split; [exact W|]); (split; [exact Li|]); (split; [subst L; discriminate|]); (split; [subst L; reflexivity|]); clear Wt Li W; subst L; (split; [vm_compute; reflexivity|]);
  (split; [repeat constructor; cbn; discriminate|]); (split; [vm_compute; reflexivity|]); (split; [reflexivity|]); (split; [reflexivity|]); (split; [reflexivity|]);
  (eexists; split; [exists 80; vm_compute; reflexivity|]); vm_compute; lia.
Qed.
