(** C59: a circuit stored in a database is read completely, in order and as it is meant. *)
From Coq Require Import QArith.
From Verif Require Import Base TextModel GatesModel PandoraModel.
Open Scope Z_scope.

(** ** What a table means, independently of the reader *)

(** The gate a row stands for (https://github.com/ioanamoflic/pandora, translator.py, and
    the gates of cirq with the same names), [None] for the rows that begin and end a wire. *)
Definition on_qubit (z : Z) (q : N) : Prop := z = Z.of_N q /\ (q < 2 ^ 32)%N.
Definition unit_power (p : option double) : Prop := exists x, p = Some (Finite x) /\ (x == 1)%Q.
Inductive means : row -> option gate -> Prop :=
| m_zpow : forall c q t x b, on_qubit c q ->
    ((x == 1 \/ x == -1 # 1)%Q /\ b = GZ) \/ ((x == 1 # 2)%Q /\ b = GS) \/ ((x == -1 # 2)%Q /\ b = GSDg)
      \/ ((x == 1 # 4)%Q /\ b = GT) \/ ((x == -1 # 4)%Q /\ b = GTDg) ->
    means (mkRow (Some 7) (Some c) t (Some (Finite x))) (Some (GBasic q b))
| m_xpow : forall c q t x, on_qubit c q -> (x == 1 \/ x == -1 # 1)%Q -> means (mkRow (Some 5) (Some c) t (Some (Finite x))) (Some (GBasic q GX))
| m_ypow : forall c q t x, on_qubit c q -> (x == 1 \/ x == -1 # 1)%Q -> means (mkRow (Some 6) (Some c) t (Some (Finite x))) (Some (GBasic q GY))
| m_hpow : forall c q t p, on_qubit c q -> unit_power p -> means (mkRow (Some 8) (Some c) t p) (Some (GBasic q GH))
| m_named : forall k c q t p b, on_qubit c q -> In (k, b) [(9, GX); (10, GZ); (11, GY); (27, GS); (28, GSDg); (29, GT); (30, GTDg)] ->
    means (mkRow (Some k) (Some c) t p) (Some (GBasic q b))
| m_cxpow : forall c q t r p ct pl, on_qubit c q -> on_qubit t r -> unit_power p ->
    means (mkRow (Some 18) (Some c) (Some t) p) (Some (GControlled q (SBasic r GX) ct pl))
| m_czpow : forall c q t r p ct pl, on_qubit c q -> on_qubit t r -> unit_power p ->
    means (mkRow (Some 17) (Some c) (Some t) p) (Some (GControlled q (SBasic r GZ) ct pl))
| m_cnot : forall c q t r p ct pl, on_qubit c q -> on_qubit t r -> means (mkRow (Some 15) (Some c) (Some t) p) (Some (GControlled q (SBasic r GX) ct pl))
| m_cz : forall c q t r p ct pl, on_qubit c q -> on_qubit t r -> means (mkRow (Some 16) (Some c) (Some t) p) (Some (GControlled q (SBasic r GZ) ct pl))
| m_end : forall k c q t p, on_qubit c q -> k = 0 \/ k = 1 -> means (mkRow (Some k) (Some c) t p) None.

(** The gates of some rows, of a layer, and of the layers 1 to n. *)
Inductive rows_mean : list row -> list gate -> Prop :=
| rm_nil : rows_mean [] []
| rm_gate : forall r g rs gs, means r (Some g) -> rows_mean rs gs -> rows_mean (r :: rs) (g :: gs)
| rm_none : forall r rs gs, means r None -> rows_mean rs gs -> rows_mean (r :: rs) gs.
Definition in_layer (db : table) (n : nat) : list row := map snd (filter (fun x => Nat.eqb (fst x) n) db).
Inductive layers_mean (db : table) : nat -> list gate -> Prop :=
| lm_none : layers_mean db 0 []
| lm_more : forall n gs hs, layers_mean db n gs -> rows_mean (in_layer db (S n)) hs -> layers_mean db (S n) (gs ++ hs).

(** The rows the reader translates as they are meant: not X and Y powers and controlled Z powers. *)
Definition well_read (r : row) : Prop :=
  (exists g, means r g) /\ exists k, r_type r = Some k /\ In k [0; 1; 7; 8; 9; 10; 18; 27; 28; 29; 30].
Definition well_read_table (db : table) : Prop := forall n r, In (n, r) db -> (1 <= n)%nat -> well_read r.

(** ** Rows *)
Lemma qubit_num_ok : forall c q, on_qubit c q -> qubit_num c = q.
Proof. intros c q [-> H]. unfold qubit_num. rewrite Z.mod_small, N2Z.id; [reflexivity|]. split; [lia|]. change (2 ^ 32) with (Z.of_N (2 ^ 32)). lia. Qed.
Lemma is_angle_eq : forall x q, (x == q)%Q -> is_angle (Finite x) q = true.
Proof. intros. now apply Qeq_bool_iff. Qed.
Lemma is_angle_ne : forall x q p, (x == q)%Q -> Qeq_bool q p = false -> is_angle (Finite x) p = false.
Proof. intros x q p H N. cbn. destruct (Qeq_bool x p) eqn:E; [|reflexivity]. apply Qeq_bool_iff in E. rewrite H in E. apply Qeq_bool_iff in E. congruence. Qed.

Lemma power_gate_ok : forall c x b,
  ((x == 1 \/ x == -1 # 1)%Q /\ b = GZ) \/ ((x == 1 # 2)%Q /\ b = GS) \/ ((x == -1 # 2)%Q /\ b = GSDg)
      \/ ((x == 1 # 4)%Q /\ b = GT) \/ ((x == -1 # 4)%Q /\ b = GTDg) -> power_gate c (Finite x) = Ok (GBasic c b).
Proof.
  intros c x b H. unfold power_gate.
  repeat match goal with H : _ \/ _ |- _ => destruct H as [H|H] | H : _ /\ _ |- _ => destruct H end; subst b;
    match goal with H : (x == ?q)%Q |- _ =>
      repeat (first [rewrite (is_angle_eq _ _ H) | match goal with |- context [is_angle (Finite x) ?p] => rewrite (is_angle_ne x q p H eq_refl) end]; cbn [orb]; try reflexivity)
    end.
Qed.

(** Every row that means something is read as it is meant, or refused, or is one of three kinds. *)
Lemma row_gate_ok : forall r g k, means r g -> r_type r = Some k -> k <> 5 -> k <> 6 -> k <> 17 ->
  (exists g', row_gate r = Ok g' /\ means r g' /\ (g = None <-> g' = None)) \/ row_gate r = Throw RuntimeError.
Proof.
  intros r g k M T N5 N6 N17. destruct M; cbn in T; injection T as <-; try congruence; cbn [row_gate r_control r_type r_target r_param column bind];
    unfold row_gate; cbn [r_control r_type r_target r_param column bind]; rewrite ?(qubit_num_ok c q) by assumption.
  - left. cbn [Z.eqb Pos.eqb orb bind]. rewrite (power_gate_ok _ _ _ H0). cbn [bind]. eexists. split; [reflexivity|]. split; [now constructor|easy].
  - left. eexists. split; [reflexivity|]. split; [now constructor|easy].
  - cbn in H0. repeat (destruct H0 as [H0|H0]; [injection H0 as <- <-|]); try contradiction; cbn [Z.eqb Pos.eqb orb bind]; try (right; reflexivity);
      left; eexists; (split; [reflexivity|]); (split; [apply m_named; [assumption|cbn; tauto]|easy]).
  - left. cbn [Z.eqb Pos.eqb orb bind]. rewrite (qubit_num_ok t r) by assumption. eexists. split; [reflexivity|]. split; [now constructor|easy].
  - right. reflexivity.
  - right. reflexivity.
  - left. destruct H0 as [-> | ->]; cbn [Z.eqb Pos.eqb orb bind]; eexists; (split; [reflexivity|]); (split; [apply (m_end _ _ q); auto|easy]).
Qed.
Theorem C59_row : forall r g k, means r g -> r_type r = Some k -> k <> 5 -> k <> 6 -> k <> 17 ->
  (exists g', row_gate r = Ok g' /\ means r g') \/ row_gate r = Throw RuntimeError.
Proof. intros r g k M T A B C. destruct (row_gate_ok r g k M T A B C) as [(g' & E & M' & _)|E]; eauto. Qed.
Print Assumptions C59_row.

Lemma well_read_ok : forall r, well_read r -> exists g, row_gate r = Ok g /\ means r g.
Proof.
  intros r [[g M] (k & T & I)]. destruct (row_gate_ok r g k M T) as [(g' & E & M' & _)|E]; try (intros ->; cbn in I; intuition discriminate).
  - eauto.
  - exfalso. destruct M; cbn in T; injection T as <-; try (cbn in I; intuition discriminate); unfold row_gate in E; cbn [r_control r_type r_target r_param column bind] in E; try discriminate.
    + cbn [Z.eqb Pos.eqb orb bind] in E. rewrite (power_gate_ok _ _ _ H0) in E. discriminate.
    + cbn in H0. repeat (destruct H0 as [H0|H0]; [injection H0 as <- <-|]); try contradiction; try discriminate. cbn in I. intuition discriminate.
    + destruct H0 as [-> | ->]; discriminate.
Qed.

(** ** Any use of the reader *)
Inductive call := Ask | Take.
Inductive answer := Said (b : bool) | Gave (g : gate).
Fixpoint run_calls (db : table) (s : reader) (cs : list call) : outcome (list answer * reader) :=
  match cs with
  | [] => Ok ([], s)
  | Ask :: cs => do (b, s) <- has_next_gate db s ;; do (l, s) <- run_calls db s cs ;; Ok (Said b :: l, s)
  | Take :: cs => do (g, s) <- get_next_gate db s ;; do (l, s) <- run_calls db s cs ;; Ok (Gave g :: l, s)
  end.
Definition gave (l : list answer) : list gate := flat_map (fun a => match a with Gave g => [g] | Said _ => [] end) l.

Lemma layer_ok : forall rs q, (forall r, In r rs -> well_read r) ->
  exists gs, foldM (fun q r => do g <- row_gate r ;; Ok (match g with Some g => q ++ [g] | None => q end)) rs q = Ok (q ++ gs) /\ rows_mean rs gs.
Proof.
  induction rs as [|r rs IH]; intros q W.
  - exists []. rewrite app_nil_r. split; [reflexivity|constructor].
  - destruct (well_read_ok r (W r (or_introl eq_refl))) as (g & E & M). cbn [foldM]. rewrite E. cbn [bind].
    destruct (IH (match g with Some g => q ++ [g] | None => q end) (fun r H => W r (or_intror H))) as (gs & F & R). rewrite F.
    destruct g as [g|].
    + exists (g :: gs). rewrite <- app_assoc. split; [reflexivity|now constructor].
    + exists gs. split; [reflexivity|now constructor].
Qed.
Lemma in_layer_rows : forall db n r, In r (in_layer db n) -> In (n, r) db.
Proof.
  intros db n r H. unfold in_layer in H. apply in_map_iff in H. destruct H as ([m r'] & E & H). cbn in E. subst r'. apply filter_In in H.
  destruct H as [H E]. cbn in E. apply Nat.eqb_eq in E. now subst m.
Qed.
Lemma advance_ok : forall db n q, well_read_table db -> (1 <= n)%nat ->
  exists gs, advance_layer db (mkReader q n) = Ok (mkReader (q ++ gs) (S n)) /\ rows_mean (in_layer db n) gs.
Proof.
  intros db n q W Hn. destruct (layer_ok (in_layer db n) q) as (gs & E & R).
  { intros r H. apply (W n); [|exact Hn]. now apply in_layer_rows. }
  exists gs. split; [|exact R]. unfold advance_layer. cbn [rd_layer rd_queue]. change (layer_rows db n) with (in_layer db n). rewrite E. reflexivity.
Qed.
Lemma refill_ok : forall db s done n, well_read_table db -> rd_layer s = S n -> layers_mean db n (done ++ rd_queue s) ->
  exists s' m, refill db s = Ok s' /\ rd_layer s' = S m /\ layers_mean db m (done ++ rd_queue s').
Proof.
  intros db [q l] done n W Hl H. cbn in Hl, H. subst l. destruct q as [|g q].
  - destruct (advance_ok db (S n) [] W ltac:(lia)) as (gs & E & R). exists (mkReader gs (S (S n))), (S n). split; [exact E|]. split; [reflexivity|].
    cbn [rd_queue]. rewrite app_nil_r in H. now constructor.
  - exists (mkReader (g :: q) (S n)), n. auto.
Qed.
Lemma calls_ok : forall db cs s done n, well_read_table db -> rd_layer s = S n -> layers_mean db n (done ++ rd_queue s) ->
  match run_calls db s cs with
  | Ok (l, s') => exists m, rd_layer s' = S m /\ layers_mean db m (done ++ gave l ++ rd_queue s')
  | UB u => u = UBPop
  | Throw _ | Fuel => False
  end.
Proof.
  intros db cs. induction cs as [|[] cs IH]; intros s done n W Hl H.
  - cbn. eauto.
  - cbn [run_calls]. unfold has_next_gate. destruct (refill_ok db s done n W Hl H) as (s1 & m & E & L1 & H1). rewrite E. cbn [bind].
    pose proof (IH s1 done m W L1 H1) as X. destruct (run_calls db s1 cs) as [[l s2]| | |]; exact X.
  - cbn [run_calls]. unfold get_next_gate. destruct (refill_ok db s done n W Hl H) as (s1 & m & E & L1 & H1). rewrite E. cbn [bind].
    destruct s1 as [[|g q] n1]; cbn [rd_queue rd_layer] in *; [reflexivity|]. cbn [bind].
    pose proof (IH (mkReader q n1) (done ++ [g]) m W L1) as X. cbn [rd_queue] in X. rewrite <- app_assoc in X. specialize (X H1).
    destruct (run_calls db (mkReader q n1) cs) as [[l s2]| | |]; cbn [bind]; try exact X.
    destruct X as (k & A & B). exists k. split; [exact A|]. rewrite <- app_assoc in B. exact B.
Qed.

(** However the reader is used, what it has delivered and what waits in it are the gates of the layers it has passed, all of
    them, once and in order; nothing is refused.  Undefined behaviour comes only from taking a gate where there is none. *)
Theorem C59_calls_partial : forall db q s cs, well_read_table db -> open_table db = Ok (q, s) ->
  match run_calls db s cs with
  | Ok (l, s') => exists n, rd_layer s' = S n /\ layers_mean db n (gave l ++ rd_queue s')
  | UB u => u = UBPop
  | Throw _ | Fuel => False
  end.
Proof.
  intros db q s cs W O. unfold open_table in O. destruct (_ >? _); [discriminate|]. injection O as _ <-.
  exact (calls_ok db cs (mkReader [] 1) [] 0 W eq_refl (lm_none db)).
Qed.
Print Assumptions C59_calls_partial.

(** ** Reading to the end *)
Lemma none_type : forall r g, means r g -> (g = None <-> r_type r = Some 0 \/ r_type r = Some 1).
Proof.
  intros r g M. destruct M; cbn [r_type]; try (split; [discriminate|intros [X|X]; discriminate]).
  - split; [discriminate|]. intros X. cbn in H0. repeat (destruct H0 as [H0|H0]; [injection H0 as <- <-; destruct X; discriminate|]). contradiction.
  - split; [|reflexivity]. intros _. destruct H0 as [-> | ->]; auto.
Qed.
Lemma silent : forall rs gs, rows_mean rs [] -> rows_mean rs gs -> gs = [].
Proof.
  induction rs as [|r rs IH]; intros gs E R; [now inversion R|].
  inversion E as [| |r' rs' gs' M1 E1]; subst. inversion R as [|r1 g1 rs1 gs1 M2 R1|r1 rs1 gs1 M2 R1]; subst; [|auto].
  apply none_type in M1. apply none_type in M2. destruct M1 as [M1 _]. destruct M2 as [_ M2]. specialize (M2 (M1 eq_refl)). discriminate.
Qed.
Lemma read_ok : forall db k, well_read_table db -> (1 <= k)%nat -> rows_mean (in_layer db k) [] ->
  (forall j, (1 <= j < k)%nat -> ~ rows_mean (in_layer db j) []) ->
  forall d n q done, (k = n + d)%nat -> (1 <= n)%nat -> layers_mean db (n - 1) (done ++ q) ->
  exists gs, layers_mean db (k - 1) (done ++ gs) /\ forall fuel, (length gs < fuel)%nat -> read_table fuel db (mkReader q n) = Ok gs.
Proof.
  intros db k W Hk Ek Full. induction d as [|d IHd].
  - intros n q done E Hn. assert (n = k) by lia. subst n. clear E Hn. revert done. induction q as [|g q IHq]; intros done L.
    + exists []. split; [exact L|]. intros [|fuel] Hf; [cbn in Hf; lia|]. cbn [read_table]. unfold has_next_gate, refill. cbn [rd_queue].
      destruct (advance_ok db k [] W Hk) as (gs & A & R). rewrite A. cbn [bind app rd_queue].
      rewrite (silent (in_layer db k) gs Ek R). reflexivity.
    + destruct (IHq (done ++ [g])) as (gs & G & F); [rewrite <- app_assoc; exact L|]. exists (g :: gs). rewrite <- app_assoc in G. split; [exact G|].
      intros [|fuel] Hf; [cbn in Hf; lia|]. cbn [read_table has_next_gate get_next_gate refill rd_queue bind rd_layer]. rewrite F by (cbn in Hf; lia). reflexivity.
  - intros n q done E Hn. revert done. induction q as [|g q IHq]; intros done L.
    + destruct (advance_ok db n [] W Hn) as (hs & A & R). destruct hs as [|h hs]; [exfalso; apply (Full n); [lia|exact R]|]. cbn [app] in A.
      destruct (IHd (S n) (h :: hs) done ltac:(lia) ltac:(lia)) as (gs & G & F).
      { replace (S n - 1)%nat with (S (n - 1)) by lia. rewrite app_nil_r in L. constructor; [exact L|]. replace (S (n - 1)) with n by lia. exact R. }
      exists gs. split; [exact G|]. intros fuel Hf. specialize (F fuel Hf). destruct fuel; [discriminate|].
      cbn [read_table] in *. unfold has_next_gate at 1. unfold refill at 1. cbn [rd_queue]. rewrite A. cbn [bind rd_queue]. exact F.
    + destruct (IHq (done ++ [g])) as (gs & G & F); [rewrite <- app_assoc; exact L|]. exists (g :: gs). rewrite <- app_assoc in G. split; [exact G|].
      intros [|fuel] Hf; [cbn in Hf; lia|]. cbn [read_table has_next_gate get_next_gate refill rd_queue bind rd_layer]. rewrite F by (cbn in Hf; lia). reflexivity.
Qed.

(** Reading until told that there is nothing more gives the gates of the layers before the first one without a gate: all of
    them, in order.  If no later layer has a gate either, that is the whole circuit, and it is on as many qubits as
    the table has inputs. *)
Theorem C59_read_partial : forall db k name size s, well_read_table db -> open_table db = Ok ((name, size), s) ->
  (1 <= k)%nat -> rows_mean (in_layer db k) [] -> (forall j, (1 <= j < k)%nat -> ~ rows_mean (in_layer db j) []) ->
  exists gs, (forall fuel, (length gs < fuel)%nat -> pandora_input fuel db = Ok (gs, (name, size)))
  /\ layers_mean db (k - 1) gs
  /\ ((forall j, (k < j)%nat -> rows_mean (in_layer db j) []) -> forall n, (k - 1 <= n)%nat -> layers_mean db n gs)
  /\ N.to_nat size = length (filter (fun x => match r_type (snd x) with Some 0 => true | _ => false end) db).
Proof.
  intros db k name size s W O Hk Ek Full. unfold pandora_input. rewrite O. cbn [bind].
  assert (Hs : s = mkReader [] 1 /\ size = Z.to_N (Z.of_nat (length (filter (fun x => is_input (snd x)) db)))).
  { unfold open_table in O. destruct (_ >? _); [discriminate|]. injection O as _ <- <-. auto. }
  destruct Hs as [-> ->].
  destruct (read_ok db k W Hk Ek Full (k - 1) 1 [] [] ltac:(lia) ltac:(lia) (lm_none db)) as (gs & G & F). cbn [app] in G.
  exists gs. split; [intros fuel Hf; now rewrite F|]. split; [exact G|]. split.
  - intros Late n Hn. replace n with ((n - (k - 1)) + (k - 1))%nat by lia. induction (n - (k - 1))%nat as [|i IH]; [exact G|].
    cbn [Nat.add]. rewrite <- (app_nil_r gs). constructor; [exact IH|]. destruct (Nat.eq_dec (S (i + (k - 1))) k) as [->|]; [exact Ek|apply Late; lia].
  - rewrite Z_N_nat, Nat2Z.id. reflexivity.
Qed.
Print Assumptions C59_read_partial.

(** ** Where it goes wrong *)
Definition gate_row (k c : Z) : row := mkRow (Some k) (Some c) None (Some (Finite 1)).
Definition pair_row (k c t : Z) : row := mkRow (Some k) (Some c) (Some t) (Some (Finite 1)).

(** Reading stops at the first layer without a gate: two tables that agree up to there give the same gates, whatever
    follows. *)
Lemma read_until : forall db db' k, well_read_table db -> well_read_table db' -> (1 <= k)%nat -> rows_mean (in_layer db k) [] ->
  (forall j, (1 <= j < k)%nat -> ~ rows_mean (in_layer db j) []) -> (forall j, (1 <= j <= k)%nat -> in_layer db' j = in_layer db j) ->
  forall d n q, (k = n + d)%nat -> (1 <= n)%nat -> forall fuel, read_table fuel db (mkReader q n) = read_table fuel db' (mkReader q n).
Proof.
  intros db db' k W W' Hk Ek Full Same d n q E Hn fuel. revert d n q E Hn. induction fuel as [|fuel IH]; intros d n q E Hn; [reflexivity|].
  cbn [read_table]. unfold has_next_gate, refill. cbn [rd_queue]. destruct q as [|g q].
  - assert (A : advance_layer db (mkReader [] n) = advance_layer db' (mkReader [] n)).
    { unfold advance_layer. cbn [rd_layer rd_queue]. change (layer_rows db n) with (in_layer db n). change (layer_rows db' n) with (in_layer db' n). now rewrite Same by lia. }
    rewrite <- A. destruct (advance_ok db n [] W Hn) as (hs & B & R). rewrite B. cbn [bind app rd_queue]. destruct hs as [|h hs]; [reflexivity|].
    unfold get_next_gate. cbn [refill rd_queue bind rd_layer].
    destruct d as [|d]; [exfalso; assert (n = k) by lia; subst n; pose proof (silent _ _ Ek R); discriminate|]. rewrite (IH d (S n) hs) by lia. reflexivity.
  - cbn [bind rd_queue]. unfold get_next_gate. cbn [refill rd_queue bind rd_layer]. rewrite (IH d n q) by lia. reflexivity.
Qed.
(** One qubit's wire ends in a layer of its own; the gates of the other after that are dropped. *)
Definition gap_table : table := [(0, gate_row 0 0); (0, gate_row 0 1); (1, gate_row 8 0); (2, gate_row 1 0); (3, gate_row 29 1); (4, gate_row 1 1)]%nat.
Theorem C59_gap_refuted :
  (forall db db' k fuel, well_read_table db -> well_read_table db' -> (1 <= k)%nat -> rows_mean (in_layer db k) [] ->
     (forall j, (1 <= j < k)%nat -> ~ rows_mean (in_layer db j) []) -> (forall j, (1 <= j <= k)%nat -> in_layer db' j = in_layer db j) ->
     read_table fuel db (mkReader [] 1) = read_table fuel db' (mkReader [] 1))
  /\ exists gs, well_read_table gap_table /\ layers_mean gap_table 4 gs /\ gs = [GBasic 0 GH; GBasic 1 GT]
     /\ pandora_input 10 gap_table = Ok ([GBasic 0 GH], (lit "pandora_reg", 2%N)).
Proof.
  split.
  - intros db db' k fuel W W' Hk Ek Full Same. apply (read_until db db' k W W' Hk Ek Full Same (k - 1)); lia.
  - assert (Q0 : on_qubit 0 0) by (split; [reflexivity|lia]). assert (Q1 : on_qubit 1 1) by (split; [reflexivity|lia]).
    assert (U : unit_power (Some (Finite 1))) by (exists 1%Q; split; reflexivity).
    assert (H0 : means (gate_row 8 0) (Some (GBasic 0 GH))) by (constructor; assumption).
    assert (T1 : means (gate_row 29 1) (Some (GBasic 1 GT))) by (apply m_named; [assumption|cbn; tauto]).
    assert (E0 : means (gate_row 1 0) None) by (apply (m_end 1 0 0); auto). assert (E1 : means (gate_row 1 1) None) by (apply (m_end 1 1 1); auto).
    eexists. split; [|split; [|split; [reflexivity|vm_compute; reflexivity]]].
    + intros n r I Hn. cbn in I. repeat (destruct I as [I|I]; [injection I as <- <-; try lia; (split; [first [eexists; exact H0|eexists; exact T1|eexists; exact E0|eexists; exact E1]|eexists; split; [reflexivity|cbn; tauto]])|]). contradiction.
    + change [GBasic 0 GH; GBasic 1 GT] with (((([] ++ [GBasic 0 GH]) ++ []) ++ [GBasic 1 GT]) ++ []).
      repeat apply lm_more; try apply lm_none; cbn; repeat (first [apply rm_nil | apply rm_gate; [eassumption|] | apply rm_none; [eassumption|]]).
Qed.
Print Assumptions C59_gap_refuted.

(** After "nothing more" the reader may have more: whether the rest of the circuit is compiled depends on whether its user
    asks again.  The stream pipeline asks in every turn as long as instructions are put off; the others do not. *)
Theorem C59_again_refuted : exists s l, run_calls gap_table (mkReader [] 1) [Ask; Take; Ask; Ask; Take; Ask] = Ok (l, s)
  /\ l = [Said true; Gave (GBasic 0 GH); Said false; Said true; Gave (GBasic 1 GT); Said false].
Proof. do 2 eexists. split; [vm_compute; reflexivity|reflexivity]. Qed.
Print Assumptions C59_again_refuted.

(** Taking a gate where there is none, which the reader of files answers with an exception, is undefined. *)
Theorem C59_take_refuted : forall db s, rd_queue s = [] -> layer_rows db (rd_layer s) = [] -> get_next_gate db s = UB UBPop.
Proof. intros db [q n] Q R. cbn in Q, R. subst q. unfold get_next_gate, refill, advance_layer. cbn [rd_queue rd_layer]. rewrite R. reflexivity. Qed.
Print Assumptions C59_take_refuted.

(** Gates other than the ones in the table: X and Y are read as Z, CZ as CNOT, powers of H and CNOT as H and CNOT; measurements and
    resets are dropped. *)
Theorem C59_gates_refuted : forall c q t r, on_qubit c q -> on_qubit t r ->
  (means (gate_row 5 c) (Some (GBasic q GX)) /\ row_gate (gate_row 5 c) = Ok (Some (GBasic q GZ)))
  /\ (means (gate_row 6 c) (Some (GBasic q GY)) /\ row_gate (gate_row 6 c) = Ok (Some (GBasic q GZ)))
  /\ (means (pair_row 17 c t) (Some (GControlled q (SBasic r GZ) ControlFirst NextToControl))
      /\ row_gate (pair_row 17 c t) = Ok (Some (GControlled q (SBasic r GX) ControlFirst NextToControl)))
  /\ (forall p, row_gate (mkRow (Some 8) (Some c) (Some t) p) = Ok (Some (GBasic q GH))
        /\ row_gate (mkRow (Some 18) (Some c) (Some t) p) = Ok (Some (GControlled q (SBasic r GX) ControlFirst NextToControl))
        /\ row_gate (mkRow (Some 14) (Some c) (Some t) p) = Ok None /\ row_gate (mkRow (Some 13) (Some c) (Some t) p) = Ok None).
Proof.
  intros c q t r C T. pose proof (qubit_num_ok c q C) as Ec. pose proof (qubit_num_ok t r T) as Et.
  assert (U : unit_power (Some (Finite 1))) by (exists 1%Q; split; reflexivity).
  repeat split; try (constructor; auto; left; reflexivity); unfold row_gate, gate_row, pair_row; cbn [r_control r_type r_target r_param column bind]; rewrite Ec; cbn; rewrite ?Et; reflexivity.
Qed.
Print Assumptions C59_gates_refuted.

(** Gates in the first layer are skipped, and a gate on a qubit that is not among the inputs is delivered all the same. *)
Theorem C59_qubits_refuted : pandora_input 10 [(0%nat, gate_row 0 0); (0%nat, gate_row 8 0)] = Ok ([], (lit "pandora_reg", 1%N))
  /\ (forall c q, on_qubit c q -> pandora_input 10 [(0%nat, gate_row 0 0); (1%nat, gate_row 8 c)] = Ok ([GBasic q GH], (lit "pandora_reg", 1%N)))
  /\ row_gate (gate_row 8 (2 ^ 32)) = Ok (Some (GBasic 0 GH)).
Proof.
  split; [vm_compute; reflexivity|]. split; [|vm_compute; reflexivity]. intros c q C. pose proof (qubit_num_ok c q C) as E.
  unfold pandora_input. cbn [open_table bind read_table has_next_gate refill advance_layer rd_queue rd_layer].
  cbn -[qubit_num]. rewrite E. reflexivity.
Qed.
Print Assumptions C59_qubits_refuted.

(** A CNOT, a T and a Hadamard gate in three layers, read completely. *)
Definition small_table : table := [(0, gate_row 0 0); (0, gate_row 0 1); (1, pair_row 18 0 1); (2, gate_row 29 1); (3, gate_row 8 0); (3, gate_row 1 1); (4, gate_row 1 0)]%nat.
Example C59_ex : well_read_table small_table /\ rows_mean (in_layer small_table 4) []
  /\ (forall j, (1 <= j < 4)%nat -> ~ rows_mean (in_layer small_table j) []) /\ (forall j, (4 < j)%nat -> rows_mean (in_layer small_table j) [])
  /\ pandora_input 10 small_table = Ok ([GControlled 0 (SBasic 1 GX) ControlFirst NextToControl; GBasic 1 GT; GBasic 0 GH], (lit "pandora_reg", 2%N)).
Proof.
  assert (Q0 : on_qubit 0 0) by (split; [reflexivity|lia]). assert (Q1 : on_qubit 1 1) by (split; [reflexivity|lia]).
  assert (U : unit_power (Some (Finite 1))) by (exists 1%Q; split; reflexivity).
  split; [|split; [|split; [|split; [|vm_compute; reflexivity]]]].
  - intros n r I Hn. cbn in I.
    repeat (destruct I as [I|I]; [injection I as <- <-; try lia; (split;
      [first [exists (Some (GControlled 0 (SBasic 1 GX) ControlFirst NextToControl)); constructor; assumption
             | exists (Some (GBasic 1 GT)); apply m_named; [assumption|cbn; tauto]
             | exists (Some (GBasic 0 GH)); constructor; assumption
             | exists None; apply (m_end 1 1 1); auto; fail | exists None; apply (m_end 1 0 0); auto]
      |eexists; split; [reflexivity|cbn; tauto]])|]). contradiction.
  - cbn. apply rm_none; [apply (m_end 1 0 0); auto|constructor].
  - intros j Hj R. assert (X : j = 1%nat \/ j = 2%nat \/ j = 3%nat) by lia.
    assert (Y : forall r g, means r g -> r_type r <> Some 0 -> r_type r <> Some 1 -> g <> None) by (intros r g M A B Z; apply (none_type r g M) in Z; tauto).
    destruct X as [->|[->| ->]]; cbn in R; inversion R as [| |r rs gs M R1]; subst; apply Y in M; cbn; congruence.
  - intros j Hj. replace (in_layer small_table j) with (@nil row); [constructor|]. unfold in_layer, small_table. cbn.
    do 5 (destruct j as [|j]; [lia|]). reflexivity.
Qed.
